(** Bytes, digests and the hash function. *)
From Coq Require Import NArith.
From mathcomp Require Import all_ssreflect all_algebra.
From Verif Require Import M_Base M_Field.

Set Implicit Arguments.
Unset Strict Implicit.
Unset Printing Implicit Defensive.

(** [u8], byte strings and 32-byte digests ([[u8; 32]]). *)
(** The [u8] of src/iop/blake2s_trivial_iop.rs:20-60. *)
Definition byte := 'I_256.
(** The [Vec<u8>]/[&[u8]] of src/transcript/mod.rs:49-65. *)
Definition bytes := seq byte.
(** [[u8; 32]], src/iop/blake2s_trivial_iop.rs:38. *)
Definition digest := 32.-tuple byte.

(** The keyed and personalised Blake2s used both by the Merkle tree
    (src/iop/blake2s_trivial_iop.rs:8-16) and by the transcript
    (src/transcript/mod.rs:10-18): the parameters are the same, so it is one
    function.  It is an arbitrary function in the model. *)
Definition hash_fun := bytes -> digest.

(** A number as a byte, in [as u8] of the writers used at src/iop/blake2s_trivial_iop.rs:36-42. *)
Definition to_byte (x : N) : byte :=
  Ordinal (ltn_pmod (N.to_nat (N.modulo x 256)) (isT : 0 < 256)).

(** [n] bytes of [x], least significant first. *)
(** [write_le] of a representation (ff crate), used at src/iop/blake2s_trivial_iop.rs:36-42. *)
Fixpoint le_bytes (n : nat) (x : N) : bytes :=
  if n is n'.+1 then to_byte x :: le_bytes n' (N.div x 256) else [::].
(** [write_be] of a representation (ff crate), used at src/transcript/mod.rs:53-58. *)
Definition be_bytes (n : nat) (x : N) : bytes := rev (le_bytes n x).

(** [read_be] of a representation (ff crate), used at src/iop/blake2s_trivial_iop.rs:48-60. *)
Definition be_value (s : bytes) : N :=
  foldl (fun (acc : N) (b : byte) => (acc * 256 + N.of_nat b)%num) 0%num s.

Lemma size_le_bytes n x : size (le_bytes n x) = n.
Proof. by elim: n x => //= n IH x; rewrite IH. Qed.

Lemma size_pad n (s : bytes) : size (take n (s ++ nseq n (to_byte 0))) == n.
Proof. by rewrite size_takel // size_cat size_nseq leq_addl. Qed.

(** The digest made of the given bytes, zero padded. *)
(** [copy_from_slice] into [[u8; 32]], src/iop/blake2s_trivial_iop.rs:36-42. *)
Definition to_digest (s : bytes) : digest := Tuple (size_pad 32 s).

Section Hash.
Variables (F : fieldType) (fp : ff_params F).

(** src/iop/blake2s_trivial_iop.rs:48-60 and src/transcript/mod.rs:66-80, the
    part that turns 32 bytes into a field element: [read_be] reads 8 * limbs
    bytes, most significant limb first; the last limb is masked with
    0xffffffffffffffff >> (SHAVE_BITS % 64), SHAVE_BITS = 256 - CAPACITY;
    [from_repr(..).expect(..)]. *)
Definition shave_bits : N := (256 - ff_capacity fp)%num.
(** src/iop/blake2s_trivial_iop.rs:48-60 [interpret_hash] and src/transcript/mod.rs:66-80. *)
Definition bytes_to_field (value : digest) : outcome F :=
  let repr := be_value (take (8 * ff_limbs fp) value) in
  let shaving_mask := N.shiftr (2 ^ 64 - 1) (shave_bits mod 64) in
  let low_bits := (64 * N.of_nat (ff_limbs fp).-1)%num in
  let last_limb := N.land (N.shiftr repr low_bits) shaving_mask in
  let repr := (last_limb * 2 ^ low_bits + repr mod 2 ^ low_bits)%num in
  unwrap (from_repr fp repr).

(** src/iop/blake2s_trivial_iop.rs:36-42 [encode_leaf]: the raw representation,
    least significant byte first, in a buffer of 32 bytes.  With more than four
    limbs [write_le] would fail; [ff_repr_ok] excludes that. *)
Definition encode_leaf (value : F) : digest :=
  to_digest (le_bytes (8 * ff_limbs fp) (ff_raw fp value)).
End Hash.
