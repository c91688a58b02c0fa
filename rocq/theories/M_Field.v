(** The prime field interface of the [ff] crate as used by the code.  The field
    itself is an arbitrary mathcomp [fieldType]; this record holds the
    constants of [ff::PrimeField]. *)
From Coq Require Import NArith.
From mathcomp Require Import all_ssreflect all_algebra.
From Verif Require Import M_Base.

Set Implicit Arguments.
Unset Strict Implicit.
Unset Printing Implicit Defensive.
Import GRing.Theory.
Local Open Scope ring_scope.

(** The constants and the representation of [ff::PrimeField], as used at src/domains/mod.rs:21-44,
    src/polynomials/mod.rs:146-166 and src/iop/blake2s_trivial_iop.rs:20-60. *)
Record ff_params (F : fieldType) := FFParams {
  ff_S : nat;            (* F::S *)
  ff_rou : F;            (* F::root_of_unity() *)
  ff_gen : F;            (* F::multiplicative_generator() *)
  ff_num_bits : N;       (* F::NUM_BITS *)
  ff_capacity : N;       (* F::CAPACITY *)
  ff_limbs : nat;        (* number of u64 limbs of F::Repr *)
  ff_modulus : N;        (* F::char() *)
  ff_repr : F -> N;      (* into_repr(): canonical integer *)
  ff_raw : F -> N        (* into_raw_repr(): internal integer *)
}.

Section FF.
Variables (F : fieldType) (fp : ff_params F).

(** [F::from_repr]: fails when the integer is not below the modulus. *)
(** [F::from_repr], used at src/iop/blake2s_trivial_iop.rs:57 and src/transcript/mod.rs:76. *)
Definition from_repr (r : N) : option F :=
  if (r <? ff_modulus fp)%num then Some ((N.to_nat r)%:R) else None.

(** [F::from_str] of a decimal number always succeeds and reduces it. *)
(** [F::from_str] of a decimal number, used at src/polynomials/mod.rs:102 and
    src/arp/per_register/mod.rs:28. *)
Definition from_nat (n : nat) : F := n%:R.

(** [Field::inverse]. *)
(** [Field::inverse], used at src/fri/verifier.rs:18, 39 and src/arp/per_register/mod.rs:27. *)
Definition inverse (x : F) : option F := if x == 0 then None else Some x^-1.

(** What the model needs to know about the constants (trusted facts about the
    [ff] derive macro): [root_of_unity] is a primitive 2^S-th root of unity,
    the generator is nonzero and the characteristic is odd. *)
(** What the derive macro of ff guarantees of the constants used at src/domains/mod.rs:21-44. *)
Definition ff_ok : Prop :=
  [/\ (2 ^ ff_S fp).-primitive_root (ff_rou fp), ff_gen fp != 0 & (2%:R : F) != 0].

(** Facts about representations: [into_repr] is below the modulus and is
    inverse to [from_repr]; the raw (Montgomery) representation is injective;
    both fit into the limbs; there are between 1 and 4 limbs because the code
    asserts NUM_BITS < 256. *)
(** What the derive macro of ff guarantees of the representation used at
    src/iop/blake2s_trivial_iop.rs:20-60. *)
Definition ff_repr_ok : Prop :=
  [/\ (forall x, from_repr (ff_repr fp x) = Some x) /\
      (forall r x, from_repr r = Some x -> ff_repr fp x = r),
      injective (ff_raw fp),
      forall x, (ff_raw fp x < 2 ^ (64 * N.of_nat (ff_limbs fp)))%num,
      (ff_modulus fp < 2 ^ (64 * N.of_nat (ff_limbs fp)))%num &
      (0 < ff_limbs fp <= 4)%N].
End FF.
