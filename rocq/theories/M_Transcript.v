(** Model of src/transcript/mod.rs. *)
From Coq Require Import NArith.
From mathcomp Require Import all_ssreflect all_algebra.
From Verif Require Import M_Base M_Field M_Bytes.

Set Implicit Arguments.
Unset Strict Implicit.
Unset Printing Implicit Defensive.

Section Transcript.
Variables (F : fieldType) (fp : ff_params F) (H : hash_fun).

(** src/transcript/mod.rs:28-32: the hasher state is the byte string absorbed
    so far (a streaming hash: [update] appends, [finalize] hashes everything
    absorbed and leaves the state alone). *)
Definition transcript := bytes.

(** src/transcript/mod.rs:40-47. *)
Definition transcript_new : outcome transcript :=
  check! (ff_num_bits fp <? 256)%num ;; Ok [::].

(** src/transcript/mod.rs:49-51. *)
Definition commit_bytes (t : transcript) (b : bytes) : transcript := t ++ b.

(** src/transcript/mod.rs:53-58: REPR_SIZE = 8 * limbs bytes of the canonical
    representation, most significant first. *)
Definition commit_field_element (t : transcript) (x : F) : transcript :=
  t ++ be_bytes (8 * ff_limbs fp) (ff_repr fp x).

(** src/transcript/mod.rs:60-65. *)
Definition get_challenge_bytes (t : transcript) : digest * transcript :=
  let value := H t in (value, t ++ value).

(** src/transcript/mod.rs:67-80. *)
Definition get_challenge (t : transcript) : outcome (F * transcript) :=
  let value := H t in
  let t := t ++ value in
  let* v := bytes_to_field fp value in Ok (v, t).
End Transcript.
