(** Hand-written comparisons and hashes: [Ord] of the quadratic extension, equality of oracles, and the
    data that the keys of the maps of the prover feed to their hasher. *)
From Coq Require Import NArith.
From mathcomp Require Import all_ssreflect all_algebra.
From Verif Require Import M_Base M_Field M_Bytes M_Merkle M_Air M_Ali M_Fp2.

Set Implicit Arguments.
Unset Strict Implicit.
Unset Printing Implicit Defensive.

Section Compare.
Variables (F : fieldType) (fp : ff_params F).

(** [Fq::cmp], generated by the derive macro of the [ff] crate: the canonical integers are compared. *)
(** Used at src/experiments/square_root_calculator/fp2.rs:108-117. *)
Definition fq_cmp (x y : F) : comparison := (ff_repr fp x ?= ff_repr fp y)%num.

(** src/experiments/square_root_calculator/fp2.rs:108-117 [Fq2::cmp]; [partial_cmp] (119-124) is the
    same. *)
Definition fq2_cmp (self other : fq2 F) : comparison :=
  match fq_cmp (c1 self) (c1 other) with
  | Gt => Gt
  | Lt => Lt
  | Eq => fq_cmp (c0 self) (c0 other)
  end.

(** src/iop/blake2s_trivial_iop.rs:341-345 [PartialEq::eq] of oracles. *)
Definition iop_eq (self other : tree) : outcome bool :=
  let* r := get_root self in
  let* r' := get_root other in
  Ok (r == r').

(** The bytes written for a [usize] or a [u64]. *)
(** The words hashed at src/ali/mod.rs:50-56 and src/air/constraint.rs:135-146. *)
Definition feed_word (x : nat) : bytes := le_bytes 8 (N.of_nat x).

(** src/air/mod.rs:17 derived [Hash] of [Register]: discriminant and index. *)
Definition feed_register (r : register) : bytes :=
  let: (d, i) := register_code r in feed_word d ++ feed_word i.

(** src/air/constraint.rs:135-146 [Hash] of [StepDifference]: no discriminant is written; the slice of
    limbs is preceded by its length. *)
Definition feed_steps (s : step_difference F) : bytes :=
  match s with
  | Steps n => feed_word n
  | Mask m => feed_word (ff_limbs fp) ++ le_bytes (8 * ff_limbs fp) (ff_raw fp m)
  end.

(** src/ali/mod.rs:36-41 [Hash] of [MaskProperties]. *)
Definition feed_mask (m : mask_properties F) : bytes := feed_register m.1 ++ feed_steps m.2.

(** src/ali/mod.rs:50-56 [Hash] of [WitnessEvaluationData]: mask, power and length. *)
Definition feed_evaluation_data (d : evaluation_data F) : bytes :=
  let: (mask, power, total_lde_length) := d in feed_mask mask ++ feed_word power ++ feed_word total_lde_length.
End Compare.
