(** Model of [bytes_to_challenge_index] of src/verifier/mod.rs. *)
From Coq Require Import NArith.
From mathcomp Require Import all_ssreflect.
From Verif Require Import M_Base M_Bytes.

Set Implicit Arguments.
Unset Strict Implicit.
Unset Printing Implicit Defensive.
Local Open Scope nat_scope.

(** [x % y] on usize: division by zero panics. *)
(** The [%] of src/verifier/mod.rs:251-259. *)
Definition urem (x y : nat) : outcome nat := check! y != 0 ;; Ok (x %% y).

(** src/verifier/mod.rs:246-263.  [usize] is 64 bits wide, so the cast of the
    [u64] keeps its value; it is reduced in [N] first because the model's
    [usize] is unary. *)
Definition bytes_to_challenge_index (s : bytes) (lde_size lde_factor : nat) : outcome nat :=
  let* from := usub (size s) 8 in
  let natural_x_index := be_value (drop from s) in
  check! lde_size != 0 ;;
  let natural_x_index := N.to_nat (N.modulo natural_x_index (N.of_nat lde_size)) in
  let* r := urem natural_x_index lde_factor in
  let natural_x_index := if r == 0 then natural_x_index.+1 %% lde_size else natural_x_index in
  Ok (if natural_x_index %% 2 == 0 then natural_x_index.+1 %% lde_size else natural_x_index).
