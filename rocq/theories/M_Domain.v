(** Model of src/domains/mod.rs. *)
From mathcomp Require Import all_ssreflect all_algebra.
From Verif Require Import M_Base M_Worker M_Field.

Set Implicit Arguments.
Unset Strict Implicit.
Unset Printing Implicit Defensive.
Import GRing.Theory.
Local Open Scope ring_scope.

Section Domain.
Variables (F : fieldType) (fp : ff_params F).

(** src/domains/mod.rs:13-18. *)
Record domain := Domain { d_size : nat; d_pow : nat; d_gen : F }.

(** src/domains/mod.rs:25-28: [while k != 1 { k >>= 1; power_of_two += 1 }]
    (fuel: the size). *)
Fixpoint halvings (fuel k power_of_two : nat) : nat :=
  if fuel is fuel'.+1 then
    if k != 1%N then halvings fuel' (k %/ 2)%N power_of_two.+1 else power_of_two
  else power_of_two.

(** src/domains/mod.rs:21-44 [Domain::new_for_size]. *)
Definition domain_new (size0 : nat) : outcome domain :=
  let size := next_pow2 size0 in
  let power_of_two := halvings size size 0 in
  let max_power_of_two := ff_S fp in
  if (max_power_of_two < power_of_two)%N then Err
  else
    let generator := iter (max_power_of_two - power_of_two) (fun g => g * g) (ff_rou fp) in
    Ok (Domain size power_of_two generator).

(** src/domains/mod.rs:46-54. [coset.sort()] on two elements. *)
Definition coset_for_natural_index_and_size (natural_index domain_size : nat) : outcome (seq nat) :=
  check! (1 < domain_size)%N ;;
  check! is_pow2 domain_size ;;
  let pair := ((natural_index + domain_size %/ 2) %% domain_size)%N in
  Ok (sort leq [:: natural_index; pair]).

(** src/domains/mod.rs:56-71. *)
Definition index_and_size_for_next_domain (natural_index domain_size : nat) : outcome (nat * nat) :=
  check! (1 < domain_size)%N ;;
  check! is_pow2 domain_size ;;
  let next_size := (domain_size %/ 2)%N in
  let next_index :=
    if (natural_index < next_size)%N then natural_index else (natural_index - next_size)%N in
  Ok (next_index, next_size).
End Domain.

Arguments domain_new : simpl never.
