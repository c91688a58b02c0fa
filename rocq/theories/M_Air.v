(** Model of src/air/mod.rs (registers, densities) and src/air/constraint.rs. *)
From Coq Require Import NArith.
From mathcomp Require Import all_ssreflect all_algebra.
From Verif Require Import M_Base M_Worker M_Field.

Set Implicit Arguments.
Unset Strict Implicit.
Unset Printing Implicit Defensive.
Import GRing.Theory.
Local Open Scope ring_scope.

(** src/air/mod.rs:17-23. *)
Inductive register := ProgramCounter of nat | Reg of nat | Constant of nat | Aux of nat.

(** Derived [PartialEq] (src/air/mod.rs:17). *)
Definition register_code (r : register) : nat * nat :=
  match r with
  | ProgramCounter i => (0%N, i) | Reg i => (1%N, i)
  | Constant i => (2%N, i) | Aux i => (3%N, i) end.
(** Derived [PartialEq], [Eq] of [Register], src/air/mod.rs:17: the inverse of the encoding
    (equality needs one). *)
Definition register_decode (c : nat * nat) : register :=
  match c.1 with
  | 0%N => ProgramCounter c.2 | 1%N => Reg c.2 | 2%N => Constant c.2 | _ => Aux c.2 end.
Lemma register_codeK : cancel register_code register_decode.
Proof. by case. Qed.
(** Derived [PartialEq], [Eq] of [Register], src/air/mod.rs:17. *)
Definition register_eqMixin := CanEqMixin register_codeK.
Canonical register_eqType := Eval hnf in EqType register register_eqMixin.

(** src/air/mod.rs:29-57: the three kinds of densities. *)
Inductive density :=
| Dense (start_at span : nat)
| Repeated (start_at span interval : nat)
| Sparse (rows : seq nat).

(** Derived [PartialEq] (src/air/mod.rs:29,37,47,52). *)
Definition density_code (d : density) : nat * seq nat :=
  match d with
  | Dense a b => (0%N, [:: a; b])
  | Repeated a b c => (1%N, [:: a; b; c])
  | Sparse rows => (2%N, rows) end.
(** Derived [PartialEq], [Eq] of [ConstraintDensity], src/air/mod.rs:37-73: the inverse of the
    encoding. *)
Definition density_decode (c : nat * seq nat) : density :=
  match c with
  | (0%N, [:: a; b]) => Dense a b
  | (1%N, [:: a; b; c]) => Repeated a b c
  | (_, rows) => Sparse rows end.
Lemma density_codeK : cancel density_code density_decode.
Proof. by case. Qed.
(** Derived [PartialEq], [Eq] of [ConstraintDensity], src/air/mod.rs:37-73. *)
Definition density_eqMixin := CanEqMixin density_codeK.
Canonical density_eqType := Eval hnf in EqType density density_eqMixin.

(** src/air/mod.rs:65-74, 85-95, 107-115 [DenseConstraint::new],
    [RepeatedConstraint::new], [SparseConstraint::new]. *)
Definition dense_new (starting_at span : nat) : outcome density :=
  check! (1 <= span)%N ;; Ok (Dense starting_at span).
(** src/air/mod.rs:85-95 [RepeatedConstraint::new]. *)
Definition repeated_new (starting_at span interval : nat) : outcome density :=
  check! (interval != 1%N) && (interval != 0%N) && (1 <= span)%N ;;
  Ok (Repeated starting_at span interval).
(** src/air/mod.rs:107-115 [SparseConstraint::new]. *)
Definition sparse_new (at_rows : seq nat) : outcome density :=
  check! (0 < size at_rows)%N ;; Ok (Sparse at_rows).

(** src/air/mod.rs:59-63, 76-83. *)
Definition density_default : density := Dense 0 1.

(** Arithmetic on u64: checked multiplication and addition (debug build). *)
(** Range of the [u64] powers and degrees of src/air/constraint.rs:185-192, 223-231, 245-251. *)
Definition fits_u64 (x : N) : bool := (x <? 2 ^ 64)%num.
(** The checked [*=] of src/air/constraint.rs:185-192. *)
Definition u64_mul (a b : nat) : outcome nat :=
  check! fits_u64 (N.of_nat a * N.of_nat b) ;; Ok (a * b)%N.
(** The checked [+=] of src/air/constraint.rs:223-231, 245-251. *)
Definition u64_add (a b : nat) : outcome nat :=
  check! fits_u64 (N.of_nat a + N.of_nat b) ;; Ok (a + b)%N.

Section Air.
Variable F : fieldType.

(** src/air/constraint.rs:129-133. *)
Inductive step_difference := Steps of nat | Mask of F.

(** Derived [PartialEq] (src/air/constraint.rs:129). *)
Definition step_code (s : step_difference) : nat + F :=
  match s with Steps n => inl n | Mask m => inr m end.
(** Derived [PartialEq], [Eq] of [StepDifference], src/air/constraint.rs:129: the inverse of the
    encoding. *)
Definition step_decode (c : nat + F) : step_difference :=
  match c with inl n => Steps n | inr m => Mask m end.
Lemma step_codeK : cancel step_code step_decode.
Proof. by case. Qed.
(** Derived [PartialEq], [Eq] of [StepDifference], src/air/constraint.rs:129. *)
Definition step_eqMixin := CanEqMixin step_codeK.
Canonical step_eqType := Eval hnf in EqType step_difference step_eqMixin.

(** src/air/constraint.rs:121-127. *)
Record univariate_term := UTerm {
  ut_coeff : F; ut_register : register; ut_steps : step_difference; ut_power : nat }.

(** src/air/constraint.rs:148-153. *)
Record polyvariate_term := PTerm {
  pt_coeff : F; pt_terms : seq univariate_term; pt_total_degree : nat }.

(** src/air/constraint.rs:115-119. *)
Inductive constraint_term := Univariate of univariate_term | Polyvariate of polyvariate_term.

(** src/air/constraint.rs:17-23. *)
Record constraint := Constr {
  c_constant_term : F; c_terms : seq constraint_term; c_degree : nat; c_density : density }.

(** src/air/constraint.rs:10-15. *)
Record boundary_constraint := Boundary {
  b_register : register; b_at_row : nat; b_value : option F }.

(** * Builders *)

(** src/air/constraint.rs:157-166 [From<Register>]. *)
Definition ut_from (r : register) : univariate_term := UTerm 1 r (Steps 0) 1.

(** src/air/constraint.rs:168-178 [MulAssign<F>], [MulAssign<&F>]. *)
Definition ut_mul_assign (t : univariate_term) (rhs : F) : univariate_term :=
  UTerm (ut_coeff t * rhs) (ut_register t) (ut_steps t) (ut_power t).

(** src/air/constraint.rs:181-183. *)
Definition ut_set_step_difference (t : univariate_term) (steps : nat) : univariate_term :=
  UTerm (ut_coeff t) (ut_register t) (Steps steps) (ut_power t).

(** src/air/constraint.rs:185-192 [pow]: the coefficient is kept. *)
Definition ut_pow (t : univariate_term) (power : nat) : outcome univariate_term :=
  let* new_power := u64_mul (ut_power t) power in
  Ok (UTerm (ut_coeff t) (ut_register t) (ut_steps t) new_power).

(** Assignments to the field [coeff], src/air/constraint.rs:196-211, 223-231, 295-304. *)
Definition ut_with_coeff (t : univariate_term) (c : F) : univariate_term :=
  UTerm c (ut_register t) (ut_steps t) (ut_power t).

(** src/air/constraint.rs:196-211 [From<(F, UnivariateTerm)>]. *)
Definition pt_from (coeff : F) (t : univariate_term) : polyvariate_term :=
  PTerm (coeff * ut_coeff t) [:: ut_with_coeff t 1] (ut_power t).

(** src/air/constraint.rs:213-221 [Default]. *)
Definition pt_default : polyvariate_term := PTerm 1 [::] 0.

(** src/air/constraint.rs:223-231 [MulAssign<UnivariateTerm>]. *)
Definition pt_mul_uni (p : polyvariate_term) (t : univariate_term) : outcome polyvariate_term :=
  let* d := u64_add (pt_total_degree p) (ut_power t) in
  Ok (PTerm (pt_coeff p * ut_coeff t) (rcons (pt_terms p) (ut_with_coeff t 1)) d).

(** src/air/constraint.rs:233-243 [MulAssign<F>], [MulAssign<&F>]. *)
Definition pt_mul_scalar (p : polyvariate_term) (c : F) : polyvariate_term :=
  PTerm (pt_coeff p * c) (pt_terms p) (pt_total_degree p).

(** src/air/constraint.rs:245-251 [MulAssign<PolyvariateTerm>]. *)
Definition pt_mul_poly (p q : polyvariate_term) : outcome polyvariate_term :=
  let* d := u64_add (pt_total_degree p) (pt_total_degree q) in
  Ok (PTerm (pt_coeff p * pt_coeff q) (pt_terms p ++ pt_terms q) d).

(** src/air/constraint.rs:255-264 [Default]. *)
Definition c_default : constraint := Constr 0 [::] 0 density_default.

(** The common part of src/air/constraint.rs:266-304: push a term, raise [degree]. *)
Definition c_push (c : constraint) (t : constraint_term) (degree : nat) : constraint :=
  Constr (c_constant_term c) (rcons (c_terms c) t)
    (if (c_degree c < degree)%N then degree else c_degree c) (c_density c).

(** src/air/constraint.rs:266-273, 275-284 (polyvariate), 286-293, 295-304
    (univariate), 306-310, 312-315 (constants). *)
Definition c_add_poly (c : constraint) (p : polyvariate_term) : constraint :=
  c_push c (Polyvariate p) (pt_total_degree p).
(** src/air/constraint.rs:275-284 [SubAssign<PolyvariateTerm>]. *)
Definition c_sub_poly (c : constraint) (p : polyvariate_term) : constraint :=
  c_push c (Polyvariate (PTerm (- pt_coeff p) (pt_terms p) (pt_total_degree p))) (pt_total_degree p).
(** src/air/constraint.rs:286-293 [AddAssign<UnivariateTerm>]. *)
Definition c_add_uni (c : constraint) (t : univariate_term) : constraint :=
  c_push c (Univariate t) (ut_power t).
(** src/air/constraint.rs:295-304 [SubAssign<UnivariateTerm>]. *)
Definition c_sub_uni (c : constraint) (t : univariate_term) : constraint :=
  c_push c (Univariate (ut_with_coeff t (- ut_coeff t))) (ut_power t).
(** src/air/constraint.rs:306-310 [AddAssign<F>]. *)
Definition c_add_const (c : constraint) (x : F) : constraint :=
  Constr (c_constant_term c + x) (c_terms c) (c_degree c) (c_density c).
(** src/air/constraint.rs:312-315 [SubAssign<F>]. *)
Definition c_sub_const (c : constraint) (x : F) : constraint :=
  Constr (c_constant_term c - x) (c_terms c) (c_degree c) (c_density c).
End Air.

Arguments Steps {F} _.
Arguments fits_u64 : simpl never.
Arguments pt_default {F}.
Arguments c_default {F}.
