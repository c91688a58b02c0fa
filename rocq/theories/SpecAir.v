(** Specification vocabulary for constraints: what the value and the degree of a
    constraint are, what it means for a trace to satisfy an instance. *)
From Coq Require Import NArith.
From mathcomp Require Import all_ssreflect all_algebra.
From Verif Require Import M_Base M_Field M_Air M_Arp.

Set Implicit Arguments.
Unset Strict Implicit.
Unset Printing Implicit Defensive.
Import GRing.Theory.
Local Open Scope ring_scope.

Section SpecAir.
Variable F : fieldType.

(** A register assignment: the value of every register at every offset. *)
Definition env := register -> step_difference F -> F.

(** Values of terms and constraints under an assignment. *)
Definition uval (e : env) (u : univariate_term F) : F :=
  ut_coeff u * e (ut_register u) (ut_steps u) ^+ ut_power u.
Definition pval (e : env) (p : polyvariate_term F) : F :=
  pt_coeff p * \prod_(u <- pt_terms p) uval e u.
Definition tval (e : env) (t : constraint_term F) : F :=
  match t with Univariate u => uval e u | Polyvariate p => pval e p end.
Definition cval (e : env) (c : constraint F) : F :=
  c_constant_term c + \sum_(t <- c_terms c) tval e t.

(** Total degrees of terms and constraints in the register values. *)
Definition tdeg (t : constraint_term F) : nat :=
  match t with Univariate u => ut_power u | Polyvariate p => \sum_(u <- pt_terms p) ut_power u end.
Definition cdeg (c : constraint F) : nat := \max_(t <- c_terms c) tdeg t.

(** A trace is a sequence of columns, one per register.  The assignment at row
    [i]: register [n], [d] steps later, has value [columns[n][i+d]]. *)
Definition row_env (trace : seq (seq F)) (i : nat) : env := fun r s =>
  match r, s with Reg n, Steps d => (nth [::] trace n)`_(i + d) | _, _ => 0 end.

(** Every cell that a term reads from row [i] is in the trace. *)
Definition u_in_trace (trace : seq (seq F)) (i : nat) (u : univariate_term F) : bool :=
  match ut_register u, ut_steps u with
  | Reg n, Steps d => (n < size trace)%N && (i + d < size (nth [::] trace n))%N
  | _, _ => false end.
Definition t_in_trace trace i (t : constraint_term F) : bool :=
  match t with Univariate u => u_in_trace trace i u | Polyvariate p => all (u_in_trace trace i) (pt_terms p) end.
Definition c_in_trace trace i (c : constraint F) : bool := all (t_in_trace trace i) (c_terms c).

(** The rows where a dense constraint has to hold in a trace of [n] rows. *)
Definition dense_row (start_at span n i : nat) : bool := (start_at <= i)%N && (i + span < n)%N.

(** A constraint holds in a trace (only dense constraints are supported). *)
Definition constraint_holds (trace : seq (seq F)) (c : constraint F) : Prop :=
  let n := size (nth [::] trace 0) in
  exists start_at span, [/\ c_density c = Dense start_at span, (span <= n)%N &
    forall i, dense_row start_at span n i -> c_in_trace trace i c /\ cval (row_env trace i) c = 0].

Definition boundary_holds (trace : seq (seq F)) (b : boundary_constraint F) : Prop :=
  exists2 n, b_register b = Reg n &
    forall v, b_value b = Some v ->
      [/\ (n < size trace)%N, (b_at_row b < size (nth [::] trace n))%N &
          (nth [::] trace n)`_(b_at_row b) = v].

Definition satisfied (props : instance_properties F) (trace : seq (seq F)) : Prop :=
  [/\ (0 < size trace)%N,
      forall k, (k < size (ip_constraints props))%N ->
        constraint_holds trace (nth c_default (ip_constraints props) k) &
      forall k, (k < size (ip_boundary_constraints props))%N ->
        boundary_holds trace (nth (Boundary (Reg 0) 0 None) (ip_boundary_constraints props) k)].
End SpecAir.
