(** Vocabulary of the specifications: polynomials over a field and evaluation
    on (cosets of) cyclic groups, in terms of the mathcomp library only. *)
From mathcomp Require Import all_ssreflect all_algebra.

Set Implicit Arguments.
Unset Strict Implicit.
Unset Printing Implicit Defensive.
Import GRing.Theory.
Local Open Scope ring_scope.

Section Spec.
Variable F : fieldType.

(** Values of the polynomial [p] at h, h g, h g^2, ..., h g^(n-1). *)
Definition evals (p : {poly F}) (h g : F) (n : nat) : seq F :=
  [seq p.[h * g ^+ i] | i <- iota 0 n].

(** Elements of the cyclic group generated by [g], in natural order. *)
Definition powers (g : F) (n : nat) : seq F := [seq g ^+ i | i <- iota 0 n].

(** The polynomial with the given coefficients, constant term first. *)
Definition poly_of (c : seq F) : {poly F} := \poly_(i < size c) c`_i.

(** The polynomial with the given roots. *)
Definition roots_poly (r : seq F) : {poly F} := \prod_(x <- r) ('X - x%:P).
End Spec.

Arguments evals : simpl never.
Arguments poly_of : simpl never.
