(** What the prover adds up when an instance has several densities. *)
From mathcomp Require Import all_ssreflect all_algebra.
From Verif Require Import M_Base M_Air M_Arp SpecAir SpecStark.

Set Implicit Arguments.
Unset Strict Implicit.
Unset Printing Implicit Defensive.
Import GRing.Theory.
Local Open Scope ring_scope.

Section SpecMany.
Variables (F : fieldType) (g : F) (num_rows D : nat) (ps : seq {poly F}) (x : F).

(** The weighted sum of constraint polynomials at [x], [acc] being added to each of them. *)
Definition numerator (acc : F) (cs : seq (constraint F)) (chs : seq (F * F)) : F :=
  \sum_(cab <- zip cs chs) (acc + (cpoly ps cab.1).[x]) * (weight D (c_degree cab.1) cab.2).[x].

(** One batch of constraints after the other, each batch having its own divisor.  The value of the
    batches before, [acc], is added to every constraint of a batch and once more to its numerator. *)
Fixpoint accumulated (acc : F) (batches : seq (density * seq (constraint F))) (chs : seq (F * F)) : F :=
  if batches is (dn, cs) :: rest then
    accumulated (acc + (acc + numerator acc cs chs) / (density_divisor g num_rows dn).[x]) rest (drop (size cs) chs)
  else acc.

(** The sum of the quotients of the boundary constraints. *)
Definition boundary_quotients (bs : seq (boundary_constraint F)) (bchs : seq (F * F)) : F :=
  \sum_(bab <- zip bs bchs) (boundary_poly ps bab.1).[x] * (weight D 1 bab.2).[x] / (x - g ^+ b_at_row bab.1).
End SpecMany.
