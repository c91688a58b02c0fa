(** Specification vocabulary for soundness: challenge lists that differ in one
    coefficient. *)
From mathcomp Require Import all_ssreflect all_algebra.
From Verif Require Import SpecFri.

Set Implicit Arguments.
Unset Strict Implicit.
Unset Printing Implicit Defensive.
Import GRing.Theory.
Local Open Scope ring_scope.

(** At most [n] elements satisfy [P]. *)
Definition few (A : eqType) (n : nat) (P : A -> Prop) : Prop :=
  forall s : seq A, uniq s -> (forall x, x \in s -> P x) -> (size s <= n)%N.

Section SpecSound.
Variable F : fieldType.

(** The challenge pairs [chs] with the first component of pair [j] replaced by
    [a]. *)
Definition with_alpha (chs : seq (F * F)) (j : nat) (a : F) : seq (F * F) :=
  set_nth (0, 0) chs j (a, (nth (0, 0) chs j).2).

(** The function [f], given at indices, agrees on the indices [idxs] with a
    polynomial of degree at most [N] that has the value [y] at [u]; index [i] is
    the point [om^i]. *)
Definition opens_to (f : nat -> F) (om : F) (idxs : seq nat) (N : nat) (u y : F) : Prop :=
  exists p : {poly F}, [/\ (size p <= N.+1)%N, p.[u] = y & forall i, i \in idxs -> f i = p.[om ^+ i]].

(** The vector [v] agrees with a polynomial of degree below [m] at all but [e] of
    the positions [i] with [P i]; position [i] is the point [g^i]. *)
Definition close_to (P : pred nat) (g : F) (v : seq F) (m e : nat) : Prop :=
  exists (f : {poly F}) (bad : seq nat), [/\ (size f <= m)%N, (size bad <= e)%N &
    forall i, (i < size v)%N -> P i -> i \notin bad -> v`_i = f.[g ^+ i]].

(** [R] rounds of folding, with two different challenges in each round, end in
    vectors that agree with polynomials of degree below [m] at all but [e] positions. *)
Fixpoint fold_tree (P : pred nat) (R : nat) (g : F) (v : seq F) (m e : nat) : Prop :=
  if R is R'.+1 then exists b b', [/\ b != b', fold_tree P R' (g ^+ 2) (fold_vec b g v) m e &
                                     fold_tree P R' (g ^+ 2) (fold_vec b' g v) m e]
  else close_to P g v m e.

(** [Q] holds at all but [e] of the positions [I]. *)
Definition almost (I : seq nat) (e : nat) (Q : nat -> Prop) : Prop :=
  exists2 bad : seq nat, (size bad <= e)%N & forall i, i \in I -> i \notin bad -> Q i.

(** The vector [v] of 2n values is folded with challenge [b] to one that agrees with
    a polynomial [c] of degree below [m] at all but [e] of the positions [i] with
    [P i], although no polynomial of degree below 2m has the values of [v] at the two
    preimages of every position of the agreement. *)
Definition bad_challenge (P : pred nat) (g : F) (v : seq F) (n m e : nat) (b : F) : Prop :=
  exists c : {poly F}, [/\ (size c <= m)%N,
    (count (fun i => P i && ((fold_vec b g v)`_i != c.[g ^+ 2 ^+ i])%R) (iota 0 n) <= e)%N &
    ~ exists2 C : {poly F}, (size C <= 2 * m)%N & forall i, (i < n)%N -> P i ->
        (fold_vec b g v)`_i = c.[g ^+ 2 ^+ i] -> v`_i = C.[g ^+ i] /\ v`_(i + n) = C.[g ^+ (i + n)]].
End SpecSound.
