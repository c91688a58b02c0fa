(** Property C57: soundness of the DEEP checks.  If the values that the verifier
    simulates are those of low degree polynomials, the claimed openings are right. *)
From Coq Require Import NArith.
From mathcomp Require Import all_ssreflect all_algebra.
From Verif Require Import M_Base M_Worker M_Field M_Domain M_Fft M_Poly M_Bytes M_Transcript M_Merkle M_Fri.
From Verif Require Import M_Challenge M_Air M_Arp M_Ali M_Verifier M_Prover.
From Verif Require Import Spec SpecPoly SpecFri SpecAir SpecStark SpecSound P_Base P_Fft P_Domain P_Poly P_Lde P_PolyOps P_Wf P_Bytes P_Merkle P_Fri P_Air P_Arp.
From Verif Require Import P_Vals P_Maps P_Ali P_AliG P_Comp P_Honest P_Gz P_Deep P_Stark P_Sound P_SoundDeep.
From Verif Require Import Instances Prop_Hash Prop_Fri Prop_Air Prop_Arp Prop_Ali Prop_Sound.

Set Implicit Arguments.
Unset Strict Implicit.
Unset Printing Implicit Defensive.
Import GRing.Theory.
Local Open Scope ring_scope.

Section C57.
Variable F : fieldType.

(** [f i] are the values that a prover shows for the columns at index [i] of the
    LDE domain; they need not come from polynomials.  [vals] are the claimed
    openings.  If for two values of the coefficient of mask [j] (column [r] at
    [m*z]) the values that the verifier computes agree on [idxs] with polynomials of
    degree below [N], then on [idxs] column [r] agrees with a polynomial of degree at
    most [N] whose value at [m*z] is the claimed one. *)
Theorem C57_columns (v : verifier F) (D : domain F) (f : nat -> seq F) (vals alphas : seq F) (z : F)
    (j r : nat) (m a a' : F) (h h' : {poly F}) (N : nat) (idxs : seq nat) :
  (j < size (v_all_masks v))%N -> nth (Reg 0, Mask 0) (v_all_masks v) j = (Reg r, Mask m) ->
  size vals = size (v_all_masks v) -> size alphas = size (v_all_masks v) -> a != a' ->
  (size h <= N)%N -> (size h' <= N)%N ->
  (forall i, i \in idxs ->
     simulate_h1 v (set_nth 0 alphas j a) i D (f i) vals z = Ok h.[d_gen D ^+ i] /\
     simulate_h1 v (set_nth 0 alphas j a') i D (f i) vals z = Ok h'.[d_gen D ^+ i]) ->
  opens_to (fun i => nth 0 (f i) r) (d_gen D) idxs N (m * z) (nth 0 vals j).
Proof.
move=> Hj Em Hv Hal Ha Hh Hh' Hi.
have Hs : (size (h - h')%R <= N)%N by apply: leq_trans (size_add _ _) _; rewrite size_opp geq_max Hh Hh'.
have [H1 H2 H3] := lift_quotient (a - a')^-1 (m * z) (nth 0 vals j) Hs.
eexists; split; [exact: H1 | exact: H2 |] => i /Hi [E E']; rewrite H3.
have [_] := simulate_h1_diff Hj Hv Hal E E'; rewrite Em /= hornerD hornerN => ->.
by rewrite mulrA mulVf ?subr_eq0 // mul1r subrK.
Qed.

(** The same for the composition polynomial and the value that the verifier
    computed for it at [z]. *)
Theorem C57_composition (D : domain F) (g : nat -> F) (z g_at_z : F) (h : {poly F}) (N : nat) (idxs : seq nat) :
  (size h <= N)%N ->
  (forall i, i \in idxs -> simulate_h2 i D (g i) z g_at_z = Ok h.[d_gen D ^+ i]) ->
  opens_to g (d_gen D) idxs N z g_at_z.
Proof.
move=> Hh Hi; have [H1 H2 H3] := lift_quotient 1 z g_at_z Hh.
eexists; split; [exact: H1 | exact: H2 |] => i /Hi; rewrite H3 mul1r /simulate_h2 /inverse.
by case: eqP => // /eqP Hx [<-]; rewrite mulfVK // subrK.
Qed.

(** A function opens to one value only at each point, if enough indices are
    used: in particular the claimed openings of columns of low degree are the true
    values. *)
Theorem C57_unique (fp : ff_params F) (D : domain F) (size_hint : nat) (f : nat -> F) (idxs : seq nat) (N : nat) (u y y' : F) :
  ff_ok fp -> domain_new fp size_hint = Ok D -> uniq idxs -> all (fun i => i < d_size D)%N idxs -> (N < size idxs)%N ->
  opens_to f (d_gen D) idxs N u y ->
  (opens_to f (d_gen D) idxs N u y' -> y = y') /\
  (forall p : {poly F}, (size p <= N.+1)%N -> (forall i, i \in idxs -> f i = p.[d_gen D ^+ i]) -> y = p.[u]).
Proof.
move=> Hok /(domain_new_dom (F := F)) [k Hk ->] Hu Hlt HN [p [Hp Epu Ep]].
have Hprim := dom_gen_prim Hok Hk.
have Hzs : uniq [seq dom_gen fp k ^+ i | i <- idxs].
  rewrite map_inj_in_uniq // => i j Hi Hj /eqP; rewrite (eq_prim_root_expr Hprim).
  by rewrite !modn_small ?(allP Hlt) // => /eqP.
have same (q : {poly F}) : (size q <= N.+1)%N -> (forall i, i \in idxs -> f i = q.[dom_gen fp k ^+ i]) -> p = q.
  move=> Hq Eq; apply: (agree_eq Hp Hq Hzs); first by rewrite size_map.
  by move=> x /mapP [i Hi ->]; rewrite -[LHS](Ep i Hi) -[RHS](Eq i Hi).
split=> [[q [Hq <- Eq]]|q Hq Eq]; by rewrite -Epu (same q).
Qed.
End C57.

(** The hypotheses of the first theorem hold for an honest prover with a column
    of degree 3, opened at two points, for all values of the coefficient. *)
Definition ex_v : verifier F257 := Verifier (Props 4 1 [::] [::]) 1 (dom f257 2) (dom f257 4)
  [:: (Reg 0, Mask 1); (Reg 0, Mask (dom_gen f257 2))] [::] [::] 4.
Definition ex_col : seq F257 := [:: 1; 2; 3; 4].
Definition ex_vals : seq F257 :=
  [seq (column_poly [:: poly_of ex_col] m.1).[shifted m.2 3] | m <- v_all_masks ex_v].

Example C57_ex (a : F257) : exists2 h : {poly F257}, (size h <= 3)%N &
  forall i, i \in iota 0 16 ->
    simulate_h1 ex_v (set_nth 0 [:: 5; 7] 1 a) i (dom f257 4) [:: (poly_of ex_col).[dom_gen f257 4 ^+ i]] ex_vals 3 =
    Ok h.[d_gen (dom f257 4) ^+ i].
Proof.
exists (deep_h1 [:: poly_of ex_col] (v_all_masks ex_v) 3 (set_nth 0 [:: 5; 7] 1 a)).
  by apply: size_deep_h1; rewrite /= andbT; apply: (leq_trans (size_poly_of _)).
move=> i; rewrite mem_iota => Hi.
have Hav : all (avoids f257 4 3) (v_all_masks ex_v) by vm_compute.
by have := @simulate_h1P _ f257 4 [:: ex_col] ex_v 3 (set_nth 0 [:: 5; 7] 1 a) i _ ex_vals isT Hav Hi erefl erefl.
Qed.

Print Assumptions C57_columns.
Print Assumptions C57_composition.
Print Assumptions C57_unique.
