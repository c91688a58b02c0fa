(** The composition polynomial: divisibility, degree and values. *)
From Coq Require Import NArith.
From mathcomp Require Import all_ssreflect all_algebra.
From Verif Require Import M_Base M_Air M_Arp.
From Verif Require Import SpecAir SpecStark P_Base P_Air P_Arp P_Ali.

Set Implicit Arguments.
Unset Strict Implicit.
Unset Printing Implicit Defensive.
Import GRing.Theory.
Local Open Scope ring_scope.

Section Comp.
Variables (F : fieldType) (g : F) (n : nat) (ps : seq {poly F}).
Hypothesis Hg : n.-primitive_root g.
Hypothesis Hps : all (fun p : {poly F} => size p <= n)%N ps.

Let Hn : (0 < n)%N. Proof. exact: prim_order_gt0 Hg. Qed.

(** * Values *)
Lemma mask_polyE r s x : (mask_poly ps r s).[x] = mask_env ps x r s.
Proof. by case: r => [|r||]; case: s => [?|m] /=; rewrite ?horner0 // horner_comp hornerZ hornerX. Qed.

Lemma upolyE u x : (upoly ps u).[x] = uval (mask_env ps x) u.
Proof. by rewrite /upoly hornerZ horner_exp mask_polyE. Qed.

Lemma tpolyE t x : (tpoly ps t).[x] = tval (mask_env ps x) t.
Proof.
case: t => [u|p] /=; first exact: upolyE.
by rewrite hornerZ horner_prod /pval; congr (_ * _); apply: eq_bigr => u _; rewrite upolyE.
Qed.

Lemma cpolyE c x : (cpoly ps c).[x] = cval (mask_env ps x) c.
Proof.
by rewrite /cpoly hornerD hornerC horner_sum /cval; congr (_ + _); apply: eq_bigr => t _; rewrite tpolyE.
Qed.

(** * Degrees *)
Section Degrees.
Variable N : nat.
Hypothesis HN : (0 < N)%N.
Hypothesis HpsN : all (fun p : {poly F} => size p <= N)%N ps.

Lemma size_mask_polyN r s : (size (mask_poly ps r s) <= N)%N.
Proof.
case: r => [|r||]; case: s => [?|m] /=; rewrite ?size_poly0 //.
have Hr : (size (nth 0%R ps r) <= N)%N.
  case: (ltnP r (size ps)) => Hr; first exact: (all_nthP 0 HpsN).
  by rewrite nth_default // size_poly0.
apply: leq_trans (size_comp_poly_leq _ _) _.
rewrite -(prednK HN) ltnS; apply: (@leq_trans ((size (nth 0%R ps r)).-1 * 1)%N).
  rewrite leq_mul2l; apply/orP; right.
  have := size_scale_leq m ('X : {poly F}); rewrite size_polyX.
  by case: (size _) => // -[|[]].
by rewrite muln1 -!subn1 leq_sub2r.
Qed.

Lemma size_exp_le (p : {poly F}) m e : (size p <= m.+1)%N -> (size (p ^+ e) <= (e * m).+1)%N.
Proof.
move=> Hp; apply: leq_trans (size_exp_leq _ _) _; rewrite ltnS mulnC leq_mul2l.
by apply/orP; right; move: Hp; case: (size p).
Qed.

Lemma size_upolyN u : (size (upoly ps u) <= (ut_power u * N.-1).+1)%N.
Proof.
apply: leq_trans (size_scale_leq _ _) _; apply: size_exp_le.
by rewrite prednK // size_mask_polyN.
Qed.

Lemma size_mul_le (p q : {poly F}) a b : (size p <= a.+1)%N -> (size q <= b.+1)%N -> (size (p * q)%R <= (a + b).+1)%N.
Proof.
move=> Hp Hq; apply: leq_trans (size_mul_leq _ _) _.
have := leq_add Hp Hq; rewrite addSn addnS.
by case: (_ + _)%N.
Qed.

Lemma size_tpolyN t : (size (tpoly ps t) <= (tdeg t * N.-1).+1)%N.
Proof.
case: t => [u|p] /=; first exact: size_upolyN.
apply: leq_trans (size_scale_leq _ _) _.
elim: (pt_terms p) => [|u us IH]; first by rewrite !big_nil size_poly1.
by rewrite !big_cons mulnDl; apply: size_mul_le => //; apply: size_upolyN.
Qed.

Lemma size_cpolyN c : (size (cpoly ps c) <= (cdeg c * N.-1).+1)%N.
Proof.
apply: leq_trans (size_add _ _) _; rewrite geq_max; apply/andP; split.
  by apply: leq_trans (size_polyC_leq1 _) _.
rewrite /cdeg; elim: (c_terms c) => [|t ts IH]; first by rewrite !big_nil size_poly0.
rewrite !big_cons; apply: leq_trans (size_add _ _) _; rewrite geq_max; apply/andP; split.
  apply: leq_trans (size_tpolyN t) _; rewrite ltnS leq_mul2r leq_maxl; exact: orbT.
by apply: leq_trans IH _; rewrite ltnS leq_mul2r leq_maxr; exact: orbT.
Qed.

End Degrees.

Lemma size_mask_poly r s : (size (mask_poly ps r s) <= n)%N.
Proof. exact: size_mask_polyN. Qed.
Lemma size_cpoly c : (size (cpoly ps c) <= (cdeg c * n.-1).+1)%N.
Proof. exact: size_cpolyN. Qed.

Lemma size_weight D deg ab : (size (weight D deg ab : {poly F}) <= (D - deg).+1)%N.
Proof.
rewrite /weight; case: eqP => [->|_]; first exact: size_polyC_leq1.
apply: leq_trans (size_add _ _) _; rewrite geq_max; apply/andP; split.
  by apply: leq_trans (size_scale_leq _ _) _; rewrite size_polyXn.
by apply: leq_trans (size_polyC_leq1 _) _.
Qed.

(** * Divisibility *)
Lemma divisor_dvd c s sp : (s + sp <= n)%N ->
  (forall i, dense_row s sp n i -> cval (mask_env ps (g ^+ i)) c = 0) ->
  divisor g s sp n %| cpoly ps c.
Proof.
move=> H Hc; rewrite divisorE // -(big_map (fun i => g ^+ i) xpredT (fun x => 'X - x%:P)).
apply: uniq_roots_dvdp.
  rewrite all_map; apply/allP => i; rewrite mem_iota => /andP [H1 H2].
  rewrite /= rootE cpolyE Hc // /dense_row H1 /=.
  move: H2; rewrite subnKC; first by rewrite ltn_subRL addnC.
  by rewrite leq_subRL ?(leq_trans _ H) ?leq_addl // addnC.
rewrite uniq_rootsE map_inj_in_uniq ?iota_uniq // => i j.
have Hb x : x \in iota s (n - sp - s) -> (x < n)%N.
  rewrite mem_iota => /andP [_]; rewrite subnKC.
    by move=> Hx; apply: leq_trans Hx (leq_subr _ _).
  by rewrite leq_subRL ?(leq_trans _ H) ?leq_addl // addnC.
move=> Hi Hj /eqP; rewrite (eq_prim_root_expr Hg) !modn_small ?Hb // => /eqP.
by [].
Qed.

Lemma bound_c D deg : (0 < D)%N -> (1 < n)%N -> (deg <= D)%N -> ((D - deg) + deg * n.-1 < D * n)%N.
Proof.
case: n => [|[|m]] // HD _ Hdeg; rewrite [_.-1]/= mulnS addnA subnK // mulnS ltn_add2l.
rewrite mulnS; apply: (@leq_trans (D + deg * m)); last by rewrite leq_add2l leq_mul2r Hdeg orbT.
by rewrite -addn1 addnC leq_add2r.
Qed.

Lemma bound_b D : (0 < D)%N -> ((D - 1) + n.-1 < D * n)%N.
Proof.
move=> HD; rewrite -{2}(prednK HD) mulSn subn1 addnC -(prednK Hn) [X in (X < _)%N]/= addSn ltnS leq_add2l.
by rewrite prednK // leq_pmulr.
Qed.

Lemma size_cquot D c s sp ab : (0 < D)%N -> (1 < n)%N -> (c_degree c <= D)%N -> (cdeg c <= c_degree c)%N ->
  c_density c = Dense s sp -> (size (constraint_quotient g n D ps (c, ab)) <= D * n)%N.
Proof.
move=> HD H1 H2 H3 Hd; rewrite /constraint_quotient /= Hd /=.
have Hs : (size (cpoly ps c %/ divisor g s sp n)%R <= (c_degree c * n.-1).+1)%N.
  rewrite size_divp ?monic_neq0 ?divisor_monic //.
  apply: leq_trans (leq_subr _ _) _; apply: leq_trans (size_cpoly c) _.
  by rewrite ltnS leq_mul2r H3 orbT.
exact: leq_trans (size_mul_le (size_weight _ _ _) Hs) (bound_c HD H1 H2).
Qed.

Lemma size_bquot D b ab : (0 < D)%N -> (size (boundary_quotient g D ps (b, ab)) <= D * n)%N.
Proof.
move=> HD; rewrite /boundary_quotient /=.
have Hs : (size (boundary_poly ps b %/ ('X - (g ^+ b_at_row b)%:P))%R <= n.-1.+1)%N.
  rewrite size_divp ?polyXsubC_eq0 // prednK //; apply: leq_trans (leq_subr _ _) _.
  apply: leq_trans (size_add _ _) _; rewrite geq_max size_mask_poly size_opp.
  by apply: leq_trans (size_polyC_leq1 _) _.
exact: leq_trans (size_mul_le (size_weight _ _ _) Hs) (bound_b HD).
Qed.

Lemma size_composition D cs chs bs bchs : (0 < D)%N -> (1 < n)%N ->
  all (fun c => (c_degree c <= D) && (cdeg c <= c_degree c) && (if c_density c is Dense _ _ then true else false))%N cs ->
  (size (composition g n D ps cs chs bs bchs) <= D * n)%N.
Proof.
move=> HD H1 Hcs; apply: leq_trans (size_add _ _) _; rewrite geq_max; apply/andP; split.
  elim: cs chs Hcs => [|c cs IH] [|ab chs] => [||_|]; rewrite ?big_nil ?size_poly0 //.
  rewrite [all _ _]/= => /andP [/andP [/andP [H2 H3] H4] Hcs]; rewrite big_cons.
  apply: leq_trans (size_add _ _) _; rewrite geq_max IH // andbT.
  by case Ed: (c_density c) H4 => [s sp||] // _; apply: size_cquot Ed.
elim: bs bchs => [|b bs IH] [|ab bchs]; rewrite ?big_nil ?size_poly0 //.
by rewrite big_cons; apply: leq_trans (size_add _ _) _; rewrite geq_max IH andbT size_bquot.
Qed.

(** * Values of the composition polynomial *)
Definition c_divides (c : constraint F) : bool :=
  if c_density c is Dense s sp then divisor g s sp n %| cpoly ps c else false.
Definition b_divides (b : boundary_constraint F) : bool := root (boundary_poly ps b) (g ^+ b_at_row b).

Lemma boundary_polyE b x : (boundary_poly ps b).[x] =
  mask_env ps x (b_register b) (Mask 1) - (if b_value b is Some v then v else 0).
Proof. by rewrite /boundary_poly hornerD hornerN hornerC mask_polyE. Qed.

Lemma divp_horner (p q : {poly F}) x : q %| p -> q.[x] != 0 -> (p %/ q).[x] = p.[x] * q.[x]^-1.
Proof. by move=> Hd Hx; rewrite -{2}(divpK Hd) hornerM mulfK. Qed.

Lemma compositionE D cs chs bs bchs x :
  all c_divides cs -> all b_divides bs ->
  all (fun c => (density_divisor g n (c_density c)).[x] != 0) cs -> all (fun b => x - g ^+ b_at_row b != 0) bs ->
  (composition g n D ps cs chs bs bchs).[x] =
  \sum_(cab <- zip cs chs) cval (mask_env ps x) cab.1 * (weight D (c_degree cab.1) cab.2).[x] *
       (density_divisor g n (c_density cab.1)).[x]^-1 +
  \sum_(bab <- zip bs bchs) (mask_env ps x (b_register bab.1) (Mask 1) - (if b_value bab.1 is Some v then v else 0)) *
       (weight D 1 bab.2).[x] * (x - g ^+ b_at_row bab.1)^-1.
Proof.
move=> Hc Hb Hxc Hxb; rewrite /composition hornerD !horner_sum; congr (_ + _).
  elim: cs chs Hc Hxc => [|c cs IH] [|ab chs] => [||_ _|]; rewrite ?big_nil //.
  rewrite [zip _ _]/= !big_cons => /andP [Hc Hcs] /andP [Hx Hxs]; rewrite IH //; congr (_ + _).
  rewrite /constraint_quotient /= hornerM divp_horner ?cpolyE //; first by rewrite mulrA [_ * cval _ _]mulrC.
  by move: Hc; rewrite /c_divides; case: (c_density c).
elim: bs bchs Hb Hxb => [|b bs IH] [|ab bchs] => [||_ _|]; rewrite ?big_nil //.
rewrite [zip _ _]/= !big_cons => /andP [Hb Hbs] /andP [Hx Hxs]; rewrite IH //; congr (_ + _).
rewrite /boundary_quotient /= hornerM divp_horner ?boundary_polyE ?hornerXsubC //.
  by rewrite mulrA [_ * (_ - _)]mulrC.
by rewrite dvdp_XsubCl.
Qed.
End Comp.
