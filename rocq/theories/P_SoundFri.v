(** Going back from folded vectors to the vector that was folded. *)
From Coq Require Import NArith.
From mathcomp Require Import all_ssreflect all_algebra.
From Verif Require Import M_Base M_Worker M_Field M_Domain M_Fft M_Poly M_Bytes M_Transcript M_Merkle M_Fri.
From Verif Require Import Spec SpecFri SpecSound P_Base P_Fft P_Domain P_Poly P_Fri.

Set Implicit Arguments.
Unset Strict Implicit.
Unset Printing Implicit Defensive.
Import GRing.Theory.
Local Open Scope ring_scope.

Section Back.
Variable F : fieldType.
Hypothesis H2 : (2%:R : F) != 0.

Lemma fold_back (A : pred nat) (g b b' : F) (v : seq F) (n m : nat) (p p' : {poly F}) :
  size v = (2 * n)%N -> (2 * n).-primitive_root g -> b != b' ->
  (size p <= m)%N -> (size p' <= m)%N ->
  (forall i, (i < n)%N -> A i -> (fold_vec b g v)`_i = p.[g ^+ 2 ^+ i]) ->
  (forall i, (i < n)%N -> A i -> (fold_vec b' g v)`_i = p'.[g ^+ 2 ^+ i]) ->
  exists2 f : {poly F}, (size f <= 2 * m)%N & forall i, (i < 2 * n)%N -> A (i %% n)%N -> v`_i = f.[g ^+ i].
Proof.
move=> Hs Hg Hb Hp Hp' Hf Hf'.
case: (posnP n) => [En|Hn0]; first by exists 0; [rewrite size_poly0 | move=> i; rewrite En muln0].
have Hg0 : g != 0.
  apply/eqP => E; have := prim_expr_order Hg; rewrite E expr0n muln_eq0 (eqn0Ngt n) Hn0 /=.
  by move/eqP; rewrite eq_sym oner_eq0.
have Hh : g ^+ n = -1.
  have : (g ^+ n) ^+ 2 == 1 by rewrite -exprM mulnC (prim_expr_order Hg).
  rewrite sqrf_eq1 => /orP [|/eqP //]; rewrite -(prim_order_dvd Hg) => /dvdn_leq.
  by move=> /(_ Hn0); rewrite mul2n -addnn -[X in (_ <= X)%N]addn0 leq_add2l leqNgt Hn0.
have Hbb : b - b' != 0 by rewrite subr_eq0.
pose po := (b - b')^-1 *: (p - p'); pose pe := p - b *: po.
have Hpo : (size po <= m)%N.
  by rewrite (leq_trans (size_scale_leq _ _)) // (leq_trans (size_add _ _)) // size_opp geq_max Hp.
have Hpe : (size pe <= m)%N.
  by rewrite (leq_trans (size_add _ _)) // size_opp geq_max Hp (leq_trans (size_scale_leq _ _)).
have Hcomp (q : {poly F}) : (size q <= m)%N -> (size (q \Po 'X^2) <= (2 * m).-1)%N.
  move=> Hq; case: (eqVneq q 0) => [->|q0]; first by rewrite comp_poly0 size_poly0.
  apply: (leq_trans (size_comp_poly_leq q 'X^2)); rewrite size_polyXn muln2 mul2n.
  rewrite -size_poly_gt0 in q0; case: (size q) Hq q0 => // s Hs1 _; case: (m) Hs1 => // m'.
  by rewrite ltnS doubleS /= ltnS leq_double.
exists (pe \Po 'X^2 + 'X * (po \Po 'X^2)).
  apply: (leq_trans (size_add _ _)); rewrite geq_max (leq_trans (Hcomp _ Hpe)) ?leq_pred //=.
  case: (eqVneq (po \Po 'X^2) 0) => [->|q0]; first by rewrite mulr0 size_poly0.
  rewrite mulrC size_mulX // (leq_ltn_trans (Hcomp _ Hpo)) // prednK //.
  by have := Hcomp _ Hpo; rewrite -size_poly_gt0 in q0; move/(leq_trans q0); case: (2 * m)%N.
move=> i Hi Ho; have Hi2 : i \in [:: i %% n; i %% n + n]%N by apply: mem_halves.
have Hj : (i %% n < n)%N by rewrite ltn_mod.
have := Hf _ Hj Ho; have := Hf' _ Hj Ho; move: Hi2; rewrite /fold_vec Hs mulKn // !nth_mkseq //.
move: (i %% n)%N => j Hij E' E; set x := g ^+ j in E E'; set y0 := v`_j in E E'; set y1 := v`_(j + n) in E E'.
have Hx : x != 0 by rewrite expf_neq0.
have Ex : g ^+ 2 ^+ j = x ^+ 2 by rewrite -!exprM mulnC.
rewrite Ex in E E'.
have Epo : po.[x ^+ 2] = (y0 - y1) / (2%:R * x).
  rewrite /po hornerZ hornerD hornerN -E -E' /fold_at opprD addrACA subrr add0r -mulrBl mulKf //.
have Epe : pe.[x ^+ 2] = (y0 + y1) / 2%:R.
  by rewrite /pe hornerD hornerN hornerZ Epo -E /fold_at addrK.
have Hhalf (z : F) : (z + z) / 2%:R = z by rewrite -mulr2n -(mulr_natr z) mulfK.
have Exo : x * po.[x ^+ 2] = (y0 - y1) / 2%:R.
  by rewrite Epo invfM mulrCA [x * (_ * _)]mulrCA mulfV // mulr1.
move: Hij; rewrite !inE => /orP [] /eqP ->.
  rewrite hornerD hornerM hornerX !horner_comp !hornerXn -/x Epe Exo -mulrDl.
  by rewrite addrACA [y1 - y1]subrr addr0 Hhalf.
rewrite hornerD hornerM hornerX !horner_comp !hornerXn exprD Hh mulrN1 -/x sqrrN Epe mulNr Exo -mulrBl.
by rewrite opprB [y0 + y1]addrC addrACA subrr addr0 Hhalf.
Qed.

(** One step, with errors. *)
Lemma close_back (P : pred nat) (g b b' : F) (v : seq F) (n m e e' : nat) :
  size v = (2 * n)%N -> (forall i, (i < 2 * n)%N -> P i = P (i %% n)%N) -> (2 * n).-primitive_root g -> b != b' ->
  close_to P (g ^+ 2) (fold_vec b g v) m e -> close_to P (g ^+ 2) (fold_vec b' g v) m e' ->
  close_to P g v (2 * m) (2 * (e + e')).
Proof.
move=> Hs HP Hg Hb [p [bad [Hp Hbad Ep]]] [p' [bad' [Hp' Hbad' Ep']]].
have Hsz c : size (fold_vec c g v) = n by rewrite size_mkseq Hs mulKn.
pose A i := [&& P i, i \notin bad & i \notin bad'].
have [i Hi /and3P [H1 H3 _]||f Hf Ef] := @fold_back A g b b' v n m p p' Hs Hg Hb Hp Hp'.
- by apply: Ep => //; rewrite Hsz.
- by move=> i Hi /and3P [H1 _ H3]; apply: Ep' => //; rewrite Hsz.
exists f, (let s := bad ++ bad' in s ++ [seq (i + n)%N | i <- s]); split=> //.
  by rewrite size_cat size_map addnn -mul2n leq_mul2l size_cat leq_add.
move=> i; rewrite Hs => Hi HPi; rewrite mem_cat negb_or => /andP [Hn1 Hn2]; apply: Ef => //.
have n0 : (0 < n)%N by case: (n) Hi.
have := mem_halves Hi; rewrite !inE => Hh.
suff Hm : (i %% n)%N \notin bad ++ bad' by rewrite /A -HP // HPi; move: Hm; rewrite mem_cat negb_or.
case/orP: Hh => /eqP E; first by rewrite -E.
by apply: contra Hn2 => Hin; apply/mapP; exists (i %% n)%N.
Qed.
End Back.
