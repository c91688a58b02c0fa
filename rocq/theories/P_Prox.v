(** Lines of vectors near polynomials: within a third of the distance all but few
    points of a line are as far from the polynomials as the line itself. *)
From Coq Require Import NArith.
From mathcomp Require Import all_ssreflect all_algebra.
From Verif Require Import Spec SpecFri SpecSound P_Base P_Fft P_Fri P_SoundFri.

Set Implicit Arguments.
Unset Strict Implicit.
Unset Printing Implicit Defensive.
Import GRing.Theory.
Local Open Scope ring_scope.

Section Line.
Variables (F : fieldType) (I : eqType) (s : seq I) (x : I -> F).
Hypothesis Hx : {in s &, injective x}.
Hypothesis Hs : uniq s.

(** Polynomials of degree below [m] that agree outside of few positions are equal. *)
Lemma poly_eq_outside m e (p q : {poly F}) : (size p <= m)%N -> (size q <= m)%N -> (e + m <= size s)%N ->
  (count (fun i => p.[x i] != q.[x i]) s <= e)%N -> p = q.
Proof.
move=> Hp Hq Hm Hc; apply/eqP; rewrite -subr_eq0; apply/negPn/negP => H0.
pose t := [seq i <- s | p.[x i] == q.[x i]].
have Hr : all (root (p - q)) [seq x i | i <- t].
  by rewrite all_map; apply/allP => i; rewrite mem_filter /= /root hornerD hornerN subr_eq0 => /andP [].
have Hu : uniq [seq x i | i <- t].
  rewrite map_inj_in_uniq ?filter_uniq // => i j; rewrite !mem_filter => /andP [_ Hi] /andP [_ Hj]; exact: Hx.
have := max_poly_roots H0 Hr Hu; rewrite size_map ltnNge => /negP; apply.
have Hpq : (size (p - q)%R <= m)%N by rewrite (leq_trans (size_add _ _)) // size_opp geq_max Hp.
apply: leq_trans Hpq _; rewrite -(leq_add2l e); apply: leq_trans Hm _.
rewrite size_filter -(count_predC (fun i => p.[x i] == q.[x i]) s) addnC leq_add2r; exact: Hc.
Qed.

Variables (u w : I -> F) (m e : nat).
Hypothesis Hm : (3 * e + m <= size s)%N.

Definition line_bad (b : F) : Prop := exists c : {poly F}, [/\ (size c <= m)%N,
  (count (fun i => u i + b * w i != c.[x i])%R s <= e)%N &
  ~ exists p : {poly F} * {poly F}, [/\ (size p.1 <= m)%N, (size p.2 <= m)%N &
      forall i, i \in s -> u i + b * w i = c.[x i] -> u i = p.1.[x i] /\ w i = p.2.[x i]]].

Lemma count_three (p1 p2 p3 q : pred I) : (count p1 s <= e)%N -> (count p2 s <= e)%N -> (count p3 s <= e)%N ->
  (forall i, i \in s -> ~~ p1 i -> ~~ p2 i -> ~~ p3 i -> ~~ q i) -> (count q s <= 3 * e)%N.
Proof.
move=> H1 H2 H3 Hq; apply: leq_trans (_ : count p1 s + (count p2 s + count p3 s) <= _)%N; last first.
  by rewrite !mulSn mul0n addn0 !leq_add.
elim: (s) Hq {H1 H2 H3} => //= i t IH Hq; have Ht := IH (fun j Hj => Hq j (mem_behead (s := i :: t) Hj)).
have := Hq i (mem_head _ _); case: (p1 i); case: (p2 i); case: (p3 i); case: (q i) => //= Hi;
  try (by have := Hi isT isT isT); rewrite ?add0n ?add1n ?addnS ?addSn ?ltnS; do ?apply: leqW; exact: Ht.
Qed.

Lemma line_few : few (size s) line_bad.
Proof.
case=> [//|b1 [|b2 bs]] Hu Hbad.
  case: (s =P [::]) => [E|]; last by case: (s).
  case: (Hbad b1 (mem_head _ _)) => c [_ _ []]; exists (0, 0); rewrite size_poly0; split=> // i; by rewrite E.
have [c1 [Hc1 E1 _]] := Hbad b1 (mem_head _ _).
have [|c2 [Hc2 E2 _]] := Hbad b2; first by rewrite !inE eqxx orbT.
have Hb : b1 - b2 != 0.
  by rewrite subr_eq0; move: Hu => /= /andP [H _]; apply: contra H => /eqP ->; rewrite mem_head.
pose pw := (b1 - b2)^-1 *: (c1 - c2); pose pu := c1 - b1 *: pw.
have Hpw : (size pw <= m)%N.
  by rewrite (leq_trans (size_scale_leq _ _)) // (leq_trans (size_add _ _)) // size_opp geq_max Hc1.
have Hpu : (size pu <= m)%N.
  by rewrite (leq_trans (size_add _ _)) // size_opp geq_max Hc1 (leq_trans (size_scale_leq _ _)).
have Hagree i : u i + b1 * w i = c1.[x i] -> u i + b2 * w i = c2.[x i] -> u i = pu.[x i] /\ w i = pw.[x i].
  move=> A1 A2; have Ew : pw.[x i] = w i.
    by rewrite /pw hornerZ hornerD hornerN -A1 -A2 opprD addrACA subrr add0r -mulrBl mulKf.
  by rewrite Ew; split=> //; rewrite /pu hornerD hornerN hornerZ Ew -A1 addrK.
pose rs := [seq - (u i - pu.[x i]) / (w i - pw.[x i]) | i <- s].
rewrite -(size_map (fun i => - (u i - pu.[x i]) / (w i - pw.[x i])) s) -/rs.
apply: uniq_leq_size => // b /Hbad [c [Hc Ec Hno]].
have Hcb : c = pu + b *: pw.
  have Hsz : (size (pu + b *: pw)%R <= m)%N.
    by rewrite (leq_trans (size_add _ _)) // geq_max Hpu (leq_trans (size_scale_leq _ _)).
  apply: (poly_eq_outside Hc Hsz Hm); apply: (count_three E1 E2 Ec) => i Hi; rewrite !negbK => /eqP A1 /eqP A2 /eqP A3.
  by have [B1 B2] := Hagree i A1 A2; rewrite -A3 hornerD hornerZ -B1 -B2.
pose q i := (u i + b * w i == c.[x i]) && ~~ ((u i == pu.[x i]) && (w i == pw.[x i])).
case Hh : (has q s); last first.
  case: Hno; exists (pu, pw); split=> // i Hi /eqP A.
  by move/negbT/hasPn/(_ i Hi): Hh; rewrite /q A /= negbK => /andP [/eqP ? /eqP ?].
have /hasP [i Hi /andP [/eqP A]] := Hh; rewrite negb_and => B; apply/mapP; exists i => //.
have Eq : u i - pu.[x i] + b * (w i - pw.[x i]) = 0.
  by rewrite mulrBr addrACA A Hcb hornerD hornerZ -opprD subrr.
have Hw0 : w i - pw.[x i] != 0.
  apply/eqP => W; move: Eq; rewrite W mulr0 addr0 => U; move: B.
  by rewrite -subr_eq0 U eqxx /= -subr_eq0 W eqxx.
apply: (mulIf Hw0); rewrite mulrVK ?unitfE //; apply/eqP; rewrite -subr_eq0 opprK addrC; exact/eqP.
Qed.
End Line.

Section Fold.
Variable F : fieldType.
Hypothesis H2 : (2%:R : F) != 0.
Variables (P : pred nat) (g : F) (v : seq F) (n m e : nat).
Hypotheses (Hv : size v = (2 * n)%N) (Hg : (2 * n).-primitive_root g).

Lemma bad_challenge_few : (3 * e + m <= count P (iota 0 n))%N ->
  few (count P (iota 0 n)) (bad_challenge P g v n m e).
Proof.
rewrite -size_filter => Hm; set s := filter P _ in Hm *.
pose x i := g ^+ 2 ^+ i; pose u i := (v`_i + v`_(i + n)) / 2%:R; pose w i := (v`_i - v`_(i + n)) / (2%:R * g ^+ i).
have Hsi i : i \in s -> P i /\ (i < n)%N by rewrite mem_filter mem_iota /= add0n => /andP [].
have Hx : {in s &, injective x}.
  move=> i j /Hsi [_ Hi] /Hsi [_ Hj] /eqP; rewrite /x -!exprM (eq_prim_root_expr Hg) !modn_small ?ltn_pmul2l //.
  by rewrite eqn_pmul2l // => /eqP.
have Hs : uniq s by rewrite filter_uniq ?iota_uniq.
have Hf b i : (i < n)%N -> (fold_vec b g v)`_i = u i + b * w i.
  by move=> Hi; rewrite /fold_vec Hv mulKn // nth_mkseq.
move=> bs Hu Hbad; apply: (line_few Hx Hs Hm Hu) => b /Hbad [c [Hc Ec Hno]]; exists c; split=> //.
  apply: leq_trans Ec; rewrite count_filter; apply/eq_leq/eq_in_count => i; rewrite mem_iota add0n /= andbC => Hi.
  by rewrite Hf.
case=> [[pu pw] /= [Hpu Hpw Hag]]; case: Hno.
pose A i := P i && (u i + b * w i == c.[x i]).
have H10 : (1 : F) != 0 by rewrite oner_neq0.
have Hpp : (size (pu + pw)%R <= m)%N by rewrite (leq_trans (size_add _ _)) // geq_max Hpu.
have Hn i : (i < n)%N -> A i -> i \in s by move=> Hi /andP [HP _]; rewrite mem_filter HP mem_iota.
have [|i Hi HA|i Hi HA|C HC EC] := @fold_back F H2 A g 0 1 v n m pu (pu + pw) Hv Hg _ Hpu Hpp.
- by rewrite eq_sym.
- by rewrite Hf // mul0r addr0; have [] := Hag i (Hn i Hi HA) (eqP (proj2 (andP HA))).
- by rewrite Hf // mul1r hornerD; have [-> ->] := Hag i (Hn i Hi HA) (eqP (proj2 (andP HA))).
exists C => // i Hi HP Ei.
have HA : A i by rewrite /A HP -Hf // Ei eqxx.
have n0 : (0 < n)%N by case: (n) Hi.
split; apply: EC; rewrite ?modnDr ?modn_small //; last by rewrite mul2n -addnn ltn_add2r.
by apply: leq_trans Hi _; rewrite leq_pmull.
Qed.
End Fold.
