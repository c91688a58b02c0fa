(** The DEEP quotients that the verifier simulates, as sums. *)
From Coq Require Import NArith.
From mathcomp Require Import all_ssreflect all_algebra.
From Verif Require Import M_Base M_Worker M_Field M_Domain M_Fft M_Poly M_Bytes M_Transcript M_Merkle M_Fri.
From Verif Require Import M_Challenge M_Air M_Arp M_Ali M_Verifier.
From Verif Require Import SpecAir SpecStark SpecSound P_Base P_Air P_AliG P_Sound.

Set Implicit Arguments.
Unset Strict Implicit.
Unset Printing Implicit Defensive.
Import GRing.Theory.
Local Open Scope ring_scope.

Section Deep.
Variable F : fieldType.

Definition cell (fx : seq F) (r : register) : F := if r is Reg n then nth 0 fx n else 0.

Lemma simulate_h1_inv (v : verifier F) alphas idx D fx vals z y :
  simulate_h1 v alphas idx D fx vals z = Ok y ->
  let x := d_gen D ^+ idx in
  let s := zip (zip (v_all_masks v) vals) alphas in
  all (fun mfa => x - shifted mfa.1.1.2 z != 0) s /\
  y = \sum_(mfa <- s) (cell fx mfa.1.1.1 - mfa.1.2) * (x - shifted mfa.1.1.2 z)^-1 * mfa.2.
Proof.
move=> E x s; pose P h := all (fun mfa : mask_properties F * F * F => x - shifted mfa.1.1.2 z != 0) s /\
  y = h + \sum_(mfa <- s) (cell fx mfa.1.1.1 - mfa.1.2) * (x - shifted mfa.1.1.2 z)^-1 * mfa.2.
suff: P 0 by rewrite /P add0r.
move: E; rewrite /simulate_h1 -/x -/s; move: {1 2}0; rewrite {}/P; elim: s => [|[[[r m] fz] al] s IH] h.
  by move=> [<-]; rewrite big_nil addr0.
rewrite foldM_cons => E; have [h' Eh {}E] := bind_Ok E.
have [mk Em {}Eh] := bind_Ok Eh; have [rn Er {}Eh] := bind_Ok Eh; have [fr Ef {}Eh] := bind_Ok Eh.
have [dn Ed [Eh']] := bind_Ok Eh.
have [H1 ->] := IH _ E; rewrite big_cons /= addrA -Eh'.
rewrite [(r, m).1]/= in Er; rewrite [(r, m).2]/= in Em.
clear Eh E IH; case: m Em => // mk' [Emk]; rewrite -Emk in Ed; case: r Er => // r' [Er]; rewrite -Er in Ef.
have [_ Efr] := get_Ok 0 Ef; rewrite /= -Efr.
move: Ed; rewrite /inverse; case: eqP => // Hne; rewrite [ok_or _]/= => -[<-].
by split; first by rewrite H1 andbT; apply/eqP.
Qed.

(** The difference of two simulated values for two values of one coefficient. *)
Lemma simulate_h1_diff (v : verifier F) alphas idx D fx vals z j a a' y y' :
  (j < size (v_all_masks v))%N -> size vals = size (v_all_masks v) -> size alphas = size (v_all_masks v) ->
  simulate_h1 v (set_nth 0 alphas j a) idx D fx vals z = Ok y ->
  simulate_h1 v (set_nth 0 alphas j a') idx D fx vals z = Ok y' ->
  let x := d_gen D ^+ idx in let m := nth (Reg 0, Mask 0) (v_all_masks v) j in
  x - shifted m.2 z != 0 /\
  (y - y') * (x - shifted m.2 z) = (a - a') * (cell fx m.1 - nth 0 vals j).
Proof.
move=> Hj Hv Ha /simulate_h1_inv [Hall Ey] /simulate_h1_inv [_ Ey'] x m.
have Hz (b : F) : size (zip (v_all_masks v) vals) = size (set_nth 0 alphas j b).
  by rewrite size_zip Hv minnn size_set_nth Ha (maxn_idPr Hj).
have Hx : x - shifted m.2 z != 0.
  have Hs : (j < size (zip (zip (v_all_masks v) vals) (set_nth 0%R alphas j a)))%N.
    by rewrite size_zip -Hz minnn size_zip Hv minnn.
  by have := all_nthP ((Reg 0, Mask 0), 0, 0) Hall j Hs; rewrite nth_zip ?Hz // nth_zip.
split=> //; rewrite Ey Ey' !(@big_zip_nth _ _ _ _ _ ((Reg 0, Mask 0), 0) 0) ?Hz //.
have Hs : (j < size (zip (v_all_masks v) vals))%N by rewrite size_zip Hv minnn.
rewrite -sumrB (bigD1 (Ordinal Hs)) //= big1 ?addr0 => [|i Hi]; last first.
  by rewrite !nth_set_nth /= (_ : (i == j :> nat) = false) ?subrr //; apply: negbTE.
rewrite !nth_set_nth /= !eqxx nth_zip // /= -/m -/x -mulrBr [(_ - _) / _]mulrC -!mulrA mulrCA mulrA.
by rewrite [_ * (x - _)]mulrC mulrA mulfVK // mulrC.
Qed.

Lemma lift_quotient (h : {poly F}) (c u y : F) (N : nat) : (size h <= N)%N ->
  let p := c *: (h * ('X - u%:P)) + y%:P in [/\ (size p <= N.+1)%N, p.[u] = y & forall x, p.[x] = c * (h.[x] * (x - u)) + y].
Proof.
move=> Hh p; have Hp x : p.[x] = c * (h.[x] * (x - u)) + y by rewrite /p !hornerE.
split=> //; last by rewrite Hp subrr !mulr0 add0r.
apply: leq_trans (size_add _ _) _; rewrite geq_max (leq_trans (size_polyC_leq1 _)) // andbT.
apply: leq_trans (size_scale_leq _ _) _; apply: leq_trans (size_mul_leq _ _) _.
by rewrite size_XsubC addn2.
Qed.
End Deep.
