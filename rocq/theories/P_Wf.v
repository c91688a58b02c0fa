(** Every operation on consistent polynomial objects, in the vocabulary of
    SpecPoly.v. *)
From mathcomp Require Import all_ssreflect all_algebra.
From Verif Require Import M_Base M_Worker M_Field M_Domain M_Fft M_Poly Spec SpecPoly.
From Verif Require Import P_Base P_Fft P_Domain P_Poly P_Lde P_PolyOps.

Set Implicit Arguments.
Unset Strict Implicit.
Unset Printing Implicit Defensive.
Import GRing.Theory.
Local Open Scope ring_scope.

Lemma poly_of_X (F : fieldType) : poly_of [:: 0; 1 : F] = 'X.
Proof.
apply/polyP => i; rewrite coef_poly_of coefX.
by case: i => [|[|i]] //=; rewrite nth_nil.
Qed.

Section Wf.
Variables (F : fieldType) (fp : ff_params F).
Hypothesis Hok : ff_ok fp.
Notation gen := (ff_gen fp).
Notation S := (ff_S fp).
Notation std := (std fp).

Lemma wf_std P k c : size c = (2 ^ k)%N -> (k <= S)%N -> wf_poly fp (std P k c).
Proof. by move=> Hc Hk; split; rewrite //= Hc // domain_new_pow. Qed.

Lemma wf_inv P (p : hpoly F P) : wf_poly fp p ->
  [/\ p = std P (p_exp p) (p_coeffs p), size (p_coeffs p) = (2 ^ p_exp p)%N & (p_exp p <= S)%N].
Proof.
case: p => c k om omi gi mi [/= Hd -> -> ->]; move: Hd; rewrite domain_newE.
case: ltnP => //= HS [Hs Hk <-]; rewrite Hk in Hs HS *.
by split; rewrite /P_Poly.std -?Hs.
Qed.

Lemma wfE P (p : hpoly F P) : wf_poly fp p ->
  exists k c, [/\ p = std P k c, size c = (2 ^ k)%N & (k <= S)%N].
Proof. by move=> /wf_inv [E Hs Hk]; exists (p_exp p), (p_coeffs p). Qed.

Variable w : worker.
Hypothesis Hw : (0 < w)%N.

Lemma from_vec_wf P s :
  if (S < up_log 2 (size s))%N then from_vec fp P s = Err
  else exists2 p, from_vec fp P s = Ok p &
    wf_poly fp p /\ p_coeffs p = s ++ nseq (2 ^ up_log 2 (size s) - size s) 0.
Proof.
rewrite from_vecE //; case: ltnP => // H; eexists; first by [].
split; first by apply: wf_std => //; rewrite size_resize.
rewrite /= /resize take_oversize //.
by case: (posnP (size s)) => [->|Hs] //; apply: up_logP.
Qed.

Lemma trim_wf P (p : hpoly F P) d : wf_poly fp p ->
  exists2 q, trim_to_degree p d = Ok q &
    [/\ wf_poly fp q, same_domain p q, size (p_coeffs q) = size (p_coeffs p) &
        forall i, (p_coeffs q)`_i = if (i <= d)%N then (p_coeffs p)`_i else 0].
Proof.
case/wfE => k [c [-> Hc Hk]]; rewrite /trim_to_degree /=; case: leqP => H.
  eexists; first by []; split=> //; first exact: wf_std.
  by move=> i; case: leqP => // Hi; rewrite nth_default // (leq_trans H) // addn1.
eexists; first by []; split=> //=; first by apply: wf_std; rewrite ?size_resize.
  by rewrite size_resize.
move=> i; rewrite nth_resize; case: (leqP i d) => Hi.
  by rewrite nth_take ?addn1 ?ltnS // (leq_ltn_trans Hi) // (leq_trans _ H) // addn1.
rewrite [X in if _ then X else _]nth_default ?if_same // size_take H addn1 //.
Qed.

Lemma lde_wrong k e : (0 < k)%N -> (0 < e)%N -> (k + e <= S)%N -> ~~ lde_cpus_ok w (2 ^ e) ->
  exists2 c : seq F, size c = (2 ^ k)%N &
   exists2 v, lde fp (std Coefficients k c) w (2 ^ e) = Ok v &
   p_coeffs v <> evals (poly_of c) 1 (dom_gen fp (k + e)) (2 ^ (k + e)).
Proof.
move=> Hk He HS; rewrite /lde_cpus_ok negb_or -leqNgt => /andP [Hw1 Hf].
pose c : seq F := 0 :: 1 :: nseq (2 ^ k - 2) 0.
have H2k : (2 <= 2 ^ k)%N by rewrite -{1}(expn1 2) leq_exp2l.
have Hc : size c = (2 ^ k)%N by rewrite /= size_nseq -addn2 subnK.
exists c => //; rewrite lde_exact //; last exact: leq_trans (leq_addr _ _) HS.
rewrite HS; eexists; first by [].
have Ec : poly_of c = 'X.
  apply/polyP => i; rewrite coef_poly_of coefX; case: i => [|[|i]] //=.
  by rewrite nth_nseq if_same.
set ch := get_chunk_size w (2 ^ e).
have Ech : ch = (2 ^ e %/ w)%N.
  by rewrite /ch /get_chunk_size ltnNge (leq_trans _ Hf) // leq_pmull.
have Hch : (2 <= ch)%N by rewrite Ech leq_divRL.
have Hche : (ch < 2 ^ e)%N.
  by rewrite Ech ltn_Pdiv // ?expn_gt0 // ltn_neqAle eq_sym Hw1.
have Hchn : (ch < 2 ^ (k + e))%N by apply: leq_trans Hche _; rewrite leq_exp2l // leq_addl.
move=> /= /(congr1 (fun s => s`_ch)); rewrite nth_mkseq // nth_evals // Ec !hornerX mul1r.
rewrite (modn_small Hche) (divn_small Hche) expr0 mulr1 /coset_exp -/ch divnn modnn addn0.
rewrite (ltn_trans _ Hch) // => /eqP; rewrite (eq_prim_root_expr (dom_prim Hok HS)).
rewrite /= !modn_small //; last exact: ltn_trans Hch Hchn.
by rewrite ltn_eqF.
Qed.
End Wf.
