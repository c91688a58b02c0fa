(** The serial FFT computes the discrete Fourier transform. *)
From mathcomp Require Import all_ssreflect all_algebra.
From Verif Require Import M_Base M_Worker M_Fft P_Base.

Set Implicit Arguments.
Unset Strict Implicit.
Unset Printing Implicit Defensive.
Import GRing.Theory.
Local Open Scope ring_scope.

(** * Bit reversal *)
Fixpoint brev (l n : nat) : nat :=
  if l is l'.+1 then ((n %% 2) * 2 ^ l' + brev l' (n %/ 2))%N else 0%N.

Lemma brevS l n : brev l.+1 n = ((n %% 2) * 2 ^ l + brev l (n %/ 2))%N.
Proof. by []. Qed.

Lemma bitreverseE n l : bitreverse n l = brev l n.
Proof.
rewrite /bitreverse.
suff H : forall r n s, (foldl (fun rn (_ : nat) => (rn.1 * 2 + rn.2 %% 2, rn.2 %/ 2)%N) (r, n) s).1
           = (r * 2 ^ size s + brev (size s) n)%N by rewrite H mul0n size_iota.
move=> r {}n s; elim: s r n => [|x s IH] r n /=; first by rewrite muln1 addn0.
by rewrite IH expnS mulnDl addnA mulnA.
Qed.

Lemma brev_lt l n : (brev l n < 2 ^ l)%N.
Proof.
elim: l n => [|l IH] n //=; rewrite expnS mul2n -addnn.
have : (n %% 2 < 2)%N by rewrite ltn_mod.
case: (n %% 2)%N => [|[|//]] _; first by rewrite mul0n add0n (leq_trans (IH _)) // leq_addr.
by rewrite mul1n ltn_add2l.
Qed.

Lemma brev_high l n : brev l.+1 n = (2 * brev l (n %% 2 ^ l) + (n %/ 2 ^ l) %% 2)%N.
Proof.
elim: l n => [|l IH] n; first by rewrite /= expn0 divn1 !muln0 muln1 addn0.
rewrite -[LHS]/((n %% 2) * 2 ^ l.+1 + brev l.+1 (n %/ 2))%N IH.
rewrite [brev l.+1 (n %% _)]/= mulnDr -addnA; congr (_ + (_ + _))%N.
- by rewrite expnS mulnCA modn_dvdm // dvdn_mulr.
- congr (2 * brev l _)%N.
  by rewrite modn_divl mulnC -expnS.
- by rewrite expnS divnMA.
Qed.

Lemma brevK l n : (n < 2 ^ l)%N -> brev l (brev l n) = n.
Proof.
elim: l n => [|l IH] n; first by rewrite expn0 ltnS leqn0 => /eqP ->.
move=> Hn; rewrite brev_high [brev l.+1 n]/=.
rewrite modnMDl divnMDl ?expn_gt0 // (divn_small (brev_lt _ _)) addn0 modn_mod.
rewrite (modn_small (brev_lt _ _)) IH; last by rewrite ltn_divLR // mulnC -expnS.
by rewrite mulnC -divn_eq.
Qed.

Lemma brev_double l b : brev l.+1 (2 * b) = brev l b.
Proof. by rewrite brevS modnMr mul0n add0n mulKn. Qed.

Lemma brev_doubleS l b : brev l.+1 (2 * b + 1) = (brev l b + 2 ^ l)%N.
Proof.
by rewrite brevS [(2 * b)%N]mulnC modnMDl mul1n divnMDl // addn0 addnC.
Qed.

Section Fft.
Variable F : fieldType.
Implicit Types (a : seq F) (w omega : F).

Lemma size_swap a i j : (i < size a)%N -> (j < size a)%N -> size (swap a i j) = size a.
Proof.
move=> Hi Hj; rewrite /swap !size_set_nth.
by rewrite (maxn_idPr Hi) (maxn_idPr Hj).
Qed.

Lemma nth_swap a i j k :
  (swap a i j)`_k = if k == j then a`_i else if k == i then a`_j else a`_k.
Proof. by rewrite /swap !nth_set_nth /= !nth_set_nth /=. Qed.

Lemma bit_reverse_permuteP a L : size a = (2 ^ L)%N ->
  bit_reverse_permute a (2 ^ L) L = mkseq (fun i => a`_(brev L i)) (2 ^ L).
Proof.
move=> Hs; rewrite /bit_reverse_permute.
set st := fun (a : seq F) k => _.
have H : forall K, (K <= 2 ^ L)%N ->
   let r := foldl st a (iota 0 K) in
   size r = size a /\ forall i, (i < 2 ^ L)%N ->
     r`_i = if ((i < K) || (brev L i < K))%N then a`_(brev L i) else a`_i.
  elim=> [|K IH] HK; first by [].
  rewrite foldl_iotaS /=.
  have [IHs IHn] := IH (ltnW HK).
  set r := foldl st a _ in IHs IHn *.
  rewrite /st bitreverseE; case: ltnP => Hr; last first.
    split=> // i Hi; rewrite IHn // !ltnS.
    rewrite [(i <= K)%N]leq_eqVlt [(brev L i <= K)%N]leq_eqVlt; case: (eqVneq i K) => [->|Hne] /=.
      by rewrite ltnn /=; case: ltngtP Hr => //= ->.
    case: (eqVneq (brev L i) K) => [E|Hne2] //=.
    rewrite orbT; case: ifP => // /negbT; rewrite negb_or -!leqNgt => /andP [H1 _].
    move: Hr; rewrite -{1}E brevK // => H2; case/eqP: Hne.
    by apply/eqP; rewrite eqn_leq H1 H2.
  have HrL := brev_lt L K.
  split; first by rewrite size_swap ?IHs ?Hs.
  move=> i Hi; rewrite nth_swap !ltnS.
  rewrite !IHn // brevK // [(brev L K < K)%N]ltnNge (ltnW Hr) ltnn /=.
  case: (eqVneq i K) => [->|Hne]; first by rewrite leqnn.
  case: (eqVneq i (brev L K)) => [->|Hne2]; first by rewrite brevK // leqnn orbT.
  rewrite [(i <= K)%N]leq_eqVlt [(brev L i <= K)%N]leq_eqVlt (negPf Hne) /=.
  suff -> : (brev L i == K) = false by [].
  by apply/eqP => E; move/eqP: Hne2; apply; rewrite -E brevK.
have [/= Hs' Hn] := H _ (leqnn _).
apply: (@eq_from_nth _ 0); first by rewrite size_mkseq Hs' Hs.
rewrite Hs' Hs => i Hi; rewrite Hn // Hi /= nth_mkseq //.
Qed.

(** * One stage *)
Lemma butterflyP a k j m w : (0 < m)%N -> (k + j + m < size a)%N ->
  size (butterfly a k j m w) = size a /\
  forall i, (butterfly a k j m w)`_i =
    if i == (k + j)%N then a`_(k + j) + a`_(k + j + m) * w
    else if i == (k + j + m)%N then a`_(k + j) - a`_(k + j + m) * w
    else a`_i.
Proof.
move=> Hm Hs.
have Hs2 : (k + j < size a)%N by apply: leq_ltn_trans Hs; rewrite leq_addr.
have Hne : (k + j)%N == (k + j + m)%N = false.
  by apply/eqP => E; move: Hm; rewrite -(ltn_add2l (k + j)) -E addn0 ltnn.
split; first by rewrite /butterfly !size_set_nth (maxn_idPr Hs) (maxn_idPr Hs2).
by move=> i; rewrite /butterfly !nth_set_nth /= !nth_set_nth /= Hne.
Qed.

Definition block_step (k m : nat) (w_m : F) (aw : seq F * F) (j : nat) :=
  (butterfly aw.1 k j m aw.2, aw.2 * w_m).

Lemma fft_block_loopP a k m w_m J : (0 < m)%N -> (k + 2 * m <= size a)%N -> (J <= m)%N ->
   let r := foldl (block_step k m w_m) (a, 1) (iota 0 J) in
   [/\ size r.1 = size a, r.2 = w_m ^+ J & forall i, r.1`_i =
    if (k <= i < k + J)%N then a`_i + a`_(i + m) * w_m ^+ (i - k)
    else if (k + m <= i < k + m + J)%N then a`_(i - m) - a`_i * w_m ^+ (i - m - k)
    else a`_i].
Proof.
move=> Hm Hs; elim: J => [|J IH] HJ.
  split=> // i; rewrite !addn0.
  case: ifP => [/andP [A B]|_]; first by have := leq_ltn_trans A B; rewrite ltnn.
  by case: ifP => [/andP [A B]|_] //; have := leq_ltn_trans A B; rewrite ltnn.
rewrite foldl_iotaS; have [IHs IHw IHn] := IH (ltnW HJ).
set r := foldl _ _ _ in IHs IHw IHn *; rewrite /= IHw.
have Hsz : (k + J + m < size r.1)%N.
  rewrite IHs (leq_trans _ Hs) // mul2n -addnn -addnA ltn_add2l.
  by rewrite ltn_add2r.
have [Bs Bn] := butterflyP (w_m ^+ J) Hm Hsz.
split; rewrite ?Bs ?exprSr // => i; rewrite Bn !IHn.
have E1 : (k <= k + J < k + J)%N = false by rewrite ltnn andbF.
have E2 : (k + m <= k + J < k + m + J)%N = false.
  by rewrite leq_add2l [(m <= J)%N]leqNgt HJ.
have E3 : (k <= k + J + m < k + J)%N = false.
  by rewrite [(_ < k + J)%N]ltnNge leq_addr andbF.
have E4 : (k + m <= k + J + m < k + m + J)%N = false.
  by rewrite [(k + m + J)%N]addnAC ltnn andbF.
rewrite E1 E2 E3 E4.
case: (eqVneq i (k + J)%N) => [->|N1].
  by rewrite leq_addr ltn_add2l ltnSn /= addKn.
case: (eqVneq i (k + J + m)%N) => [->|N2].
  rewrite [(_ < k + J.+1)%N]ltnNge addnS -addnA.
  have -> : (k + J < k + (J + m))%N by rewrite ltn_add2l -{1}[J]addn0 ltn_add2l.
  rewrite /= andbF leq_add2l leq_addl /= addnS ltnS -addnA [(m + J)%N]addnC leqnn.
  by rewrite addnA addnK addKn.
rewrite !addnS !ltnS [(i <= k + J)%N]leq_eqVlt [(i <= k + m + J)%N]leq_eqVlt (negPf N1) /=.
by rewrite [(k + m + J)%N]addnAC (negPf N2).
Qed.

Lemma fft_blockP a k m w_m : (0 < m)%N -> (k + 2 * m <= size a)%N ->
  size (fft_block a k m w_m) = size a /\
  forall i, (fft_block a k m w_m)`_i =
    if (k <= i < k + m)%N then a`_i + a`_(i + m) * w_m ^+ (i - k)
    else if (k + m <= i < k + 2 * m)%N then a`_(i - m) - a`_i * w_m ^+ (i - m - k)
    else a`_i.
Proof.
move=> Hm Hs; have [A _ C] := fft_block_loopP w_m Hm Hs (leqnn m).
split=> // i; rewrite -[fft_block _ _ _ _]/((foldl (block_step k m w_m) (a, 1) (iota 0 m)).1) C.
by rewrite mul2n -addnn addnA.
Qed.

(** The value at position [i] after one stage. *)
Definition stage_fun (f : nat -> F) (m : nat) (w_m : F) (i : nat) : F :=
  let j := (i %% (2 * m))%N in
  if (j < m)%N then f i + f (i + m)%N * w_m ^+ j
  else f (i - m)%N - f i * w_m ^+ (j - m).

Lemma fft_stage_loopP a m w_m B K : (0 < m)%N -> size a = (B * (2 * m))%N -> (K <= B)%N ->
   let r := foldl (fun a b => fft_block a (b * (2 * m)) m w_m) a (iota 0 K) in
   size r = size a /\ forall i, r`_i =
     if (i < K * (2 * m))%N then stage_fun (nth 0 a) m w_m i else a`_i.
Proof.
move=> Hm Hs; have H2m : (0 < 2 * m)%N by rewrite muln_gt0.
set st := fun (a : seq F) b => _.
elim: K => [|K IH] HK; first by [].
rewrite foldl_iotaS; have [IHs IHn] := IH (ltnW HK).
set r := foldl st _ _ in IHs IHn *; rewrite /=.
set k := (K * (2 * m))%N in IHn *.
have Hsz : (k + 2 * m <= size r)%N.
  by rewrite IHs Hs /k -(mulSnr K) leq_mul2r HK orbT.
have [Bs Bn] := fft_blockP w_m Hm Hsz.
split; rewrite ?Bs // => i; rewrite /st -/k Bn !IHn (mulSnr K) -/k.
case: (ltnP i k) => Hik /=.
  by rewrite (leq_trans Hik (leq_addr _ _)) leqNgt (leq_trans Hik (leq_addr _ _)).
have Hmod : (i < k + 2 * m)%N -> (i %% (2 * m))%N = (i - k)%N.
  move=> H; rewrite -{1}(subnKC Hik) /k modnMDl modn_small // ltn_subLR //.
case: (ltnP i (k + m)%N) => Hi2 /=.
  have H2 : (i < k + 2 * m)%N by apply: leq_trans Hi2 _; rewrite leq_add2l leq_pmull.
  rewrite H2 /stage_fun Hmod // ltn_subLR // Hi2.
  by rewrite ltnNge (leq_trans Hik (leq_addr _ _)).
case: ifP => // H2; rewrite /stage_fun Hmod //.
have -> : (i - m < k)%N = false.
  by rewrite ltn_subLR ?(leq_trans (leq_addl k m) Hi2) // addnC ltnNge Hi2.
have -> : (i - k < m)%N = false by rewrite ltn_subLR // ltnNge Hi2.
by rewrite subnAC.
Qed.

Lemma stage_blocks a m B : (0 < m)%N -> size a = (B * (2 * m))%N ->
  ceil_div (size a) (2 * m) = B.
Proof. by move=> Hm Hs; rewrite /ceil_div Hs mulnK ?muln_gt0 // modnMl addn0. Qed.

Lemma fft_stageP a m w_m B : (0 < m)%N -> size a = (B * (2 * m))%N ->
  size (fft_stage a (size a) m w_m) = size a /\
  forall i, (i < size a)%N ->
    (fft_stage a (size a) m w_m)`_i = stage_fun (nth 0 a) m w_m i.
Proof.
move=> Hm Hs; rewrite /fft_stage (stage_blocks Hm Hs).
have [A C] := fft_stage_loopP w_m Hm Hs (leqnn B).
by split=> // i Hi; rewrite C -Hs Hi.
Qed.

(** * The whole transform *)
Lemma big_even_odd (G : nat -> F) n :
  \sum_(0 <= t < 2 * n) G t = \sum_(0 <= t < n) (G (2 * t)%N + G (2 * t + 1)%N).
Proof.
elim: n => [|n IH]; first by rewrite muln0 !big_geq.
by rewrite mulnS !big_nat_recr //= IH addn1 -addrA.
Qed.

(** Position [i] after [s] stages. *)
Definition partial_dft (f : nat -> F) omega (L s i : nat) : F :=
  \sum_(0 <= t < 2 ^ s) f (brev (L - s) (i %/ 2 ^ s) + t * 2 ^ (L - s))%N *
     omega ^+ (2 ^ (L - s) * (i %% 2 ^ s) * t).

Lemma partial_dft_step f omega L s i : (s < L)%N ->
  omega ^+ (2 ^ L.-1) = -1 ->
  stage_fun (partial_dft f omega L s) (2 ^ s) (omega ^+ (2 ^ (L - s.+1))) i
  = partial_dft f omega L s.+1 i.
Proof.
move=> HsL Hw; rewrite /stage_fun.
have Hw1 : omega ^+ (2 ^ L) = 1.
  have -> : (2 ^ L = 2 ^ L.-1 * 2)%N by rewrite -expnSr prednK // (leq_ltn_trans _ HsL).
  by rewrite exprM Hw sqrrN expr1n.
set m := (2 ^ s)%N; set e := (2 ^ (L - s.+1))%N.
have Hm : (0 < m)%N by rewrite expn_gt0.
have HLs : (L - s = (L - s.+1).+1)%N by rewrite -subSn // subSS.
have Hem : (2 ^ L.-1 = e * m)%N.
  by rewrite /e /m -expnD; congr (2 ^ _)%N; rewrite -(subnK HsL) addnK addnS.
have Hem2 : (2 ^ L = 2 * e * m)%N.
  by rewrite -mulnA -Hem -expnS prednK // (leq_ltn_trans _ HsL).
set b := (i %/ (2 * m))%N; set j := (i %% (2 * m))%N.
have Hi : i = (b * (2 * m) + j)%N by apply: divn_eq.
have Hj : (j < 2 * m)%N by rewrite ltn_mod muln_gt0.
have H1 : forall j' c, (j' < m)%N -> (c < 2)%N ->
   partial_dft f omega L s (b * (2 * m) + c * m + j') =
   \sum_(0 <= t < m) f (brev (L - s.+1) b + (2 * t + c) * e)%N * omega ^+ (2 * e * j' * t).
  move=> j' c Hj' Hc; rewrite /partial_dft -/m.
  have -> : (b * (2 * m) + c * m + j' = (2 * b + c) * m + j')%N.
    by rewrite mulnDl mulnCA mulnA.
  rewrite divnMDl // (divn_small Hj') addn0 modnMDl (modn_small Hj').
  apply: eq_bigr => t _; rewrite HLs expnS -/e; congr (f _ * _).
  case: c Hc => [|[|//]] _; first by rewrite !addn0 brev_double mulnA [(t * 2)%N]mulnC.
  by rewrite brev_doubleS -/e -addnA mulnDl mul1n mulnA [(t * 2)%N]mulnC [(e + _)%N]addnC.
rewrite [partial_dft f omega L s.+1 i]/partial_dft expnS -/m -/b -/j big_even_odd big_split /= -/e.
have Hexp : forall j' t, omega ^+ (e * j' * (2 * t)) = omega ^+ (2 * e * j' * t).
  by move=> j' t; congr (_ ^+ _); rewrite mulnCA !mulnA.
case: (ltnP j m) => Hjm.
  have := H1 j 0%N Hjm isT; rewrite mul0n addn0 -Hi => ->.
  have := H1 j 1%N Hjm isT; rewrite mul1n addnAC -Hi => ->.
  congr (_ + _); first by apply: eq_bigr => t _; rewrite addn0 Hexp.
  rewrite mulr_suml; apply: eq_bigr => t _; rewrite -mulrA; congr (_ * _).
  by rewrite -[omega ^+ e ^+ j]exprM mulnDr muln1 exprD Hexp.
have Hjm2 : (j - m < m)%N by rewrite ltn_subLR // addnn -mul2n.
have := H1 _ 0%N Hjm2 isT; rewrite mul0n addn0 addnBA // -Hi => ->.
have := H1 _ 1%N Hjm2 isT; rewrite mul1n -addnA subnKC // -Hi => ->.
congr (_ + _).
  apply: eq_bigr => t _; rewrite addn0 Hexp; congr (_ * _).
  rewrite -{2}(subnK Hjm) mulnDr mulnDl exprD -Hem2 [omega ^+ (2 ^ L * t)]exprM Hw1.
  by rewrite expr1n mulr1.
rewrite mulr_suml -sumrN; apply: eq_bigr => t _; rewrite -mulrA -mulrN; congr (_ * _).
rewrite -[omega ^+ e ^+ _]exprM mulnDr muln1 exprD Hexp.
rewrite -[in RHS](subnK Hjm) !mulnDr mulnDl !exprD -Hem2 [omega ^+ (2 ^ L * t)]exprM Hw1.
by rewrite expr1n mulr1 -Hem Hw !mulrN1 mulrN.
Qed.

Definition dft (f : nat -> F) omega (n i : nat) : F := \sum_(0 <= t < n) f t * omega ^+ (i * t).

Lemma stage_fun_ext f g m w i n : (forall k, (k < n)%N -> f k = g k) ->
  (0 < m)%N -> (2 * m %| n)%N -> (i < n)%N ->
  stage_fun f m w i = stage_fun g m w i.
Proof.
move=> H Hm Hd Hi; rewrite /stage_fun; case: ltnP => Hj.
  rewrite !H //.
  case/dvdnP: Hd => B HB; rewrite (divn_eq i (2 * m)).
  have Hb : (i %/ (2 * m) < B)%N by rewrite ltn_divLR ?muln_gt0 // -HB.
  rewrite HB (@leq_trans ((i %/ (2 * m)).+1 * (2 * m))%N) ?leq_mul2r ?Hb ?orbT //.
  by rewrite (mulSnr (i %/ _)) -addnA ltn_add2l [X in (_ < X)%N]mul2n -addnn ltn_add2r.
by rewrite !H // (leq_ltn_trans (leq_subr _ _)).
Qed.

Lemma serial_fftP a omega L : size a = (2 ^ L)%N ->
  (0 < L)%N ==> (omega ^+ (2 ^ L.-1) == -1) ->
  serial_fft a omega L = Ok (mkseq (dft (nth 0 a) omega (2 ^ L)) (2 ^ L)).
Proof.
move=> Hs Hw; rewrite /serial_fft Hs eqxx; congr Ok.
rewrite bit_reverse_permuteP //.
set a0 := mkseq _ _; set st := fun (am : seq F * nat) (_ : nat) => _.
have H : forall s, (s <= L)%N ->
   let r := foldl st (a0, 1%N) (iota 0 s) in
   [/\ size r.1 = (2 ^ L)%N, r.2 = (2 ^ s)%N & forall i, (i < 2 ^ L)%N ->
       r.1`_i = partial_dft (nth 0 a) omega L s i].
  elim=> [|s IH] HsL.
    split=> //; first by rewrite size_mkseq.
    move=> i Hi; rewrite nth_mkseq // /partial_dft expn0 big_nat1 divn1 modn1.
    by rewrite mul0n addn0 subn0 !muln0 mulr1.
  rewrite foldl_iotaS; have [IHs IHm IHn] := IH (ltnW HsL).
  set r := foldl st _ _ in IHs IHm IHn *; rewrite /= IHm.
  have HL : (2 ^ L = 2 ^ (L - s.+1) * (2 * 2 ^ s))%N.
    by rewrite -expnS -expnD subnK.
  have -> : (2 ^ L %/ (2 * 2 ^ s) = 2 ^ (L - s.+1))%N.
    by rewrite HL mulnK // muln_gt0 expn_gt0.
  rewrite -IHs.
  have Hsz : size r.1 = (2 ^ (L - s.+1) * (2 * 2 ^ s))%N by rewrite IHs.
  have [Bs Bn] := fft_stageP (omega ^+ (2 ^ (L - s.+1))) (expn_gt0 2 s : 0 < 2 ^ s)%N Hsz.
  split; rewrite ?Bs //; first by rewrite expnSr.
  move=> i Hi; have Hi2 : (i < 2 ^ L)%N by rewrite -IHs.
  rewrite Bn ?IHs //.
  rewrite (@stage_fun_ext _ (partial_dft (nth 0 a) omega L s) _ _ _ (2 ^ L)) //.
  - rewrite partial_dft_step //; apply/eqP; move/implyP: Hw; apply.
    exact: leq_ltn_trans HsL.
  - by rewrite expn_gt0.
  - by rewrite HL dvdn_mull.
have [A _ C] := H _ (leqnn L).
apply: (@eq_from_nth _ 0); first by rewrite A size_mkseq.
rewrite A => i Hi; rewrite C // nth_mkseq // /partial_dft /dft subnn.
apply: eq_bigr => t _; rewrite divn_small //= muln1 add0n.
by rewrite mul1n modn_small.
Qed.

(** * Sparse stages of the low degree extension *)
Lemma butterfly_sparseP a k j m f step w : (0 < m)%N -> (k + j + m < size a)%N ->
  (~~ is_non_zero (k + j) f step -> a`_(k + j) = 0) ->
  (~~ is_non_zero (k + j + m) f step -> a`_(k + j + m) = 0) ->
  butterfly_sparse a k j m f step w = butterfly a k j m w.
Proof.
move=> Hm Hs Z1 Z2; rewrite /butterfly_sparse /butterfly.
have Hs2 : (k + j < size a)%N by apply: leq_ltn_trans Hs; rewrite leq_addr.
have Hne : (k + j)%N == (k + j + m)%N = false.
  by apply/eqP => E; move: Hm; rewrite -(ltn_add2l (k + j)) -E addn0 ltnn.
have Hid : forall i x, (i < size a)%N -> a`_i = x -> set_nth 0 a i x = a.
  move=> i x Hi Hx; apply: (@eq_from_nth _ 0); first by rewrite size_set_nth (maxn_idPr Hi).
  by move=> l _; rewrite nth_set_nth /=; case: eqP => // ->.
case E1: (is_non_zero (k + j + m) f step) Z2 => Z2; case E2: (is_non_zero (k + j) f step) Z1 => Z1 //=.
- by rewrite nth_set_nth /= Hne (Z1 isT) !add0r.
- rewrite (Z2 isT) mul0r subr0 addr0 nth_set_nth /= Hne.
  apply: (@eq_from_nth _ 0) => [|l _]; rewrite ?size_set_nth.
    by rewrite (maxn_idPr Hs) (maxn_idPr Hs2).
  by rewrite !nth_set_nth /= ?nth_set_nth /=; case: (l =P (k + j)%N) => [->|//]; rewrite Hne.
rewrite (Z2 isT) mul0r subr0 addr0 nth_set_nth /= Hne (Z1 isT).
by rewrite (Hid _ 0) // ?(Hid _ 0) // ?Z1 // Z2.
Qed.

Lemma lde_blockP a k m f step w_m : (0 < m)%N -> (k + 2 * m <= size a)%N ->
  (forall i, (k <= i < k + 2 * m)%N -> ~~ is_non_zero i f step -> a`_i = 0) ->
  lde_block a k m f step w_m = fft_block a k m w_m.
Proof.
move=> Hm Hs Z; rewrite /lde_block /fft_block; congr fst.
set st := fun (aw : seq F * F) j => _.
suff H : forall J, (J <= m)%N ->
  foldl st (a, 1) (iota 0 J) = foldl (block_step k m w_m) (a, 1) (iota 0 J) by rewrite H.
elim=> [|J IH] HJ //.
rewrite !foldl_iotaS IH ?(ltnW HJ) //.
have [A B C] := fft_block_loopP w_m Hm Hs (ltnW HJ).
set r := foldl _ _ _ in A B C *; rewrite /st /block_step butterfly_sparseP //.
- rewrite A (leq_trans _ Hs) // mul2n -addnn -addnA ltn_add2l.
  by rewrite ltn_add2r.
- move=> H; rewrite C leq_addr ltnn /= leq_add2l [(m <= J)%N]leqNgt HJ /= Z //.
  by rewrite leq_addr /= ltn_add2l (leq_trans HJ) // leq_pmull.
- move=> H; rewrite C [(_ < k + J)%N]ltnNge leq_addr andbF.
  rewrite [(k + m + J)%N]addnAC ltnn andbF Z //.
  by rewrite -addnA leq_addr /= ltn_add2l mul2n -addnn ltn_add2r.
Qed.

Lemma lde_stageP a m f step w_m B : (0 < m)%N -> size a = (B * (2 * m))%N ->
  (~~ is_dense_round f step -> forall i, (i < size a)%N -> ~~ is_non_zero i f step -> a`_i = 0) ->
  lde_stage a (size a) m f step w_m = fft_stage a (size a) m w_m.
Proof.
move=> Hm Hs Z; rewrite /lde_stage; case: ifP => // /negbT /Z {}Z.
rewrite /fft_stage (stage_blocks Hm Hs).
set st := fun (a : seq F) b => _; set st2 := fun (a : seq F) b => _.
suff H : forall K, (K <= B)%N -> foldl st a (iota 0 K) = foldl st2 a (iota 0 K) by rewrite H.
elim=> [|K IH] HK //.
rewrite !foldl_iotaS IH ?(ltnW HK) //.
have [A C] := fft_stage_loopP w_m Hm Hs (ltnW HK).
set r := foldl _ _ _ in A C *; rewrite /st /st2 lde_blockP //.
  by rewrite A Hs -(mulSnr K) leq_mul2r HK orbT.
move=> i /andP [H1 H2]; rewrite C ltnNge H1 /= => /Z; apply.
by rewrite Hs (leq_trans H2) // -(mulSnr K) leq_mul2r HK orbT.
Qed.

Lemma brev_lowbits L e i : (e <= L)%N -> (brev L i < 2 ^ (L - e))%N -> (i %% 2 ^ e = 0)%N.
Proof.
elim: e L i => [|e IH] [|L] i; rewrite ?expn0 ?modn1 // ltnS => HeL.
rewrite subSS brevS => H.
have Hlt := leq_ltn_trans (leq_addr _ _) H.
have Hle : (2 ^ (L - e) <= 2 ^ L)%N by rewrite leq_exp2l // leq_subr.
have : (i %% 2 < 2)%N by rewrite ltn_mod.
case E: (i %% 2)%N Hlt => [|[|//]] Hlt _; last first.
  by move: Hlt; rewrite mul1n ltnNge Hle.
have := leq_ltn_trans (leq_addl _ _) H => /(IH _ _ HeL) E2.
rewrite expnS (divn_eq i 2) E addn0 [(_ * 2)%N]mulnC -muln_modr E2 muln0 //.
Qed.

Lemma div_pow2 e s : (s <= e)%N -> (2 ^ e %/ 2 ^ s = 2 ^ (e - s))%N.
Proof. by move=> H; rewrite -{1}(subnK H) expnD mulnK // expn_gt0. Qed.

Lemma dense_roundP e s : is_dense_round (2 ^ e) s = (e <= s)%N.
Proof.
rewrite /is_dense_round; case: (leqP e s) => H.
  apply: leq_trans (leq_div2r _ (_ : 2 ^ e <= 2 ^ s)%N) _; first by rewrite leq_exp2l.
  by rewrite divnn; case: (0 < _)%N.
by rewrite div_pow2 ?(ltnW H) //; apply/negbTE; rewrite -ltnNge -{1}(expn0 2) ltn_exp2l // subn_gt0.
Qed.

Lemma serial_ldeP a omega L e : size a = (2 ^ L)%N -> (e <= L)%N ->
  (forall i, (2 ^ (L - e) <= i < 2 ^ L)%N -> a`_i = 0) ->
  serial_lde a omega L (2 ^ e) = serial_fft a omega L.
Proof.
move=> Hs HeL Z; rewrite /serial_lde /serial_fft Hs eqxx; congr Ok.
rewrite bit_reverse_permuteP //.
set a0 := mkseq _ _; set st := fun (am : seq F * nat) (_ : nat) => _.
set st2 := fun (am : seq F * nat) (_ : nat) => _.
suff H : forall s, (s <= L)%N ->
   let r := foldl st2 (a0, 1%N) (iota 0 s) in
   [/\ foldl st (a0, 1%N) (iota 0 s) = r, size r.1 = (2 ^ L)%N, r.2 = (2 ^ s)%N &
       (s <= e)%N -> forall i, (i < 2 ^ L)%N -> (2 ^ s <= i %% 2 ^ e)%N -> r.1`_i = 0].
  by have [-> _ _ _] := H _ (leqnn L).
elim=> [|s IH] HsL.
  split=> //; first by rewrite size_mkseq.
  move=> _ i Hi; rewrite expn0 => H; rewrite nth_mkseq // Z // brev_lt andbT leqNgt.
  by apply/negP => /(brev_lowbits HeL) E; rewrite E in H.
rewrite !foldl_iotaS; have [-> IHs IHm IHz] := IH (ltnW HsL).
set r := foldl st2 _ _ in IHs IHm IHz *; rewrite /st /st2 /= IHm.
have HL : (2 ^ L = 2 ^ (L - s.+1) * (2 * 2 ^ s))%N.
  by rewrite -expnS -expnD subnK.
have Hsz : size r.1 = (2 ^ (L - s.+1) * (2 * 2 ^ s))%N by rewrite IHs.
have H0 : (0 < 2 ^ s)%N by rewrite expn_gt0.
rewrite -IHs (lde_stageP _ H0 Hsz); last first.
  rewrite dense_roundP -ltnNge => Hse i Hi; rewrite /is_non_zero -leqNgt => Hnz.
  by apply: (IHz (ltnW Hse)); rewrite -?IHs.
set w := (_ ^+ _).
have [Bs Bn] := fft_stageP w H0 Hsz.
split=> //; first by rewrite expnSr.
move=> Hse i Hi Hz; rewrite Bn //.
rewrite IHs in Hi.
set m := (2 ^ s)%N in HL Hsz H0 Bs Bn *.
have H2m : (2 ^ s.+1 = 2 * m)%N by rewrite expnS.
have [q Hq] : exists q, (2 ^ e = q * (2 * m))%N.
  by exists (2 ^ (e - s.+1))%N; rewrite -H2m -expnD subnK.
have He : (0 < 2 ^ e)%N by rewrite expn_gt0.
have {}IHz := IHz (ltnW Hse).
have Hd : forall i, (i %% 2 ^ e %% (2 * m) = i %% (2 * m))%N.
  by move=> x; rewrite modn_dvdm // Hq dvdn_mull.
have Zi : r.1`_i = 0 by apply: IHz => //; rewrite (leq_trans _ Hz) // leq_exp2l.
rewrite /stage_fun; case: ltnP => Hj.
  rewrite Zi add0r IHz ?mul0r //.
    rewrite HL (divn_eq i (2 * m)).
    have Hb : (i %/ (2 * m) < 2 ^ (L - s.+1))%N by rewrite ltn_divLR ?muln_gt0 // -HL.
    apply: (@leq_trans ((i %/ (2 * m)).+1 * (2 * m))%N); last by rewrite leq_mul2r Hb orbT.
    by rewrite (mulSnr (i %/ _)) -addnA ltn_add2l [X in (_ < X)%N]mul2n -addnn ltn_add2r.
  rewrite -modnDml modn_small.
    by rewrite (leq_trans _ (leq_addr _ _)) // (leq_trans _ Hz) // leq_exp2l.
  have := ltn_mod i (2 ^ e); rewrite He.
  set x := (i %% 2 ^ e)%N in Hz *; rewrite Hq => Hx.
  have Hxm : (x %% (2 * m) < m)%N by rewrite Hd.
  rewrite (divn_eq x (2 * m)).
  have Hb : (x %/ (2 * m) < q)%N by rewrite ltn_divLR ?muln_gt0.
  apply: (@leq_trans ((x %/ (2 * m)).+1 * (2 * m))%N); last by rewrite leq_mul2r Hb orbT.
  by rewrite (mulSnr (x %/ _)) -addnA ltn_add2l [X in (_ < X)%N]mul2n -addnn ltn_add2r.
rewrite Zi mul0r subr0 IHz ?(leq_ltn_trans (leq_subr _ _)) //.
have Hmi : (m <= i)%N by apply: leq_trans Hj (leq_mod _ _).
have E : (i - m = i %/ 2 ^ e * 2 ^ e + (i %% 2 ^ e - m))%N.
  rewrite addnBA -?divn_eq // (leq_trans _ Hz) // leq_exp2l //.
rewrite E modnMDl modn_small; last by rewrite (leq_ltn_trans (leq_subr _ _)) // ltn_mod.
by rewrite -/m leq_subRL ?(leq_trans _ Hz) ?leq_exp2l // addnn -mul2n -H2m.
Qed.

(** * The parallel transform *)
Definition fft_root omega L := (0 < L)%N ==> (omega ^+ (2 ^ L.-1) == -1).

Lemma fft_root_order omega L j : fft_root omega L -> (L == 0%N) ==> (j == 0%N) ->
  omega ^+ (j * 2 ^ L) = 1.
Proof.
case: L => [|L] /=; first by move=> _ /eqP ->.
rewrite /fft_root /= => /eqP H _.
by rewrite expnS mulnA mulnC exprM H mulnC exprM sqrrN !expr1n.
Qed.

Lemma shuffleP (keep : pred nat) a omega L c j : (c <= L)%N -> fft_root omega L ->
  (j < 2 ^ c)%N ->
  (forall idx, (idx < 2 ^ L)%N -> ~~ keep idx -> a`_idx = 0) ->
  shuffle keep a omega L (L - c) (2 ^ c) j =
  mkseq (fun i => \sum_(0 <= s < 2 ^ c) a`_(i + s * 2 ^ (L - c)) *
                    omega ^+ (j * (i + s * 2 ^ (L - c)))) (2 ^ (L - c)).
Proof.
move=> HcL Hw Hj Hk; rewrite /shuffle.
set n' := (2 ^ (L - c))%N; set C := (2 ^ c)%N.
have HL : (2 ^ L = n' * C)%N by rewrite -expnD subnK.
have Hord : omega ^+ (j * 2 ^ L) = 1.
  by apply: fft_root_order => //; apply/implyP => /eqP E; move: HcL Hj; rewrite E leqn0 => /eqP ->; case: j.
set st := fun (te : seq F * F) i => _.
suff H : forall I, (I <= n')%N ->
  foldl st ([::], 1) (iota 0 I) =
  (mkseq (fun i => \sum_(0 <= s < C) a`_(i + s * n') * omega ^+ (j * (i + s * n'))) I,
   omega ^+ (j * I)) by rewrite H.
elim=> [|I IH] HI; first by rewrite muln0.
rewrite foldl_iotaS IH ?(ltnW HI) // /st /=.
set se := fun (se : F * F) s => _.
have H : forall S, (S <= C)%N ->
  foldl se (0, omega ^+ (j * I)) (iota 0 S) =
  (\sum_(0 <= s < S) a`_(I + s * n') * omega ^+ (j * (I + s * n')),
   omega ^+ (j * (I + S * n'))).
  elim=> [|S IHS] HS; first by rewrite big_geq // mul0n addn0.
  rewrite foldl_iotaS IHS ?(ltnW HS) // /se /=.
  have Hidx : (I + S * n' < 2 ^ L)%N.
    rewrite HL (@leq_trans (n' + S * n')) ?ltn_add2r // -mulSn mulnC leq_mul2l HS orbT //.
  rewrite modn_small // big_nat_recr //=; congr (_, _).
    by case: ifP => // /negbT /(Hk _ Hidx) ->; rewrite mul0r addr0.
  by rewrite -exprD -mulnDr -addnA mulSnr.
rewrite H //= ; congr (_, _).
  by rewrite /mkseq iotaSr map_rcons.
rewrite [(C * n')%N]mulnC -HL mulnDr exprD Hord mulr1 -exprD mulnS addnC //.
Qed.

Lemma dft_ext f g omega n i : (forall t, (t < n)%N -> f t = g t) ->
  dft f omega n i = dft g omega n i.
Proof. by move=> H; apply: eq_big_nat => t /H ->. Qed.

(** The sum over the whole array split by columns. *)
Lemma big_split_columns (G : nat -> F) n' C :
  \sum_(0 <= i < n') \sum_(0 <= s < C) G (i + s * n')%N = \sum_(0 <= t < n' * C) G t.
Proof.
rewrite exchange_big /=; elim: C => [|C IH]; first by rewrite muln0 !big_geq.
rewrite big_nat_recr //= IH mulnS addnC [in RHS](@big_cat_nat _ _ _ (n' * C)%N) //= ?leq_addr //.
congr (_ + _).
rewrite -{1}[(n' * C)%N]add0n big_addn addKn.
by apply: eq_bigr => i _; rewrite [(C * n')%N]mulnC.
Qed.

Lemma dft_columns a omega L c j k : (c <= L)%N -> fft_root omega L -> (k < 2 ^ (L - c))%N ->
  dft (nth 0 (mkseq (fun i => \sum_(0 <= s < 2 ^ c) a`_(i + s * 2 ^ (L - c)) *
                    omega ^+ (j * (i + s * 2 ^ (L - c)))) (2 ^ (L - c))))
      (omega ^+ (2 ^ c)) (2 ^ (L - c)) k
  = dft (nth 0 a) omega (2 ^ L) (k * 2 ^ c + j).
Proof.
move=> HcL Hw Hk; rewrite /dft.
set n' := (2 ^ (L - c))%N in Hk *; set C := (2 ^ c)%N.
have HL : (2 ^ L = n' * C)%N by rewrite -expnD subnK.
rewrite [in RHS]HL -big_split_columns; apply: eq_big_nat => i /andP [_ Hi].
rewrite nth_mkseq // mulr_suml; apply: eq_bigr => s _; rewrite -mulrA; congr (_ * _).
rewrite -exprM mulnDl [in RHS]exprD mulrC; congr (_ * _).
rewrite mulnDr exprD.
have -> : (k * C * (s * n') = (s * k) * 2 ^ L)%N.
  by rewrite HL [(s * k)%N]mulnC -!mulnA; congr (_ * _)%N; rewrite mulnCA; congr (_ * _)%N; rewrite mulnC.
rewrite fft_root_order ?mulr1 1?mulnCA ?mulnA //.
apply/implyP => /eqP E; move: Hk; rewrite /n' E sub0n expn0 ltnS leqn0 => /eqP ->.
by rewrite muln0.
Qed.

Lemma unshuffleP (w : worker) a (tmp : seq (seq F)) c : (0 < w)%N ->
  unshuffle w a tmp c =
  mkseq (fun idx => nth 0 (nth [::] tmp (idx %% 2 ^ c)) (idx %/ 2 ^ c)) (size a).
Proof.
move=> Hw; rewrite /unshuffle.
rewrite (@par_chunks_mapi _ _ _ _
  (fun idx _ => nth 0 (nth [::] tmp (idx %% 2 ^ c)) (idx %/ 2 ^ c))) //.
  by rewrite (mapi_as_mkseq _ _ 0).
move=> i k s.
by rewrite (@mapacc_geo _ _ _ _ id (fun idx _ => nth 0 (nth [::] tmp (idx %% 2 ^ c)) (idx %/ 2 ^ c))).
Qed.

Lemma fft_root_sub omega L c : (c <= L)%N -> fft_root omega L ->
  fft_root (omega ^+ (2 ^ c)) (L - c).
Proof.
move=> HcL Hw; apply/implyP; rewrite subn_gt0 => H.
move/implyP: Hw; rewrite (leq_ltn_trans _ H) // => /(_ isT).
rewrite -exprM -expnD; suff -> : (c + (L - c).-1 = L.-1)%N by [].
have Hc : (c <= L.-1)%N by rewrite -ltnS prednK // (leq_ltn_trans _ H).
by rewrite -[RHS](subnKC Hc) -!subn1 subnAC.
Qed.

Lemma parallel_fftP a (w : worker) omega L c : (0 < w)%N -> (c <= L)%N -> size a = (2 ^ L)%N ->
  fft_root omega L ->
  parallel_fft a w omega L c = Ok (mkseq (dft (nth 0 a) omega (2 ^ L)) (2 ^ L)).
Proof.
move=> Hw HcL Hs Hr; rewrite /parallel_fft HcL Hs leqnn.
rewrite -[iota 0 (2 ^ c)]map_id.
rewrite (@mapM_mkseq _ _ _ id (fun j =>
   mkseq (fun k => dft (nth 0 a) omega (2 ^ L) (k * 2 ^ c + j)) (2 ^ (L - c)))).
  rewrite /= unshuffleP // Hs; congr Ok.
  apply: (@eq_from_nth _ 0); first by rewrite !size_mkseq.
  rewrite size_mkseq => i Hi; rewrite !nth_mkseq ?ltn_mod ?expn_gt0 //; first by rewrite -divn_eq.
  by rewrite ltn_divLR ?expn_gt0 // -expnD subnK.
move=> j Hj; rewrite shuffleP // serial_fftP ?size_mkseq //; last exact: fft_root_sub.
congr Ok; apply: (@eq_from_nth _ 0); first by rewrite !size_mkseq.
by rewrite size_mkseq => k Hk; rewrite !nth_mkseq // dft_columns.
Qed.

(** * The low degree extension *)
Lemma parallel_ldeP a (w : worker) omega L c e : (0 < w)%N -> (c <= L)%N -> (e <= L)%N ->
  size a = (2 ^ L)%N ->
  (forall i, (2 ^ (L - e) <= i < 2 ^ L)%N -> a`_i = 0) ->
  fft_root omega L ->
  parallel_lde a w omega L c (2 ^ e) = Ok (mkseq (dft (nth 0 a) omega (2 ^ L)) (2 ^ L)).
Proof.
move=> Hw HcL HeL Hs Z Hr; rewrite /parallel_lde HcL Hs leqnn.
rewrite -[iota 0 (2 ^ c)]map_id.
rewrite (@mapM_mkseq _ _ _ id (fun j =>
   mkseq (fun k => dft (nth 0 a) omega (2 ^ L) (k * 2 ^ c + j)) (2 ^ (L - c)))).
  rewrite /= unshuffleP // Hs; congr Ok.
  apply: (@eq_from_nth _ 0); first by rewrite !size_mkseq.
  rewrite size_mkseq => i Hi; rewrite !nth_mkseq ?ltn_mod ?expn_gt0 //; first by rewrite -divn_eq.
  by rewrite ltn_divLR ?expn_gt0 // -expnD subnK.
move=> j Hj; rewrite shuffleP //; last first.
  by move=> idx Hidx; rewrite div_pow2 // -leqNgt => H; rewrite Z // H.
set t := mkseq _ _.
have Hdft : Ok (mkseq (dft (nth 0 t) (omega ^+ (2 ^ c)) (2 ^ (L - c))) (2 ^ (L - c))) =
   Ok (mkseq (fun k => dft (nth 0 a) omega (2 ^ L) (k * 2 ^ c + j)) (2 ^ (L - c))).
  congr Ok; apply: (@eq_from_nth _ 0); first by rewrite !size_mkseq.
  by rewrite size_mkseq => k Hk; rewrite !nth_mkseq // dft_columns.
have Ht : size t = (2 ^ (L - c))%N by rewrite size_mkseq.
have Hr2 := fft_root_sub HcL Hr.
have := dense_roundP e c; rewrite /is_dense_round => ->.
case: (leqP e c) => Hec; first by rewrite serial_fftP.
rewrite div_pow2; last exact: ltnW.
rewrite serial_ldeP ?serial_fftP // ?leq_sub2r //.
move=> i /andP [H1 H2]; rewrite /t nth_mkseq //; apply: big1_seq => s; rewrite mem_index_iota => /= Hs'.
rewrite Z ?mul0r //; apply/andP; split.
  apply: leq_trans (leq_addr _ _); apply: leq_trans H1; rewrite leq_exp2l //.
  by rewrite subnBA ?(ltnW Hec) // subnK.
apply: (@leq_trans (2 ^ (L - c) + s * 2 ^ (L - c))); first by rewrite ltn_add2r.
by rewrite -mulSn -{2}(subnK HcL) expnD mulnC leq_mul2l Hs' orbT.
Qed.
End Fft.
