(** The alternative FFT kernels compute the discrete Fourier transform. *)
From Coq Require Import ArithRing.

Lemma twiddle_std (e m c' j t c : nat) :
  e * (c' * m + j) * (4 * t + c) =
   (4 * e * j * t + ((e * j) * c + (e * m) * (c * c'))) + (e * m) * 4 * (c' * t).
Proof. ring. Qed.

From mathcomp Require Import all_ssreflect all_algebra.
From Verif Require Import M_Base M_Worker M_Fft M_FftAlt P_Base P_Fft.

Set Implicit Arguments.
Unset Strict Implicit.
Unset Printing Implicit Defensive.
Import GRing.Theory.
Local Open Scope ring_scope.

(** * Base 4 digit reversal *)
Fixpoint qrev (l n : nat) : nat :=
  if l is l'.+1 then ((n %% 4) * 4 ^ l' + qrev l' (n %/ 4))%N else 0%N.

Lemma qrevS l n : qrev l.+1 n = ((n %% 4) * 4 ^ l + qrev l (n %/ 4))%N.
Proof. by []. Qed.

Lemma digit_reverseE n l : base_4_digit_reverse n l = qrev l n.
Proof.
rewrite /base_4_digit_reverse.
suff H : forall r n s, (foldl (fun rn (_ : nat) => (rn.1 * 4 + rn.2 %% 4, rn.2 %/ 4)%N) (r, n) s).1
           = (r * 4 ^ size s + qrev (size s) n)%N by rewrite H mul0n size_iota.
move=> r {}n s; elim: s r n => [|x s IH] r n; first by rewrite /= muln1 addn0.
by rewrite [foldl _ _ _]/= IH [size _]/= expnS mulnDl addnA mulnA.
Qed.

Lemma qrev_lt l n : (qrev l n < 4 ^ l)%N.
Proof.
elim: l n => [|l IH] n //; rewrite qrevS expnS.
have H : (n %% 4 < 4)%N by rewrite ltn_mod.
apply: (@leq_trans ((n %% 4).+1 * 4 ^ l)); last by rewrite leq_mul2r H orbT.
by rewrite mulSn addnC ltn_add2r.
Qed.

Lemma qrev_high l n : qrev l.+1 n = (4 * qrev l (n %% 4 ^ l) + (n %/ 4 ^ l) %% 4)%N.
Proof.
elim: l n => [|l IH] n; first by rewrite /= expn0 divn1 !muln0 muln1 addn0.
rewrite qrevS IH qrevS mulnDr -addnA; congr (_ + (_ + _))%N.
- by rewrite [(4 ^ l.+1)%N]expnS mulnCA modn_dvdm // dvdn_mulr.
- congr (4 * qrev l _)%N.
  by rewrite modn_divl mulnC -expnS.
- by rewrite expnS divnMA.
Qed.

Lemma qrevK l n : (n < 4 ^ l)%N -> qrev l (qrev l n) = n.
Proof.
elim: l n => [|l IH] n; first by rewrite expn0 ltnS leqn0 => /eqP ->.
move=> Hn; rewrite qrev_high qrevS.
rewrite modnMDl divnMDl ?expn_gt0 // (divn_small (qrev_lt _ _)) addn0 modn_mod.
rewrite (modn_small (qrev_lt _ _)) IH; last by rewrite ltn_divLR // mulnC -expnS.
by rewrite mulnC -divn_eq.
Qed.

Lemma qrev_digit l b c : (c < 4)%N -> qrev l.+1 (4 * b + c) = (qrev l b + c * 4 ^ l)%N.
Proof.
by move=> Hc; rewrite qrevS [(4 * b)%N]mulnC modnMDl modn_small // divnMDl // divn_small // addn0 addnC.
Qed.

Lemma twiddle_arith e m c' j t c :
  (e * (c' * m + j) * (4 * t + c) =
   (4 * e * j * t + ((e * j) * c + (e * m) * (c * c'))) + (e * m) * 4 * (c' * t))%N.
Proof. exact: twiddle_std. Qed.

Section FftAlt.
Variable F : fieldType.
Implicit Types (a : seq F) (w omega : F).

(** Swapping along an involution permutes. *)
Lemma swap_permuteP (rev : nat -> nat) n a : size a = n ->
  (forall i, (i < n)%N -> (rev i < n)%N) -> (forall i, (i < n)%N -> rev (rev i) = i) ->
  foldl (fun a k => if (k < rev k)%N then swap a (rev k) k else a) a (iota 0 n) = mkseq (fun i => a`_(rev i)) n.
Proof.
move=> Hs Hlt HK; set st := fun (a : seq F) k => _.
have H : forall K, (K <= n)%N ->
   let r := foldl st a (iota 0 K) in
   size r = size a /\ forall i, (i < n)%N ->
     r`_i = if ((i < K) || (rev i < K))%N then a`_(rev i) else a`_i.
  elim=> [|K IH] HKn; first by [].
  rewrite foldl_iotaS /=.
  have [IHs IHn] := IH (ltnW HKn).
  set r := foldl st a _ in IHs IHn *.
  rewrite /st; case: ltnP => Hr; last first.
    split=> // i Hi; rewrite IHn // !ltnS.
    rewrite [(i <= K)%N]leq_eqVlt [(rev i <= K)%N]leq_eqVlt; case: (eqVneq i K) => [->|Hne] /=.
      by rewrite ltnn /=; case: ltngtP Hr => //= ->.
    case: (eqVneq (rev i) K) => [E|Hne2] //=.
    rewrite orbT; case: ifP => // /negbT; rewrite negb_or -!leqNgt => /andP [H1 _].
    move: Hr; rewrite -{1}E HK // => H2; case/eqP: Hne.
    by apply/eqP; rewrite eqn_leq H1 H2.
  have HrL := Hlt _ HKn.
  split; first by rewrite size_swap ?IHs ?Hs.
  move=> i Hi; rewrite nth_swap !ltnS.
  rewrite !IHn // HK // [(rev K < K)%N]ltnNge (ltnW Hr) ltnn /=.
  case: (eqVneq i K) => [->|Hne]; first by rewrite leqnn.
  case: (eqVneq i (rev K)) => [->|Hne2]; first by rewrite HK // leqnn orbT.
  rewrite [(i <= K)%N]leq_eqVlt [(rev i <= K)%N]leq_eqVlt (negPf Hne) /=.
  suff -> : (rev i == K) = false by [].
  by apply/eqP => E; move/eqP: Hne2; apply; rewrite -E HK.
have [/= Hs' Hn] := H _ (leqnn _).
apply: (@eq_from_nth _ 0); first by rewrite size_mkseq Hs' Hs.
by rewrite Hs' Hs => i Hi; rewrite Hn // Hi /= nth_mkseq.
Qed.

Lemma digit_reverse_permuteP a L : size a = (4 ^ L)%N ->
  digit_reverse_permute a (4 ^ L) L = mkseq (fun i => a`_(qrev L i)) (4 ^ L).
Proof.
move=> Hs; rewrite -(@swap_permuteP (qrev L) (4 ^ L)) // => [|i _|i]; last 2 first.
- exact: qrev_lt.
- exact: qrevK.
by rewrite /digit_reverse_permute; elim: (iota _ _) (a) => //= k s IH a'; rewrite !digit_reverseE IH.
Qed.

(** * Loops of independent updates *)
Lemma foldl_geo (A : Type) (f : A -> nat -> F -> A) (g : F) x n :
  (foldl (fun aw j => (f aw.1 j aw.2, aw.2 * g)) (x, 1) (iota 0 n)).1 =
  foldl (fun y j => f y j (g ^+ j)) x (iota 0 n).
Proof.
suff -> : foldl (fun aw j => (f aw.1 j aw.2, aw.2 * g)) (x, 1) (iota 0 n) =
          (foldl (fun y j => f y j (g ^+ j)) x (iota 0 n), g ^+ n) by [].
by elim: n => [|n IH] //; rewrite !foldl_iotaS IH /= exprSr.
Qed.

(** Iteration [j] writes the positions [i] with [key i = j] only, and the values
    it writes are [g] of what these positions held. *)
Lemma foldl_updates (step : seq F -> nat -> seq F) (key : nat -> nat) (g : (nat -> F) -> nat -> F) n J a :
  (forall a j, (j < J)%N -> size a = n -> size (step a j) = n) ->
  (forall a j i, (j < J)%N -> size a = n -> (i < n)%N ->
     (step a j)`_i = if key i == j then g (nth 0 a) i else a`_i) ->
  (forall f f' i, (i < n)%N -> (key i < J)%N -> (forall i', (i' < n)%N -> key i' = key i -> f i' = f' i') -> g f i = g f' i) ->
  size a = n ->
  let r := foldl step a (iota 0 J) in
  size r = n /\ forall i, (i < n)%N -> r`_i = if (key i < J)%N then g (nth 0 a) i else a`_i.
Proof.
move=> Hsz Hst Hext Hs.
suff H : forall K, (K <= J)%N -> let r := foldl step a (iota 0 K) in
    size r = n /\ forall i, (i < n)%N -> r`_i = if (key i < K)%N then g (nth 0 a) i else a`_i by exact: H.
elim=> [|K IH] HK; first by [].
rewrite foldl_iotaS /=; have [IHs IHn] := IH (ltnW HK); set r := foldl _ _ _ in IHs IHn *.
split=> [|i Hi]; first exact: Hsz.
rewrite Hst // ltnS leq_eqVlt IHn //; case: eqP => //= E; apply: Hext => //; first by rewrite E.
by move=> i' Hi' E'; rewrite IHn // E' E ltnn.
Qed.

(** * Radix 4: one stage *)
(** The value at position [i] after one stage. *)
Definition stage4_fun (v : F) (f : nat -> F) (m : nat) (w_m : F) (i : nat) : F :=
  let j := (i %% m)%N in
  let k := (i %/ (4 * m) * (4 * m) + j)%N in
  let w := w_m ^+ j in
  let x0 := f k in
  let x1 := f (k + m)%N * w in
  let x2 := f (k + 2 * m)%N * (w * w) in
  let x3 := f (k + 3 * m)%N * (w * w * w) in
  match (i %% (4 * m) %/ m)%N with
  | 0%N => (x0 + x2) + (x1 + x3)
  | 1%N => (x0 - x2) + (x1 - x3) * v
  | 2%N => (x0 + x2) - (x1 + x3)
  | _ => (x0 - x2) - (x1 - x3) * v
  end.

Lemma butterfly4P v a k j m w : (0 < m)%N -> (k + j + 3 * m < size a)%N ->
  size (butterfly4 v a k j m w) = size a /\
  forall i, (butterfly4 v a k j m w)`_i =
    let x0 := a`_(k + j) in
    let x1 := a`_(k + j + m) * w in
    let x2 := a`_(k + j + 2 * m) * (w * w) in
    let x3 := a`_(k + j + 3 * m) * (w * w * w) in
    if i == (k + j + 3 * m)%N then (x0 - x2) - (x1 - x3) * v
    else if i == (k + j + m)%N then (x0 - x2) + (x1 - x3) * v
    else if i == (k + j + 2 * m)%N then (x0 + x2) - (x1 + x3)
    else if i == (k + j)%N then (x0 + x2) + (x1 + x3)
    else a`_i.
Proof.
move=> Hm Hs.
have H2 : (k + j + 2 * m < size a)%N by apply: leq_ltn_trans Hs; rewrite leq_add2l leq_mul2r orbT.
have H1 : (k + j + m < size a)%N by apply: leq_ltn_trans H2; rewrite leq_add2l leq_pmull.
have H0 : (k + j < size a)%N by apply: leq_ltn_trans H1; rewrite leq_addr.
split; last by move=> i; rewrite /butterfly4 /= !nth_set_nth /= !nth_set_nth /= !nth_set_nth /= !nth_set_nth.
rewrite /butterfly4 !size_set_nth.
by rewrite (maxn_idPr H0) (maxn_idPr H2) (maxn_idPr H1) (maxn_idPr Hs).
Qed.

Lemma pos4 b c j m : (c < 4)%N -> (j < m)%N ->
  let i := (b * (4 * m) + j + c * m)%N in
  [/\ i %/ (4 * m) = b, i %% m = j & i %% (4 * m) %/ m = c]%N.
Proof.
move=> Hc Hj /=; have Hm : (0 < m)%N by apply: leq_trans Hj.
have H4 : (j + c * m < 4 * m)%N.
  by apply: (@leq_trans (c.+1 * m)); [rewrite mulSn ltn_add2r|rewrite leq_mul2r Hc orbT].
rewrite -addnA; split.
- by rewrite divnMDl ?muln_gt0 // divn_small // addn0.
- by rewrite mulnA modnMDl addnC modnMDl modn_small.
- by rewrite modnMDl modn_small // addnC divnMDl // divn_small // addn0.
Qed.

Lemma pos4_eq i m : (0 < m)%N -> i = (i %/ (4 * m) * (4 * m) + i %% m + i %% (4 * m) %/ m * m)%N.
Proof.
move=> Hm; rewrite {1}(divn_eq i (4 * m)) -addnA; congr (_ + _)%N.
rewrite addnC {1}(divn_eq (i %% (4 * m)) m); congr (_ + _)%N.
by rewrite modn_dvdm // dvdn_mull.
Qed.

Lemma pos4_lt i m : (0 < m)%N -> (i %% (4 * m) %/ m < 4)%N.
Proof. by move=> Hm; rewrite ltn_divLR // ltn_mod muln_gt0. Qed.

Lemma butterfly4_stage v a b j m w_m i : (j < m)%N -> (b.+1 * (4 * m) <= size a)%N ->
  size (butterfly4 v a (b * (4 * m)) j m (w_m ^+ j)) = size a /\
  (butterfly4 v a (b * (4 * m)) j m (w_m ^+ j))`_i =
    if ((i %/ (4 * m) == b) && (i %% m == j))%N then stage4_fun v (nth 0 a) m w_m i else a`_i.
Proof.
move=> Hj Hs; have Hm : (0 < m)%N by apply: leq_trans Hj.
have [|H1 ->] := @butterfly4P v a (b * (4 * m)) j m (w_m ^+ j) Hm.
  apply: leq_trans Hs; rewrite -addnA [(b.+1 * _)%N]mulSn [(4 * m + _)%N]addnC ltn_add2l.
  by rewrite [(4 * m)%N]mulSn ltn_add2r.
split=> //=.
have [Hi|Hi] := boolP ((i %/ (4 * m) == b) && (i %% m == j))%N.
  case/andP: Hi => /eqP E1 /eqP E2.
  rewrite /stage4_fun E1 E2; have := pos4_lt i Hm; have := pos4_eq i Hm; rewrite E1 E2.
  move: (i %% (4 * m) %/ m)%N => c -> Hc; set q := (b * (4 * m) + j)%N.
  have N c' : (q + c * m == q + c' * m)%N = (c == c') by rewrite eqn_add2l eqn_pmul2r.
  rewrite N; have := N 1%N; rewrite mul1n => ->; rewrite N.
  have := N 0%N; rewrite mul0n addn0 => ->.
  by case: c Hc {N} => [|[|[|[|c]]]].
have N c : (c < 4)%N -> (i == b * (4 * m) + j + c * m)%N = false.
  by move=> Hc; apply/eqP => E; move: Hi; rewrite E; have [-> -> _] := pos4 b Hc Hj; rewrite !eqxx.
rewrite N //; have := N 1%N isT; rewrite mul1n => ->; rewrite N //.
by have := N 0%N isT; rewrite mul0n addn0 => ->.
Qed.

Lemma stage4_fun_ext v f f' m w_m i n : (0 < m)%N -> (i < n)%N -> (4 * m %| n)%N ->
  (forall i', (i' < n)%N -> (i' %/ (4 * m) = i %/ (4 * m))%N -> (i' %% m = i %% m)%N -> f i' = f' i') ->
  stage4_fun v f m w_m i = stage4_fun v f' m w_m i.
Proof.
move=> Hm Hi Hd H; rewrite /stage4_fun.
have Hj : (i %% m < m)%N by rewrite ltn_mod.
have H4 : (0 < 4 * m)%N by rewrite muln_gt0.
have E c : (c < 4)%N -> f (i %/ (4 * m) * (4 * m) + i %% m + c * m)%N = f' (i %/ (4 * m) * (4 * m) + i %% m + c * m)%N.
  move=> Hc; have [E1 E2 _] := pos4 (i %/ (4 * m))%N Hc Hj; apply: H => //.
  by rewrite -(divnK Hd) -ltn_divLR // E1 ltn_divLR // divnK.
have := E 0%N isT; rewrite mul0n addn0 => ->.
have := E 1%N isT; rewrite mul1n => ->.
by rewrite (E 2%N) // (E 3%N).
Qed.

Lemma fft4_blockP v a b m w_m : (0 < m)%N -> (b.+1 * (4 * m) <= size a)%N -> (4 * m %| size a)%N ->
  size (fft4_block v a (b * (4 * m)) m w_m) = size a /\
  forall i, (i < size a)%N -> (fft4_block v a (b * (4 * m)) m w_m)`_i =
    if (i %/ (4 * m) == b)%N then stage4_fun v (nth 0 a) m w_m i else a`_i.
Proof.
move=> Hm Hb Hd; rewrite /fft4_block (foldl_geo (fun a j w => butterfly4 v a (b * (4 * m)) j m w)).
pose key i := if (i %/ (4 * m) == b)%N then (i %% m)%N else m.
have := @foldl_updates (fun a j => butterfly4 v a (b * (4 * m)) j m (w_m ^+ j)) key
  (fun f => stage4_fun v f m w_m) (size a) m a.
have Hk i j : (j < m)%N -> (key i == j) = (i %/ (4 * m) == b)%N && (i %% m == j)%N.
  by move=> Hj; rewrite /key; case: ifP => // _; rewrite gtn_eqF.
case=> //.
- by move=> a' j Hj Hs; rewrite (@butterfly4_stage v a' b j m w_m 0 Hj _).1 ?Hs.
- by move=> a' j i Hj Hs Hi; rewrite (@butterfly4_stage v a' b j m w_m i Hj _).2 ?Hs // Hk.
- move=> f f' i Hi; rewrite /key; case: ifP => [/eqP Eb _ H|]; last by rewrite ltnn.
  by apply: (stage4_fun_ext v w_m Hm Hi Hd) => i' Hi' E1 E2; apply: H => //; rewrite E1 Eb eqxx E2.
move=> Hs Hn; split=> // i Hi; rewrite Hn // /key; case: eqP => _; last by rewrite ltnn.
by rewrite ltn_mod Hm.
Qed.

Lemma fft4_stageP v a m w_m : (0 < m)%N -> (4 * m %| size a)%N ->
  fft4_stage v a (size a) m w_m = mkseq (stage4_fun v (nth 0 a) m w_m) (size a).
Proof.
move=> Hm Hd; have H4 : (0 < 4 * m)%N by rewrite muln_gt0.
have Hc : ceil_div (size a) (4 * m) = (size a %/ (4 * m))%N.
  by rewrite /ceil_div; move: Hd; rewrite /dvdn => ->; rewrite addn0.
rewrite /fft4_stage Hc.
have := @foldl_updates (fun a b => fft4_block v a (b * (4 * m)) m w_m) (fun i => i %/ (4 * m))%N
  (fun f => stage4_fun v f m w_m) (size a) (size a %/ (4 * m))%N a.
have Hb b : (b < size a %/ (4 * m))%N -> (b.+1 * (4 * m) <= size a)%N by move=> Hb; rewrite -(divnK Hd) leq_mul2r Hb orbT.
case=> //.
- by move=> a' j Hj Hs; rewrite (fft4_blockP v w_m Hm _ _).1 ?Hs ?Hb.
- by move=> a' j i Hj Hs Hi; rewrite (fft4_blockP v w_m Hm _ _).2 ?Hs ?Hb.
- move=> f f' i Hi _ H; apply: (stage4_fun_ext v w_m Hm Hi Hd) => i' Hi' E1 _; exact: H.
move=> Hs Hn; apply: (@eq_from_nth _ 0); first by rewrite size_mkseq.
by rewrite Hs => i Hi; rewrite Hn // nth_mkseq // ltn_divLR // divnK // Hi.
Qed.

(** * Radix 4: the stages together *)
Lemma big_mod4 (G : nat -> F) n :
  \sum_(0 <= t < 4 * n) G t =
  \sum_(0 <= t < n) (G (4 * t + 0)%N + G (4 * t + 1)%N + G (4 * t + 2)%N + G (4 * t + 3)%N).
Proof.
elim: n => [|n IH]; first by rewrite muln0 !big_geq.
by rewrite mulnS !big_nat_recr //= IH !addnS !addn0 -!addrA.
Qed.

Definition partial4 (f : nat -> F) omega (D s i : nat) : F :=
  \sum_(0 <= t < 4 ^ s) f (qrev (D - s) (i %/ 4 ^ s) + t * 4 ^ (D - s))%N *
     omega ^+ (4 ^ (D - s) * (i %% 4 ^ s) * t).

Lemma partial4_step f omega D s i : (s < D)%N -> omega ^+ (2 * 4 ^ D.-1) = -1 ->
  stage4_fun (omega ^+ (4 ^ D.-1)) (partial4 f omega D s) (4 ^ s) (omega ^+ (4 ^ (D - s.+1))) i
  = partial4 f omega D s.+1 i.
Proof.
move=> HsD Hw.
set m := (4 ^ s)%N; set e := (4 ^ (D - s.+1))%N; set v := omega ^+ (4 ^ D.-1).
have Hm : (0 < m)%N by rewrite expn_gt0.
have He : (4 ^ (D - s) = 4 * e)%N by rewrite /e -expnS subnSK.
have Hem : (e * m = 4 ^ D.-1)%N by rewrite -expnD; congr expn; case: (D) HsD => // D' H; rewrite subSS subnK.
have Hv2 : v ^+ 2 = -1 by rewrite /v -exprM mulnC.
set j := (i %% m)%N; set b := (i %/ (4 * m))%N; set c' := (i %% (4 * m) %/ m)%N.
have Hj : (j < m)%N by rewrite ltn_mod.
have Hmod : (i %% (4 * m) = c' * m + j)%N.
  by rewrite {1}(divn_eq (i %% (4 * m)) m) modn_dvdm // dvdn_mull.
pose q := qrev (D - s.+1) b.
pose u t := omega ^+ (4 * e * j * t)%N.
pose W := omega ^+ (e * j).
pose X c := \sum_(0 <= t < m) f (q + (4 * t + c) * e)%N * u t.
have HX c : (c < 4)%N -> partial4 f omega D s (b * (4 * m) + j + c * m) = X c.
  move=> Hc; rewrite /partial4 -/m He.
  have -> : ((b * (4 * m) + j + c * m) %% m = j)%N by have [_ -> _] := pos4 b Hc Hj.
  have -> : ((b * (4 * m) + j + c * m) %/ m = 4 * b + c)%N.
    by rewrite addnAC mulnA -mulnDl divnMDl // divn_small // addn0 [(b * 4)%N]mulnC.
  rewrite -[(D - s)%N]subnSK // qrev_digit // -/e -/q; apply: eq_bigr => t _; congr (f _ * _).
  by rewrite mulnDl addnAC -addnA mulnA [(t * 4)%N]mulnC.
have HR : partial4 f omega D s.+1 i =
    X 0%N + X 1%N * (W * v ^+ c') + X 2%N * (W ^+ 2 * v ^+ (2 * c')) + X 3%N * (W ^+ 3 * v ^+ (3 * c')).
  rewrite /partial4 expnS -/m -/b -/e -/q Hmod big_mod4.
  have HT t c : (omega ^+ (e * (c' * m + j) * (4 * t + c)) = u t * (W ^+ c * v ^+ (c * c')))%R.
    rewrite twiddle_arith Hem exprD [omega ^+ (_ * 4 * _)]exprM.
    have -> : omega ^+ (4 ^ D.-1 * 4) = 1.
      by rewrite exprM -/v (exprM v 2 2) Hv2 sqrrN expr1n.
    by rewrite expr1n mulr1 2!exprD [omega ^+ (e * j * c)]exprM [omega ^+ (4 ^ D.-1 * _)]exprM.
  rewrite /X !mulr_suml -!big_split; apply: eq_bigr => t _ /=.
  by rewrite !HT mul0n !expr0 !expr1 mul1n !mulr1 !mulrA.
rewrite HR /stage4_fun -/b -/j -/c' -exprM -/W.
have -> : partial4 f omega D s (b * (4 * m) + j) = X 0%N by rewrite -HX // mul0n addn0.
have -> : partial4 f omega D s (b * (4 * m) + j + m) = X 1%N by rewrite -HX // mul1n.
rewrite !HX // -[W * W]/(W ^+ 2) -exprSr.
have Hc' : (c' < 4)%N by exact: pos4_lt.
have Hv3 : v ^+ 3 = - v by rewrite exprS Hv2 mulrN1.
have Hv4 : v ^+ 4 = 1 by rewrite (exprM v 2 2) Hv2 sqrrN expr1n.
have Hv6 : v ^+ 6 = -1 by rewrite (exprD v 4 2) Hv4 mul1r.
have Hv9 : v ^+ 9 = v by rewrite (exprD v 4 5) (exprD v 4 1) Hv4 !mul1r.
rewrite ![X _ * (_ * v ^+ _)]mulrA; move: (X 0%N) (X 1%N * W) (X 2%N * W ^+ 2) (X 3%N * W ^+ 3) => x0 x1 x2 x3.
move: c' Hc' {HR Hmod} => c'.
have E (y0 y1 y2 y3 : F) : y0 + y1 + (y2 + y3) = y0 + y2 + y1 + y3 by rewrite addrACA addrA.
case: c' => [|[|[|[|c']]]] // _.
- by rewrite !muln0 expr0 !mulr1 E.
- by rewrite !muln1 expr1 Hv2 Hv3 mulrDl E mulrN1 mulNr mulrN.
- by rewrite Hv2 -[(2 * 2)%N]/4%N -[(3 * 2)%N]/6%N Hv4 Hv6 !mulrN1 mulr1 opprD E.
- by rewrite -[(2 * 3)%N]/6%N -[(3 * 3)%N]/9%N Hv3 Hv6 Hv9 mulrDl opprD mulNr opprK E mulrN1 mulrN.
Qed.

Lemma serial_fft_radix_4P a omega L : size a = (2 ^ L)%N -> ~~ odd L -> fft_root omega L ->
  serial_fft_radix_4 a omega L = Ok (mkseq (dft (nth 0 a) omega (2 ^ L)) (2 ^ L)).
Proof.
move=> Hs Hodd Hw; rewrite /serial_fft_radix_4 Hs eqxx modn2 (negPf Hodd) /=; congr Ok.
have HL : L = (2 * (L %/ 2))%N by rewrite {1}(divn_eq L 2) modn2 (negPf Hodd) addn0 mulnC.
set D := (L %/ 2)%N in HL *.
have H4 : (2 ^ L = 4 ^ D)%N by rewrite HL expnM.
rewrite H4 digit_reverse_permuteP; last by rewrite Hs.
set a0 := mkseq _ _; set st := fun (am : seq F * nat) (_ : nat) => _.
have HwD : (0 < D)%N -> omega ^+ (2 * 4 ^ D.-1) = -1.
  move=> HD; apply/eqP; move/implyP: Hw; rewrite HL muln_gt0 HD => /(_ isT).
  suff -> : (2 ^ (2 * D).-1 = 2 * 4 ^ D.-1)%N by [].
  by case: (D) HD => // D' _; rewrite mulnS add2n /= expnS expnM.
suff H : forall s, (s <= D)%N -> foldl st (a0, 1%N) (iota 0 s) =
       (mkseq (partial4 (nth 0 a) omega D s) (4 ^ D), (4 ^ s)%N).
  rewrite H // /=; apply: (@eq_from_nth _ 0); first by rewrite !size_mkseq.
  rewrite size_mkseq => i Hi; rewrite !nth_mkseq // /partial4 /dft subnn.
  by apply: eq_bigr => t _; rewrite divn_small //= muln1 add0n mul1n modn_small.
elim=> [|s IH] HsD.
  congr (_, _); apply: (@eq_from_nth _ 0); first by rewrite !size_mkseq.
  rewrite size_mkseq => i Hi; rewrite !nth_mkseq // /partial4 expn0 big_nat1 divn1 modn1.
  by rewrite mul0n addn0 subn0 !muln0 mulr1.
rewrite foldl_iotaS IH ?(ltnW HsD) // /st /=; congr (_, _); last by rewrite mulnC -expnS.
have HD : (0 < D)%N by exact: leq_ltn_trans HsD.
have Hd : (4 ^ D = 4 ^ (D - s.+1) * (4 * 4 ^ s))%N by rewrite -expnS -expnD subnK.
have -> : (4 ^ D %/ (4 * 4 ^ s) = 4 ^ (D - s.+1))%N by rewrite Hd mulnK // muln_gt0 expn_gt0.
have -> : (4 ^ D %/ 4 = 4 ^ D.-1)%N by case: (D) HD => // D' _; rewrite expnS mulKn.
have Hsz : size (mkseq (partial4 (nth 0 a) omega D s) (4 ^ D)) = (4 ^ D)%N by rewrite size_mkseq.
have Hdv : (4 * 4 ^ s %| 4 ^ D)%N by rewrite Hd dvdn_mull.
have H0 : (0 < 4 ^ s)%N by rewrite expn_gt0.
rewrite -{2}Hsz fft4_stageP ?Hsz //.
apply: (@eq_from_nth _ 0); first by rewrite !size_mkseq.
rewrite size_mkseq => i Hi; rewrite !nth_mkseq // -partial4_step ?HwD //.
by apply: (stage4_fun_ext _ _ H0 Hi Hdv) => i' Hi' _ _; rewrite nth_mkseq.
Qed.

(** The parallel version of any serial kernel. *)
Lemma parallel_kernelP (ser : nat -> seq F -> outcome (seq F)) a (w : worker) omega L c :
  (0 < w)%N -> (c <= L)%N -> size a = (2 ^ L)%N -> fft_root omega L ->
  (forall j, (j < 2 ^ c)%N -> let t := mkseq (fun i => \sum_(0 <= s < 2 ^ c) a`_(i + s * 2 ^ (L - c)) *
                    omega ^+ (j * (i + s * 2 ^ (L - c)))) (2 ^ (L - c)) in
     ser j t = Ok (mkseq (dft (nth 0 t) (omega ^+ (2 ^ c)) (2 ^ (L - c))) (2 ^ (L - c)))) ->
  (let* tmp := mapM (fun j => ser j (shuffle xpredT a omega L (L - c) (2 ^ c) j)) (iota 0 (2 ^ c)) in
   check! (2 ^ L <= 2 ^ L)%N ;; Ok (unshuffle w a tmp c))
  = Ok (mkseq (dft (nth 0 a) omega (2 ^ L)) (2 ^ L)).
Proof.
move=> Hw HcL Hs Hr Hser; rewrite leqnn -[iota 0 (2 ^ c)]map_id.
rewrite (@mapM_mkseq _ _ _ id (fun j =>
   mkseq (fun k => dft (nth 0 a) omega (2 ^ L) (k * 2 ^ c + j)) (2 ^ (L - c)))).
  rewrite /= unshuffleP // Hs; congr Ok.
  apply: (@eq_from_nth _ 0); first by rewrite !size_mkseq.
  rewrite size_mkseq => i Hi; rewrite !nth_mkseq ?ltn_mod ?expn_gt0 //; first by rewrite -divn_eq.
  by rewrite ltn_divLR ?expn_gt0 // -expnD subnK.
move=> j Hj; rewrite shuffleP // Hser //.
congr Ok; apply: (@eq_from_nth _ 0); first by rewrite !size_mkseq.
by rewrite size_mkseq => k Hk; rewrite !nth_mkseq // dft_columns.
Qed.

Lemma parallel_fft_radix_4P a (w : worker) omega L c : (0 < w)%N -> (c <= L)%N -> size a = (2 ^ L)%N ->
  ~~ odd L -> ~~ odd c -> fft_root omega L ->
  parallel_fft_radix_4 a w omega L c = Ok (mkseq (dft (nth 0 a) omega (2 ^ L)) (2 ^ L)).
Proof.
move=> Hw HcL Hs HoL Hoc Hr; rewrite /parallel_fft_radix_4 HcL !modn2 (negPf HoL) (negPf Hoc) Hs leqnn /=.
rewrite -[RHS](@parallel_kernelP (fun _ t => serial_fft_radix_4 t (omega ^+ (2 ^ c)) (L - c)) a w omega L c) //.
  by rewrite leqnn.
move=> j Hj t; apply: serial_fft_radix_4P; first by rewrite size_mkseq.
  by rewrite oddB // (negPf HoL) (negPf Hoc).
exact: fft_root_sub.
Qed.

Lemma best_fft_radix_4P a (w : worker) omega L : (0 < w)%N -> size a = (2 ^ L)%N ->
  ~~ odd L -> fft_root omega L ->
  best_fft_radix_4 a w omega L = Ok (mkseq (dft (nth 0 a) omega (2 ^ L)) (2 ^ L)).
Proof.
move=> Hw Hs HoL Hr; rewrite /best_fft_radix_4 modn2 (negPf HoL) /=.
have [c ->] : exists c, log_num_cpus w = Ok c.
  by rewrite /log_num_cpus /log2_floor; case: (w) Hw => // w' _; eexists.
rewrite /= modn2; set c' := (X in (L <= X)%N).
have Hc : ~~ odd c' by rewrite /c'; case: (c) => // c0; rewrite /= ; case E: (odd c0); rewrite //= E.
case: leqP => HLc; first exact: serial_fft_radix_4P.
by apply: parallel_fft_radix_4P => //; apply: ltnW.
Qed.

(** * Decimation in time: one stage *)
Definition dit_full (f : nat -> F) (h : nat) (w_m : F) (i : nat) : F :=
  let p := (i %% (2 * h))%N in
  if (p < h)%N then f i + f (i + h)%N else (f (i - h)%N - f i) * w_m ^+ (p - h).

Definition dit_fun (f : nat -> F) (h nz : nat) (w_m : F) (i : nat) : F :=
  if (i %% h < nz)%N then dit_full f h w_m i else f i.

Lemma dit_butterflyP a k h w : (0 < h)%N -> (k + h < size a)%N ->
  size (dit_butterfly a k h w) = size a /\
  forall i, (dit_butterfly a k h w)`_i =
    if i == k then a`_k + a`_(k + h) else if i == (k + h)%N then (a`_k - a`_(k + h)) * w else a`_i.
Proof.
move=> Hh Hs; have Hk : (k < size a)%N by apply: leq_ltn_trans Hs; rewrite leq_addr.
have Hne : (k == k + h)%N = false by rewrite -{1}[k]addn0 eqn_add2l eq_sym eqn0Ngt Hh.
split; last by move=> i; rewrite /dit_butterfly !nth_set_nth /= !nth_set_nth /= !nth_set_nth /= eqxx Hne; case: eqP => // _; case: eqP.
by rewrite /dit_butterfly !size_set_nth (maxn_idPr Hs) (maxn_idPr Hs) (maxn_idPr Hk).
Qed.

Lemma pos2 b c j h : (c < 2)%N -> (j < h)%N ->
  let i := (b * (2 * h) + j + c * h)%N in
  [/\ i %/ (2 * h) = b, i %% h = j & i %% (2 * h) = j + c * h]%N.
Proof.
move=> Hc Hj /=; have Hh : (0 < h)%N by apply: leq_trans Hj.
have H2 : (j + c * h < 2 * h)%N.
  by apply: (@leq_trans (c.+1 * h)); [rewrite mulSn ltn_add2r|rewrite leq_mul2r Hc orbT].
rewrite -addnA; split.
- by rewrite divnMDl ?muln_gt0 // divn_small // addn0.
- by rewrite mulnA modnMDl addnC modnMDl modn_small.
- by rewrite modnMDl modn_small.
Qed.

Lemma pos2_eq i h : (0 < h)%N -> exists2 c, (c < 2)%N &
  i = (i %/ (2 * h) * (2 * h) + i %% h + c * h)%N.
Proof.
move=> Hh; exists (i %% (2 * h) %/ h)%N; first by rewrite ltn_divLR // ltn_mod muln_gt0.
rewrite {1}(divn_eq i (2 * h)) -addnA; congr (_ + _)%N.
rewrite addnC {1}(divn_eq (i %% (2 * h)) h); congr (_ + _)%N.
by rewrite modn_dvdm // dvdn_mull.
Qed.

Lemma dit_butterfly_stage a b j h w_m i : (j < h)%N -> (b.+1 * (2 * h) <= size a)%N ->
  size (dit_butterfly a (b * (2 * h) + j) h (w_m ^+ j)) = size a /\
  (dit_butterfly a (b * (2 * h) + j) h (w_m ^+ j))`_i =
    if ((i %/ (2 * h) == b) && (i %% h == j))%N then dit_full (nth 0 a) h w_m i else a`_i.
Proof.
move=> Hj Hs; have Hh : (0 < h)%N by apply: leq_trans Hj.
have [|H1 ->] := @dit_butterflyP a (b * (2 * h) + j) h (w_m ^+ j) Hh.
  apply: leq_trans Hs; rewrite -addnA [(b.+1 * _)%N]mulSn [(2 * h + _)%N]addnC ltn_add2l.
  by rewrite mul2n -addnn ltn_add2r.
split=> //=.
have [Hi|Hi] := boolP ((i %/ (2 * h) == b) && (i %% h == j))%N.
  case/andP: Hi => /eqP E1 /eqP E2.
  have [c Hc] := pos2_eq i Hh; rewrite E1 E2 => ->.
  have [_ _ E3] := pos2 b Hc Hj; rewrite /dit_full E3.
  case: c Hc {E3} => [|[|c]] // _; rewrite ?mul0n ?mul1n ?addn0; first by rewrite eqxx Hj.
  rewrite -{2}[(_ + j)%N]addn0 eqn_add2l eqn0Ngt Hh eqxx /= addnK.
  by rewrite [(_ < h)%N]ltnNge leq_addl /= addnK.
have N c : (c < 2)%N -> (i == b * (2 * h) + j + c * h)%N = false.
  by move=> Hc; apply/eqP => E; move: Hi; rewrite E; have [-> -> _] := pos2 b Hc Hj; rewrite !eqxx.
have := N 0%N isT; rewrite mul0n addn0 => ->.
by have := N 1%N isT; rewrite mul1n => ->.
Qed.

Lemma dit_full_ext f f' h w_m i n : (0 < h)%N -> (i < n)%N -> (2 * h %| n)%N ->
  (forall i', (i' < n)%N -> (i' %/ (2 * h) = i %/ (2 * h))%N -> (i' %% h = i %% h)%N -> f i' = f' i') ->
  dit_full f h w_m i = dit_full f' h w_m i.
Proof.
move=> Hh Hi Hd H; rewrite /dit_full.
have Hj : (i %% h < h)%N by rewrite ltn_mod.
have H2 : (0 < 2 * h)%N by rewrite muln_gt0.
rewrite (H i) //.
have E c : (c < 2)%N -> f (i %/ (2 * h) * (2 * h) + i %% h + c * h)%N = f' (i %/ (2 * h) * (2 * h) + i %% h + c * h)%N.
  move=> Hc; have [E1 E2 _] := pos2 (i %/ (2 * h))%N Hc Hj; apply: H => //.
  by rewrite -(divnK Hd) -ltn_divLR // E1 ltn_divLR // divnK.
have [c Hc Ei] := pos2_eq i Hh.
have [_ _ E3] := pos2 (i %/ (2 * h)) Hc Hj; rewrite -Ei in E3; rewrite E3.
case: c Hc Ei {E3} => [|[|c]] // _ Ei.
  rewrite mul0n addn0 Hj; congr (_ + _).
  by have := E 1%N isT; rewrite mul1n; rewrite mul0n addn0 in Ei; rewrite -Ei.
rewrite mul1n [(_ < h)%N]ltnNge leq_addl /=; congr ((_ - _) * _).
have -> : (i - h = i %/ (2 * h) * (2 * h) + i %% h)%N by rewrite {1}Ei mul1n addnK.
by have := E 0%N isT; rewrite mul0n addn0.
Qed.

Lemma dit_blockP a b h nz w_m : (0 < h)%N -> (b.+1 * (2 * h) <= size a)%N -> (2 * h %| size a)%N ->
  size (dit_block a (b * (2 * h)) (2 * h) nz w_m) = size a /\
  forall i, (i < size a)%N -> (dit_block a (b * (2 * h)) (2 * h) nz w_m)`_i =
    if (i %/ (2 * h) == b)%N then dit_fun (nth 0 a) h nz w_m i else a`_i.
Proof.
move=> Hh Hb Hd; rewrite /dit_block mulKn //.
rewrite (foldl_geo (fun a j w => dit_butterfly a (b * (2 * h) + j) h w)).
set J := minn h nz; have HJ : (J <= h)%N by rewrite geq_minl.
pose key i := if (i %/ (2 * h) == b)%N then (i %% h)%N else h.
have := @foldl_updates (fun a j => dit_butterfly a (b * (2 * h) + j) h (w_m ^+ j)) key
  (fun f => dit_full f h w_m) (size a) J a.
have Hk i j : (j < J)%N -> (key i == j) = (i %/ (2 * h) == b)%N && (i %% h == j)%N.
  by move=> Hj; rewrite /key; case: ifP => // _; rewrite gtn_eqF // (leq_trans Hj).
case=> //.
- by move=> a' j Hj Hs; rewrite (@dit_butterfly_stage a' b j h w_m 0 _ _).1 ?Hs // (leq_trans Hj).
- by move=> a' j i Hj Hs Hi; rewrite (@dit_butterfly_stage a' b j h w_m i _ _).2 ?Hs // ?Hk // (leq_trans Hj).
- move=> f f' i Hi; rewrite /key; case: ifP => [/eqP Eb _ H|]; last by rewrite ltnNge HJ.
  by apply: (dit_full_ext w_m Hh Hi Hd) => i' Hi' E1 E2; apply: H => //; rewrite E1 Eb eqxx E2.
move=> Hs Hn; split=> // i Hi; rewrite Hn // /key; case: eqP => _; last by rewrite ltnNge HJ.
by rewrite /dit_fun /J leq_min ltn_mod Hh.
Qed.

Lemma dit_fun_ext f f' h nz w_m i n : (0 < h)%N -> (i < n)%N -> (2 * h %| n)%N ->
  (forall i', (i' < n)%N -> (i' %/ (2 * h) = i %/ (2 * h))%N -> f i' = f' i') ->
  dit_fun f h nz w_m i = dit_fun f' h nz w_m i.
Proof.
move=> Hh Hi Hd H; rewrite /dit_fun (H i) //; case: ifP => // _.
by apply: (dit_full_ext w_m Hh Hi Hd) => i' H1 H2 _; exact: H.
Qed.

Lemma dit_stageP a h m nz omega : (0 < h)%N -> (0 < m)%N -> size a = (m * (2 * h))%N ->
  dit_stage a (size a) m nz omega = mkseq (dit_fun (nth 0 a) h nz (omega ^+ m)) (size a).
Proof.
move=> Hh Hm Hs; have H2 : (0 < 2 * h)%N by rewrite muln_gt0.
have Hd : (2 * h %| size a)%N by rewrite Hs dvdn_mull.
rewrite /dit_stage; have -> : (size a %/ m = 2 * h)%N by rewrite Hs mulKn.
have := @foldl_updates (fun a b => dit_block a (b * (2 * h)) (2 * h) nz (omega ^+ m)) (fun i => i %/ (2 * h))%N
  (fun f => dit_fun f h nz (omega ^+ m)) (size a) m a.
have Hb b : (b < m)%N -> (b.+1 * (2 * h) <= size a)%N by move=> Hb; rewrite Hs leq_mul2r Hb orbT.
case=> //.
- by move=> a' j Hj Hs'; rewrite (dit_blockP nz _ Hh _ _).1 ?Hs' ?Hb.
- by move=> a' j i Hj Hs' Hi; rewrite (dit_blockP nz _ Hh _ _).2 ?Hs' ?Hb.
- move=> f f' i Hi _ H; exact: (dit_fun_ext nz _ Hh Hi Hd).
move=> Hsz Hn; apply: (@eq_from_nth _ 0); first by rewrite size_mkseq.
by rewrite Hsz => i Hi; rewrite Hn // nth_mkseq // ltn_divLR // -Hs Hi.
Qed.

(** Without the pruning, when what is skipped is zero. *)
Lemma dit_fun_pruned f h nz w_m i : (0 < h)%N ->
  (forall i', (i' < i + h.+1)%N -> (nz <= i' %% (2 * h))%N -> f i' = 0) ->
  dit_fun f h nz w_m i = dit_full f h w_m i.
Proof.
move=> Hh Z; rewrite /dit_fun; case: ltnP => // Hnz; rewrite /dit_full.
have Hj : (i %% h < h)%N by rewrite ltn_mod.
have [c Hc Ei] := pos2_eq i Hh.
have [_ _ E3] := pos2 (i %/ (2 * h)) Hc Hj; rewrite -Ei in E3; rewrite E3.
have -> : f i = 0 by apply: Z; [rewrite addnS ltnS leq_addr|rewrite E3 (leq_trans Hnz) // leq_addr].
case: c Hc Ei {E3} => [|[|c]] // _ Ei.
  rewrite mul0n addn0 Hj add0r Z //; first by rewrite addnS ltnS.
  rewrite mul0n addn0 in Ei; have [_ _ E3] := pos2 (i %/ (2 * h)) (isT : 1 < 2)%N Hj.
  by move: E3; rewrite mul1n -Ei => ->; rewrite (leq_trans Hnz) // leq_addr.
rewrite mul1n [(_ < h)%N]ltnNge leq_addl /= subr0.
rewrite mul1n in Ei; rewrite Z ?mul0r //; first by apply: leq_ltn_trans (leq_subr _ _) _; rewrite addnS ltnS leq_addr.
have [_ _ E3] := pos2 (i %/ (2 * h)) (isT : 0 < 2)%N Hj.
have -> : (i - h = i %/ (2 * h) * (2 * h) + i %% h)%N by rewrite {1}Ei addnK.
by move: E3; rewrite mul0n !addn0 => ->.
Qed.

(** * Decimation in time: the stages together *)
(** What the array holds after [s] stages: each block transforms to the
    outputs that agree modulo [2^s]. *)
Definition dit_inv (f : nat -> F) omega (L nz s : nat) (A : nat -> F) : Prop :=
  (forall i, (nz <= i %% 2 ^ (L - s))%N -> A i = 0) /\
  forall r q, (r < 2 ^ s)%N -> (q < 2 ^ (L - s))%N ->
    dft f omega (2 ^ L) (r + 2 ^ s * q) =
    \sum_(0 <= p < 2 ^ (L - s)) A (brev s r * 2 ^ (L - s) + p)%N * omega ^+ (2 ^ s * q * p).

Lemma big_halves (G : nat -> F) h :
  \sum_(0 <= p < 2 * h) G p = \sum_(0 <= p < h) (G p + G (p + h)%N).
Proof.
rewrite big_split /= (@big_cat_nat _ _ _ h) //=; last by rewrite mul2n -addnn leq_addr.
by congr (_ + _); rewrite -{1}[h]add0n big_addn mul2n -addnn addnK.
Qed.

Lemma dit_inv_step f omega L nz s A B : (s < L)%N -> omega ^+ (2 ^ L.-1) = -1 ->
  (forall i, (2 ^ L <= i)%N -> B i = 0) ->
  dit_inv f omega L nz s A ->
  (forall i, (i < 2 ^ L)%N -> B i = dit_full A (2 ^ (L - s.+1)) (omega ^+ (2 ^ s)) i) ->
  dit_inv f omega L nz s.+1 B.
Proof.
move=> HsL Hw HB0 [IZ IH] HB.
set h := (2 ^ (L - s.+1))%N in HB *.
have Hh : (0 < h)%N by rewrite expn_gt0.
have H2h : (2 ^ (L - s) = 2 * h)%N by rewrite /h -expnS subnSK.
have HL : (2 ^ L = 2 ^ s * (2 * h))%N by rewrite -H2h -expnD subnKC // ltnW.
have Hm1 : omega ^+ (2 ^ s * h) = -1.
  by rewrite -expnD; rewrite (_ : (s + (L - s.+1) = L.-1)%N) //; case: (L) HsL => // L' H; rewrite subSS subnKC.
rewrite H2h in IZ IH; split.
  move=> i Hnz; case: (ltnP i (2 ^ L)) => [Hi|/HB0 //]; rewrite HB // -(@dit_fun_pruned A h nz) //; last by move=> i' _; exact: IZ.
  rewrite /dit_fun ltnNge Hnz /=; apply: IZ; apply: leq_trans Hnz _.
  have Hj : (i %% h < h)%N by rewrite ltn_mod.
  have [c Hc Ei] := pos2_eq i Hh; have [_ _ E3] := pos2 (i %/ (2 * h)) Hc Hj.
  by rewrite -Ei in E3; rewrite E3 leq_addr.
move=> r q Hr Hq; rewrite -/h.
set c := (r %/ 2 ^ s)%N; set r0 := (r %% 2 ^ s)%N; set b := brev s r0.
have Hc : (c < 2)%N by rewrite ltn_divLR ?expn_gt0 // -expnS.
have Er : r = (c * 2 ^ s + r0)%N by rewrite -divn_eq.
have Hr0 : (r0 < 2 ^ s)%N by rewrite ltn_mod expn_gt0.
have Hb : (b < 2 ^ s)%N by exact: brev_lt.
have Erev : brev s.+1 r = (2 * b + c)%N by rewrite brev_high -/r0 -/c (modn_small Hc).
have -> : (r + 2 ^ s.+1 * q = r0 + 2 ^ s * (c + 2 * q))%N.
  by rewrite Er expnS [(2 * 2 ^ s)%N]mulnC mulnDr [(c * _)%N]mulnC [(_ + r0)%N]addnC -addnA mulnA.
rewrite IH //; last first.
  apply: (@leq_trans (2 + 2 * q)); first by rewrite ltn_add2r.
  by rewrite -mulnS leq_mul2l Hq orbT.
rewrite big_halves; apply: eq_big_nat => p /andP [_ Hp].
rewrite Erev -/b HB; last first.
  rewrite HL; apply: (@leq_trans (b.+1 * (2 * h))); last by rewrite leq_mul2r Hb orbT.
  rewrite mulnDl -mulnA mulnCA -addnA [(b.+1 * _)%N]mulSn [(2 * h + _)%N]addnC ltn_add2l.
  apply: (@leq_trans (c.+1 * h)); last by rewrite leq_mul2r Hc orbT.
  by rewrite mulSn addnC ltn_add2r.
have -> : ((2 * b + c) * h + p = b * (2 * h) + p + c * h)%N.
  by rewrite mulnDl -mulnA mulnCA -addnA [(c * h + p)%N]addnC addnA.
have [_ _ E3] := pos2 b Hc Hp; rewrite /dit_full E3.
rewrite [(_ * (c + 2 * q) * (p + h))%N]mulnDr [omega ^+ (_ + _)]exprD.
have -> : omega ^+ (2 ^ s * (c + 2 * q) * h) = (-1) ^+ c.
  by rewrite mulnAC exprM Hm1 exprD exprM sqrrN expr1n expr1n mulr1.
have E1 : omega ^+ (2 ^ s * (c + 2 * q) * p) = omega ^+ (2 ^ s) ^+ (c * p) * omega ^+ (2 ^ s.+1 * q * p).
  by rewrite -exprM -exprD; congr (_ ^+ _); rewrite mulnDr mulnDl expnS [(2 * 2 ^ s)%N]mulnC !mulnA.
rewrite E1 addnA.
case: c Hc {Er Erev E1 E3} => [|[|c]] // _.
  by rewrite !mul0n !expr0 !mul1r !mulr1 !addn0 Hp -mulrDl.
rewrite !mul1n expr1 [(_ < h)%N]ltnNge leq_addl /= !addnK mulrN1 mulrN -mulrBl mulrA //.
Qed.

Lemma serial_dit_fftP a omega L nz : size a = (2 ^ L)%N -> fft_root omega L ->
  (forall i, (nz <= i)%N -> a`_i = 0) ->
  serial_dit_fft a omega L nz = Ok (mkseq (dft (nth 0 a) omega (2 ^ L)) (2 ^ L)).
Proof.
move=> Hs Hw Hz; rewrite /serial_dit_fft Hs eqxx; congr Ok.
set st := fun (am : seq F * nat) (_ : nat) => _.
suff H : forall s, (s <= L)%N -> let r := foldl st (a, 1%N) (iota 0 s) in
   [/\ size r.1 = (2 ^ L)%N, r.2 = (2 ^ s)%N & dit_inv (nth 0 a) omega L nz s (nth 0 r.1)].
  have [/= Hsz _ [_ Hi]] := H _ (leqnn L).
  rewrite bit_reverse_permuteP //; apply: (@eq_from_nth _ 0); first by rewrite !size_mkseq.
  rewrite size_mkseq => i Hil; rewrite !nth_mkseq //.
  have := Hi i 0%N Hil; rewrite subnn expn0 => /(_ isT).
  by rewrite big_nat1 !muln0 !addn0 expr0 mulr1 muln1 => ->.
elim=> [|s IH] HsL.
  split=> //=; split=> [i|r q].
    rewrite subn0 => Hnz; case: (ltnP i (2 ^ L)) => Hi; last by rewrite nth_default // Hs.
    by apply: Hz; rewrite modn_small in Hnz.
  rewrite expn0 ltnS leqn0 => /eqP -> _; rewrite /dft subn0.
  by apply: eq_bigr => t _; rewrite /= mul0n !add0n mul1n.
rewrite foldl_iotaS; have [IHs IHm IHi] := IH (ltnW HsL).
set r := foldl st _ _ in IHs IHm IHi *; rewrite /st /= IHm.
set h := (2 ^ (L - s.+1))%N.
have Hh : (0 < h)%N by rewrite expn_gt0.
have Hm : (0 < 2 ^ s)%N by rewrite expn_gt0.
have HL : (2 ^ L = 2 ^ s * (2 * h))%N by rewrite /h -expnS subnSK // -expnD subnKC // ltnW.
rewrite -IHs (@dit_stageP _ h) ?IHs //.
split; rewrite ?size_mkseq //; first by rewrite expnSr.
apply: (dit_inv_step HsL _ _ IHi).
- by apply/eqP; move/implyP: Hw; apply; exact: leq_ltn_trans HsL.
- by move=> i Hi; rewrite nth_default // size_mkseq.
- move=> i Hi; rewrite nth_mkseq // dit_fun_pruned //.
  case: IHi => IZ _ i' _ Hnz; apply: IZ.
  by rewrite -subnSK // expnS.
Qed.

Lemma parallel_dit_fftP a (w : worker) omega L c nz : (0 < w)%N -> (c <= L)%N -> size a = (2 ^ L)%N ->
  fft_root omega L -> (forall i, (nz <= i)%N -> a`_i = 0) ->
  parallel_dit_fft a w omega L c nz = Ok (mkseq (dft (nth 0 a) omega (2 ^ L)) (2 ^ L)).
Proof.
move=> Hw HcL Hs Hr Hz; rewrite /parallel_dit_fft HcL Hs leqnn /=.
rewrite -[RHS](@parallel_kernelP (fun _ t => serial_dit_fft t (omega ^+ (2 ^ c)) (L - c) (minn nz (2 ^ (L - c)))) a w omega L c) //.
  by rewrite leqnn.
move=> j Hj t; apply: serial_dit_fftP; first by rewrite size_mkseq.
  exact: fft_root_sub.
move=> i; rewrite geq_min => Hi; case: (ltnP i (2 ^ (L - c))) => Hil; last by rewrite nth_default // size_mkseq.
rewrite nth_mkseq //; apply: big1_seq => s _; rewrite Hz ?mul0r //.
by case/orP: Hi => [Hi|]; [apply: leq_trans Hi (leq_addr _ _)|rewrite leqNgt Hil].
Qed.

Lemma best_dit_fftP a (w : worker) omega L nz : (0 < w)%N -> size a = (2 ^ L)%N ->
  fft_root omega L -> (forall i, (nz <= i)%N -> a`_i = 0) ->
  best_dit_fft a w omega L nz = Ok (mkseq (dft (nth 0 a) omega (2 ^ L)) (2 ^ L)).
Proof.
move=> Hw Hs Hr Hz; rewrite /best_dit_fft.
have [c ->] : exists c, log_num_cpus w = Ok c.
  by rewrite /log_num_cpus /log2_floor; case: (w) Hw => // w' _; eexists.
rewrite /=; case: leqP => HLc; first exact: serial_dit_fftP.
by apply: parallel_dit_fftP => //; apply: ltnW.
Qed.

End FftAlt.
