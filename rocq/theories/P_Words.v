(** The machine-integer versions agree with the model as long as the sizes fit. *)
From Coq Require Import NArith Lia.
From mathcomp Require Import all_ssreflect all_algebra.
From Verif Require Import M_Base M_Worker M_Field M_Domain M_Fft M_Prefetch M_Words Spec P_Base P_Fft P_Domain P_Prefetch.

Set Implicit Arguments.
Unset Strict Implicit.
Unset Printing Implicit Defensive.
Import GRing.Theory.

(** * Operations *)
Lemma fitE pr w x : (x < 2 ^ w)%N -> fit pr w x = Ok x.
Proof. by rewrite /fit => ->. Qed.

Lemma wshlE pr w x s : (s < w)%N -> (x * 2 ^ s < 2 ^ w)%N -> wshl pr w x s = Ok (x * 2 ^ s)%N.
Proof. by rewrite /wshl => -> H; rewrite modn_small. Qed.

Lemma wshl1E pr w s : (s < w)%N -> wshl pr w 1 s = Ok (2 ^ s)%N.
Proof. by move=> H; rewrite wshlE ?mul1n // ltn_exp2l. Qed.

Lemma wshrE pr w x s : (s < w)%N -> wshr pr w x s = Ok (x %/ 2 ^ s)%N.
Proof. by rewrite /wshr => ->. Qed.

Lemma to_nat_exp2 k : N.to_nat (2 ^ N.of_nat k) = (2 ^ k)%N.
Proof.
elim: k => // k IH; rewrite Nnat.Nat2N.inj_succ N.pow_succ_r' Nnat.N2Nat.inj_mul IH expnS.
by [].
Qed.

Lemma to_nat_mod x y : (0 < y)%N -> N.to_nat (N.of_nat x mod N.of_nat y) = (x %% y)%N.
Proof.
move=> Hy; have Hy0 : N.of_nat y <> 0%num by move: Hy; case: y => // y _; lia.
rewrite {2}(_ : x = N.to_nat (N.of_nat x)); last by rewrite Nnat.Nat2N.id.
rewrite {2}(N.div_mod (N.of_nat x) (N.of_nat y) Hy0) Nnat.N2Nat.inj_add Nnat.N2Nat.inj_mul Nnat.Nat2N.id.
rewrite plusE multE mulnC modnMDl modn_small //; apply/ltP.
by have := N.mod_lt (N.of_nat x) (N.of_nat y) Hy0; lia.
Qed.

Lemma wand_mask x e : wand x (2 ^ e - 1) = (x %% 2 ^ e)%N.
Proof.
rewrite /wand; have -> : N.of_nat (2 ^ e - 1) = N.ones (N.of_nat e).
  rewrite N.ones_equiv; apply: Nnat.N2Nat.inj; rewrite Nnat.Nat2N.id Nnat.N2Nat.inj_pred to_nat_exp2.
  by rewrite subn1.
rewrite N.land_ones -to_nat_mod ?expn_gt0 //; congr (N.to_nat (_ mod _)).
by apply: Nnat.N2Nat.inj; rewrite to_nat_exp2 Nnat.Nat2N.id.
Qed.

Lemma wand1 x : wand x 1 = (x %% 2)%N.
Proof. by rewrite -(wand_mask x 1). Qed.

(** * Loops *)
Lemma while_mono A fuel fuel' (cond : A -> outcome bool) body st r :
  (fuel <= fuel')%N -> while fuel cond body st = Some r -> while fuel' cond body st = Some r.
Proof.
elim: fuel fuel' st => [|fuel IH] [|fuel'] st //= Hf; case: (cond st) => [c| |] //=; case: c => //.
by case: (body st) => [st'| |] //=; apply: IH.
Qed.

Lemma whileT A fuel (cond : A -> outcome bool) body st st' : cond st = Ok true -> body st = Ok st' ->
  while fuel.+1 cond body st = while fuel cond body st'.
Proof. by move=> /= -> /= ->. Qed.
Lemma whileF A fuel (cond : A -> outcome bool) body st : cond st = Ok false -> while fuel cond body st = Some (Ok st).
Proof. by case: fuel => /= [|fuel] ->. Qed.
Lemma whileP A fuel (cond : A -> outcome bool) body st : cond st = Panic -> while fuel cond body st = Some Panic.
Proof. by case: fuel => /= [|fuel] ->. Qed.

(** * Sizes *)
Lemma small32 n : (n <= 64)%N -> (n < 2 ^ 32)%N.
Proof. by move=> H; apply: leq_ltn_trans H _; rewrite -[64%N]/(2 ^ 6)%N ltn_exp2l. Qed.
Lemma small64 n : (n <= 64)%N -> (n < 2 ^ 64)%N.
Proof. by move=> H; apply: leq_ltn_trans H _; rewrite -[64%N in X in (X < _)%N]/(2 ^ 6)%N ltn_exp2l. Qed.

Local Opaque expn.

Lemma w_log2_floorE pr fuel num : (num < 2 ^ 63)%N -> (63 <= fuel)%N ->
  w_log2_floor pr fuel num = Some (log2_floor num).
Proof.
move=> Hn Hf; rewrite /w_log2_floor /log2_floor; case: (posnP num) => [//|H0].
set cond := (fun pow => _); set body := (fun pow => _).
have [k Ek /andP [Hk1 Hk2]] := log2_floorP H0; rewrite /log2_floor H0 in Ek.
have Hk63 : (k < 63)%N by rewrite -(ltn_exp2l _ _ (ltnSn 1)); apply: leq_ltn_trans Hk1 Hn.
rewrite Ek; apply: (while_mono (fuel := k)); first by apply: leq_trans (ltnW Hk63) Hf.
have Hc i : (i <= k)%N -> cond i = Ok (i < k)%N.
  move=> Hi; have Hi63 := leq_ltn_trans Hi Hk63.
  rewrite /cond /wadd addn1 fitE; last by apply: small32; rewrite ltnW.
  rewrite [bind _ _]/= wshl1E ?ltnS // [bind _ _]/=; congr Ok.
  case: (ltnP i k) => Hik; first by rewrite (leq_trans _ Hk1) // leq_exp2l.
  have -> : i = k by apply/eqP; rewrite eqn_leq Hi Hik.
  by rewrite leqNgt Hk2.
have H d : (d <= k)%N -> while d cond body (k - d) = Some (Ok k).
  elim: d => [|d IH] Hd.
    by rewrite subn0 whileF // Hc // ltnn.
  rewrite (@whileT _ _ _ _ _ (k - d)) ?IH //; first exact: ltnW.
    by rewrite Hc ?leq_subr // ltn_subrL (leq_trans _ Hd).
  rewrite /body /wadd addn1 -subSn // subSS; apply: fitE.
  by apply: small32; rewrite (leq_trans (leq_subr _ _)) // ltnW // ltnW.
by rewrite -(subnn k); exact: H.
Qed.

(** Beyond that, a build with overflow checks panics and one without never stops. *)
Lemma while_forever A (cond : A -> outcome bool) body st fuel :
  (forall st, cond st = Ok true) -> (forall st, exists st', body st = Ok st') -> while fuel cond body st = None.
Proof.
move=> Hc Hb; elim: fuel st => [|fuel IH] st; first by rewrite /= Hc.
by have [st' E] := Hb st; rewrite /= Hc /= E /=; apply: IH.
Qed.

Lemma fit_release w x : exists2 y, fit Release w x = Ok y & (y < 2 ^ w)%N.
Proof.
rewrite /fit; case: ltnP => H; first by exists x.
by exists (x %% 2 ^ w)%N; rewrite ?ltn_pmod ?expn_gt0.
Qed.

Lemma wshl1_release s : exists2 x, wshl Release 64 1 s = Ok x & (x <= 2 ^ 63)%N.
Proof.
have H k : (k < 64)%N -> ((1 * 2 ^ k) %% 2 ^ 64 <= 2 ^ 63)%N.
  move=> Hk; rewrite mul1n modn_small; last by rewrite ltn_exp2l.
  by rewrite leq_exp2l // -ltnS.
rewrite /wshl; case: ltnP => Hs; first by exists ((1 * 2 ^ s) %% 2 ^ 64)%N; [| exact: H].
by exists ((1 * 2 ^ (s %% 64)) %% 2 ^ 64)%N; [| apply: H; rewrite ltn_mod].
Qed.

Lemma w_log2_floor_release fuel num : (2 ^ 63 <= num)%N -> w_log2_floor Release fuel num = None.
Proof.
move=> Hn; have H0 : (0 < num)%N by apply: leq_trans Hn; rewrite expn_gt0.
rewrite /w_log2_floor H0; apply: while_forever => pow; last by have [y Ey _] := fit_release 32 (pow + 1); exists y.
have [y Ey _] := fit_release 32 (pow + 1); rewrite /wadd Ey [bind _ _]/=.
have [x Ex Hx] := wshl1_release y; rewrite Ex [bind _ _]/=.
by rewrite (leq_trans Hx Hn).
Qed.

Lemma w_log2_floor_debug fuel num : (2 ^ 63 <= num)%N -> (63 <= fuel)%N -> w_log2_floor Debug fuel num = Some Panic.
Proof.
move=> Hn Hf; have H0 : (0 < num)%N by apply: leq_trans Hn; rewrite expn_gt0.
rewrite /w_log2_floor H0; set cond := (fun pow => _); set body := (fun pow => _).
have Hc i : (i < 63)%N -> cond i = Ok true.
  move=> Hi; rewrite /cond /wadd addn1 fitE; last by apply: small32; rewrite ltnW.
  rewrite [bind _ _]/= wshl1E ?ltnS // [bind _ _]/=; congr Ok.
  by apply: leq_trans Hn; rewrite leq_exp2l.
have Hend : cond 63 = Panic.
  by rewrite /cond /wadd addn1 fitE; last exact: small32.
apply: (while_mono (fuel := 63) Hf).
have H d : (d <= 63)%N -> while d cond body (63 - d) = Some Panic.
  elim: d => [|d IH] Hd; first by rewrite subn0 whileP.
  rewrite (@whileT _ _ _ _ _ (63 - d)) ?IH //; first exact: ltnW.
    by rewrite Hc // ltn_subrL.
  rewrite /body /wadd addn1 -subSn // subSS; apply: fitE.
  by apply: small32; rewrite (leq_trans (leq_subr _ _)).
exact: (H 63%N).
Qed.

Section Domain.
Variables (F : fieldType) (fp : ff_params F).

Lemma w_domain_newE pr fuel n : (n <= 2 ^ 63)%N -> (64 <= fuel)%N ->
  w_domain_new fp pr fuel n = Some (domain_new fp n).
Proof.
move=> Hn Hf; rewrite /w_domain_new /domain_new /w_next_power_of_two.
have Hs := next_pow2_min Hn; rewrite fitE; last by apply: leq_ltn_trans Hs _; rewrite ltn_exp2l.
rewrite [bindR _ _]/=.
have [k Ek] : exists k, next_pow2 n = (2 ^ k)%N by exists (up_log 2 n).
rewrite Ek (halvingsP _ (ltn_expl k (ltnSn 1))) add0n.
have Hk : (k <= 63)%N by rewrite -(leq_exp2l _ _ (ltnSn 1)) -Ek.
set cond := (fun kp : nat * nat => _); set body := (fun kp : nat * nat => _).
suff -> : while fuel cond body (2 ^ k, 0)%N = Some (Ok (1, k)%N).
  by rewrite [bindR _ _]/=; case: ifP.
apply: (while_mono (fuel := k)); first by apply: leq_trans Hf; rewrite ltnW.
have H d : (d <= k)%N -> while d cond body (2 ^ d, k - d)%N = Some (Ok (1, k)%N).
  elim: d => [|d IH] Hd; first by rewrite expn0 subn0 whileF.
  rewrite (@whileT _ _ _ _ _ (2 ^ d, k - d)) ?IH //; first exact: ltnW.
    by rewrite /cond [fst _]/= -(expn0 2) eqn_exp2l.
  rewrite /body [fst _]/= [snd _]/= /wadd addn1 -subSn // subSS fitE; last by apply: small64; rewrite (leq_trans (leq_subr _ _)) // ltnW.
  by rewrite [bind _ _]/= expnS expn1 mulKn.
by have := H k (leqnn k); rewrite subnn.
Qed.

Lemma next_pow2_big n : (2 ^ 63 < n)%N -> (2 ^ 64 <= next_pow2 n)%N.
Proof.
move=> Hn; rewrite /next_pow2 leq_exp2l //.
rewrite ltnNge; apply/negP => H; have := next_pow2_ge n; rewrite /next_pow2 => Hle.
have : (n <= 2 ^ 63)%N by apply: leq_trans Hle _; rewrite leq_exp2l.
by rewrite leqNgt Hn.
Qed.

Lemma w_domain_new_debug fuel n : (2 ^ 63 < n)%N -> w_domain_new fp Debug fuel n = Some Panic.
Proof.
move=> Hn; rewrite /w_domain_new /w_next_power_of_two /fit.
by rewrite ltnNge (next_pow2_big Hn).
Qed.

Lemma w_domain_new_release fuel n : (2 ^ 63 < n)%N -> w_domain_new fp Release fuel n = None.
Proof.
move=> Hn; rewrite /w_domain_new /w_next_power_of_two /fit.
rewrite ltnNge (next_pow2_big Hn) [bindR _ _]/=.
have -> : (next_pow2 n %% 2 ^ 64 = 0)%N.
  apply/eqP; rewrite -/(_ %| _)%N; apply: dvdn_exp2l.
  by have := next_pow2_big Hn; rewrite /next_pow2 leq_exp2l.
set cond := (fun kp : nat * nat => _); set body := (fun kp : nat * nat => _).
suff H p : while fuel cond body (0, p)%N = None by rewrite H.
elim: fuel p => [|fuel IH] p; first by [].
have [y Ey _] := fit_release 64 (p + 1).
rewrite (@whileT _ _ _ _ _ (0, y)) ?IH //.
by rewrite /body [fst _]/= [snd _]/= /wadd Ey [bind _ _]/= div0n.
Qed.
End Domain.

Lemma w_coset_release i n : (i < 2 ^ 64)%N -> (n < 2 ^ 64)%N ->
  w_coset_for_natural_index_and_size Release i n = coset_for_natural_index_and_size i n.
Proof.
move=> Hi Hn; rewrite /w_coset_for_natural_index_and_size /coset_for_natural_index_and_size.
case: ifP => // H1; case: ifP => // Hp2.
rewrite /wadd /fit; case: ltnP => H //; rewrite [bind _ _]/=; congr (Ok (sort leq [:: _; _])).
case/andP: Hp2 => _ /eqP En.
have Hd : (n %| 2 ^ 64)%N.
  rewrite -En /next_pow2 dvdn_exp2l // -(leq_exp2l _ _ (ltnSn 1)).
  by rewrite -[X in (X <= _)%N]/(next_pow2 n) En ltnW.
by rewrite modn_dvdm.
Qed.

Lemma w_cosetE pr i n : (i + n %/ 2 < 2 ^ 64)%N ->
  w_coset_for_natural_index_and_size pr i n = coset_for_natural_index_and_size i n.
Proof. by move=> H; rewrite /w_coset_for_natural_index_and_size /wadd fitE. Qed.

(** * The transforms *)
Section Fft.
Variable F : fieldType.
Implicit Types (a : seq F) (w omega : F).
Local Open Scope ring_scope.

Lemma w_bitreverseE pr n l : (l <= 32)%N -> (n < 2 ^ 32)%N -> w_bitreverse pr n l = Ok (bitreverse n l).
Proof.
move=> Hl Hn; rewrite /w_bitreverse /bitreverse.
have [] := @foldM_inv _ (fun (rn : nat * nat) (_ : nat) =>
    let* r := wshl pr 32 rn.1 1 in let* n' := wshr pr 32 rn.2 1 in Ok (r + wand rn.2 1, n')%N)
  (fun rn _ => (rn.1 * 2 + rn.2 %% 2, rn.2 %/ 2)%N) (0%N, n) l (fun j rn => (rn.1 < 2 ^ j)%N).
- by rewrite expn0.
- move=> j [r x] /= Hj Hr.
  have Hr2 : (r * 2 + x %% 2 < 2 ^ j.+1)%N.
    rewrite expnSr; apply: leq_trans (_ : r.+1 * 2 <= _)%N; last by rewrite leq_mul2r Hr orbT.
    by rewrite mulSn addnC ltn_add2r ltn_mod.
  split; last by [].
  rewrite expn1 wand1 modn_small //.
  apply: leq_ltn_trans (leq_addr (x %% 2) _) _; apply: leq_trans Hr2 _.
  by rewrite leq_exp2l // (leq_trans Hj).
by move=> -> _.
Qed.

Lemma getE a i : (i < size a)%N -> get a i = Ok a`_i.
Proof. by elim: a i => [|x a IH] [|i] //= H; apply: IH. Qed.

Lemma putE a i x : (i < size a)%N -> put a i x = Ok (set_nth 0 a i x).
Proof. by rewrite /put => ->. Qed.

Lemma w_bit_reverse_permuteE pr a L : (L < 32)%N -> size a = (2 ^ L)%N ->
  w_bit_reverse_permute pr a (2 ^ L) L = Ok (bit_reverse_permute a (2 ^ L) L) /\
  size (bit_reverse_permute a (2 ^ L) L) = (2 ^ L)%N.
Proof.
move=> HL Hs; rewrite /w_bit_reverse_permute /bit_reverse_permute.
apply: (@foldM_inv _ _ _ _ _ (fun _ x => size x = 2 ^ L)%N) => // j x Hj Ex.
rewrite w_bitreverseE ?(ltnW HL) //; last by apply: leq_trans Hj _; rewrite leq_exp2l // ltnW.
rewrite [bind _ _]/=; case: ifP => // _.
have Hb : (bitreverse j L < size x)%N by rewrite bitreverseE Ex brev_lt.
have Hj' : (j < size x)%N by rewrite Ex.
by rewrite /w_swap Hb Hj' size_swap.
Qed.

Section Stage.
Variables (pr : profile) (L s : nat) (w_m : F).
Hypothesis HL : (L < 32)%N.
Hypothesis Hs : (s < L)%N.
Let m := (2 ^ s)%N.
Let n := (2 ^ L)%N.

Lemma n_lt : (n < 2 ^ 32)%N. Proof. by rewrite ltn_exp2l. Qed.

Lemma w_butterflyE a k j w : size a = n -> (k + j + m < n)%N -> w_butterfly pr a k j m w = Ok (butterfly a k j m w).
Proof.
move=> Ea Hk; have Hk2 : (k + j < n)%N by apply: leq_ltn_trans Hk; rewrite leq_addr.
have Hn := n_lt.
rewrite /w_butterfly /wadd fitE ?(ltn_trans Hk2) // [bind _ _]/= fitE ?(ltn_trans Hk) // [bind _ _]/=.
rewrite getE ?Ea // [bind _ _]/= getE ?Ea // [bind _ _]/= putE ?Ea // [bind _ _]/=.
have E1 : size (set_nth 0 a (k + j + m) (a`_(k + j) - a`_(k + j + m) * w)) = n.
  by rewrite size_set_nth Ea (maxn_idPr Hk).
by rewrite getE ?E1 // [bind _ _]/= putE ?E1.
Qed.

Lemma block_lt k j : (k + 2 * m <= n)%N -> (j < m)%N -> (k + j + m < n)%N.
Proof. by move=> Hk Hj; apply: leq_trans Hk; rewrite mul2n -addnn addnA ltn_add2r ltn_add2l. Qed.

Lemma w_fft_blockE a k : size a = n -> (k + 2 * m <= n)%N ->
  w_fft_block pr a k m w_m = Ok (fft_block a k m w_m) /\ size (fft_block a k m w_m) = n.
Proof.
move=> Ea Hk; rewrite /w_fft_block /fft_block.
have [] := @foldM_inv _ (fun (aw : seq F * F) j =>
    let* a' := w_butterfly pr aw.1 k j m aw.2 in Ok (a', aw.2 * w_m))
  (fun aw j => (butterfly aw.1 k j m aw.2, aw.2 * w_m)) (a, 1) m (fun _ aw => size aw.1 = n) Ea.
  move=> j [x u] Hj; rewrite [fst _]/= [snd _]/= => Ex.
  have H := block_lt Hk Hj.
  by rewrite w_butterflyE // [bind _ _]/=; split=> //; rewrite [fst _]/= size_butterfly ?Ex.
by move=> -> E.
Qed.

Lemma blocks_n : ceil_div n (2 * m) = (2 ^ (L - s.+1))%N.
Proof.
rewrite /n (stage_split Hs) /ceil_div mulnK ?muln_gt0 ?expn_gt0 // modnMl.
by rewrite eqxx addn0.
Qed.

Lemma w_fft_stageE fuel a : size a = n -> (n <= fuel)%N ->
  w_fft_stage pr fuel a n m w_m = Some (Ok (fft_stage a n m w_m)) /\ size (fft_stage a n m w_m) = n.
Proof.
move=> Ea Hf; rewrite /w_fft_stage /fft_stage blocks_n.
set B := (2 ^ (L - s.+1))%N; have EB : n = (B * (2 * m))%N by exact: stage_split.
set st := fun b => foldl (fun a b => fft_block a (b * (2 * m)) m w_m) a (iota 0 b).
have Hst b : (b <= B)%N -> size (st b) = n.
  elim: b => [|b IH] Hb; first by [].
  rewrite /st foldl_iotaS -/(st b).
  have [|_ ->] // := @w_fft_blockE (st b) (b * (2 * m)) (IH (ltnW Hb)).
  by rewrite -mulSnr EB leq_mul2r Hb orbT.
split; last exact: Hst.
set cond := (fun ka : nat * seq F => _); set body := (fun ka : nat * seq F => _).
suff -> : while fuel cond body (0%N, a) = Some (Ok (n, st B)) by [].
have HBf : (B <= fuel)%N.
  by apply: leq_trans Hf; rewrite EB leq_pmulr // muln_gt0 expn_gt0.
apply: (while_mono HBf).
have H d : (d <= B)%N -> while d cond body ((B - d) * (2 * m), st (B - d))%N = Some (Ok (n, st B)).
  elim: d => [|d IH] Hd.
    by rewrite subn0 -EB whileF // /cond [fst _]/= ltnn.
  have Hlt : (B - d.+1 < B)%N by rewrite ltn_subrL (leq_trans _ Hd).
  rewrite (@whileT _ _ _ _ _ ((B - d) * (2 * m), st (B - d))%N) ?IH //; first exact: ltnW.
    by rewrite /cond [fst _]/= EB ltn_mul2r Hlt muln_gt0 expn_gt0.
  rewrite /body [fst _]/= [snd _]/=.
  have [|-> _] := @w_fft_blockE (st (B - d.+1)%N) ((B - d.+1) * (2 * m))%N (Hst _ (ltnW Hlt)).
    by rewrite -mulSnr EB leq_mul2r Hlt orbT.
  have Hm2 : (2 * m < 2 ^ 32)%N by rewrite -expnS ltn_exp2l // (leq_ltn_trans Hs).
  rewrite [bind _ _]/= /wmul fitE // [bind _ _]/= /wadd -mulSnr -subSn // subSS fitE; last first.
    by apply: leq_ltn_trans n_lt; rewrite EB leq_mul2r leq_subr orbT.
  rewrite [bind _ _]/=; congr (Ok (_, _)).
  by rewrite /st -[in RHS](subnSK Hd) foldl_iotaS.
by have := H B (leqnn B); rewrite subnn mul0n.
Qed.

Variable f : nat.
Hypothesis Hf64 : (2 ^ f < 2 ^ 64)%N.

Lemma w_is_non_zeroE idx : w_is_non_zero pr idx (2 ^ f) s = Ok (is_non_zero idx (2 ^ f) s).
Proof.
rewrite /w_is_non_zero /wsub expn_gt0 [bind _ _]/= wshl1E; last by rewrite (ltn_trans Hs) // (ltn_trans HL).
by rewrite [bind _ _]/= wand_mask.
Qed.

Lemma w_is_dense_roundE : w_is_dense_round pr (2 ^ f) s = Ok (is_dense_round (2 ^ f) s).
Proof. by rewrite /w_is_dense_round wshrE // (ltn_trans Hs) // (ltn_trans HL). Qed.

Lemma w_butterfly_sparseE a k j w : size a = n -> (k + j + m < n)%N ->
  w_butterfly_sparse pr a k j m (2 ^ f) s w = Ok (butterfly_sparse a k j m (2 ^ f) s w).
Proof.
move=> Ea Hk; have Hk2 : (k + j < n)%N by apply: leq_ltn_trans Hk; rewrite leq_addr.
have Hn := n_lt.
have E1 x : size (set_nth 0 a (k + j + m) x) = n by rewrite size_set_nth Ea (maxn_idPr Hk).
rewrite /w_butterfly_sparse /butterfly_sparse /wadd fitE ?(ltn_trans Hk2) // [bind _ _]/= fitE ?(ltn_trans Hk) // [bind _ _]/=.
rewrite !w_is_non_zeroE [bind _ _]/= [bind _ _]/=.
case: (is_non_zero (k + j + m) _ _); case: (is_non_zero (k + j) _ _); last by [].
- rewrite getE ?Ea // [bind _ _]/= getE ?Ea // [bind _ _]/= putE ?Ea // [bind _ _]/=.
  by rewrite getE ?E1 // [bind _ _]/= putE ?E1.
- by rewrite getE ?Ea // [bind _ _]/= putE ?Ea // [bind _ _]/= putE ?E1.
- by rewrite getE ?Ea // [bind _ _]/= putE ?Ea.
Qed.

Lemma w_lde_blockE a k : size a = n -> (k + 2 * m <= n)%N ->
  w_lde_block pr a k m (2 ^ f) s w_m = Ok (lde_block a k m (2 ^ f) s w_m) /\ size (lde_block a k m (2 ^ f) s w_m) = n.
Proof.
move=> Ea Hk; rewrite /w_lde_block /lde_block.
have [] := @foldM_inv _ (fun (aw : seq F * F) j =>
    let* a' := w_butterfly_sparse pr aw.1 k j m (2 ^ f) s aw.2 in Ok (a', aw.2 * w_m))
  (fun aw j => (butterfly_sparse aw.1 k j m (2 ^ f) s aw.2, aw.2 * w_m)) (a, 1) m (fun _ aw => size aw.1 = n) Ea.
  move=> j [x u] Hj; rewrite [fst _]/= [snd _]/= => Ex.
  have H := block_lt Hk Hj.
  by rewrite w_butterfly_sparseE // [bind _ _]/=; split=> //; rewrite [fst _]/= size_butterfly_sparse ?Ex.
by move=> -> E.
Qed.

Lemma w_lde_stageE a : size a = n ->
  w_lde_stage pr a n m (2 ^ f) s w_m = Ok (lde_stage a n m (2 ^ f) s w_m) /\
  size (lde_stage a n m (2 ^ f) s w_m) = n.
Proof.
move=> Ea; rewrite /w_lde_stage /lde_stage /fft_stage blocks_n.
have Hm2 : (2 * m < 2 ^ 64)%N by rewrite -expnS ltn_exp2l // (leq_ltn_trans Hs) // (ltn_trans HL).
rewrite /wmul fitE // [bind _ _]/= muln_gt0 expn_gt0 [(_ && _)%B]/= w_is_dense_roundE [bind _ _]/= blocks_n.
have Hb b : (b < 2 ^ (L - s.+1))%N -> (b * (2 * m) + 2 * m <= n)%N.
  by move=> Hb; rewrite -mulSnr /n (stage_split Hs) leq_mul2r Hb orbT.
case: (is_dense_round _ _).
  apply: (@foldM_inv _ _ _ _ _ (fun _ x => size x = n)) => // j x Hj Ex.
  exact: w_fft_blockE (Hb _ Hj).
apply: (@foldM_inv _ _ _ _ _ (fun _ x => size x = n)) => // j x Hj Ex.
exact: w_lde_blockE (Hb _ Hj).
Qed.
End Stage.

Lemma foldR_inv B (f : B -> nat -> run B) (g : B -> nat -> B) b n (P : nat -> B -> Prop) :
  P 0%N b -> (forall j x, (j < n)%N -> P j x -> f x j = Some (Ok (g x j)) /\ P j.+1 (g x j)) ->
  foldR f b (iota 0 n) = Some (Ok (foldl g b (iota 0 n))) /\ P n (foldl g b (iota 0 n)).
Proof.
have Hrc s (x : nat) b0 : foldR f b0 (rcons s x) = (let+ b' := foldR f b0 s in f b' x).
  elim: s b0 => [|y s IH] b0 /=; first by case: (f b0 x) => [[]|].
  by case: (f b0 y) => [[]|].
move=> H0; elim: n => [|n IH] H; first by [].
have [|E HP] := IH; first by move=> j x Hj; apply: H; rewrite ltnS ltnW.
have [E2 HP2] := H n _ (ltnSn n) HP.
by rewrite foldl_iotaS iotaSr Hrc E.
Qed.

Lemma as_u32_small n : (n < 2 ^ 32)%N -> as_u32 n = n.
Proof. by move=> H; rewrite /as_u32 modn_small. Qed.

Lemma w_serial_fftE pr fuel a omega L : (L < 32)%N -> (size a < 2 ^ 32)%N -> (2 ^ L <= fuel)%N ->
  w_serial_fft pr fuel a omega L = Some (serial_fft a omega L).
Proof.
move=> HL Ha Hf; rewrite /w_serial_fft /serial_fft as_u32_small // wshl1E // [bindR _ _]/=.
case: eqP => // Es; rewrite Es.
have [-> Es'] := w_bit_reverse_permuteE pr HL Es.
rewrite [bindR _ _]/=; set b := bit_reverse_permute _ _ _ in Es' *.
have [] := @foldR_inv _ (fun (am : seq F * nat) (_ : nat) =>
        let+ m2 := Some (wmul pr 32 2 am.2) in
        if m2 == 0%N then Some Panic
        else
          let+ a' := w_fft_stage pr fuel am.1 (2 ^ L) am.2 (omega ^+ (2 ^ L %/ m2)%N) in
          let+ m' := Some (wmul pr 32 am.2 2) in
          Some (Ok (a', m')))
  (fun am _ => (fft_stage am.1 (2 ^ L) am.2 (omega ^+ (2 ^ L %/ (2 * am.2))%N), (am.2 * 2)%N)) (b, 1%N) L
  (fun j am => size am.1 = (2 ^ L)%N /\ am.2 = (2 ^ j)%N).
- by rewrite expn0.
- move=> j [x m] Hj [Ex Em]; rewrite [fst _]/= in Ex; rewrite [snd _]/= in Em; rewrite [snd _]/= [fst _]/= Em.
  have Hm2 : (2 * 2 ^ j < 2 ^ 32)%N by rewrite -expnS ltn_exp2l // (leq_ltn_trans Hj).
  have Hm0 : (2 ^ j.+1 == 0)%N = false by apply/negbTE; rewrite -lt0n expn_gt0.
  rewrite /wmul fitE // [bindR _ _]/= -expnS Hm0.
  have [-> ->] := @w_fft_stageE pr L j (omega ^+ (2 ^ L %/ 2 ^ j.+1)) HL Hj fuel x Ex Hf.
  by rewrite [bindR _ _]/= mulnC -expnS fitE // ltn_exp2l // (leq_ltn_trans Hj).
by move=> -> _.
Qed.

Lemma w_serial_fft_big pr fuel a omega L : (32 <= L)%N -> size a = (2 ^ L)%N -> w_serial_fft pr fuel a omega L = Some Panic.
Proof.
move=> HL Es; rewrite /w_serial_fft.
have -> : as_u32 (size a) = 0%N by apply/eqP; rewrite /as_u32 Es -/(_ %| _)%N dvdn_exp2l.
have [E|[lim E Hlim]] : wshl pr 32 1 L = Panic \/ exists2 lim, wshl pr 32 1 L = Ok lim & lim != 0%N.
- rewrite /wshl ltnNge HL; case: pr; [by left | right].
  exists ((1 * 2 ^ (L %% 32)) %% 2 ^ 32)%N; first by [].
  by rewrite mul1n modn_small ?ltn_exp2l ?ltn_mod // -lt0n expn_gt0.
- by rewrite E.
by rewrite E [bindR _ _]/= eq_sym (negPf Hlim).
Qed.

Lemma w_serial_ldeE pr a omega L f : (L < 32)%N -> (size a < 2 ^ 32)%N -> (f < 64)%N ->
  w_serial_lde pr a omega L (2 ^ f) = serial_lde a omega L (2 ^ f).
Proof.
move=> HL Ha Hf; rewrite /w_serial_lde /serial_lde as_u32_small // wshl1E // [bind _ _]/=.
case: eqP => // Es; rewrite Es.
have [-> Es'] := w_bit_reverse_permuteE pr HL Es.
rewrite [bind _ _]/=; set b := bit_reverse_permute _ _ _ in Es' *.
set stepf := (fun (st : seq F * nat * nat) (_ : nat) => _).
have [] := @foldM_inv _ stepf
  (fun st j => (lde_stage st.1.1 (2 ^ L) st.1.2 (2 ^ f) j (omega ^+ (2 ^ L %/ (2 * st.1.2))%N), (st.1.2 * 2)%N, j.+1))
  (b, 1%N, 0%N) L (fun j st => [/\ size st.1.1 = (2 ^ L)%N, st.1.2 = (2 ^ j)%N & st.2 = j]).
- by rewrite expn0.
- move=> j [[x m] s] Hj [Ex Em Ej]; rewrite [fst _]/= in Ex; rewrite [snd _]/= in Em; rewrite [snd _]/= in Ej.
  have Hm2 : (2 * 2 ^ j < 2 ^ 32)%N by rewrite -expnS ltn_exp2l // (leq_ltn_trans Hj).
  rewrite /stepf [fst _]/= [fst _]/= [snd _]/= Em Ej.
  rewrite /wmul fitE // [bind _ _]/= -{1}expnS -lt0n expn_gt0 [(_ || _)%B]/=.
  have [-> ->] := @w_lde_stageE pr L j (omega ^+ (2 ^ L %/ (2 * 2 ^ j))) HL Hj f x Ex.
  rewrite [bind _ _]/= /wadd addn1 fitE; last by apply: small64; rewrite (leq_trans Hj) // (leq_trans (ltnW HL)).
  rewrite [bind _ _]/= mulnC fitE //; split=> //; split=> //.
  by rewrite expnS.
move=> -> _; rewrite [bind _ _]/=; congr Ok.
have H k : (foldl (fun (st : seq F * nat * nat) j => (lde_stage st.1.1 (2 ^ L) st.1.2 (2 ^ f) j (omega ^+ (2 ^ L %/ (2 * st.1.2))%N), (st.1.2 * 2)%N, j.+1)) (b, 1%N, 0%N) (iota 0 k)).1 =
  foldl (fun am step => (lde_stage am.1 (2 ^ L) am.2 (2 ^ f) step (omega ^+ (2 ^ L %/ (2 * am.2))%N), (am.2 * 2)%N)) (b, 1%N) (iota 0 k).
  by elim: k => // k IH; rewrite !foldl_iotaS -IH.
by rewrite H.
Qed.

Lemma mapRE A B (f : A -> outcome B) (g : A -> run B) s : (forall x, g x = Some (f x)) -> mapR g s = Some (mapM f s).
Proof.
move=> H; elim: s => //= x s IH; rewrite H /=; case: (f x) => [y| |] //=.
by rewrite IH /=; case: (mapM f s).
Qed.

Lemma w_parallel_fftE pr fuel a (w : worker) omega L C : (L < 64)%N -> (L - C < 32)%N ->
  (2 ^ (L - C) <= fuel)%N -> w_parallel_fft pr fuel a w omega L C = Some (parallel_fft a w omega L C).
Proof.
move=> HL HC Hf; rewrite /w_parallel_fft /parallel_fft; case: ifP => // HCL.
rewrite wshl1E; last exact: leq_ltn_trans HCL HL.
rewrite [bindR _ _]/= wshl1E; last exact: leq_ltn_trans (leq_subr _ _) HL.
rewrite [bindR _ _]/= wshl1E // [bindR _ _]/=; case: ifP => // Hs.
rewrite (mapRE (f := fun j => serial_fft (shuffle xpredT a omega L (L - C) (2 ^ C) j) (omega ^+ (2 ^ C)) (L - C))).
  by case: (mapM _ _) => //= tmp; case: ifP.
move=> j; apply: w_serial_fftE => //.
have -> : size (shuffle xpredT a omega L (L - C) (2 ^ C) j) = (2 ^ (L - C))%N.
  rewrite /shuffle; set st := ([::], 1); have : size st.1 = 0%N by [].
  move: (2 ^ (L - C))%N => n; set f := (fun te : seq F * F => _).
  have H k te : size (foldl f te (iota 0 k)).1 = (size te.1 + k)%N.
    by elim: k => [|k IH]; rewrite ?addn0 // foldl_iotaS [(f _ _).1]/= size_rcons IH addnS.
  by move=> E; rewrite H E.
by rewrite ltn_exp2l.
Qed.

Lemma w_best_fftE pr fuel a (w : worker) omega L hint : (L < 32)%N -> (size a < 2 ^ 32)%N -> (w < 2 ^ 63)%N ->
  (2 ^ L <= fuel)%N -> (63 <= fuel)%N ->
  w_best_fft pr fuel a w omega L hint = Some (best_fft a w omega L hint).
Proof.
move=> HL Ha Hw Hf Hf63; rewrite /w_best_fft /best_fft /log_num_cpus.
have H lc : (if (lc == 0%N) || (L <= lc)%N then w_serial_fft pr fuel a omega L else w_parallel_fft pr fuel a w omega L lc)
   = Some (if (lc == 0%N) || (L <= lc)%N then serial_fft a omega L else parallel_fft a w omega L lc).
  case: ifP => _; first exact: w_serial_fftE.
  apply: w_parallel_fftE; [exact: ltn_trans HL _ | exact: leq_ltn_trans (leq_subr _ _) HL |].
  by apply: leq_trans Hf; rewrite leq_exp2l // leq_subr.
case: hint => [hint|].
  case: ifP => // Hh; rewrite (w_log2_floorE _ (leq_ltn_trans Hh Hw) Hf63).
  by case: (log2_floor hint) => [lc| |] //=; exact: H.
by rewrite (w_log2_floorE _ Hw Hf63); case: (log2_floor w) => [lc| |] //=; exact: H.
Qed.
End Fft.
