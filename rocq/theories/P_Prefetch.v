(** The prefetching kernels equal those of fft.rs and lde.rs. *)
From mathcomp Require Import all_ssreflect all_algebra.
From Verif Require Import M_Base M_Worker M_Fft M_Prefetch Spec P_Base P_Fft.

Set Implicit Arguments.
Unset Strict Implicit.
Unset Printing Implicit Defensive.
Import GRing.Theory.
Local Open Scope ring_scope.

(** A loop that can fail, along an invariant under which it does not. *)
Lemma foldM_inv B (f : B -> nat -> outcome B) (g : B -> nat -> B) b n (P : nat -> B -> Prop) :
  P 0%N b -> (forall j x, (j < n)%N -> P j x -> f x j = Ok (g x j) /\ P j.+1 (g x j)) ->
  foldM f b (iota 0 n) = Ok (foldl g b (iota 0 n)) /\ P n (foldl g b (iota 0 n)).
Proof.
move=> H0; elim: n => [|n IH] H; first by [].
have [|E HP] := IH; first by move=> j x Hj; apply: H; rewrite ltnS ltnW.
have [E2 HP2] := H n _ (ltnSn n) HP.
by rewrite foldl_iotaS iotaSr foldM_rcons E.
Qed.

Section Prefetch.
Variable F : fieldType.
Implicit Types (a : seq F) (w omega : F).

Lemma size_butterfly a k j m w : (k + j + m < size a)%N -> size (butterfly a k j m w) = size a.
Proof.
move=> Hs; have Hs2 : (k + j < size a)%N by apply: leq_ltn_trans Hs; rewrite leq_addr.
by rewrite /butterfly !size_set_nth (maxn_idPr Hs) (maxn_idPr Hs2).
Qed.

Lemma size_butterfly_sparse a k j m f step w : (k + j + m < size a)%N ->
  size (butterfly_sparse a k j m f step w) = size a.
Proof.
move=> Hs; have Hs2 : (k + j < size a)%N by apply: leq_ltn_trans Hs; rewrite leq_addr.
rewrite /butterfly_sparse; case: is_non_zero; case: is_non_zero => //;
by rewrite ?size_set_nth (maxn_idPr Hs) ?(maxn_idPr Hs2).
Qed.

Lemma pf_blockE a k m w_m : (0 < m)%N -> (k + 2 * m <= size a)%N ->
  pf_block a k m w_m = Ok (fft_block a k m w_m) /\ size (fft_block a k m w_m) = size a.
Proof.
case: m => // m _ Hs.
have Hj : forall j, (j < m.+1)%N -> (k + j + m.+1 < size a)%N.
  by move=> j Hj; rewrite (leq_trans _ Hs) // mul2n -addnn addnA ltn_add2r ltn_add2l.
have H0 := Hj 0%N isT; rewrite addn0 in H0.
rewrite /pf_block /fft_block /prefetch_index subn1 -pred_Sn foldl_iotaS H0.
rewrite (leq_ltn_trans (leq_addr _ _) H0).
have [] := @foldM_inv _ (fun (aw : seq F * F) j =>
   check! (k + j + 1 + m.+1 < size aw.1)%N ;; check! (k + j + 1 < size aw.1)%N ;;
   Ok (butterfly aw.1 k j m.+1 aw.2, aw.2 * w_m)) (fun aw j => (butterfly aw.1 k j m.+1 aw.2, aw.2 * w_m))
   (a, 1) m (fun _ aw => size aw.1 = size a) erefl.
  move=> j [x u] /= Hjm Ex; rewrite Ex -(addnA k) addn1 Hj ?ltnS //.
  rewrite (leq_ltn_trans (leq_addr m.+1 _)) ?Hj ?ltnS // size_butterfly ?Ex //.
  by apply: Hj; rewrite ltnS ltnW.
move=> -> E /=; split=> //.
by rewrite size_butterfly // E Hj.
Qed.

Lemma pf_stageE a m w_m B : (0 < m)%N -> size a = (B * (2 * m))%N ->
  pf_stage a (size a) m w_m = Ok (fft_stage a (size a) m w_m) /\ size (fft_stage a (size a) m w_m) = size a.
Proof.
move=> Hm Hs; rewrite /pf_stage /fft_stage (stage_blocks Hm Hs).
apply: (@foldM_inv _ _ _ _ _ (fun _ x => size x = size a)) => // j x Hj Ex.
have [|-> ->] // := @pf_blockE x (j * (2 * m)) m w_m Hm.
by rewrite Ex Hs -mulSnr leq_mul2r Hj orbT.
Qed.

Lemma stage_split L s : (s < L)%N -> (2 ^ L = 2 ^ (L - s.+1) * (2 * 2 ^ s))%N.
Proof. by move=> H; rewrite -expnS -expnD subnK. Qed.

Lemma size_bit_reverse a n L K : size a = (2 ^ L)%N -> (K <= 2 ^ L)%N ->
  size (pf_bit_reverse a n L K) = size a.
Proof.
move=> Hs HK; rewrite /pf_bit_reverse.
have : (minn n K <= 2 ^ L)%N by rewrite geq_min HK orbT.
elim: (minn n K) => // J IH HJ; rewrite foldl_iotaS; set r := foldl _ _ _.
have Er : size r = size a by apply: IH; apply: ltnW.
rewrite /= bitreverseE; case: ltnP => // _; rewrite size_swap // Er Hs //; exact: brev_lt.
Qed.

Lemma bit_reverse_full a n L : pf_bit_reverse a n L n = bit_reverse_permute a n L.
Proof. by rewrite /pf_bit_reverse minnn. Qed.

Lemma pf_serial_fftE a omega L : pf_serial_fft a omega L = serial_fft a omega L.
Proof.
rewrite /pf_serial_fft /serial_fft; case: eqP => // Hs.
set a0 := bit_reverse_permute _ _ _.
have H0 : size a0 = size a by rewrite /a0 -bit_reverse_full size_bit_reverse // Hs.
have [] := @foldM_inv _ (fun (am : seq F * nat) _ =>
   let* a' := pf_stage am.1 (size a) am.2 (omega ^+ (size a %/ (2 * am.2))%N) in Ok (a', (am.2 * 2)%N))
   (fun am _ => (fft_stage am.1 (size a) am.2 (omega ^+ (size a %/ (2 * am.2))%N), (am.2 * 2)%N))
   (a0, 1%N) L (fun s am => size am.1 = size a /\ am.2 = (2 ^ s)%N) (conj H0 erefl); last by move=> -> _.
move=> s [x m] Hs' /= [Ex ->]; rewrite -Ex.
have [||-> ->] // := @pf_stageE x (2 ^ s) (omega ^+ (size x %/ (2 * 2 ^ s))) (2 ^ (L - s.+1)).
- by rewrite expn_gt0.
- by rewrite Ex Hs; apply: stage_split.
by rewrite /= -expnSr.
Qed.

Lemma pf_parallel_fftE a (w : worker) omega L c : pf_parallel_fft a w omega L c = parallel_fft a w omega L c.
Proof.
rewrite /pf_parallel_fft /parallel_fft; case: leqP => // _; case: leqP => // _.
suff -> : forall s, mapM (fun j => pf_serial_fft (shuffle xpredT a omega L (L - c) (2 ^ c) j) (omega ^+ (2 ^ c)) (L - c)) s =
  mapM (fun j => serial_fft (shuffle xpredT a omega L (L - c) (2 ^ c) j) (omega ^+ (2 ^ c)) (L - c)) s by [].
by elim=> //= j s IH; rewrite pf_serial_fftE IH.
Qed.

Lemma pf_best_fftE a (w : worker) omega L hint : pf_best_fft a w omega L hint = best_fft a w omega L hint.
Proof.
rewrite /pf_best_fft /best_fft; case: (if hint is Some _ then _ else _) => //= c.
by rewrite pf_serial_fftE pf_parallel_fftE.
Qed.

(** The bit reversal may end at the non-trivial part. *)
Lemma bit_reverse_loopP a L K : size a = (2 ^ L)%N -> (K <= 2 ^ L)%N ->
  let r := foldl (fun a k => let rk := bitreverse k L in if (k < rk)%N then swap a rk k else a) a (iota 0 K) in
  size r = size a /\ forall i, (i < 2 ^ L)%N ->
     r`_i = if ((i < K) || (brev L i < K))%N then a`_(brev L i) else a`_i.
Proof.
move=> Hs; elim: K => [|K IH] HK; first by [].
rewrite foldl_iotaS /=.
have [IHs IHn] := IH (ltnW HK).
set r := foldl _ a _ in IHs IHn *.
rewrite bitreverseE; case: ltnP => Hr; last first.
  split=> // i Hi; rewrite IHn // !ltnS.
  rewrite [(i <= K)%N]leq_eqVlt [(brev L i <= K)%N]leq_eqVlt; case: (eqVneq i K) => [->|Hne] /=.
    by rewrite ltnn /=; case: ltngtP Hr => //= ->.
  case: (eqVneq (brev L i) K) => [E|Hne2] //=.
  rewrite orbT; case: ifP => // /negbT; rewrite negb_or -!leqNgt => /andP [H1 _].
  move: Hr; rewrite -{1}E brevK // => H2; case/eqP: Hne.
  by apply/eqP; rewrite eqn_leq H1 H2.
have HrL := brev_lt L K.
split; first by rewrite size_swap ?IHs ?Hs.
move=> i Hi; rewrite nth_swap !ltnS.
rewrite !IHn // brevK // [(brev L K < K)%N]ltnNge (ltnW Hr) ltnn /=.
case: (eqVneq i K) => [->|Hne]; first by rewrite leqnn.
case: (eqVneq i (brev L K)) => [->|Hne2]; first by rewrite brevK // leqnn orbT.
rewrite [(i <= K)%N]leq_eqVlt [(brev L i <= K)%N]leq_eqVlt (negPf Hne) /=.
suff -> : (brev L i == K) = false by [].
by apply/eqP => E; move/eqP: Hne2; apply; rewrite -E brevK.
Qed.

Lemma pf_bit_reverseE a L K : size a = (2 ^ L)%N -> (K <= 2 ^ L)%N ->
  (forall i, (K <= i < 2 ^ L)%N -> a`_i = 0) ->
  pf_bit_reverse a (2 ^ L) L K = bit_reverse_permute a (2 ^ L) L.
Proof.
move=> Hs HK Z; rewrite bit_reverse_permuteP // /pf_bit_reverse (minn_idPr HK).
have [Er Hr] := bit_reverse_loopP Hs HK.
apply: (@eq_from_nth _ 0); first by rewrite Er size_mkseq.
rewrite Er Hs => i Hi; rewrite Hr // nth_mkseq //; case: ifP => // /negbT.
rewrite negb_or -!leqNgt => /andP [H1 H2].
by rewrite !Z ?H1 ?H2 ?brev_lt.
Qed.

Lemma pf_lde_blockE a k m f step w_m : (0 < m)%N -> (k + 2 * m <= size a)%N ->
  pf_lde_block a k m f step w_m = Ok (lde_block a k m f step w_m) /\ size (lde_block a k m f step w_m) = size a.
Proof.
case: m => // m _ Hs.
have Hj : forall j, (j < m.+1)%N -> (k + j + m.+1 < size a)%N.
  by move=> j Hj; rewrite (leq_trans _ Hs) // mul2n -addnn addnA ltn_add2r ltn_add2l.
have H0 := Hj 0%N isT; rewrite addn0 in H0.
rewrite /pf_lde_block /lde_block /prefetch_index subn1 -pred_Sn foldl_iotaS H0.
rewrite (leq_ltn_trans (leq_addr _ _) H0) implybT.
have [] := @foldM_inv _ (fun (aw : seq F * F) j =>
   check! (is_non_zero (k + j + 1) f step || is_non_zero (k + j + m.+1 + 1) f step) ==>
             ((k + j + m.+1 + 1 < size aw.1)%N && (k + j + 1 < size aw.1)%N) ;;
   Ok (butterfly_sparse aw.1 k j m.+1 f step aw.2, aw.2 * w_m))
   (fun aw j => (butterfly_sparse aw.1 k j m.+1 f step aw.2, aw.2 * w_m))
   (a, 1) m (fun _ aw => size aw.1 = size a) erefl.
  move=> j [x u] /= Hjm Ex; have := Hj j.+1; rewrite ltnS => /(_ Hjm) H1.
  have E1 : (k + j + m.+1 + 1 = k + j.+1 + m.+1)%N by rewrite addn1 (addnS k j) addSn.
  rewrite Ex E1 H1 -(addnA k j 1%N) addn1 (leq_ltn_trans (leq_addr _ _) H1) implybT; split=> //.
  by rewrite size_butterfly_sparse ?Ex // Hj // ltnS ltnW.
move=> -> E /=; split=> //.
by rewrite size_butterfly_sparse // E Hj.
Qed.

Lemma pf_lde_stageE a m f step w_m B : (0 < m)%N -> size a = (B * (2 * m))%N ->
  pf_lde_stage a (size a) m f step w_m = Ok (lde_stage a (size a) m f step w_m) /\
  size (lde_stage a (size a) m f step w_m) = size a.
Proof.
move=> Hm Hs; rewrite /pf_lde_stage /lde_stage; case: ifP => _; first exact: pf_stageE Hm Hs.
rewrite (stage_blocks Hm Hs).
apply: (@foldM_inv _ _ _ _ _ (fun _ x => size x = size a)) => // j x Hj Ex.
have [|-> ->] // := @pf_lde_blockE x (j * (2 * m)) m f step w_m Hm.
by rewrite Ex Hs -mulSnr leq_mul2r Hj orbT.
Qed.

Lemma pf_serial_ldeE a omega L f : f != 0%N ->
  (size a = (2 ^ L)%N -> forall i, (2 ^ L %/ f <= i < 2 ^ L)%N -> a`_i = 0) ->
  pf_serial_lde a omega L f = serial_lde a omega L f.
Proof.
move=> Hf Z; rewrite /pf_serial_lde /serial_lde Hf; case: eqP => // Hs; have {}Z := Z Hs.
rewrite Hs pf_bit_reverseE // ?leq_div // -Hs.
set a0 := bit_reverse_permute _ _ _.
have H0 : size a0 = size a by rewrite /a0 -bit_reverse_full size_bit_reverse // Hs.
have [] := @foldM_inv _ (fun (am : seq F * nat) step =>
   let* a' := pf_lde_stage am.1 (size a) am.2 f step (omega ^+ (size a %/ (2 * am.2))%N) in Ok (a', (am.2 * 2)%N))
   (fun am step => (lde_stage am.1 (size a) am.2 f step (omega ^+ (size a %/ (2 * am.2))%N), (am.2 * 2)%N))
   (a0, 1%N) L (fun s am => size am.1 = size a /\ am.2 = (2 ^ s)%N) (conj H0 erefl); last by move=> -> _.
move=> s [x m] Hs' /= [Ex ->]; rewrite -Ex.
have [||-> ->] // := @pf_lde_stageE x (2 ^ s) f s (omega ^+ (size x %/ (2 * 2 ^ s))) (2 ^ (L - s.+1)).
- by rewrite expn_gt0.
- by rewrite Ex Hs; apply: stage_split.
by rewrite /= -expnSr.
Qed.

Lemma pf_parallel_ldeE a (w : worker) omega L c e : (c <= L)%N -> (e <= L)%N -> size a = (2 ^ L)%N ->
  (forall i, (2 ^ (L - e) <= i < 2 ^ L)%N -> a`_i = 0) -> fft_root omega L ->
  pf_parallel_lde a w omega L c (2 ^ e) = parallel_lde a w omega L c (2 ^ e).
Proof.
move=> HcL HeL Hs Z Hr; rewrite /pf_parallel_lde /parallel_lde HcL -lt0n expn_gt0 /=.
set keep : pred nat := fun idx => (idx < size a %/ 2 ^ e)%N.
suff -> : mapM (fun j => if (2 ^ e %/ 2 ^ c <= 1)%N
      then pf_serial_fft (shuffle keep a omega L (L - c) (2 ^ c) j) (omega ^+ (2 ^ c)) (L - c)
      else pf_serial_lde (shuffle keep a omega L (L - c) (2 ^ c) j) (omega ^+ (2 ^ c)) (L - c) (2 ^ e %/ 2 ^ c))
    (iota 0 (2 ^ c)) =
  mapM (fun j => if (2 ^ e %/ 2 ^ c <= 1)%N
      then serial_fft (shuffle keep a omega L (L - c) (2 ^ c) j) (omega ^+ (2 ^ c)) (L - c)
      else serial_lde (shuffle keep a omega L (L - c) (2 ^ c) j) (omega ^+ (2 ^ c)) (L - c) (2 ^ e %/ 2 ^ c))
    (iota 0 (2 ^ c)) by [].
have : all (fun j => j < 2 ^ c)%N (iota 0 (2 ^ c)) by apply/allP => j; rewrite mem_iota.
elim: (iota 0 (2 ^ c)) => //= j s IH /andP [Hj /IH ->]; rewrite pf_serial_fftE.
have := dense_roundP e c; rewrite /is_dense_round => ->; case: leqP => // Hec.
rewrite pf_serial_ldeE ?(div_pow2 (ltnW Hec)) // -?lt0n ?expn_gt0 // => Hsz i.
rewrite (div_pow2 (leq_sub2r c HeL)) => /andP [H1 H2].
rewrite /keep shuffleP //; last first.
  by move=> idx Hidx; rewrite Hs div_pow2 // -leqNgt => H; rewrite Z // H.
rewrite nth_mkseq //; apply: big1_seq => t; rewrite mem_index_iota => /= Ht.
rewrite Z ?mul0r //; apply/andP; split.
  apply: leq_trans (leq_addr _ _); apply: leq_trans H1; rewrite leq_exp2l //.
  by rewrite subnBA ?(ltnW Hec) // subnK.
apply: (@leq_trans (2 ^ (L - c) + t * 2 ^ (L - c))); first by rewrite ltn_add2r.
by rewrite -mulSn -{2}(subnK HcL) expnD mulnC leq_mul2l Ht orbT.
Qed.

Lemma pf_best_ldeE a (w : worker) omega L e : (e <= L)%N -> size a = (2 ^ L)%N ->
  (forall i, (2 ^ (L - e) <= i < 2 ^ L)%N -> a`_i = 0) -> fft_root omega L ->
  pf_best_lde a w omega L (2 ^ e) = best_lde a w omega L (2 ^ e).
Proof.
move=> HeL Hs Z Hr; rewrite /pf_best_lde /best_lde; case: log_num_cpus => //= c.
case: leqP => HcL; last by rewrite pf_parallel_ldeE // ltnW.
by rewrite pf_serial_ldeE // -?lt0n ?expn_gt0 // div_pow2.
Qed.
End Prefetch.
