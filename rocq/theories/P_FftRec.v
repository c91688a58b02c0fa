(** The recursive transforms compute the discrete Fourier transform. *)
From mathcomp Require Import all_ssreflect all_algebra.
From Verif Require Import M_Base M_Worker M_Fft M_FftRec P_Base P_Fft P_FftAlt.

Set Implicit Arguments.
Unset Strict Implicit.
Unset Printing Implicit Defensive.
Import GRing.Theory.
Local Open Scope ring_scope.

Section FftRec.
Variable F : fieldType.
Implicit Types (a : seq F) (w omega : F).

Lemma bind_eq A B (x : A) (f : A -> outcome B) : bind (Ok x) f = f x.
Proof. by []. Qed.

Lemma mapM_ext_in (A : eqType) B (f g : A -> outcome B) s : {in s, f =1 g} -> mapM f s = mapM g s.
Proof.
elim: s => //= x s IH H; rewrite H ?mem_head //; case: (g x) => //= b.
by rewrite IH // => y Hy; apply: H; rewrite inE Hy orbT.
Qed.

Lemma split_even_oddP a h : size a = (2 * h)%N ->
  split_even_odd a = Ok (mkseq (fun i => a`_(2 * i)) h, mkseq (fun i => a`_(2 * i).+1) h).
Proof.
move=> Hs; rewrite /split_even_odd /chunks.
have -> : ceil_div (size a) 2 = h by rewrite /ceil_div Hs modnMr mulKn // addn0.
have Hc i : (i < h)%N -> chunk_at 2 a i = [:: a`_(2 * i); a`_(2 * i).+1].
  move=> Hi; rewrite /chunk_at mulnC (drop_nth 0); last by rewrite Hs ltn_pmul2l.
  rewrite (drop_nth 0) /= ?take0 //.
  by have : (2 * i.+1 <= 2 * h)%N by [rewrite leq_pmul2l]; rewrite mulnSr addn2 Hs.
rewrite (@mapM_mkseq _ _ _ _ (fun i => a`_(2 * i))) /=; last by move=> i Hi; rewrite Hc.
by rewrite (@mapM_mkseq _ _ _ _ (fun i => a`_(2 * i).+1)) //= => i Hi; rewrite Hc.
Qed.

(** What the loop that merges the two halves must leave after [k] rounds. *)
Let merged (h k : nat) omega (f g : nat -> F) (i : nat) : F :=
  if (i < h)%N then (if (i < k)%N then f i + g i * omega ^+ i else 0)
  else if (i - h < k)%N then f (i - h)%N - g (i - h)%N * omega ^+ (i - h) else 0.

Let merge_loop (step : seq F * F -> nat * (F * F) -> seq F * F) (h : nat) omega (f g : nat -> F) :
  (forall k r w, (k < h)%N -> size r = (2 * h)%N -> r`_k = 0 -> r`_(k + h) = 0 ->
     let s := step (r, w) (k, (f k, g k)) in
     [/\ s.2 = w * omega, size s.1 = (2 * h)%N &
         forall i, (s.1)`_i = if i == k then f k + g k * w else if i == (k + h)%N then f k - g k * w else r`_i]) ->
  (foldl step (nseq (2 * h) 0, 1) (enumerate (zip (mkseq f h) (mkseq g h)))).1 = mkseq (merged h h omega f g) (2 * h).
Proof.
move=> Hstep.
have -> : enumerate (zip (mkseq f h) (mkseq g h)) = [seq (k, (f k, g k)) | k <- iota 0 h].
  rewrite /enumerate size_zip !size_mkseq minnn /mkseq; elim: h 0%N {Hstep} => //= n IH m.
  by rewrite IH.
suff H : forall K, (K <= h)%N -> foldl step (nseq (2 * h) 0, 1) [seq (k, (f k, g k)) | k <- iota 0 K]
     = (mkseq (merged h K omega f g) (2 * h), omega ^+ K) by rewrite H.
elim=> [_|K IH HK].
  rewrite /= expr0; congr (_, _); apply: (@eq_from_nth _ 0); first by rewrite size_nseq size_mkseq.
  by rewrite size_nseq => i Hi; rewrite nth_nseq Hi nth_mkseq // /merged; case: ltnP => // _; rewrite !ltn0.
rewrite -[X in iota _ X]addn1 iotaD map_cat foldl_cat IH 1?ltnW //= add0n.
have HKh : (K + h < 2 * h)%N by rewrite mul2n -addnn ltn_add2r.
have HK2 : (K < 2 * h)%N by apply: leq_ltn_trans HKh; apply: leq_addr.
have [||||E2 Es En] := Hstep K (mkseq (merged h K omega f g) (2 * h)) (omega ^+ K) => //.
- by rewrite size_mkseq.
- by rewrite nth_mkseq // /merged HK ltnn.
- by rewrite nth_mkseq // /merged ltnNge leq_addl /= addnK ltnn.
rewrite [LHS]surjective_pairing E2 -exprSr; congr (_, _).
apply: (@eq_from_nth _ 0); first by rewrite Es size_mkseq.
rewrite Es => i Hi; rewrite En !nth_mkseq // /merged.
case: (altP (i =P K)) => [->|HiK]; first by rewrite HK ltnSn.
case: (altP (i =P (K + h)%N)) => [->|HiKh]; first by rewrite ltnNge leq_addl /= addnK ltnSn.
rewrite [(i < K.+1)%N]ltnS [(i <= K)%N]leq_eqVlt (negbTE HiK) /=.
case: ltnP => // Hih; rewrite [(i - h < K.+1)%N]ltnS [(i - h <= K)%N]leq_eqVlt.
by rewrite -(eqn_add2r h) subnK // (negbTE HiKh).
Qed.

Let merge_step (r : seq F) (k h : nat) (y0 y1 w : F) : (k < h)%N -> size r = (2 * h)%N ->
  let r1 := set_nth 0 r k y0 in
  let r2 := set_nth 0 r1 k (r1`_k + y1 * w) in
  let r3 := set_nth 0 r2 (k + h) y0 in
  let r4 := set_nth 0 r3 (k + h) (r3`_(k + h) - y1 * w) in
  size r4 = (2 * h)%N /\ forall i, r4`_i = if i == k then y0 + y1 * w else if i == (k + h)%N then y0 - y1 * w else r`_i.
Proof.
move=> Hk Hr r1 r2 r3 r4.
have H2 : (2 * h = h + h)%N by rewrite mul2n addnn.
have S1 : size r1 = (2 * h)%N by rewrite size_set_nth Hr; apply/maxn_idPr; rewrite H2; apply: leq_trans Hk (leq_addr _ _).
have S2 : size r2 = (2 * h)%N by rewrite size_set_nth S1; apply/maxn_idPr; rewrite H2; apply: leq_trans Hk (leq_addr _ _).
have S3 : size r3 = (2 * h)%N by rewrite size_set_nth S2; apply/maxn_idPr; rewrite H2 ltn_add2r.
split; first by rewrite size_set_nth S3; apply/maxn_idPr; rewrite H2 ltn_add2r.
have Hkh : (k == k + h)%N = false by rewrite -{1}[k]addn0 eqn_add2l eq_sym; case: (h) Hk.
move=> i; rewrite nth_set_nth /=; case: (altP (i =P (k + h)%N)) => [->|Hi].
  by rewrite nth_set_nth /= eqxx eq_sym Hkh.
rewrite nth_set_nth /= (negbTE Hi) nth_set_nth /=; case: (altP (i =P k)) => [_|Hik].
  by rewrite nth_set_nth /= eqxx.
by rewrite nth_set_nth /= (negbTE Hik).
Qed.

Lemma merge_fftP h omega f g :
  merge_fft (2 * h) h omega (mkseq f h) (mkseq g h) = mkseq (merged h h omega f g) (2 * h).
Proof.
apply: merge_loop => k r w Hk Hr _ _ /=.
by have [Hs Hn] := @merge_step r k h (f k) (g k) w Hk Hr.
Qed.

Lemma merge_ldeP h omega f g :
  merge_lde (2 * h) h omega (mkseq f h) (mkseq g h) = mkseq (merged h h omega f g) (2 * h).
Proof.
apply: merge_loop => k r w Hk Hr r0 rh /=.
case: (altP (g k =P 0)) => [->|Hg] /=; last first.
  by have [Hs Hn] := @merge_step r k h (f k) (g k) w Hk Hr.
have H2 : (2 * h = h + h)%N by rewrite mul2n addnn.
have Hkh : (k == k + h)%N = false by rewrite -{1}[k]addn0 eqn_add2l eq_sym; case: (h) Hk.
rewrite mul0r addr0 subr0; case: (altP (f k =P 0)) => [->|Hf] /=.
  by split=> // i; case: eqP => [->|_] //; case: eqP => [->|_].
have S1 : size (set_nth 0 r k (f k)) = (2 * h)%N.
  by rewrite size_set_nth Hr; apply/maxn_idPr; rewrite H2; apply: leq_trans Hk (leq_addr _ _).
split=> //; first by rewrite size_set_nth S1; apply/maxn_idPr; rewrite H2 ltn_add2r.
move=> i; rewrite nth_set_nth /=; case: (altP (i =P (k + h)%N)) => [->|Hi]; first by rewrite eq_sym Hkh.
by rewrite nth_set_nth /=.
Qed.

(** One level of the recursion. *)
Lemma dft_split (a : seq F) omega (h i : nat) :
  dft (nth 0 a) omega (2 * h) i =
  dft (fun t => a`_(2 * t)) (omega * omega) h i + dft (fun t => a`_(2 * t).+1) (omega * omega) h i * omega ^+ i.
Proof.
rewrite /dft -expr2; elim: h => [|h IH]; first by rewrite muln0 !big_geq // mul0r addr0.
rewrite mulnSr addn2 !big_nat_recr //= IH mulrDl -!exprM.
rewrite -!addrA; congr (_ + _).
rewrite [in RHS]addrCA; congr (_ + _); congr (_ + _); first by rewrite mulnCA.
by rewrite -mulrA -exprD mulnS [(i * _)%N]mulnCA addnC.
Qed.

Lemma merged_dft (a : seq F) omega L : fft_root omega L.+1 ->
  let h := (2 ^ L)%N in
  mkseq (merged h h omega (dft (fun t => a`_(2 * t)) (omega * omega) h) (dft (fun t => a`_(2 * t).+1) (omega * omega) h)) (2 * h)
  = mkseq (dft (nth 0 a) omega (2 * h)) (2 * h).
Proof.
move=> Hr0 h; have /eqP Hr : omega ^+ (2 ^ L) == -1 by move: Hr0.
rewrite -/h in Hr; apply: (@eq_from_nth _ 0); first by rewrite !size_mkseq.
rewrite size_mkseq => i Hi; rewrite !nth_mkseq // /merged; case: ltnP => Hih; first by rewrite dft_split.
have Hj : (i - h < h)%N by rewrite ltn_subLR // addnn -mul2n.
rewrite Hj -[X in _ = dft _ _ _ X](subnK Hih) dft_split; set j := (i - h)%N.
have per (f : nat -> F) : dft f (omega * omega) h (j + h) = dft f (omega * omega) h j.
  apply: eq_bigr => t _; congr (_ * _); rewrite mulnDl exprD -expr2 -!exprM [(2 * (h * t))%N]mulnCA [omega ^+ (h * _)]exprM Hr.
  by rewrite [(-1) ^+ _]exprM sqrrN expr1n expr1n mulr1.
by rewrite !per exprD Hr mulrN1 mulrN.
Qed.

Lemma mkseq_dft (f : nat -> F) omega n m : mkseq (dft (nth 0 (mkseq f n)) omega n) m = mkseq (dft f omega n) m.
Proof. by apply: eq_map => i; apply: dft_ext => t Ht; rewrite nth_mkseq. Qed.

Lemma recursive_fftE a omega l : recursive_fft a omega l.+1 =
  if size a == 2%N then Ok [:: a`_0 + a`_1; a`_0 - a`_1]
  else check! size a == (2 ^ l.+1)%N ;;
       let* eo := split_even_odd a in
       let* y_0 := recursive_fft eo.1 (omega * omega) l in
       let* y_1 := recursive_fft eo.2 (omega * omega) l in
       Ok (merge_fft (size a) (size a %/ 2) omega y_0 y_1).
Proof. by []. Qed.

Lemma recursive_fftP L a omega : size a = (2 ^ L.+1)%N -> fft_root omega L.+1 ->
  recursive_fft a omega L.+1 = Ok (mkseq (dft (nth 0 a) omega (2 ^ L.+1)) (2 ^ L.+1)).
Proof.
elim: L a omega => [|L IH] a omega Hs Hr.
  rewrite /= Hs /=; congr Ok; move: Hr; rewrite /fft_root /= expn0 expr1 => /eqP ->.
  by rewrite /mkseq /= /dft !big_nat_recr //= !big_geq // !add0r !expr0 expr1 !mulr1 mulrN1.
rewrite recursive_fftE; set l := L.+1 in IH *.
have H2 : (size a == 2)%N = false by rewrite Hs -[X in _ == X]expn1 eqn_exp2l.
rewrite H2 Hs eqxx [(2 ^ l.+1)%N]expnS mulKn // (split_even_oddP (h := (2 ^ l)%N)); last by rewrite Hs expnS.
rewrite bind_eq [(_, _).1]/= [(_, _).2]/=.
have Hr' : fft_root (omega * omega) l.
  have := @fft_root_sub _ omega l.+1 1 isT Hr; by rewrite subSS subn0 expn1 expr2.
rewrite !IH ?size_mkseq // !bind_eq.
by rewrite !mkseq_dft merge_fftP -merged_dft.
Qed.

Lemma dft_zero a omega n m : all (pred1 0) a -> mkseq (dft (nth 0 a) omega n) m = nseq m 0.
Proof.
move=> Hz; apply: (@eq_from_nth _ 0); first by rewrite size_mkseq size_nseq.
rewrite size_mkseq => i Hi; rewrite nth_mkseq // nth_nseq Hi /dft big1 // => t _.
case: (ltnP t (size a)) => Ht; last by rewrite nth_default // mul0r.
by have /eqP -> := allP Hz _ (mem_nth 0 Ht); rewrite mul0r.
Qed.

Lemma recursive_ldeE a omega l : recursive_lde a omega l.+1 =
  if all (pred1 0) a then Ok (nseq (size a) 0) else if size a == 2%N then Ok [:: a`_0 + a`_1; a`_0 - a`_1]
  else check! size a == (2 ^ l.+1)%N ;;
       let* eo := split_even_odd a in
       let* y_0 := recursive_lde eo.1 (omega * omega) l in
       let* y_1 := recursive_lde eo.2 (omega * omega) l in
       Ok (merge_lde (size a) (size a %/ 2) omega y_0 y_1).
Proof. by []. Qed.

Lemma recursive_ldeP L a omega : size a = (2 ^ L.+1)%N -> fft_root omega L.+1 ->
  recursive_lde a omega L.+1 = Ok (mkseq (dft (nth 0 a) omega (2 ^ L.+1)) (2 ^ L.+1)).
Proof.
elim: L a omega => [|L IH] a omega Hs Hr.
  rewrite /= Hs; case: ifP => [Hz|_]; first by rewrite dft_zero.
  congr Ok; move: Hr; rewrite /fft_root /= expn0 expr1 => /eqP ->.
  by rewrite /mkseq /= /dft !big_nat_recr //= !big_geq // !add0r !expr0 expr1 !mulr1 mulrN1.
rewrite recursive_ldeE; set l := L.+1 in IH *.
case: ifP => [Hz|_]; first by rewrite Hs dft_zero.
have H2 : (size a == 2)%N = false by rewrite Hs -[X in _ == X]expn1 eqn_exp2l.
rewrite H2 Hs eqxx [(2 ^ l.+1)%N]expnS mulKn // (split_even_oddP (h := (2 ^ l)%N)); last by rewrite Hs expnS.
rewrite bind_eq [(_, _).1]/= [(_, _).2]/=.
have Hr' : fft_root (omega * omega) l.
  have := @fft_root_sub _ omega l.+1 1 isT Hr; by rewrite subSS subn0 expn1 expr2.
rewrite !IH ?size_mkseq // !bind_eq.
by rewrite !mkseq_dft merge_ldeP -merged_dft.
Qed.

(** One point. *)
Lemma recursive_fft0 a omega : size a = 1%N -> recursive_fft a omega 0 = Panic.
Proof. by case: a => // x [|]. Qed.

Lemma recursive_lde0 (x : F) omega : recursive_lde [:: x] omega 0 = if x == 0 then Ok [:: 0] else Panic.
Proof. by rewrite /= andbT; case: eqP. Qed.

(** The parallel versions. *)
Lemma rec_parallel_fftP a (w : worker) omega L c : (0 < w)%N -> (c < L)%N -> size a = (2 ^ L)%N -> fft_root omega L ->
  rec_parallel_fft a w omega L c = Ok (mkseq (dft (nth 0 a) omega (2 ^ L)) (2 ^ L)).
Proof.
move=> Hw Hc Hs Hr; have HcL := ltnW Hc; rewrite /rec_parallel_fft HcL Hs leqnn /=.
rewrite -[RHS](@parallel_kernelP _ (fun _ t => recursive_fft t (omega ^+ (2 ^ c)) (L - c)) a w omega L c) //.
  by rewrite leqnn.
move=> j Hj t; have := fft_root_sub HcL Hr; have : size t = (2 ^ (L - c))%N by rewrite size_mkseq.
by move: t; rewrite -(subnSK Hc) => t Ht Hr'; apply: recursive_fftP.
Qed.

Lemma rec_parallel_ldeP a (w : worker) omega L c : (0 < w)%N -> (c < L)%N -> size a = (2 ^ L)%N -> fft_root omega L ->
  rec_parallel_lde a w omega L c = Ok (mkseq (dft (nth 0 a) omega (2 ^ L)) (2 ^ L)).
Proof.
move=> Hw Hc Hs Hr; have HcL := ltnW Hc; rewrite /rec_parallel_lde HcL Hs leqnn /=.
rewrite -[RHS](@parallel_kernelP _ (fun _ t => recursive_lde t (omega ^+ (2 ^ c)) (L - c)) a w omega L c) //.
  rewrite leqnn; congr bind; apply: mapM_ext_in => j; rewrite mem_iota add0n => /andP [_ Hj].
  by rewrite !shuffleP // => idx _ /negPn/eqP.
move=> j Hj t; have := fft_root_sub HcL Hr; have : size t = (2 ^ (L - c))%N by rewrite size_mkseq.
by move: t; rewrite -(subnSK Hc) => t Ht Hr'; apply: recursive_ldeP.
Qed.
End FftRec.
