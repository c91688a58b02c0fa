(** Properties of evaluation domains and the link between the FFT kernels and
    polynomial evaluation. *)
From mathcomp Require Import all_ssreflect all_algebra.
From Verif Require Import M_Base M_Worker M_Field M_Domain M_Fft Spec P_Base P_Fft.

Set Implicit Arguments.
Unset Strict Implicit.
Unset Printing Implicit Defensive.
Import GRing.Theory.
Local Open Scope ring_scope.

Section Domain.
Variables (F : fieldType) (fp : ff_params F).

Lemma halvingsP fuel k p : (k < fuel)%N -> halvings fuel (2 ^ k) p = (p + k)%N.
Proof.
elim: fuel k p => [|fuel IH] [|k] p //= H; first by rewrite addn0.
have -> : ((2 ^ k.+1)%N != 1%N) by rewrite -[in X in _ != X](expn0 2) eqn_exp2l.
by rewrite expnS mulKn // IH // addSnnS.
Qed.

Definition dom_gen (k : nat) : F := ff_rou fp ^+ (2 ^ (ff_S fp - k)).

Lemma iter_square n (x : F) : iter n (fun g => g * g) x = x ^+ (2 ^ n).
Proof. by elim: n => [|n IH] //=; rewrite IH -expr2 -exprM -expnSr. Qed.

Lemma domain_newE n : domain_new fp n =
  if (ff_S fp < up_log 2 n)%N then Err
  else Ok (Domain (2 ^ up_log 2 n) (up_log 2 n) (dom_gen (up_log 2 n))).
Proof.
rewrite /domain_new /next_pow2 halvingsP ?add0n; last by rewrite ltn_expl.
by case: ifP => // _; rewrite iter_square.
Qed.

Lemma domain_new_pow k : (k <= ff_S fp)%N -> domain_new fp (2 ^ k) = Ok (Domain (2 ^ k) k (dom_gen k)).
Proof. by move=> H; rewrite domain_newE up_expnK // ltnNge H. Qed.

Hypothesis Hok : ff_ok fp.

Lemma dom_gen_prim k : (k <= ff_S fp)%N -> (2 ^ k).-primitive_root (dom_gen k).
Proof.
move=> H; have [Hp _ _] := Hok.
have := exp_prim_root Hp (2 ^ (ff_S fp - k)); rewrite /dom_gen.
suff -> : (2 ^ ff_S fp %/ gcdn (2 ^ (ff_S fp - k)) (2 ^ ff_S fp) = 2 ^ k)%N by [].
have E : (2 ^ ff_S fp = 2 ^ k * 2 ^ (ff_S fp - k))%N by rewrite -expnD subnKC.
by rewrite E gcdnMl mulnK // expn_gt0.
Qed.

Lemma dom_gen_sub k j : (k + j <= ff_S fp)%N -> dom_gen (k + j) ^+ (2 ^ j) = dom_gen k.
Proof.
move=> H; rewrite /dom_gen -exprM -expnD subnDA subnK //.
by rewrite leq_subRL ?(leq_trans (leq_addr _ _) H) // addnC.
Qed.

Lemma prim_fft_root L (omega : F) : (2 ^ L).-primitive_root omega -> fft_root omega L.
Proof.
move=> Hp; apply/implyP => HL.
have E : (2 ^ L = 2 ^ L.-1 * 2)%N by rewrite -expnSr prednK.
have H2 : (omega ^+ (2 ^ L.-1)) ^+ 2 == 1.
  by rewrite -exprM -E (prim_expr_order Hp).
move: H2; rewrite sqrf_eq1 => /orP [|//].
rewrite -(prim_order_dvd Hp) => /dvdn_leq; rewrite expn_gt0 => /(_ isT).
by rewrite leq_exp2l // leqNgt ltn_predL HL.
Qed.

Lemma dom_gen_root k : (k <= ff_S fp)%N -> fft_root (dom_gen k) k.
Proof. by move=> H; apply: prim_fft_root; apply: dom_gen_prim. Qed.

Lemma fft_root_inv L (omega : F) : fft_root omega L -> fft_root omega^-1 L.
Proof.
move=> /implyP H; apply/implyP => /H /eqP E.
by rewrite exprVn E invrN invr1.
Qed.

Lemma dom_gen_neq0 k : (k <= ff_S fp)%N -> dom_gen k != 0.
Proof.
move=> /dom_gen_prim /prim_expr_order H; apply/eqP => E; move: H.
by rewrite E expr0n eqn0Ngt expn_gt0 => /eqP; rewrite eq_sym oner_eq0.
Qed.

Lemma pow2_neq0 k : (2 ^ k)%:R != 0 :> F.
Proof. by have [_ _ H2] := Hok; rewrite natrX expf_neq0. Qed.
End Domain.

(** * FFT kernels and polynomial evaluation *)
Section Eval.
Variable F : fieldType.
Implicit Types (a : seq F) (omega : F).

Lemma coef_poly_of a i : (poly_of a)`_i = a`_i.
Proof. by rewrite coef_poly; case: ltnP => // H; rewrite nth_default. Qed.

Lemma size_poly_of a : (size (poly_of a) <= size a)%N.
Proof. exact: size_poly. Qed.

Lemma poly_of_eq a b : (forall i, a`_i = b`_i) -> poly_of a = poly_of b.
Proof. by move=> H; apply/polyP => i; rewrite !coef_poly_of. Qed.

Lemma poly_of_horner a x n : (size a <= n)%N ->
  (poly_of a).[x] = \sum_(0 <= i < n) a`_i * x ^+ i.
Proof.
move=> H; rewrite (@horner_coef_wide _ n) ?(leq_trans (size_poly_of a)) // big_mkord.
by apply: eq_bigr => i _; rewrite coef_poly_of.
Qed.

Lemma size_evals (p : {poly F}) h g n : size (evals p h g n) = n.
Proof. by rewrite size_map size_iota. Qed.

Lemma nth_evals (p : {poly F}) h g n i : (i < n)%N -> (evals p h g n)`_i = p.[h * g ^+ i].
Proof. by move=> H; rewrite (nth_map 0%N) ?size_iota // nth_iota. Qed.

Lemma dft_evals a omega L : size a = (2 ^ L)%N ->
  mkseq (dft (nth 0 a) omega (2 ^ L)) (2 ^ L) = evals (poly_of a) 1 omega (2 ^ L).
Proof.
move=> Hs; apply: eq_map => i; rewrite mul1r (@poly_of_horner _ _ (2 ^ L)) ?Hs //.
by apply: eq_bigr => t _; rewrite exprM.
Qed.

Lemma log2_loopP fuel pow num : (2 ^ pow <= num)%N -> (num < 2 ^ (pow + fuel))%N ->
  let k := log2_loop fuel pow num in (2 ^ k <= num < 2 ^ k.+1)%N.
Proof.
elim: fuel pow => [|fuel IH] pow H1 H2 /=; first by move: H2; rewrite addn0 ltnNge H1.
by case: (leqP (2 ^ pow.+1) num) => H3; [apply: IH => //; rewrite addSnnS | rewrite H1 H3].
Qed.

Lemma log2_floorP num : (0 < num)%N ->
  exists2 k, log2_floor num = Ok k & (2 ^ k <= num < 2 ^ k.+1)%N.
Proof.
move=> H; rewrite /log2_floor H; exists (log2_loop num 0 num) => //.
by apply: log2_loopP => //; rewrite add0n ltn_expl.
Qed.

Lemma best_fftP a (w : worker) omega L hint : (0 < w)%N -> size a = (2 ^ L)%N ->
  fft_root omega L -> (if hint is Some h then 0 < h <= w else true)%N ->
  best_fft a w omega L hint = Ok (evals (poly_of a) 1 omega (2 ^ L)).
Proof.
move=> Hw Hs Hr Hh; rewrite /best_fft.
have [c -> Hc] : exists2 c, (if hint is Some hint0 then check! (hint0 <= w)%N;; log2_floor hint0
    else log_num_cpus w) = Ok c & true.
  case: hint Hh => [h|_]; last by rewrite /log_num_cpus; have [k -> _] := log2_floorP Hw; exists k.
  by move=> /andP [H1 H2]; rewrite H2; have [k -> _] := log2_floorP H1; exists k.
rewrite /=; case: ifP => [_|/negbT]; first by rewrite serial_fftP // dft_evals.
rewrite negb_or -ltnNge => /andP [_ HcL].
by rewrite parallel_fftP ?dft_evals // ltnW.
Qed.

Lemma best_ldeP a (w : worker) omega L e : (0 < w)%N -> size a = (2 ^ L)%N ->
  (e <= L)%N -> (forall i, (2 ^ (L - e) <= i < 2 ^ L)%N -> a`_i = 0) ->
  fft_root omega L ->
  best_lde a w omega L (2 ^ e) = Ok (evals (poly_of a) 1 omega (2 ^ L)).
Proof.
move=> Hw Hs HeL Z Hr; rewrite /best_lde /log_num_cpus.
have [c -> _] := log2_floorP Hw; rewrite /=.
case: leqP => HcL; first by rewrite serial_ldeP // serial_fftP // dft_evals.
by rewrite parallel_ldeP ?dft_evals // ltnW.
Qed.

Lemma poly_of_powers a g x :
  (poly_of (mapi (fun i v => v * g ^+ i) a)).[x] = (poly_of a).[g * x].
Proof.
rewrite !(@poly_of_horner _ _ (size a)) ?size_mapi //; apply: eq_big_nat => i /andP [_ Hi].
by rewrite (nth_mapi _ 0) // exprMn mulrA.
Qed.

Lemma distribute_powersE a (w : worker) g : (0 < w)%N ->
  distribute_powers a w g = mapi (fun i v => v * g ^+ i) a.
Proof.
move=> Hw; rewrite /distribute_powers.
rewrite (@par_chunks_mapi _ _ _ _ (fun i v => v * g ^+ i)) // => i k c.
rewrite (@mapacc_geo _ _ _ _ (fun j => g ^+ j) (fun j v => v * g ^+ j)) // => j x.
by rewrite exprSr.
Qed.

Lemma evals_powers a h k g n :
  evals (poly_of (mapi (fun i v => v * h ^+ i) a)) k g n = evals (poly_of a) (h * k) g n.
Proof. by apply: eq_map => i; rewrite poly_of_powers mulrA. Qed.
End Eval.
