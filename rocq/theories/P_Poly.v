(** Correctness of the polynomial operations of src/polynomials/mod.rs. *)
From mathcomp Require Import all_ssreflect all_algebra.
From Verif Require Import M_Base M_Worker M_Field M_Domain M_Fft M_Poly Spec P_Base P_Fft P_Domain.

Set Implicit Arguments.
Unset Strict Implicit.
Unset Printing Implicit Defensive.
Import GRing.Theory.
Local Open Scope ring_scope.

Section Poly.
Variables (F : fieldType) (fp : ff_params F).
Hypothesis Hok : ff_ok fp.
Notation gen := (ff_gen fp).
Notation S := (ff_S fp).

(** The object with coefficients (or values) [c] on the domain of size 2^k. *)
Definition std (P : form) (k : nat) (c : seq F) : hpoly F P :=
  HPoly P c k (dom_gen fp k) (dom_gen fp k)^-1 gen^-1 (2 ^ k)%:R^-1.

(** Well-formed objects. *)
Definition wfp P (p : hpoly F P) : Prop :=
  [/\ p = std P (p_exp p) (p_coeffs p), size (p_coeffs p) = (2 ^ p_exp p)%N & (p_exp p <= S)%N].

Lemma wfp_std P k c : size c = (2 ^ k)%N -> (k <= S)%N -> wfp (std P k c).
Proof. by []. Qed.

Lemma gen_neq0 : gen != 0. Proof. by case: Hok. Qed.

Lemma inverse_neq0 (x : F) : x != 0 -> inverse x = Some x^-1.
Proof. by rewrite /inverse => /negPf ->. Qed.

Lemma resize_full (x : F) s n : size s = n -> resize x n s = s.
Proof. by move=> <-; rewrite /resize take_size subnn cats0. Qed.

Lemma size_resize (x : F) n s : size (resize x n s) = n.
Proof.
rewrite /resize size_cat size_take size_nseq; case: ltnP => H.
  by rewrite (eqP (ltnW H : (n - size s == 0)%N)) addn0.
by rewrite subnKC.
Qed.

Lemma nth_resize n (s : seq F) i : (resize 0 n s)`_i = if (i < n)%N then s`_i else 0 :> F.
Proof.
case: ltnP => H; last by rewrite nth_default // size_resize.
rewrite /resize nth_cat size_take; case: (ltnP n (size s)) => H2.
  by rewrite H nth_take.
case: ltnP => H3; first by rewrite nth_take.
by rewrite nth_nseq (nth_default _ H3); case: ifP.
Qed.

Lemma poly_of_resize n (s : seq F) : (size s <= n)%N -> poly_of (resize 0 n s) = poly_of s.
Proof.
move=> H; apply: poly_of_eq => i; rewrite nth_resize; case: ltnP => // H2.
by rewrite nth_default // (leq_trans H).
Qed.

Lemma from_vecE P s : from_vec fp P s =
  if (S < up_log 2 (size s))%N then Err
  else Ok (std P (up_log 2 (size s)) (resize 0 (2 ^ up_log 2 (size s)) s)).
Proof.
rewrite /from_vec domain_newE; case: ltnP => //= H.
rewrite !inverse_neq0 ?dom_gen_neq0 ?gen_neq0 //; exact: (pow2_neq0 Hok).
Qed.

Lemma from_vec_pow P k s : size s = (2 ^ k)%N -> (k <= S)%N -> from_vec fp P s = Ok (std P k s).
Proof. by move=> Hs Hk; rewrite from_vecE Hs up_expnK // ltnNge Hk /= resize_full. Qed.

Lemma from_values_pow k s : size s = (2 ^ k)%N -> (k <= S)%N ->
  from_values fp s = Ok (std Values k s).
Proof. exact: from_vec_pow. Qed.

Lemma from_coeffs_pow k s : size s = (2 ^ k)%N -> (k <= S)%N ->
  from_coeffs fp s = Ok (std Coefficients k s).
Proof. exact: from_vec_pow. Qed.

(** ** FFT *)
Variable w : worker.
Hypothesis Hw : (0 < w)%N.

Lemma fft_std k c : size c = (2 ^ k)%N -> (k <= S)%N ->
  fft (std Coefficients k c) w =
  Ok (std Values k (evals (poly_of c) 1 (dom_gen fp k) (2 ^ k))).
Proof. by move=> Hc Hk; rewrite /fft /= best_fftP //; apply: dom_gen_root. Qed.

Lemma coset_fft_gen_std k c h : size c = (2 ^ k)%N -> (k <= S)%N ->
  coset_fft_for_generator (std Coefficients k c) w h =
  Ok (std Values k (evals (poly_of c) h (dom_gen fp k) (2 ^ k))).
Proof.
move=> Hc Hk; rewrite /coset_fft_for_generator /p_distribute_powers /= distribute_powersE //.
have := @fft_std k (mapi (fun i v => v * h ^+ i) c); rewrite /fft /= size_mapi => -> //.
by rewrite evals_powers mulr1.
Qed.

Lemma coset_fft_std k c : size c = (2 ^ k)%N -> (k <= S)%N ->
  coset_fft fp (std Coefficients k c) w =
  Ok (std Values k (evals (poly_of c) gen (dom_gen fp k) (2 ^ k))).
Proof. exact: coset_fft_gen_std. Qed.

(** ** Inverse FFT *)
Lemma sum_prim_root n (omega : F) i j : n.-primitive_root omega -> (i < n)%N -> (j < n)%N ->
  \sum_(0 <= t < n) omega ^+ (i * t) * omega^-1 ^+ (t * j) = if i == j then n%:R else 0.
Proof.
move=> Hp Hi Hj.
have Hn := prim_order_gt0 Hp.
have H0 : omega != 0.
  apply/eqP => E; have := prim_expr_order Hp; rewrite E expr0n eqn0Ngt Hn => /eqP.
  by rewrite eq_sym oner_eq0.
have Et : forall t, omega ^+ (i * t) * omega^-1 ^+ (t * j) = (omega ^+ i / omega ^+ j) ^+ t.
  by move=> t; rewrite [(t * j)%N]mulnC !exprM -exprMn exprVn.
under eq_bigr => t _ do rewrite Et.
set x := omega ^+ i / omega ^+ j.
case: eqP => [Eij|/eqP Eij].
  have -> : x = 1 by rewrite /x Eij divff // expf_neq0.
  by under eq_bigr => t _ do rewrite expr1n; rewrite big_const_nat iter_addr addr0 subn0.
have Hx : x != 1.
  rewrite /x; apply: contra Eij => /eqP E.
  have : omega ^+ i = omega ^+ j by rewrite -[RHS]mul1r -E mulfVK // expf_neq0.
  by move/eqP; rewrite (eq_prim_root_expr Hp) !modn_small.
have H1 : x ^+ n = 1.
  by rewrite /x exprMn exprVn -!exprM ![(_ * n)%N]mulnC !exprM (prim_expr_order Hp) !expr1n invr1 mulr1.
have : (x - 1) * (\sum_(0 <= t < n) x ^+ t) = 0.
  by rewrite big_mkord -subrX1 H1 subrr.
by move/eqP; rewrite mulf_eq0 subr_eq0 (negPf Hx) /= => /eqP.
Qed.

Lemma sum_delta (f : nat -> F) n i (x : F) : (i < n)%N ->
  \sum_(0 <= j < n) f j * (if i == j then x else 0) = f i * x.
Proof.
move=> Hi; rewrite (@big_cat_nat _ _ _ i) ?(ltnW Hi) //= (big_ltn Hi) eqxx.
rewrite big1_seq ?add0r; last first.
  move=> j; rewrite mem_index_iota => /andP [_ /andP [_ Hj]].
  by rewrite (_ : (i == j) = false) ?mulr0 //; apply/negbTE; rewrite neq_ltn Hj orbT.
rewrite big1_seq ?addr0 //.
move=> j; rewrite mem_index_iota => /andP [_ /andP [Hj _]].
by rewrite (_ : (i == j) = false) ?mulr0 //; apply/negbTE; rewrite neq_ltn Hj.
Qed.

Lemma dft_inv (f : nat -> F) n (omega : F) i : n.-primitive_root omega -> (i < n)%N ->
  dft (dft f omega^-1 n) omega n i = n%:R * f i.
Proof.
move=> Hp Hi; rewrite /dft.
under eq_bigr => t _ do rewrite mulr_suml.
rewrite exchange_big /= mulrC -(sum_delta _ _ Hi); apply: eq_big_nat => j /andP [_ Hj].
rewrite -(sum_prim_root Hp Hi Hj) mulr_sumr; apply: eq_bigr => t _.
by rewrite -mulrA [omega^-1 ^+ _ * _]mulrC.
Qed.

Lemma dft_inv2 (f : nat -> F) n (omega : F) i : n.-primitive_root omega -> (i < n)%N ->
  dft (dft f omega n) omega^-1 n i = n%:R * f i.
Proof.
move=> Hp Hi; rewrite /dft.
under eq_bigr => t _ do rewrite mulr_suml.
rewrite exchange_big /= mulrC -(sum_delta _ _ Hi); apply: eq_big_nat => j /andP [_ Hj].
rewrite eq_sym -(sum_prim_root Hp Hj Hi) mulr_sumr; apply: eq_bigr => t _.
by rewrite -mulrA [(t * j)%N]mulnC [(i * t)%N]mulnC.
Qed.

Lemma par_eachE (f : F -> F) s : par_each w f s = map f s.
Proof. exact: par_chunks_map. Qed.

Lemma dom_prim k : (k <= S)%N -> (2 ^ k).-primitive_root (dom_gen fp k).
Proof. exact: dom_gen_prim. Qed.

Definition ifft_vec k (v : seq F) : seq F :=
  [seq x * (2 ^ k)%:R^-1 | x <- mkseq (dft (nth 0 v) (dom_gen fp k)^-1 (2 ^ k)) (2 ^ k)].

Lemma size_ifft_vec k v : size (ifft_vec k v) = (2 ^ k)%N.
Proof. by rewrite size_map size_mkseq. Qed.

Lemma ifft_std k v : size v = (2 ^ k)%N -> (k <= S)%N ->
  ifft (std Values k v) w = Ok (std Coefficients k (ifft_vec k v)).
Proof.
move=> Hv Hk; rewrite /ifft /= best_fftP //; last by apply: fft_root_inv; apply: dom_gen_root.
by rewrite /= par_eachE /ifft_vec dft_evals.
Qed.

Lemma nth_ifft_vec k v i : (i < 2 ^ k)%N ->
  (ifft_vec k v)`_i = dft (nth 0 v) (dom_gen fp k)^-1 (2 ^ k) i * (2 ^ k)%:R^-1.
Proof. by move=> Hi; rewrite (nth_map 0) ?size_mkseq // nth_mkseq. Qed.

Lemma dftZ (f : nat -> F) x omega n i : dft (fun t => f t * x) omega n i = dft f omega n i * x.
Proof. by rewrite /dft mulr_suml; apply: eq_bigr => t _; rewrite mulrAC. Qed.

(** The result of the inverse FFT takes the given values ... *)
Lemma ifft_vecK k v : size v = (2 ^ k)%N -> (k <= S)%N ->
  evals (poly_of (ifft_vec k v)) 1 (dom_gen fp k) (2 ^ k) = v.
Proof.
move=> Hv Hk; rewrite -dft_evals ?size_ifft_vec //.
apply: (@eq_from_nth _ 0); first by rewrite size_mkseq.
rewrite size_mkseq => i Hi; rewrite nth_mkseq //.
rewrite (@dft_ext _ _ (fun t => dft (nth 0 v) (dom_gen fp k)^-1 (2 ^ k) t * (2 ^ k)%:R^-1));
  last by move=> t Ht; rewrite nth_ifft_vec.
rewrite dftZ dft_inv ?dom_prim // mulrC mulrA mulVf ?mul1r //; exact: (pow2_neq0 Hok).
Qed.

(** ... and the inverse FFT of the values of a polynomial is the polynomial. *)
Lemma ifft_vec_evals k c : size c = (2 ^ k)%N -> (k <= S)%N ->
  ifft_vec k (evals (poly_of c) 1 (dom_gen fp k) (2 ^ k)) = c.
Proof.
move=> Hc Hk; rewrite -dft_evals //.
apply: (@eq_from_nth _ 0); first by rewrite size_ifft_vec.
rewrite size_ifft_vec => i Hi; rewrite nth_ifft_vec //.
rewrite (@dft_ext _ _ (dft (nth 0 c) (dom_gen fp k) (2 ^ k))); last by move=> t Ht; rewrite nth_mkseq.
rewrite dft_inv2 ?dom_prim // mulrC mulrA mulVf ?mul1r //; exact: (pow2_neq0 Hok).
Qed.

Lemma icoset_std k v h : size v = (2 ^ k)%N -> (k <= S)%N -> h != 0 ->
  exists2 c, icoset_fft_for_generator (std Values k v) w h^-1 = Ok (std Coefficients k c) &
    size c = (2 ^ k)%N /\ evals (poly_of c) h (dom_gen fp k) (2 ^ k) = v.
Proof.
move=> Hv Hk Hh; rewrite /icoset_fft_for_generator ifft_std //=.
rewrite /p_distribute_powers /= distribute_powersE //.
exists (mapi (fun i x => x * h^-1 ^+ i) (ifft_vec k v)) => //.
rewrite size_mapi size_ifft_vec; split=> //.
by rewrite evals_powers mulVf // ifft_vecK.
Qed.

Lemma icoset_evals k c h : size c = (2 ^ k)%N -> (k <= S)%N -> h != 0 ->
  icoset_fft_for_generator (std Values k (evals (poly_of c) h (dom_gen fp k) (2 ^ k))) w h^-1 =
  Ok (std Coefficients k c).
Proof.
move=> Hc Hk Hh; rewrite /icoset_fft_for_generator ifft_std ?size_evals //=.
rewrite /p_distribute_powers /= distribute_powersE //.
have -> : evals (poly_of c) h (dom_gen fp k) (2 ^ k) =
          evals (poly_of (mapi (fun i x => x * h ^+ i) c)) 1 (dom_gen fp k) (2 ^ k).
  by rewrite evals_powers mulr1.
rewrite ifft_vec_evals ?size_mapi //; congr (Ok (std _ _ _)).
apply: (@eq_from_nth _ 0); rewrite ?size_mapi // => i Hi.
rewrite !(nth_mapi _ 0) ?size_mapi // -mulrA -exprMn divff // expr1n mulr1 //.
Qed.

(** ** Evaluation at a point *)
Lemma foldl_add (s : seq F) x : foldl (fun r v => r + v) x s = x + \sum_(y <- s) y.
Proof.
elim: s x => [|y s IH] x /=; first by rewrite big_nil addr0.
by rewrite IH big_cons addrA.
Qed.

Lemma zip_iota_full A (s : seq A) n : size s = n -> [seq q.1 | q <- zip s (iota 0 n)] = s.
Proof. by move=> <-; apply: unzip1_zip; rewrite size_iota. Qed.

Lemma enumerate_map A B (g : A -> B) s :
  enumerate (map g s) = [seq (q.1, g q.2) | q <- enumerate s].
Proof.
rewrite /enumerate size_map; move: (iota 0 _) => t.
by elim: t s => [|x t IH] [|y s] //=; rewrite IH.
Qed.

Lemma map_enumerate A B (f : nat -> A -> B) s : [seq f q.1 q.2 | q <- enumerate s] = mapi f s.
Proof. by []. Qed.

Lemma poly_of_sum (c : seq F) g : (poly_of c).[g] = \sum_(y <- mapi (fun i x => x * g ^+ i) c) y.
Proof.
rewrite (@poly_of_horner _ _ _ (size c)) // (big_nth 0) size_mapi; apply: eq_big_nat => i /andP [_ Hi].
by rewrite (nth_mapi _ 0).
Qed.

Lemma evaluate_atP k c g : evaluate_at (std Coefficients k c) w g = (poly_of c).[g].
Proof.
rewrite /evaluate_at /=; set ch := get_chunk_size w _; set nt := get_num_spawned_threads w _.
have Hch : (0 < ch)%N by apply: chunk_size_gt0.
have Hnt : size (chunks ch c) = nt by rewrite size_chunks /nt num_spawned_chunks.
set subs := map _ _.
have Esubs : subs = [seq \sum_(y <- s) y |
    s <- mapi (fun i ck => mapi (fun j x => x * g ^+ (i * ch + j)) ck) (chunks ch c)].
  rewrite map_mapi -map_enumerate.
  rewrite -[in RHS](zip_iota_full Hnt) enumerate_map -map_comp.
  apply: eq_map => -[i [ck j]] /=.
  have : forall x s, foldl (fun sx a => (sx.1 + sx.2 * a, sx.2 * g)) (x, g ^+ (i * ch)) s =
    (x + \sum_(y <- mapi (fun j a => a * g ^+ (i * ch + j)) s) y, g ^+ (i * ch + size s)).
    move=> x s; elim/last_ind: s => [|s y IH]; first by rewrite big_nil addr0 addn0.
    rewrite foldl_rcons IH /= size_rcons addnS exprSr -cats1 mapi_cat big_cat /= addrA.
    by rewrite mapi_cons big_cons big_nil addr0 addn0 [y * _]mulrC.
  by move=> -> /=; rewrite add0r.
have Hs : size subs = nt by rewrite Esubs size_map size_mapi Hnt.
rewrite Hs subnn cats0 foldl_add add0r Esubs poly_of_sum -(chunks_mapi _ c Hch).
by elim: (mapi _ _) => [|x s IH] /=; rewrite ?big_nil // big_cons big_cat /= IH.
Qed.
End Poly.
