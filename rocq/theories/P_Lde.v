(** Low degree extensions of src/polynomials/mod.rs. *)
From mathcomp Require Import all_ssreflect all_algebra.
From Verif Require Import M_Base M_Worker M_Field M_Domain M_Fft M_Poly Spec
  P_Base P_Fft P_Domain P_Poly.

Set Implicit Arguments.
Unset Strict Implicit.
Unset Printing Implicit Defensive.
Import GRing.Theory.
Local Open Scope ring_scope.

Section Lde.
Variables (F : fieldType) (fp : ff_params F).
Hypothesis Hok : ff_ok fp.
Notation gen := (ff_gen fp).
Notation S := (ff_S fp).
Notation std := (std fp).
Variable w : worker.
Hypothesis Hw : (0 < w)%N.

Lemma pow2_eq1 e : ((2 ^ e)%N == 1%N) = (e == 0%N).
Proof. by rewrite -[in X in _ == X](expn0 2) eqn_exp2l. Qed.

Lemma domain_new_mul k e : domain_new fp (2 ^ k * 2 ^ e) =
  if (k + e <= S)%N then Ok (Domain (2 ^ (k + e)) (k + e) (dom_gen fp (k + e))) else Err.
Proof. by rewrite -expnD domain_newE up_expnK // ltnNge; case: leqP. Qed.

(** the kernel of the filtering variants *)
Lemma best_lde_resize c k e : size c = (2 ^ k)%N -> (k + e <= S)%N ->
  best_lde (resize 0 (2 ^ k * 2 ^ e) c) w (dom_gen fp (k + e)) (k + e) (2 ^ e) =
  Ok (evals (poly_of c) 1 (dom_gen fp (k + e)) (2 ^ (k + e))).
Proof.
move=> Hc Hk; rewrite -expnD best_ldeP ?size_resize ?leq_addl //.
- by rewrite poly_of_resize // Hc leq_exp2l // leq_addr.
- move=> i; rewrite addnK => /andP [H1 H2]; rewrite nth_resize H2 nth_default // Hc //.
- exact: (dom_gen_root Hok).
Qed.

Lemma filtering_lde_std c k e : size c = (2 ^ k)%N -> (k <= S)%N ->
  filtering_lde fp (std Coefficients k c) w (2 ^ e) =
  if (k + e <= S)%N
  then Ok (std Values (k + e) (evals (poly_of c) 1 (dom_gen fp (k + e)) (2 ^ (k + e))))
  else Err.
Proof.
move=> Hc Hk; rewrite /filtering_lde pow2_eq1; case: eqP => [->|_].
  by rewrite addn0 Hk (fft_std Hok).
rewrite is_pow2_exp /= Hc domain_new_mul; case: ifP => //= HkS.
by rewrite best_lde_resize //= (from_values_pow Hok (size_evals _ _ _ _)).
Qed.

Lemma coset_filtering_lde_std c k e : size c = (2 ^ k)%N -> (k <= S)%N ->
  coset_filtering_lde fp (std Coefficients k c) w (2 ^ e) =
  if (k + e <= S)%N
  then Ok (std Values (k + e) (evals (poly_of c) gen (dom_gen fp (k + e)) (2 ^ (k + e))))
  else Err.
Proof.
move=> Hc Hk; rewrite /coset_filtering_lde pow2_eq1; case: eqP => [->|_].
  by rewrite addn0 Hk (coset_fft_std Hok).
rewrite is_pow2_exp /= distribute_powersE // size_mapi Hc domain_new_mul; case: ifP => //= HkS.
rewrite best_lde_resize ?size_mapi //= evals_powers mulr1.
by rewrite (from_values_pow Hok (size_evals _ _ _ _)).
Qed.

(** interleaving *)
Lemma interleaveP (hs : nat -> F) (p : {poly F}) g f n : (0 < f)%N ->
  interleave w (mkseq (fun j => evals p (hs j) g n) f) f (n * f) =
  Ok (mkseq (fun idx => p.[hs (idx %% f)%N * g ^+ (idx %/ f)]) (n * f)).
Proof.
move=> Hf; rewrite /interleave.
rewrite (@par_chunksM_mapi _ _ _ _ (fun idx _ => p.[hs (idx %% f)%N * g ^+ (idx %/ f)])) //.
  by rewrite mapi_nseq.
move=> i k s _; rewrite size_nseq => Hs; rewrite -[iota 0 (size s)]map_id.
rewrite (@mapM_mkseq _ _ _ id (fun j => p.[hs ((i * k + j) %% f)%N * g ^+ ((i * k + j) %/ f)])).
  by case: s Hs => [|x0 s] Hs //; rewrite (mapi_as_mkseq _ _ x0).
move=> j Hj; rewrite (get_nth [::]) ?size_mkseq ?ltn_mod // nth_mkseq ?ltn_mod //=.
have Hdiv : ((i * k + j) %/ f < n)%N.
  by rewrite ltn_divLR // (leq_trans _ Hs) // ltn_add2l.
by rewrite (get_nth 0) ?size_evals // nth_evals.
Qed.

(** The values for coset [j] in position [idx] of the extended domain. *)
Lemma coset_index h k e idx : (k + e <= S)%N ->
  h * dom_gen fp (k + e) ^+ (idx %% 2 ^ e) * dom_gen fp k ^+ (idx %/ 2 ^ e) =
  h * dom_gen fp (k + e) ^+ idx.
Proof.
move=> Hk; rewrite -(dom_gen_sub Hk) -exprM -mulrA -exprD; congr (_ * _ ^+ _).
by rewrite addnC [(2 ^ e * _)%N]mulnC -divn_eq.
Qed.

Lemma foldM_cosets (T : F -> outcome (seq F)) (V : F -> seq F) (G start : F) f :
  (forall h, T h = Ok (V h)) ->
  foldM (fun rg (_ : nat) => let: (results, cg) := rg in
           let* l := T cg in Ok (rcons results l, cg * G)) ([::], start) (iota 0 f)
  = Ok (mkseq (fun j => V (start * G ^+ j)) f, start * G ^+ f).
Proof.
move=> H; elim: f => [|f IH]; first by rewrite mulr1.
by rewrite iotaSr foldM_rcons IH /= H /= /mkseq iotaSr map_rcons exprSr mulrA.
Qed.

Lemma eq_foldM A B (f g : B -> A -> outcome B) b s :
  (forall b a, f b a = g b a) -> foldM f b s = foldM g b s.
Proof. by move=> H; elim: s b => //= x s IH b; rewrite H; case: (g b x). Qed.

Lemma naive_interleave c k e h : size c = (2 ^ k)%N -> (k + e <= S)%N ->
  (let* fv := interleave w (mkseq (fun j => evals (poly_of c) (h * dom_gen fp (k + e) ^+ j)
                (dom_gen fp k) (2 ^ k)) (2 ^ e)) (2 ^ e) (2 ^ k * 2 ^ e) in
   from_values fp fv) =
  Ok (std Values (k + e) (evals (poly_of c) h (dom_gen fp (k + e)) (2 ^ (k + e)))).
Proof.
move=> Hc Hk; rewrite interleaveP ?expn_gt0 //= -expnD.
rewrite (_ : mkseq _ _ = evals (poly_of c) h (dom_gen fp (k + e)) (2 ^ (k + e))).
  by rewrite (from_values_pow Hok (size_evals _ _ _ _)).
by apply: eq_map => idx; rewrite coset_index.
Qed.

Lemma naive_lde_std c k e : size c = (2 ^ k)%N -> (k <= S)%N ->
  lde_using_multiple_cosets_naive fp (std Coefficients k c) w (2 ^ e) =
  if (k + e <= S)%N
  then Ok (std Values (k + e) (evals (poly_of c) 1 (dom_gen fp (k + e)) (2 ^ (k + e))))
  else Err.
Proof.
move=> Hc Hk; rewrite /lde_using_multiple_cosets_naive pow2_eq1; case: eqP => [->|_].
  by rewrite addn0 Hk (fft_std Hok).
rewrite is_pow2_exp /= Hc domain_new_mul; case: ifP => //= HkS.
pose T h := let* l := (if h == 1 then fft (std Coefficients k c) w
                       else coset_fft_for_generator (std Coefficients k c) w h) in
            Ok (p_coeffs l).
rewrite (@eq_foldM _ _ _ (fun rg (_ : nat) => let: (results, cg) := rg in
           let* l := T cg in Ok (rcons results l, cg * dom_gen fp (k + e)))); last first.
  by move=> [r h] _; rewrite /T; case: ifP => _; case: (X in bind X) => //.
rewrite (@foldM_cosets _ (fun h => evals (poly_of c) h (dom_gen fp k) (2 ^ k))) /=; last first.
  move=> h; rewrite /T; case: eqP => [->|_]; first by rewrite (fft_std Hok).
  by rewrite (coset_fft_gen_std Hok).
exact: naive_interleave.
Qed.

Lemma coset_naive_lde_std c k e : size c = (2 ^ k)%N -> (k <= S)%N ->
  coset_lde_using_multiple_cosets_naive fp (std Coefficients k c) w (2 ^ e) =
  if (k + e <= S)%N
  then Ok (std Values (k + e) (evals (poly_of c) gen (dom_gen fp (k + e)) (2 ^ (k + e))))
  else Err.
Proof.
move=> Hc Hk; rewrite /coset_lde_using_multiple_cosets_naive pow2_eq1; case: eqP => [->|_].
  by rewrite addn0 Hk (coset_fft_std Hok).
rewrite is_pow2_exp /= Hc domain_new_mul; case: ifP => //= HkS.
pose T h := let* l := coset_fft_for_generator (std Coefficients k c) w h in
            Ok (p_coeffs l).
rewrite (@eq_foldM _ _ _ (fun rg (_ : nat) => let: (results, cg) := rg in
           let* l := T cg in Ok (rcons results l, cg * dom_gen fp (k + e)))); last first.
  by move=> [r h] _; rewrite /T; case: (X in bind X) => //.
rewrite (@foldM_cosets _ (fun h => evals (poly_of c) h (dom_gen fp k) (2 ^ k))) /=; last first.
  by move=> h; rewrite /T (coset_fft_gen_std Hok).
exact: naive_interleave.
Qed.

(** The variant used by [lde]: coset [j] is taken at
    G^(j / chunk + j mod chunk). *)
Lemma cpus_hint1 f : (0 < f)%N -> lde_cpus_hint w f = Some 1%N.
Proof.
move=> Hf; rewrite /lde_cpus_hint; case: leqP => // H.
by rewrite divn_small // modn_small // -lt0n Hf.
Qed.

Lemma coset_taskP c k e start i (s : seq (seq F)) : size c = (2 ^ k)%N -> (k + e <= S)%N ->
  coset_task (std Coefficients k c) w (Some 1%N) (dom_gen fp (k + e)) start i s =
  Ok (mkseq (fun j => evals (poly_of c) (start * dom_gen fp (k + e) ^+ (i + j))
                            (dom_gen fp k) (2 ^ k)) (size s)).
Proof.
move=> Hc Hk; rewrite /coset_task /=.
have Hk1 : (k <= S)%N := leq_trans (leq_addr _ _) Hk.
pose V h := evals (poly_of c) h (dom_gen fp k) (2 ^ k).
set G := dom_gen fp (k + e).
rewrite (_ : foldM _ _ _ = Ok (mkseq (fun j => V (G ^+ i * start * G ^+ j)) (size s),
                                G ^+ i * start * G ^+ size s)) /=.
  by congr Ok; apply: eq_map => j; rewrite exprD mulrA [_ * start]mulrC.
elim/last_ind: s => [|s x IH]; first by rewrite mulr1.
rewrite foldM_rcons IH /= distribute_powersE // best_fftP ?size_mapi //; last exact: (dom_gen_root Hok).
rewrite /= evals_powers mulr1 -/(V _) size_rcons /mkseq iotaSr map_rcons exprSr.
by rewrite mulrA.
Qed.

Definition coset_exp (f j : nat) : nat :=
  let ch := get_chunk_size w f in (j %/ ch + j %% ch)%N.

Lemma par_cosets c k e start : size c = (2 ^ k)%N -> (k + e <= S)%N ->
  par_chunksM w (fun i _ s => coset_task (std Coefficients k c) w (Some 1%N)
                                (dom_gen fp (k + e)) start i s) (nseq (2 ^ e) [::]) =
  Ok (mkseq (fun j => evals (poly_of c) (start * dom_gen fp (k + e) ^+ coset_exp (2 ^ e) j)
                            (dom_gen fp k) (2 ^ k)) (2 ^ e)).
Proof.
move=> Hc Hk; rewrite /par_chunksM size_nseq; set ch := get_chunk_size w _.
have Hch : (0 < ch)%N by apply: chunk_size_gt0.
pose E n := evals (poly_of c) (start * dom_gen fp (k + e) ^+ n) (dom_gen fp k) (2 ^ k).
rewrite /chunks enumerate_mkseq size_nseq.
rewrite (@mapM_mkseq _ _ _ _ (fun i => mapi (fun j _ => E (coset_exp (2 ^ e) (i * ch + j)))
                                            (chunk_at ch (nseq (2 ^ e) ([::] : seq F)) i))) /=.
  congr Ok; have := chunks_mapi (fun j (_ : seq F) => E (coset_exp (2 ^ e) j)) (nseq (2 ^ e) [::]) Hch.
  by rewrite /chunks size_nseq mapi_mkseq => ->; rewrite mapi_nseq.
move=> i _; rewrite coset_taskP // (mapi_as_mkseq _ _ [::]); congr Ok.
apply: (@eq_from_nth _ [::]); rewrite !size_mkseq // => j Hj; rewrite !nth_mkseq //.
rewrite /E /coset_exp -/ch divnMDl // modnMDl.
have Hjc : (j < ch)%N by apply: leq_trans Hj _; rewrite size_chunk_at geq_minl.
by rewrite divn_small // modn_small // addn0.
Qed.

(** What [lde] returns, for every CPU count. *)
Lemma lde_exact c k e : size c = (2 ^ k)%N -> (k <= S)%N -> (0 < e)%N ->
  lde fp (std Coefficients k c) w (2 ^ e) =
  if (k + e <= S)%N
  then Ok (std Values (k + e)
         (mkseq (fun idx => (poly_of c).[dom_gen fp (k + e) ^+ coset_exp (2 ^ e) (idx %% 2 ^ e)
                                         * dom_gen fp k ^+ (idx %/ 2 ^ e)]) (2 ^ (k + e))))
  else Err.
Proof.
move=> Hc Hk He; rewrite /lde /lde_using_multiple_cosets pow2_eq1 (gtn_eqF He).
rewrite is_pow2_exp /= Hc domain_new_mul cpus_hint1 ?expn_gt0 //; case: ifP => //= HkS.
rewrite par_cosets //= interleaveP ?expn_gt0 //= -expnD.
rewrite (from_values_pow Hok (size_mkseq _ _)) //; congr (Ok (std _ _ _)).
by apply: eq_map => idx; rewrite mul1r.
Qed.

Lemma coset_lde_exact c k e : size c = (2 ^ k)%N -> (k <= S)%N -> (0 < e)%N ->
  coset_lde fp (std Coefficients k c) w (2 ^ e) =
  if (k + e <= S)%N
  then Ok (std Values (k + e)
         (mkseq (fun idx => (poly_of c).[gen * dom_gen fp (k + e) ^+ coset_exp (2 ^ e) (idx %% 2 ^ e)
                                         * dom_gen fp k ^+ (idx %/ 2 ^ e)]) (2 ^ (k + e))))
  else Err.
Proof.
move=> Hc Hk He; rewrite /coset_lde /coset_lde_using_multiple_cosets pow2_eq1 (gtn_eqF He).
rewrite is_pow2_exp /= Hc domain_new_mul cpus_hint1 ?expn_gt0 //; case: ifP => //= HkS.
rewrite par_cosets //= interleaveP ?expn_gt0 //= -expnD.
by rewrite (from_values_pow Hok (size_mkseq _ _)).
Qed.

(** CPU counts for which every chunk has one coset, or there is one chunk. *)
Definition lde_cpus_ok (f : nat) : bool := (w == 1%N) || (f < 2 * w)%N.

Lemma coset_exp_ok f j : lde_cpus_ok f -> (j < f)%N -> coset_exp f j = j.
Proof.
rewrite /coset_exp /get_chunk_size => /orP [/eqP -> | H] Hj.
  case: ltnP => H; first by rewrite divn1 modn1 addn0.
  by rewrite divn1 divn_small // modn_small.
case: ltnP => H2; first by rewrite divn1 modn1 addn0.
have -> : (f %/ w = 1)%N.
  apply/eqP; rewrite eqn_leq; apply/andP; split; last by rewrite divn_gt0.
  by rewrite -ltnS ltn_divLR.
by rewrite divn1 modn1 addn0.
Qed.

Lemma lde_std c k e : size c = (2 ^ k)%N -> (k <= S)%N -> lde_cpus_ok (2 ^ e) ->
  lde fp (std Coefficients k c) w (2 ^ e) =
  if (k + e <= S)%N
  then Ok (std Values (k + e) (evals (poly_of c) 1 (dom_gen fp (k + e)) (2 ^ (k + e))))
  else Err.
Proof.
move=> Hc Hk Hcpu; case: (posnP e) => [->|He].
  by rewrite addn0 Hk /lde /lde_using_multiple_cosets eqxx (fft_std Hok).
rewrite lde_exact //; case: ifP => // HkS; congr (Ok (std _ _ _)).
apply: eq_map => idx; rewrite coset_exp_ok ?ltn_mod ?expn_gt0 //.
by rewrite -(coset_index 1) // mul1r.
Qed.

Lemma coset_lde_std c k e : size c = (2 ^ k)%N -> (k <= S)%N -> lde_cpus_ok (2 ^ e) ->
  coset_lde fp (std Coefficients k c) w (2 ^ e) =
  if (k + e <= S)%N
  then Ok (std Values (k + e) (evals (poly_of c) gen (dom_gen fp (k + e)) (2 ^ (k + e))))
  else Err.
Proof.
move=> Hc Hk Hcpu; case: (posnP e) => [->|He].
  by rewrite addn0 Hk /coset_lde /coset_lde_using_multiple_cosets eqxx (coset_fft_std Hok).
rewrite coset_lde_exact //; case: ifP => // HkS; congr (Ok (std _ _ _)).
apply: eq_map => idx; rewrite coset_exp_ok ?ltn_mod ?expn_gt0 //.
by rewrite coset_index.
Qed.
End Lde.
