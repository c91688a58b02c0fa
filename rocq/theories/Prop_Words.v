(** Machine integers: what the natural numbers of the other files hide (C67, C68, C69). *)
From Coq Require Import NArith.
From mathcomp Require Import all_ssreflect all_algebra.
From Verif Require Import Spec M_Base M_Worker M_Field M_Domain M_Fft M_Poly M_Bytes M_Transcript M_Merkle M_Fri.
From Verif Require Import M_Challenge M_Air M_Arp M_Ali M_Prover M_Verifier M_Words M_WordsFri.
From Verif Require Import P_Base P_Fft P_Domain P_Words P_WordsFri Instances Prop_Hash Prop_Ali Prop_Verify Prop_Sound Prop_Stark.

Set Implicit Arguments.
Unset Strict Implicit.
Unset Printing Implicit Defensive.
Import GRing.Theory.
Local Open Scope ring_scope.
Local Opaque expn.

(** * C67: sizes and indices *)
Section Sizes.
Variables (F : fieldType) (fp : ff_params F).
Implicit Types (pr : profile).

(** Domains for up to [2^63] points: the least power of two that is large enough, or an error if the field
    has no such domain, in 64 iterations.  For more points the call panics with overflow checks and does
    not stop without. *)
Theorem C67_domain pr fuel n : ff_ok fp -> (64 <= fuel)%N ->
  match w_domain_new fp pr fuel n with
  | Some (Ok d) => (n <= 2 ^ 63)%N /\
      exists k, [/\ d_size d = (2 ^ k)%N, d_pow d = k, (n <= 2 ^ k)%N,
                    forall j, (n <= 2 ^ j)%N -> (k <= j)%N & (2 ^ k).-primitive_root (d_gen d)]
  | Some Err => (n <= 2 ^ 63)%N /\ forall k, (n <= 2 ^ k)%N -> (ff_S fp < k)%N
  | Some Panic => pr = Debug /\ (2 ^ 63 < n)%N
  | None => pr = Release /\ (2 ^ 63 < n)%N
  end.
Proof.
move=> Hok Hf; case: (leqP n (2 ^ 63)) => Hn; last first.
  by case: pr; rewrite ?(w_domain_new_debug _ _ Hn) ?(w_domain_new_release _ _ Hn).
rewrite (w_domain_newE _ _ Hn Hf) domain_newE; case: ltnP => HS; (split; first exact: isT).
- by move=> k Hk; apply: leq_trans HS _; exact: up_log_min.
- exists (up_log 2 n); split; [exact: erefl | exact: erefl | exact: up_logP | | exact: dom_gen_prim].
  by move=> j Hj; exact: up_log_min.
Qed.

Theorem C67_domain_forever n : (2 ^ 63 < n)%N -> forall fuel, w_domain_new fp Release fuel n = None.
Proof. by move=> Hn fuel; exact: w_domain_new_release. Qed.

Theorem C67_log2 pr fuel num : (0 < num)%N -> (63 <= fuel)%N ->
  match w_log2_floor pr fuel num with
  | Some (Ok k) => (num < 2 ^ 63)%N /\ (2 ^ k <= num < 2 ^ k.+1)%N
  | Some Err => False
  | Some Panic => pr = Debug /\ (2 ^ 63 <= num)%N
  | None => pr = Release /\ (2 ^ 63 <= num)%N
  end.
Proof.
move=> H0 Hf; case: (ltnP num (2 ^ 63)) => Hn; last first.
  by case: pr; rewrite ?(w_log2_floor_debug Hn Hf) ?(w_log2_floor_release _ Hn).
by rewrite (w_log2_floorE _ Hn Hf); have [k -> Hk] := log2_floorP H0.
Qed.

Theorem C67_log2_forever num : (2 ^ 63 <= num)%N -> forall fuel, w_log2_floor Release fuel num = None.
Proof. by move=> Hn fuel; exact: w_log2_floor_release. Qed.

(** The pairs of FRI in a domain of [2^k.+1] points, and the step to the domain of half the size. *)
Theorem C67_pairs pr i k : (k < 63)%N -> (i < 2 ^ k.+1)%N ->
  let pair := if (i < 2 ^ k)%N then [:: i; i + 2 ^ k]%N else [:: i - 2 ^ k; i]%N in
  [/\ w_coset_for_natural_index_and_size pr i (2 ^ k.+1) = Ok pair,
      w_get_coset pr i (2 ^ k.+1) = Ok pair &
      w_next_domain pr i (2 ^ k.+1) = Ok ((i %% 2 ^ k)%N, (2 ^ k)%N)].
Proof.
move=> Hk Hi pair.
have Eh : (2 ^ k.+1 %/ 2 = 2 ^ k)%N by rewrite expnS mulKn.
have H1 : (1 < 2 ^ k.+1)%N by rewrite -{1}(expn0 2) ltn_exp2l.
have Hp : is_pow2 (2 ^ k.+1) by apply/is_pow2P; exists k.+1.
have Hb : (i + 2 ^ k < 2 ^ 64)%N.
  rewrite (exp2S 63); apply: leq_trans (_ : (2 ^ k.+1 + 2 ^ k <= _)%N); first by rewrite ltn_add2r.
  by apply: leq_add; rewrite leq_exp2l // ltnW.
have Es : sort leq [:: i; (i + 2 ^ k) %% 2 ^ k.+1]%N = pair.
  rewrite {}/pair; case: ltnP => H.
    by rewrite modn_small ?exp2S ?ltn_add2r // /sort /= leq_addr.
  have -> : ((i + 2 ^ k) %% 2 ^ k.+1 = i - 2 ^ k)%N.
    rewrite -{1}(subnK H) -addnA -exp2S modnDr modn_small //.
    by apply: leq_ltn_trans (leq_subr _ _) Hi.
  rewrite /sort /=; case: leqP => H2 //; exfalso.
  by move: H2; rewrite leqNgt ltn_subrL expn_gt0 (leq_trans _ H) ?expn_gt0.
split.
- by rewrite /w_coset_for_natural_index_and_size H1 Hp Eh /wadd (fitE _ Hb) [bind _ _]/= Es.
- by rewrite /w_get_coset Hi Eh /wadd (fitE _ Hb) [bind _ _]/= Es.
- rewrite w_next_domainE /index_and_size_for_next_domain H1 Hp Eh; case: ltnP => H; first by rewrite modn_small.
  by rewrite -{2}(subnK H) modnDr modn_small // ltn_subLR // -exp2S.
Qed.
End Sizes.

(** * C68: the transforms with 32-bit indices *)
Section Transforms.
Variable F : fieldType.
Implicit Types (pr : profile) (a : seq F) (omega : F) (w : worker).

(** Up to [2^31] points the transforms are exact, on any number of CPUs. *)
Theorem C68_fft pr fuel a w omega L : (L < 32)%N -> size a = (2 ^ L)%N -> (2 ^ L).-primitive_root omega ->
  (0 < w < 2 ^ 63)%N -> (2 ^ L <= fuel)%N -> (63 <= fuel)%N ->
  w_serial_fft pr fuel a omega L = Some (Ok (evals (poly_of a) 1 omega (2 ^ L))) /\
  w_best_fft pr fuel a w omega L None = Some (Ok (evals (poly_of a) 1 omega (2 ^ L))).
Proof.
move=> HL Hs Hp /andP [Hw0 Hw] Hf1 Hf2.
have Hs32 : (size a < 2 ^ 32)%N by rewrite Hs ltn_exp2l.
rewrite (w_serial_fftE _ _ HL Hs32 Hf1) (w_best_fftE _ _ _ HL Hs32 Hw Hf1 Hf2).
have Hr := prim_fft_root Hp.
by rewrite (serial_fftP Hs Hr) dft_evals // (@best_fftP _ a w omega L None Hw0 Hs Hr isT).
Qed.

(** Low-degree extension of [2^(L - e)] coefficients to [2^L] points. *)
Theorem C68_lde pr a omega L e : (L < 32)%N -> (e <= L)%N -> size a = (2 ^ (L - e))%N ->
  (2 ^ L).-primitive_root omega ->
  w_serial_lde pr (a ++ nseq (2 ^ L - 2 ^ (L - e)) 0) omega L (2 ^ e) =
    Ok (evals (poly_of a) 1 omega (2 ^ L)).
Proof.
move=> HL He Hs Hp; set b := a ++ _.
have Hle : (2 ^ (L - e) <= 2 ^ L)%N by rewrite leq_exp2l // leq_subr.
have Hsb : size b = (2 ^ L)%N by rewrite size_cat size_nseq Hs subnKC.
have Hs32 : (size b < 2 ^ 32)%N by rewrite Hsb ltn_exp2l.
have He64 : (e < 64)%N by apply: leq_ltn_trans He _; apply: ltn_trans HL _.
rewrite (w_serial_ldeE _ _ HL Hs32 He64) serial_ldeP //; last first.
  move=> i /andP [Hi1 Hi2]; rewrite nth_cat Hs ltnNge Hi1 /= nth_nseq; by case: ifP.
rewrite (serial_fftP Hsb (prim_fft_root Hp)) dft_evals //.
suff -> : poly_of b = poly_of a by [].
apply/polyP => i; rewrite /poly_of !coef_poly Hsb Hs nth_cat Hs.
case: ltnP => H1; case: ltnP => H2 //; first by rewrite nth_nseq; case: ifP.
by move: (leq_trans H2 Hle); rewrite ltnNge H1.
Qed.

(** From [2^32] points on, the serial transform panics in every build: the length is compared as a [u32]. *)
Theorem C68_serial_limit pr fuel a omega L : (32 <= L)%N -> size a = (2 ^ L)%N ->
  w_serial_fft pr fuel a omega L = Some Panic.
Proof. exact: w_serial_fft_big. Qed.

(** At exactly [2^32] points the outcome depends on the machine: one CPU panics, two or more compute the
    transform.  (C03 says that on the model with natural numbers the number of CPUs does not matter.) *)
Theorem C68_depends_on_cpus pr fuel a omega : size a = (2 ^ 32)%N -> (2 ^ 32).-primitive_root omega ->
  (2 ^ 32 <= fuel)%N ->
  w_best_fft pr fuel a 1 omega 32 None = Some Panic /\
  forall w, (1 < w < 2 ^ 32)%N ->
    w_best_fft pr fuel a w omega 32 None = Some (Ok (evals (poly_of a) 1 omega (2 ^ 32))).
Proof.
move=> Hs Hp Hf.
have Hf63 : (63 <= fuel)%N by apply: leq_trans Hf; apply: leq_trans (_ : (2 ^ 6 <= _)%N); rewrite ?leq_exp2l.
split.
  rewrite /w_best_fft (w_log2_floorE _ _ Hf63); last by rewrite -{1}(expn0 2) ltn_exp2l.
  have [k -> /andP [Hk _]] := @log2_floorP 1 isT; rewrite [bindR _ _]/=.
  have -> : k = 0%N by move: Hk; rewrite -{2}(expn0 2) leq_exp2l // leqn0 => /eqP.
  by apply: w_serial_fft_big.
move=> w /andP [Hw1 Hw32]; have Hw : (w < 2 ^ 63)%N by apply: ltn_trans Hw32 _; rewrite ltn_exp2l.
have Hw0 : (0 < w)%N by apply: ltn_trans Hw1.
rewrite /w_best_fft (w_log2_floorE _ Hw Hf63).
have [k -> /andP [Hk1 Hk2]] := log2_floorP Hw0; rewrite [bindR _ _]/=.
have Hk0 : (0 < k)%N by rewrite -ltnS -(@ltn_exp2l 2) // expn1; exact: leq_ltn_trans Hw1 Hk2.
have Hk32 : (k < 32)%N by move: (leq_ltn_trans Hk1 Hw32); rewrite ltn_exp2l.
have -> : (k == 0%N) || (32 <= k)%N = false by rewrite eqn0Ngt Hk0 leqNgt Hk32.
rewrite w_parallel_fftE.
- by rewrite (parallel_fftP Hw0 (ltnW Hk32) Hs (prim_fft_root Hp)) dft_evals.
- by [].
- by rewrite ltn_subLR ?(ltnW Hk32) // -{1}(add0n 32%N) ltn_add2r.
- by apply: leq_trans Hf; rewrite leq_exp2l // leq_subr.
Qed.
End Transforms.

(** The hypotheses are met (the second field of /repo has domains of [2^32] points, see C66). *)
Example C68_ex1 : exists a : seq F257, exists omega : F257, [/\ (3 < 32)%N, size a = (2 ^ 3)%N & (2 ^ 3).-primitive_root omega].
Proof. by exists (nseq (2 ^ 3) 1), (dom_gen f257 3); rewrite size_nseq; split=> //; apply: dom_gen_prim; [exact: f257_ok|]. Qed.

(** * C69: the verifier on the machine *)
Section Verifier.
Variables (F : fieldType) (fp : ff_params F) (H : hash_fun).
Implicit Types (pr : profile) (v : verifier F) (pf : instance_proof F).

(** The verifier built without overflow checks stops on every proof. *)
Definition C69_statement := forall v pf, exists fuel, w_verify fp H Release fuel v pf <> None.

Lemma bindR_ok A B (a : A) (f : A -> M_Words.run B) : bindR (Some (Ok a)) f = f a. Proof. by []. Qed.

(** A proof with the two numbers of its first FRI proof replaced. *)
Definition with_sizes (D l : nat) pf : instance_proof F :=
  let p := pr_fri_h1 pf in
  Proof (pr_f_at_z_m pf) (pr_f_iop_roots pf) (pr_g_iop_root pf) (pr_f_queries pf) (pr_g_query pf)
        (pr_h1_iop_roots pf) (pr_h2_iop_roots pf)
        (FriProof (fpr_queries p) (fpr_roots p) (fpr_final_coefficients p) D (fpr_output p) l) (pr_fri_h2 pf).

(** The product of the two sizes of a FRI proof, as the verifier multiplies them. *)
Definition sizes_ok (p : fri_proof F) := (fpr_degree_plus_one p * fpr_lde_factor p <= 2 ^ 63)%N.

(** As long as the products fit, the verifier of the machine gives the answer of the model, after at most
    64 iterations of each loop. *)
Theorem C69_small_partial pr fuel v pf : (64 <= fuel)%N -> sizes_ok (pr_fri_h1 pf) -> sizes_ok (pr_fri_h2 pf) ->
  w_verify fp H pr fuel v pf = Some (verify fp H v pf).
Proof.
move=> Hf H1 H2; rewrite /w_verify /verify.
case: (draw_challenges _ _ _ _) => [[[chs d1] d2]| |] //; rewrite [bind _ _]/= bindR_ok.
do 3!case: ifP => // _.
case: (simulate_h1 _ _ _ _ _ _ _) => [h1| |] //; rewrite [bind _ _]/= bindR_ok.
case: (calculate_g_at_z _ _ _ _ _) => [gz| |] //; rewrite [bind _ _]/= bindR_ok.
do 2!case: ifP => // _.
case: (simulate_h2 _ _ _ _ _) => [h2| |] //; rewrite [bind _ _]/= bindR_ok.
rewrite (w_verify_proofE _ _ _ _ _ H1 Hf).
case: (verify_proof _ _ _ _ _) => [b| |] //; rewrite [bind _ _]/= bindR_ok.
by case: ifP => // _; rewrite (w_verify_proofE _ _ _ _ _ H2 Hf).
Qed.

(** What an accepting run of the model has gone through. *)
Lemma verify_true v pf : verify fp H v pf = Ok true ->
  exists chs d1 d2 h1 gz h2,
    [/\ draw_challenges fp H v pf = Ok (chs, d1, d2),
        (size (pr_f_queries pf) != ip_num_registers (v_instance v) = false) /\
        (size (pr_f_queries pf) != size (pr_f_iop_roots pf) = false) /\
        (~~ check_f_queries fp H pf (ch_index_h1 chs) = false),
        simulate_h1 v (ch_masks chs) (ch_index_h1 chs) d1 [seq q_value q | q <- pr_f_queries pf]
          (pr_f_at_z_m pf) (ch_z chs) = Ok h1 /\
        calculate_g_at_z v (ch_constraints chs) (ch_boundary chs) (pr_f_at_z_m pf) (ch_z chs) = Ok gz,
        (~~ verify_query fp H (pr_g_query pf) (pr_g_iop_root pf) = false) /\
        (q_index (pr_g_query pf) != ch_index_h2 chs = false) &
        simulate_h2 (ch_index_h2 chs) d2 (q_value (pr_g_query pf)) (ch_z chs) gz = Ok h2 /\
        (verify_proof fp H (pr_fri_h1 pf) (ch_index_h1 chs) h1 = Ok true /\
         verify_proof fp H (pr_fri_h2 pf) (ch_index_h2 chs) h2 = Ok true)].
Proof.
rewrite /verify; case: (draw_challenges _ _ _ _) => [[[chs d1] d2]| |] //; rewrite [bind _ _]/=.
case: ifP => // E1; case: ifP => // E2; case: ifP => // E3.
case E4: (simulate_h1 _ _ _ _ _ _ _) => [h1| |] //; rewrite [bind _ _]/=.
case E5: (calculate_g_at_z _ _ _ _ _) => [gz| |] //; rewrite [bind _ _]/=.
case: ifP => // E6; case: ifP => // E7.
case E8: (simulate_h2 _ _ _ _ _) => [h2| |] //; rewrite [bind _ _]/=.
case E9: (verify_proof _ _ _ _ _) => [b| |] //; rewrite [bind _ _]/=.
case: ifP => // /negbFE Eb E10; rewrite Eb in E9.
by exists chs, d1, d2, h1, gz, h2.
Qed.

Lemma verify_proof_two p i e : verify_proof fp H p i e = Ok true -> (1 + 1 : F) != 0.
Proof.
rewrite /verify_proof /verify_proof_queries /verify_start /inverse /fri_two.
by case: ifP.
Qed.

Lemma verify_proof_size p i e : (ff_S fp <= 63)%N -> verify_proof fp H p i e = Ok true -> sizes_ok p.
Proof.
move=> HS; rewrite /verify_proof /verify_proof_queries /verify_start.
case: (ok_or _) => // t; rewrite [bind (Ok t) _]/= domain_newE.
case: ltnP => // Hl _; rewrite /sizes_ok; apply: leq_trans (up_logP _ (isT : 1 < 2)%N) _.
by rewrite leq_exp2l //; apply: leq_trans Hl HS.
Qed.

(** Whatever the model accepts, the machine accepts, with and without overflow checks. *)
Theorem C69_accepts_partial pr fuel v pf : (ff_S fp <= 63)%N -> (64 <= fuel)%N ->
  verify fp H v pf = Ok true -> w_verify fp H pr fuel v pf = Some (Ok true).
Proof.
move=> HS Hf E; have [chs [d1 [d2 [h1 [gz [h2 [_ _ _ _ [_ [E1 E2]]]]]]]]] := verify_true E.
by rewrite -E; apply: C69_small_partial => //; [exact: verify_proof_size E1 | exact: verify_proof_size E2].
Qed.

(** Without overflow checks only the products modulo [2^64] matter. *)
Definition wrapped (p : fri_proof F) : fri_proof F :=
  FriProof (fpr_queries p) (fpr_roots p) (fpr_final_coefficients p)
    ((fpr_degree_plus_one p * fpr_lde_factor p) %% 2 ^ 64) (fpr_output p) 1.
Definition wrapped_proof pf : instance_proof F :=
  Proof (pr_f_at_z_m pf) (pr_f_iop_roots pf) (pr_g_iop_root pf) (pr_f_queries pf) (pr_g_query pf)
        (pr_h1_iop_roots pf) (pr_h2_iop_roots pf) (wrapped (pr_fri_h1 pf)) (wrapped (pr_fri_h2 pf)).

Theorem C69_release_partial fuel v pf : (64 <= fuel)%N ->
  sizes_ok (wrapped (pr_fri_h1 pf)) -> sizes_ok (wrapped (pr_fri_h2 pf)) ->
  w_verify fp H Release fuel v pf = Some (verify fp H v (wrapped_proof pf)).
Proof.
move=> Hf H1 H2; rewrite -(@C69_small_partial Release fuel v (wrapped_proof pf) Hf H1 H2).
have W p i e : w_verify_proof fp H Release fuel p i e = w_verify_proof fp H Release fuel (wrapped p) i e.
  by apply: w_verify_proof_release; rewrite ?[fpr_lde_factor _]/= ?muln1 ?modn_mod.
have -> : w_verify fp H Release fuel v (wrapped_proof pf) =
    let+ '(chs, d1, d2) := Some (draw_challenges fp H v pf) in
    if size (pr_f_queries pf) != ip_num_registers (v_instance v) then Some Err
    else if size (pr_f_queries pf) != size (pr_f_iop_roots pf) then Some Err
    else if ~~ check_f_queries fp H pf (ch_index_h1 chs) then Some (Ok false)
    else
      let+ h1 := Some (simulate_h1 v (ch_masks chs) (ch_index_h1 chs) d1 [seq q_value q | q <- pr_f_queries pf]
                   (pr_f_at_z_m pf) (ch_z chs)) in
      let+ gz := Some (calculate_g_at_z v (ch_constraints chs) (ch_boundary chs) (pr_f_at_z_m pf) (ch_z chs)) in
      if ~~ verify_query fp H (pr_g_query pf) (pr_g_iop_root pf) then Some (Ok false)
      else if q_index (pr_g_query pf) != ch_index_h2 chs then Some (Ok false)
      else
        let+ h2 := Some (simulate_h2 (ch_index_h2 chs) d2 (q_value (pr_g_query pf)) (ch_z chs) gz) in
        let+ valid := w_verify_proof fp H Release fuel (wrapped (pr_fri_h1 pf)) (ch_index_h1 chs) h1 in
        if ~~ valid then Some (Ok false)
        else w_verify_proof fp H Release fuel (wrapped (pr_fri_h2 pf)) (ch_index_h2 chs) h2 by [].
rewrite /w_verify; case: (draw_challenges _ _ _ _) => [[[chs d1] d2]| |] //; rewrite !bindR_ok.
do 3!case: ifP => // _.
case: (simulate_h1 _ _ _ _ _ _ _) => [h1| |] //; rewrite !bindR_ok.
case: (calculate_g_at_z _ _ _ _ _) => [gz| |] //; rewrite !bindR_ok.
do 2!case: ifP => // _.
case: (simulate_h2 _ _ _ _ _) => [h2| |] //; rewrite !bindR_ok.
rewrite W; case: (w_verify_proof _ _ _ _ _ _ _) => [[b| |]|] //; rewrite !bindR_ok.
by case: ifP => // _; rewrite W.
Qed.

Section Changed.
Variables (v : verifier F) (pf : instance_proof F) (D l : nat).
Hypothesis Hacc : verify fp H v pf = Ok true.

(** Take any accepted proof and change two numbers: without overflow checks the verifier never stops. *)
Theorem C69_hang : (2 ^ 63 < (D * l) %% 2 ^ 64)%N ->
  forall fuel, w_verify fp H Release fuel v (with_sizes D l pf) = None.
Proof.
move=> HD fuel.
have [chs [d1 [d2 [h1 [gz [h2 [Ed [E1 [E2 E3]] [E4 E5] [E6 E7] [E8 [E9 _]]]]]]]]] := verify_true Hacc.
have Ed' : draw_challenges fp H v (with_sizes D l pf) = Ok (chs, d1, d2) by exact: Ed.
have E3' : ~~ check_f_queries fp H (with_sizes D l pf) (ch_index_h1 chs) = false by exact: E3.
rewrite /w_verify Ed' bindR_ok E1 E2 E3' E4 bindR_ok E5 bindR_ok E6 E7 E8.
by rewrite bindR_ok (w_verify_proof_hang _ _ (verify_proof_two E9)).
Qed.

(** ... and with overflow checks it panics. *)
Theorem C69_panic : (2 ^ 63 < D * l)%N ->
  forall fuel, w_verify fp H Debug fuel v (with_sizes D l pf) = Some Panic.
Proof.
move=> HD fuel.
have [chs [d1 [d2 [h1 [gz [h2 [Ed [E1 [E2 E3]] [E4 E5] [E6 E7] [E8 [E9 _]]]]]]]]] := verify_true Hacc.
have Ed' : draw_challenges fp H v (with_sizes D l pf) = Ok (chs, d1, d2) by exact: Ed.
have E3' : ~~ check_f_queries fp H (with_sizes D l pf) (ch_index_h1 chs) = false by exact: E3.
rewrite /w_verify Ed' bindR_ok E1 E2 E3' E4 bindR_ok E5 bindR_ok E6 E7 E8.
by rewrite bindR_ok (w_verify_proof_panic _ _ (verify_proof_two E9)).
Qed.
End Changed.
End Verifier.

(** A proof that is accepted, on [F257]. *)
Lemma accepted257 : exists v pf, verify f257 toy_hash v pf = Ok true.
Proof.
have [Hs Hsat Hl] := C40_ex.
case EP: (prover_new f257 one_density 4 1 3) => [P| |]; [|by []|by []].
rewrite [bind _ _]/=; case Epf: (prove _ _ _ _) => [pf| |]; [|by []|by []] => _.
have Hm : (\max_(c <- ip_constraints one_density) c_degree c < 2 * 3)%N by rewrite /= !big_cons big_nil.
have [v _ E] := C40_completeness_partial f257_ok Hdec257 (isT : 0 < 3)%N Hs Hsat (or_intror (conj Hl Hm)) EP Epf.
by exists v, pf.
Qed.

Theorem C69_refuted : ~ C69_statement f257 toy_hash.
Proof.
have [v [pf Hacc]] := accepted257; move=> S.
have HD : (2 ^ 63 < ((2 ^ 63 + 1) * 1) %% 2 ^ 64)%N.
  have B : (2 ^ 63 + 1 < 2 ^ 64)%N by rewrite (exp2S 63) ltn_add2l -{1}(expn0 2) ltn_exp2l.
  rewrite muln1 (modn_small B) addn1; exact (ltnSn _).
have [fuel Hx] := S v (with_sizes (2 ^ 63 + 1) 1 pf).
exact (Hx (C69_hang Hacc HD fuel)).
Qed.

Lemma exp61 : (4 < 2 ^ 61 * 4)%N.
Proof. by rewrite -{1}(mul1n 4%N) ltn_pmul2r // -{1}(expn0 2) ltn_exp2l. Qed.

Lemma sizes_ex : (2 ^ 63 < (2 ^ 61 + 1) * 4)%N /\ (2 ^ 63 < ((2 ^ 61 + 1) * 4) %% 2 ^ 64)%N.
Proof.
have E4 : (2 ^ 63 = 2 ^ 61 * 4)%N by exact: (expnD 2 61 2).
have HD : (2 ^ 63 < (2 ^ 61 + 1) * 4)%N by rewrite mulnDl mul1n E4 -{1}(addn0 (_ * 4)%N) ltn_add2l.
have B : ((2 ^ 61 + 1) * 4 < 2 ^ 64)%N.
  rewrite (exp2S 63) mulnDl mul1n E4 ltn_add2l; exact exp61.
rewrite (modn_small B); exact (conj HD HD).
Qed.

(** The machine accepts that proof in both builds; one number changed, with the honest factor 4, makes the
    first build panic and the second run forever. *)
Example C69_ex : exists v pf,
  [/\ forall pr, w_verify f257 toy_hash pr 64 v pf = Some (Ok true),
      forall fuel, w_verify f257 toy_hash Debug fuel v (with_sizes (2 ^ 61 + 1) 4 pf) = Some Panic &
      forall fuel, w_verify f257 toy_hash Release fuel v (with_sizes (2 ^ 61 + 1) 4 pf) = None].
Proof.
have [v [pf Hacc]] := accepted257; exists v, pf.
have [HD HD'] := sizes_ex.
split.
- move=> pr; exact (@C69_accepts_partial _ f257 toy_hash pr 64 v pf isT (leqnn 64) Hacc).
- exact (C69_panic Hacc HD).
- exact (C69_hang Hacc HD').
Qed.

Example C67_ex : exists d, w_domain_new f257 Release 64 5 = Some (Ok d) /\ d_size d = 8%N.
Proof.
have H5 : (5 <= 2 ^ 63)%N by apply: leq_trans (_ : (2 ^ 3 <= _)%N); rewrite ?leq_exp2l.
rewrite (w_domain_newE f257 Release H5 (leqnn 64)); exists (Domain 8 3 (dom_gen f257 3)); split=> //.
by rewrite domain_newE (_ : up_log 2 5 = 3%N).
Qed.

Print Assumptions C67_domain.
Print Assumptions C67_domain_forever.
Print Assumptions C67_log2.
Print Assumptions C67_log2_forever.
Print Assumptions C67_pairs.
Print Assumptions C68_fft.
Print Assumptions C68_lde.
Print Assumptions C68_serial_limit.
Print Assumptions C68_depends_on_cpus.
Print Assumptions C69_small_partial.
Print Assumptions C69_accepts_partial.
Print Assumptions C69_release_partial.
Print Assumptions C69_hang.
Print Assumptions C69_panic.
Print Assumptions C69_refuted.
