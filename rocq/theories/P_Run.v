(** A run of the prover on any witness of the right shape, and the verifier on its
    proof.  As in P_Stark.v, but without the assumption that the witness satisfies
    the instance: the polynomial that the prover calculates is a parameter. *)
From Coq Require Import NArith.
From mathcomp Require Import all_ssreflect all_algebra.
From Verif Require Import M_Base M_Worker M_Field M_Domain M_Fft M_Poly M_Bytes M_Transcript M_Merkle M_Fri.
From Verif Require Import M_Challenge M_Air M_Arp M_Ali M_Verifier M_Prover.
From Verif Require Import Spec SpecPoly SpecFri SpecAir SpecStark P_Base P_Fft P_Domain P_Poly P_Lde P_PolyOps P_Wf P_Merkle P_Fri P_Air P_Arp.
From Verif Require Import P_Vals P_Maps P_Ali P_AliG P_AliMany P_Comp P_Honest P_Gz P_Deep P_Stark.

Set Implicit Arguments.
Unset Strict Implicit.
Unset Printing Implicit Defensive.
Import GRing.Theory.
Local Open Scope ring_scope.

Section Run.
Variables (F : fieldType) (fp : ff_params F) (H : hash_fun) (decode : digest -> F).
Hypothesis Hok : ff_ok fp.
Hypothesis Hdec : forall d, bytes_to_field fp d = Ok (decode d).
Notation S := (ff_S fp).
Notation st_state := (stream_state H).
Notation st := (stream H decode).
Notation st_pairs := (stream_pairs H decode).
Notation gen := (ff_gen fp).
Variable w : worker.
Hypothesis Hw : (0 < w)%N.

Variables (props props' : instance_properties F) (trace : seq (seq F)) (k d l out : nat).
Let wc := [seq ifft_vec fp k v | v <- trace].
Hypothesis HH : honest fp props props' trace k d wc.
Hypothesis Hall : all (fun v => size v == (2 ^ k)%N) trace.
Hypothesis Htr : (0 < size trace)%N.
Variable a : ali_instance F.
Hypothesis Ha : from_arp fp props' w = Ok a.
Hypothesis Hcpul : lde_cpus_ok w (2 ^ l).
Hypothesis HS : (k + d + l <= S)%N.

Let ps : seq {poly F} := map (@poly_of F) wc.
Let cs' := ip_constraints props'.
Let bs := ip_boundary_constraints props'.
Let masks := masks_of cs' bs.
Let K := (k + l)%N.
Let Kg := (k + d + l)%N.

Let Hk1 : (0 < k)%N. Proof. by have := hn_1k HH; case: k. Qed.
Let HK : (K <= S)%N.
Proof. by apply: leq_trans HS; rewrite /K leq_add2r leq_addr. Qed.
Let HK0 : (0 < K)%N. Proof. by rewrite /K addn_gt0 Hk1. Qed.
Let HKg0 : (0 < Kg)%N. Proof. by rewrite /Kg !addn_gt0 Hk1. Qed.

(** The composition polynomial of the run, for given challenges. *)
Variable comp : seq (F * F) -> seq (F * F) -> {poly F}.
Hypothesis Hcs : forall chs bchs, (size (comp chs bchs) <= 2 ^ (k + d))%N.
Hypothesis Hcg : forall t, calculate_g fp H a t (map (std fp Coefficients k) wc) w =
  Ok (std fp Coefficients (k + d)
        (mkseq (fun i => (comp (st_pairs t (size cs')) (st_pairs (st_state t (size cs').*2) (size bs)))`_i) (2 ^ (k + d))),
      st_state t (size cs' + size bs).*2).

Definition fvals (c : seq F) : seq F := map (horner (poly_of c)) (points fp K 1).
Definition f_roots : seq digest := [seq vroot fp H K (fvals c) | c <- wc].
Definition t_f : transcript := foldl (fun t (r : digest) => commit_bytes t r) [::] f_roots.
Definition run_chs := st_pairs t_f (size cs').
Definition run_bchs := st_pairs (st_state t_f (size cs').*2) (size bs).
Definition g_pol : {poly F} := comp run_chs run_bchs.
Definition gvals : seq F := map (horner g_pol) (points fp Kg 1).
Definition g_root : digest := vroot fp H Kg gvals.
Definition t_g : transcript := commit_bytes (st_state t_f (size cs' + size bs).*2) g_root.
Definition run_z : F := st t_g 0.
Definition run_alphas := mkseq (st (st_state t_g 1)) (size masks).
Definition h1_pol := deep_h1 ps masks run_z run_alphas.
Definition h2_pol := deep_quotient g_pol run_z.
Definition t_z : transcript := st_state t_g (size masks).+1.
Definition z_ok := all (avoids fp K run_z) masks && all (fun x => x - run_z != 0) (points fp Kg 1).
Definition run_vals := [seq (column_poly ps m.1).[shifted m.2 run_z] | m <- masks].

(** The last part of the prover, after the DEEP quotients. *)
Definition finish (h1_lde h2_lde : hpoly F Values) : outcome (instance_proof F) :=
  let* h1_proto := proof_from_lde_by_values fp H h1_lde (2 ^ l) out w in
  let* h2_proto := proof_from_lde_by_values fp H h2_lde (2 ^ l) out w in
  let* h1_iop_roots := fpt_get_roots h1_proto in
  let* h2_iop_roots := fpt_get_roots h2_proto in
  let t := commit_bytes t_z (fpt_final_root h1_proto) in
  let t := foldl (commit_field_element fp) t (fpt_final_coefficients h1_proto) in
  let t := commit_bytes t (fpt_final_root h2_proto) in
  let t := foldl (commit_field_element fp) t (fpt_final_coefficients h2_proto) in
  let: (b1, t) := get_challenge_bytes H t in
  let* i1 := bytes_to_challenge_index b1 (2 ^ K) (2 ^ l) in
  let: (b2, t) := get_challenge_bytes H t in
  let* i2 := bytes_to_challenge_index b2 (2 ^ Kg) (2 ^ l) in
  let* h1_proof := produce_proof fp H h1_proto h1_lde i1 in
  let* h2_proof := produce_proof fp H h2_proto h2_lde i2 in
  let* f_queries := mapM (fun c => iop_query fp H (vtree fp H K (fvals c)) i1 (fvals c)) wc in
  let* g_query := iop_query fp H (vtree fp H Kg gvals) i2 gvals in
  Ok (Proof run_vals f_roots g_root f_queries g_query h1_iop_roots h2_iop_roots h1_proof h2_proof).

Lemma size_fvals c : size (fvals c) = (2 ^ K)%N.
Proof. by rewrite size_map size_points. Qed.
Lemma size_gvals : size gvals = (2 ^ Kg)%N.
Proof. by rewrite size_map size_points. Qed.

Lemma size_g_pol : (size g_pol <= 2 ^ (k + d))%N.
Proof. exact: Hcs. Qed.

Lemma proveE ws : calculate_witness_polys fp props' w trace = Ok ws -> ws = map (std fp Coefficients k) wc ->
  prove fp H (Prover props' a (2 ^ l) out w) trace =
  check! (ff_num_bits fp <? 256)%num ;;
  if z_ok then finish (vf fp K 1 (horner h1_pol)) (vf fp Kg 1 (horner h2_pol)) else Err.
Proof.
move=> Ew Ews; rewrite /prove [p_worker _]/= [p_arp _]/= [p_lde_factor _]/= [p_ali _]/= [p_final_degree_plus_one _]/=.
rewrite /transcript_new; case: (_ <? _)%num => //; rewrite bind_ok Ew bind_ok Ews.
have Hsz := hn_sizes HH.
have -> : mapM (fun f => lde fp f w (2 ^ l)) (map (std fp Coefficients k) wc) =
          Ok [seq vf fp K 1 (horner (poly_of c)) | c <- wc].
  elim: wc Hsz => //= c s IH /andP [/eqP Hc Hs].
  by rewrite (vf_lde Hok Hw Hc (hn_k HH) Hcpul) -/K HK bind_ok IH.
rewrite bind_ok.
have -> : mapM (fun p : hpoly F Values => tree_create fp H w (p_coeffs p)) [seq vf fp K 1 (horner (poly_of c)) | c <- wc] =
          Ok [seq vtree fp H K (fvals c) | c <- wc].
  elim: wc => //= c s IH.
  by rewrite -/(fvals c) (tree_createP fp H Hw (size_fvals c) HK0) bind_ok IH.
rewrite bind_ok.
have -> : mapM (@get_root) [seq vtree fp H K (fvals c) | c <- wc] = Ok f_roots.
  rewrite /f_roots; elim: wc => // c s IH; rewrite [LHS]/= get_root_vtree ?size_fvals //.
  by rewrite bind_ok IH.
rewrite bind_ok -/t_f Hcg bind_ok.
rewrite -/cs' -/bs -/run_chs -/run_bchs -/g_pol.
have Hcg' : size (mkseq (fun i => g_pol`_i) (2 ^ (k + d))) = (2 ^ (k + d))%N by rewrite size_mkseq.
have Hpg := coeffs_of_poly size_g_pol.
rewrite (vf_lde Hok Hw Hcg' (honest_kd Hok Hw HH Ha) Hcpul) HS bind_ok Hpg -/Kg.
rewrite -[p_coeffs (vf fp Kg 1 (horner g_pol))]/gvals (tree_createP fp H Hw size_gvals HKg0) bind_ok.
rewrite -[Tree _ _]/(vtree fp H Kg gvals) get_root_vtree ?size_gvals // bind_ok -/g_root -/t_g.
have Haf : ali_for fp props' a := from_arp_inv Hok Hw Ha.
have Hwc0 : (0 < size wc)%N by rewrite size_map.
have HS1 : (1 <= S)%N by apply: leq_trans (hn_k HH).
have := @calculate_deepP F fp H decode Hok Hdec w Hw k K wc HK HS1 a (k + d) Kg (mkseq (fun i => g_pol`_i) (2 ^ (k + d)))
  t_g Hwc0 HS; rewrite (af_masks Haf) => /(_ (hn_regs HH)); rewrite -/cs' -/bs -/masks Hpg -/K -/Kg => ->.
rewrite -/run_z -/z_ok; case: z_ok => //; rewrite bind_ok -/ps -/run_alphas -/h1_pol -/h2_pol -/t_z -/run_vals.
have Esz L f : p_size (vf fp L 1 f) = (2 ^ L)%N by rewrite /p_size size_map size_points.
rewrite /finish !Esz.
do 4! apply: eq_bind => ?.
rewrite /get_challenge_bytes; do 4! apply: eq_bind => ?.
have E i : mapM (fun ol => iop_query fp H ol.1 i (p_coeffs ol.2))
    (zip [seq vtree fp H K (fvals c) | c <- wc] [seq vf fp K 1 (horner (poly_of c)) | c <- wc]) =
  mapM (fun c => iop_query fp H (vtree fp H K (fvals c)) i (fvals c)) wc.
  by elim: wc => // c s IH; rewrite [LHS]/= IH.
by rewrite E.
Qed.

(** * The verifier on the proof of an honest run *)
Hypothesis Hinst : from_instance fp props = Ok props'.
Variable v : verifier F.
Hypothesis Hv : verifier_new fp props (2 ^ l) = Ok v.

Lemma honest_verifier :
  [/\ v_instance v = props', v_max_power v = (2 ^ d)%N, v_column_domain v = dom fp k,
      v_constraints_domain v = dom fp (k + d) & v_all_masks v = masks] /\
  v_batches v = batch_by_density cs' /\ v_lde_factor v = (2 ^ l)%N.
Proof.
move: Hinst Hv; rewrite from_instanceE verifier_newE (hn_rows HH) up_expnK //.
case: ltnP => // _; case: ifP => // _ [E]; case: ltnP => // HK' [<-] /=.
have Ec : cs' = [seq mask_constraint (dom_gen fp k) c | c <- ip_constraints props] by rewrite /cs' -E.
have Eb : bs = ip_boundary_constraints props by rewrite /bs -E.
have Ed : max_degree cs' = (2 ^ d)%N by rewrite (honest_maxdeg HH).
by rewrite -Ec -Eb in E *; rewrite Ed up_expnK // [(d + k)%N]addnC.
Qed.

Lemma z_trace : z_ok -> run_z ^+ (2 ^ k) != 1.
Proof.
case/andP => _ Hz; apply/eqP => E; have [[i Hi] /= Ei] := prim_rootP (honest_prim Hok HH) E.
have Hz' : run_z \in points fp Kg 1.
  have Hj : (i * 2 ^ (d + l) < 2 ^ Kg)%N.
    have -> : (2 ^ Kg = 2 ^ k * 2 ^ (d + l))%N by rewrite -expnD addnA.
    by rewrite ltn_pmul2r ?expn_gt0.
  apply/(nthP 0); exists (i * 2 ^ (d + l))%N; first by rewrite size_points.
  rewrite nth_mkseq //.
  rewrite mul1r Ei mulnC exprM; congr (_ ^+ _).
  by rewrite /Kg -addnA dom_gen_sub // addnA.
by move/allP: Hz => /(_ _ Hz'); rewrite subrr eqxx.
Qed.

(** * The verifier on the honest proof *)
Record finished (fi_proto1 fi_proto2 : fri_prototype F) (i1 i2 : nat) (pf1 pf2 : fri_proof F) (pf : instance_proof F) : Prop := Finished {
  fi_by1 : proof_from_lde_by_values fp H (vf fp K 1 (horner h1_pol)) (2 ^ l) out w = Ok fi_proto1;
  fi_by2 : proof_from_lde_by_values fp H (vf fp Kg 1 (horner h2_pol)) (2 ^ l) out w = Ok fi_proto2;
  fi_prod1 : produce_proof fp H fi_proto1 (vf fp K 1 (horner h1_pol)) i1 = Ok pf1;
  fi_prod2 : produce_proof fp H fi_proto2 (vf fp Kg 1 (horner h2_pol)) i2 = Ok pf2;
  fi_draw : draw_challenges fp H v pf = Ok (Challenges run_chs run_bchs run_z run_alphas i1 i2, dom fp K, dom fp Kg);
  fi_idx1 : exists s : digest, bytes_to_challenge_index s (2 ^ K) (2 ^ l) = Ok i1;
  fi_idx2 : exists s : digest, bytes_to_challenge_index s (2 ^ Kg) (2 ^ l) = Ok i2;
  fi_lt1 : (i1 < 2 ^ K)%N; fi_lt2 : (i2 < 2 ^ Kg)%N;
  fi_vals : pr_f_at_z_m pf = run_vals;
  fi_froots : pr_f_iop_roots pf = f_roots; fi_groot : pr_g_iop_root pf = g_root;
  fi_fq : pr_f_queries pf = [seq hquery fp H K (fvals c) i1 | c <- wc];
  fi_gq : pr_g_query pf = hquery fp H Kg gvals i2;
  fi_fri1 : pr_fri_h1 pf = pf1; fi_fri2 : pr_fri_h2 pf = pf2 }.

Lemma finish_inv pf : (ff_num_bits fp <? 256)%num ->
  finish (vf fp K 1 (horner h1_pol)) (vf fp Kg 1 (horner h2_pol)) = Ok pf ->
  exists p1 p2 i1 i2 pf1 pf2, finished p1 p2 i1 i2 pf1 pf2 pf.
Proof.
move=> Hbits; rewrite /finish => H0; have [p1 Hp1 {}H0] := bind_Ok H0.
have [p2 Hp2 {}H0] := bind_Ok H0; have [r1 Hr1 {}H0] := bind_Ok H0; have [r2 Hr2 {}H0] := bind_Ok H0.
move: H0; rewrite /get_challenge_bytes => H0; have [i1 Hi1 {}H0] := bind_Ok H0.
have [i2 Hi2 {}H0] := bind_Ok H0; have [pf1 Hpf1 {}H0] := bind_Ok H0; have [pf2 Hpf2 {}H0] := bind_Ok H0.
have [fq Hfq {}H0] := bind_Ok H0; have [gq Hgq [<-]] := bind_Ok H0 => {H0}.
exists p1, p2, i1, i2, pf1, pf2.
have Hlt2 : (i2 < 2 ^ Kg)%N.
  by move: Hgq; rewrite /iop_query [t_size _]/=; case: (i2 < _)%N.
have Hlt1 : (i1 < 2 ^ K)%N.
  move: Hfq Htr; rewrite -(size_map (ifft_vec fp k)) -/wc; case: wc => // c s; rewrite [mapM _ _]/=.
  by rewrite {1}/iop_query [t_size _]/=; case: (i1 < _)%N.
split=> //.
- have [[Ei Ed Ec Ecd Em] [Eb El]] := honest_verifier.
  rewrite /draw_challenges /transcript_new Hbits bind_ok [pr_f_iop_roots _]/= -/t_f.
  have Hbc : size (flatten [seq db.2 | db <- v_batches v]) = size cs'.
    by rewrite Eb batch_size.
  rewrite (challenge_pairsE H Hdec) bind_ok (challenge_pairsE H Hdec) bind_ok Hbc Ei -/bs stream_stateD -doubleD.
  rewrite [pr_g_iop_root _]/= -/t_g (get_challengeE H Hdec) bind_ok (mask_challengesE H Hdec) bind_ok Em stream_stateD.
  rewrite add1n -/t_z [pr_h1_iop_roots _]/=.
  have W L f : (L <= S)%N -> wf_poly fp (vf fp L 1 f).
    by move=> HL; apply: (wf_std Values _ HL); rewrite size_map size_points.
  rewrite (by_values_roots Hok Hw (W _ _ HK) Hp1 Hr1) bind_ok [pr_h2_iop_roots _]/=.
  rewrite (by_values_roots Hok Hw (W _ _ HS) Hp2 Hr2) bind_ok [pr_fri_h1 _]/= [pr_fri_h2 _]/=.
  rewrite (produce_finals Hpf1) (produce_finals Hpf2) Ec Ecd El /dom !domain_new_mul -/K HK HS !bind_ok.
  rewrite /get_challenge_bytes -!expnD -/K -/Kg Hi1 bind_ok Hi2 bind_ok.
  by [].
- by eexists; exact: Hi1.
- by eexists; exact: Hi2.
- rewrite /=; elim: wc fq Hfq => [|c s IH] fq; first by case=> <-.
  by rewrite [mapM _ _]/= iop_query_vtree ?size_fvals // bind_ok; case: (mapM _ _) IH => //= ? /(_ _ erefl) -> [<-].
- by move: Hgq; rewrite iop_query_vtree ?size_gvals // => -[<-].
Qed.

Lemma verify_finished p1 p2 i1 i2 pf1 pf2 pf y : z_ok -> finished p1 p2 i1 i2 pf1 pf2 pf ->
  calculate_g_at_z v run_chs run_bchs run_vals run_z = Ok y ->
  verify fp H v pf =
  let* valid := verify_proof fp H pf1 i1 h1_pol.[dom_gen fp K ^+ i1] in
  if ~~ valid then Ok false else
  let x := dom_gen fp Kg ^+ i2 in verify_proof fp H pf2 i2 ((g_pol.[x] - y) * (x - run_z)^-1).
Proof.
move=> Hz Hf Hy; have [[Ei Ed Ec Ecd Em] [Eb El]] := honest_verifier.
have Hnr : ip_num_registers props' = size wc by rewrite (hn_props' HH).
rewrite /verify (fi_draw Hf) bind_ok (fi_fq Hf) size_map Ei (fi_froots Hf) Hnr eqxx /f_roots size_map eqxx.
rewrite [ch_index_h1 _]/=.
have -> : check_f_queries fp H pf i1.
  rewrite /check_f_queries (fi_fq Hf) (fi_froots Hf) /f_roots; elim: wc => //= c s ->.
  by rewrite verify_hquery ?size_fvals ?(fi_lt1 Hf) // eqxx.
rewrite [ch_masks _]/= [ch_z _]/= [ch_constraints _]/= [ch_boundary _]/= [ch_index_h2 _]/= (fi_vals Hf).
have Hmk : all (mask_ok (size wc)) (v_all_masks v) by rewrite Em (hn_regs HH).
have Hav : all (avoids fp K run_z) (v_all_masks v) by rewrite Em; case/andP: Hz.
have := @simulate_h1P F fp K wc v run_z run_alphas i1 _ run_vals Hmk Hav (fi_lt1 Hf) erefl.
rewrite Em -/ps -/K => /(_ erefl) Hs1.
have -> : [seq q_value q | q <- [seq hquery fp H K (fvals c) i1 | c <- wc]] = [seq (poly_of c).[dom_gen fp K ^+ i1] | c <- wc].
  by rewrite -map_comp; apply: eq_map => c; rewrite /= nth_vf ?(fi_lt1 Hf).
rewrite {}Hs1 bind_ok Hy bind_ok (fi_gq Hf) (fi_groot Hf) verify_hquery ?size_gvals ?(fi_lt2 Hf) //.
rewrite [q_index _]/= eqxx (fi_fri1 Hf) (fi_fri2 Hf) [q_value _]/= nth_vf ?(fi_lt2 Hf) //.
have Hzg : dom_gen fp Kg ^+ i2 - run_z != 0.
  case/andP: Hz => _ /allP; apply; apply/mapP; exists i2; rewrite ?mul1r // mem_iota.
  exact: (fi_lt2 Hf).
by rewrite /simulate_h2 [d_gen _]/= inverse_neq0 // [ok_or _]/= !bind_ok.
Qed.

(** The prover fails exactly for points in the evaluation domains. *)
Lemma z_okE : all (fun m : mask_properties F => if m.2 is Mask mk then mk ^+ (2 ^ k) == 1 else false) masks -> z_ok = (run_z ^+ (2 ^ Kg) != 1).
Proof.
move=> Hr; apply/idP/idP => [/andP [_ /allP Hz]|Hz].
  apply/eqP => E; have [[i Hi] /= Ei] := prim_rootP (dom_gen_prim Hok HS) E.
  have Hx : run_z \in points fp Kg 1 by apply/mapP; exists i; rewrite ?mul1r // mem_iota.
  by move: (Hz _ Hx); rewrite subrr eqxx.
have Hunity e x : (e <= S)%N -> x \in points fp e 1 -> x ^+ (2 ^ e) = 1.
  move=> He /(nthP 0) [i]; rewrite size_points => Hi <-; rewrite nth_mkseq // mul1r -exprM mulnC exprM.
  by rewrite (prim_expr_order (dom_gen_prim Hok He)) expr1n.
apply/andP; split; apply/allP; last first.
  move=> x Hx; rewrite subr_eq0; apply: contraNneq Hz => E; by rewrite -E (Hunity _ _ HS Hx).
move=> m /(allP Hr); rewrite /avoids; case: m.2 => // mk /eqP Hmk; apply/allP => x Hx.
rewrite subr_eq0; apply: contraNneq Hz => E; have := Hunity _ _ HK Hx; rewrite E /= exprMn {1}/K expnD exprM Hmk expr1n mul1r => Ez.
have -> : Kg = (K + d)%N by rewrite /Kg /K addnAC.
by rewrite expnD exprM /K expnD Ez expr1n.
Qed.
End Run.
