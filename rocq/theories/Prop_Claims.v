(** Property C63: the claimed openings are not bound by the transcript.  A prover
    whose commitments are those of polynomials of low degree and whose FRI proofs
    are made by the FRI prover of the code can still have a false instance accepted. *)
From Coq Require Import NArith Lia.
From mathcomp Require Import all_ssreflect all_algebra.
From Verif Require Import M_Base M_Worker M_Field M_Domain M_Fft M_Poly M_Bytes M_Transcript M_Merkle M_Fri.
From Verif Require Import M_Challenge M_Air M_Arp M_Ali M_Verifier M_Prover.
From Verif Require Import Spec SpecPoly SpecFri SpecAir SpecStark SpecSound P_Base P_Fft P_Domain P_Poly P_Lde P_PolyOps P_Wf P_Bytes P_Merkle P_Fri P_Air P_Arp.
From Verif Require Import P_Vals P_Maps P_Ali P_AliG P_Comp P_Honest P_Gz P_Deep P_Stark P_Sound P_SoundDeep.
From Verif Require Import Instances Prop_Hash Prop_Fri Prop_Air Prop_Arp Prop_Ali Prop_Stark Prop_Verify.

Set Implicit Arguments.
Unset Strict Implicit.
Unset Printing Implicit Defensive.
Import GRing.Theory.
Local Open Scope ring_scope.

Section C63.
Variables (F : fieldType) (fp : ff_params F) (H : hash_fun).
Hypothesis Hok : ff_ok fp.
Notation S := (ff_S fp).

(** The FRI proof that the prover of the code makes for the values of [f] and
    the position [idx], and the roots that it publishes. *)
Definition made_by_fri (lde : nat) (f : {poly F}) (idx : nat) (roots : seq digest) (pr : fri_proof F) : Prop :=
  exists P proto, [/\ values_of fp P f, proof_from_lde_by_values fp H P lde 1 1 = Ok proto,
    fpt_get_roots proto = Ok roots & produce_proof fp H proto P idx = Ok pr].

(** All commitments in the proof are to extensions of polynomials of low degree,
    and both FRI proofs are those of the prover for polynomials of low degree. *)
Definition low_degree_proof (v : verifier F) (pf : instance_proof F) : Prop :=
  let n := d_size (v_column_domain v) in let N := d_size (v_constraints_domain v) in
  exists ch FD GD (ps : seq {poly F}) (G f1 f2 : {poly F}),
  [/\ draw_challenges fp H v pf = Ok (ch, FD, GD),
      all (fun p : {poly F} => size p <= n)%N ps /\
      mapM (commitment fp H) [seq evals p 1 (d_gen FD) (d_size FD) | p <- ps] = Ok (pr_f_iop_roots pf),
      (size G <= N)%N /\ commitment fp H (evals G 1 (d_gen GD) (d_size GD)) = Ok (pr_g_iop_root pf),
      (size f1 <= n)%N /\ made_by_fri (v_lde_factor v) f1 (ch_index_h1 ch) (pr_h1_iop_roots pf) (pr_fri_h1 pf) &
      (size f2 <= N)%N /\ made_by_fri (v_lde_factor v) f2 (ch_index_h2 ch) (pr_h2_iop_roots pf) (pr_fri_h2 pf)].

(** An accepted proof of this kind means that some witness satisfies the instance. *)
Definition C63_statement : Prop := forall props lde v pf,
  supported_but_density props -> (1 < lde)%N -> verifier_new fp props lde = Ok v ->
  verify fp H v pf = Ok true -> low_degree_proof v pf -> exists trace, satisfied props trace.

(** The challenges that the verifier draws after the commitments to the columns
    and to the composition polynomial. *)
Definition drawn (v : verifier F) (f_roots : seq digest) (g_root : digest) :
    outcome (seq (F * F) * seq (F * F) * F * seq F) :=
  let* t := transcript_new fp in
  let t := foldl (fun t (r : digest) => commit_bytes t r) t f_roots in
  let* '(chs, t) := challenge_pairs fp H t (flatten [seq db.2 | db <- v_batches v]) in
  let* '(bchs, t) := challenge_pairs fp H t (ip_boundary_constraints (v_instance v)) in
  let* '(z, t) := get_challenge fp H (commit_bytes t g_root) in
  let* '(alphas, _) := mask_challenges fp H t (v_all_masks v) in
  Ok (chs, bchs, z, alphas).

(** What the challenges depend on: the roots of the columns, of the composition
    polynomial and of the last FRI layers, and the final coefficients.  The
    claimed openings, the other FRI roots, the openings in the FRI proofs and
    the roots inside of them are not absorbed. *)
Theorem C63_absorbed (v : verifier F) (pf pf' : instance_proof F) :
  pr_f_iop_roots pf = pr_f_iop_roots pf' -> pr_g_iop_root pf = pr_g_iop_root pf' ->
  last_root (pr_h1_iop_roots pf) = last_root (pr_h1_iop_roots pf') ->
  last_root (pr_h2_iop_roots pf) = last_root (pr_h2_iop_roots pf') ->
  fpr_final_coefficients (pr_fri_h1 pf) = fpr_final_coefficients (pr_fri_h1 pf') ->
  fpr_final_coefficients (pr_fri_h2 pf) = fpr_final_coefficients (pr_fri_h2 pf') ->
  draw_challenges fp H v pf = draw_challenges fp H v pf'.
Proof. by rewrite /draw_challenges => -> -> -> -> -> ->. Qed.

(** The constraint challenges, the point and the DEEP coefficients are known
    after the first two kinds of commitments. *)
Theorem C63_known_early (v : verifier F) (pf : instance_proof F) ch FD GD :
  draw_challenges fp H v pf = Ok (ch, FD, GD) ->
  drawn v (pr_f_iop_roots pf) (pr_g_iop_root pf) = Ok (ch_constraints ch, ch_boundary ch, ch_z ch, ch_masks ch).
Proof.
rewrite /draw_challenges /drawn.
case: (transcript_new fp) => [t| |] //; rewrite !bind_ok.
case: (challenge_pairs _ _ _ _) => [[chs t1]| |] //; rewrite !bind_ok.
case: (challenge_pairs _ _ _ _) => [[bchs t2]| |] //; rewrite !bind_ok.
case: (get_challenge _ _ _) => [[z t3]| |] //; rewrite !bind_ok.
case: (mask_challenges _ _ _ _) => [[al t4]| |] //; rewrite !bind_ok => E.
have [r1 _ {}E] := bind_Ok E; have [r2 _ {}E] := bind_Ok E; have [D1 _ {}E] := bind_Ok E.
have [D2 _ {}E] := bind_Ok E; case: (get_challenge_bytes _ _) E => b1 t5 E; have [i1 _ {}E] := bind_Ok E.
case: (get_challenge_bytes _ _) E => b2 t6 E; have [i2 _ [<- _ _]] := bind_Ok E.
by [].
Qed.

(** The errors of the claims, weighted with the coefficients, cancel at every point. *)
Definition true_opening (v : verifier F) (ps : seq {poly F}) (z : F) (j : nat) : F :=
  let m := nth (Reg 0, Mask 1) (v_all_masks v) j in (column_poly ps m.1).[shifted m.2 z].
Definition cancels (v : verifier F) (ps : seq {poly F}) (z : F) (alphas vals : seq F) : Prop :=
  size vals = size (v_all_masks v) /\
  forall u, \sum_(j < size (v_all_masks v) | shifted (nth (Reg 0, Mask 1) (v_all_masks v) j).2 z == u)
              alphas`_j * (vals`_j - true_opening v ps z j) = 0.

(** Sums over the masks, grouped by the points. *)
Lemma sum_by_point (us : seq F) (a : nat -> F) (x : F) :
  (forall u, \sum_(j < size us | us`_j == u) a j = 0) -> \sum_(j < size us) a j * (x - us`_j)^-1 = 0.
Proof.
move=> Ha; have Hlt (j : 'I_(size us)) : (seq.index (nth (0 : F)%R us j) us < size us)%N by rewrite index_mem mem_nth.
pose h (j : 'I_(size us)) := Ordinal (Hlt j).
rewrite (partition_big h predT) //= big1 // => k _.
case: (altP (seq.index (nth (0 : F)%R us k) us =P k)) => Ek; last first.
  apply: big1 => j /eqP Ej; have Ej' : seq.index (nth (0 : F)%R us j) us = k by rewrite -Ej.
  by move: Ek; rewrite -Ej' nth_index ?mem_nth // eqxx.
rewrite (eq_bigl (fun j : 'I_(size us) => us`_j == us`_k)) => [|j]; last first.
  apply/eqP/eqP => [Ej|Ej]; last by apply: val_inj; rewrite /= Ej.
  by rewrite -Ej /= nth_index // mem_nth.
rewrite (eq_bigr (fun j : 'I_(size us) => a j * (x - us`_k)^-1)) => [|j /eqP ->//].
by rewrite -mulr_suml Ha mul0r.
Qed.

Lemma simulate_h1_sum (v : verifier F) alphas idx D (fx : seq F) vals z :
  let x := d_gen D ^+ idx in
  all (mask_ok (size fx)) (v_all_masks v) -> all (fun m => x - shifted m.2 z != 0) (v_all_masks v) ->
  simulate_h1 v alphas idx D fx vals z =
  Ok (\sum_(mfa <- zip (zip (v_all_masks v) vals) alphas)
        (cell fx mfa.1.1.1 - mfa.1.2) * (x - shifted mfa.1.1.2 z)^-1 * mfa.2).
Proof.
move=> x Hm Ha; rewrite /simulate_h1 -/x.
rewrite -[X in _ = Ok X]add0r; move: {1 2}(0 : F) => s.
elim: (v_all_masks v) Hm Ha vals alphas s => [|m ms IH] Hm Ha vals al s.
  by case: vals => [|? ?]; case: al => [|? ?]; rewrite /= big_nil addr0.
case: vals => [|y vals]; first by case: al => [|? ?]; rewrite /= big_nil addr0.
case: al => [|a al]; first by rewrite /= big_nil addr0.
move: Hm Ha => /andP [Hm Hms] /andP [Ha Has]; rewrite [zip (m :: ms) _]/= [zip (_ :: _) _]/= foldM_cons.
case: m Hm Ha => [[?|r|?|?] [?|mk]] // Hr Ha; rewrite /mask_ok /= in Hr; rewrite [shifted _ _]/= in Ha.
rewrite [(_, _).1]/= [(_, _).2]/= bind_ok [reg_number _]/= bind_ok (get_nth 0) // bind_ok.
by rewrite inverse_neq0 // [ok_or _]/= !bind_ok IH // big_cons addrA.
Qed.

Lemma simulate_h1_claims (v : verifier F) (ps : seq {poly F}) alphas idx D vals z :
  let x := d_gen D ^+ idx in
  all (mask_ok (size ps)) (v_all_masks v) -> all (fun m => x - shifted m.2 z != 0) (v_all_masks v) ->
  size alphas = size (v_all_masks v) -> cancels v ps z alphas vals ->
  simulate_h1 v alphas idx D [seq p.[x] | p : {poly F} <- ps] vals z = Ok (deep_h1 ps (v_all_masks v) z alphas).[x].
Proof.
move=> x Hm Ha Hal [Hv Hc]; rewrite simulate_h1_sum ?size_map // -/x deep_h1E //; congr Ok.
set masks := v_all_masks v in Hm Ha Hal Hv Hc *; pose m0 := (Reg 0, Mask 1) : mask_properties F.
have Hzip : size (zip masks vals) = size alphas by rewrite size_zip Hv minnn Hal.
rewrite (@big_zip_nth _ _ _ _ _ (m0, 0) 0) // (@big_zip_nth _ _ _ masks alphas m0 0) ?Hal //.
have -> : size (zip masks vals) = size masks by rewrite size_zip Hv minnn.
apply/eqP; rewrite -subr_eq0 -sumrB.
pose us := [seq shifted m.2 z | m <- masks].
have Hus : size us = size masks by rewrite size_map.
pose a j := - (alphas`_j * (vals`_j - true_opening v ps z j)).
have := @sum_by_point us a x; rewrite Hus => Hs; rewrite (eq_bigr (fun j : 'I_(size masks) => a j * (x - us`_j)^-1)).
  rewrite Hs // => u; have := Hc u => /(congr1 -%R); rewrite oppr0 -sumrN => Hu; rewrite -[RHS]Hu.
  by apply: eq_bigl => j; rewrite (nth_map m0).
move=> j _; rewrite nth_zip ?Hv //= (nth_map m0) // /a /true_opening -/masks.
set m := nth m0 masks j; set w := (x - _)^-1.
have -> : cell [seq p.[x] | p : {poly F} <- ps] m.1 = (column_poly ps m.1).[x].
  have := all_nthP m0 Hm j (ltn_ord j); rewrite -/m; case: (m) => [[?|r|?|?] [?|mk]] // Hr.
  by rewrite [(_, _).1]/= /cell /column_poly (nth_map 0).
set A := (column_poly _ _).[x]; set B := (column_poly _ _).[_]; set y := vals`_j; set al := alphas`_j.
have -> : (A - y) * w * al - (A - B) * al * w = (al * (B - y)) * w.
  by rewrite [(A - y) * w * al]mulrAC -mulrBl -mulrBl [al * _]mulrC; congr (_ * _ * _); rewrite opprB addrC addrA subrK.
by rewrite -mulrN opprB.
Qed.

Lemma get_roots_ok w P lde o proto : (0 < w)%N -> wf_poly fp P ->
  proof_from_lde_by_values fp H P lde o w = Ok proto -> exists roots, fpt_get_roots proto = Ok roots.
Proof.
move=> Hw HP Hp; have [K [e [r [u [[EP Hu HK _ _] [h1 h2 h3 ->]]]]]] := by_values_inv Hok Hw HP Hp.
rewrite /fpt_get_roots [fpt_l0 _]/= get_root_vtree ?(leq_ltn_trans _ h2) // bind_ok [fpt_commitments _]/=.
set m := (K - (e + r))%N; set g := dom_gen fp K.
have HmK : (m < K)%N by rewrite ltn_subrL h1 (leq_ltn_trans _ h2).
rewrite (mapM_mkseq (h := fun j => vroot fp H (K - j.+1) (layer fp H K g u j.+1))); last first.
  move=> j Hj; apply: get_root_vtree; last by rewrite subn_gt0 (leq_ltn_trans Hj).
  by apply: size_layer => //; apply: leq_trans (ltnW HmK).
by rewrite bind_ok; eexists.
Qed.

Hypothesis Hdec : forall d, exists x, bytes_to_field fp d = Ok x.
Lemma fri_made K lde (f : {poly F}) : is_pow2 lde -> (1 < lde < 2 ^ K)%N -> (K <= S)%N -> (size f <= 2 ^ K %/ lde)%N ->
  exists root finals roots, last_root roots = Ok root /\
  forall i, (i < 2 ^ K)%N -> odd i -> exists pr, [/\ made_by_fri lde f i roots pr, fpr_final_coefficients pr = finals &
    verify_proof fp H pr i f.[dom_gen fp K ^+ i] = Ok true].
Proof.
move=> Hl /andP [Hl1 HlK] HK Hf.
pose P := std fp Values K (evals f 1 (dom_gen fp K) (2 ^ K)).
have HP : values_of fp P f by exact: std_values_of.
have Hs : size (p_coeffs P) = (2 ^ K)%N by rewrite /= size_evals.
have [|proto Hproto] := @C28_prover_total F fp H Hok 1 P lde 1 isT HP.1 Hl isT _ Hdec; first by rewrite muln1 Hs Hl1.
have [roots Hroots] := get_roots_ok (isT : (0 < 1)%N) HP.1 Hproto.
exists (fpt_final_root proto), (fpt_final_coefficients proto), roots.
split; first exact: (by_values_roots Hok (isT : (0 < 1)%N) HP.1 Hproto Hroots).
move=> i Hi Ho; rewrite -Hs in Hi Hf.
have [pr Hpr _] := C29_acceptance Hok (isT : (0 < 1)%N) HP Hf Hproto Hi.
exists pr; split.
- by exists P, proto.
- exact: produce_finals Hpr.
- have := C29_complete_partial Hok (isT : (0 < 1)%N) HP Hf Hproto Ho Hi Hpr.
  by rewrite /= nth_evals ?mul1r // -Hs.
Qed.

(** Whatever the challenges are, a prover who commits to any polynomials of low
    degree and claims openings that fit the constraints and whose errors cancel
    can complete the proof, with FRI proofs made by the prover of the code. *)
Theorem C63_false_claims props lde v FD GD (ps : seq {poly F}) (G : {poly F}) f_roots g_root chs bchs z alphas vals :
  (ff_num_bits fp <? 256)%num ->
  supported_but_density props -> ranges_fit props -> verifier_new fp props lde = Ok v -> is_pow2 lde -> (1 < lde)%N ->
  domain_new fp (d_size (v_column_domain v) * lde) = Ok FD ->
  domain_new fp (d_size (v_constraints_domain v) * lde) = Ok GD ->
  size ps = ip_num_registers props -> all (fun p : {poly F} => size p <= d_size (v_column_domain v))%N ps ->
  (size G <= d_size (v_constraints_domain v))%N ->
  mapM (commitment fp H) [seq evals p 1 (d_gen FD) (d_size FD) | p <- ps] = Ok f_roots ->
  commitment fp H (evals G 1 (d_gen GD) (d_size GD)) = Ok g_root ->
  drawn v f_roots g_root = Ok (chs, bchs, z, alphas) -> z ^+ d_size GD != 1 ->
  calculate_g_at_z v chs bchs vals z = Ok G.[z] -> cancels v ps z alphas vals ->
  exists pf, [/\ verify fp H v pf = Ok true, low_degree_proof v pf &
    [/\ pr_f_at_z_m pf = vals, pr_f_iop_roots pf = f_roots & pr_g_iop_root pf = g_root]].
Proof.
move=> Hbits Hsup Hr Hv Hlde Hl1; have /is_pow2P [l El] := Hlde.
have [Elde [k [d Hf]]] := supported_fit Hok Hsup Hr Hv.
have /andP [Hk0 Hk] := ft_k Hf.
have Hl : (0 < l)%N by move: Hl1; rewrite El; case: (l).
rewrite (ft_con Hf) (ft_col Hf) ![d_size (dom _ _)]/= El !domain_new_mul.
case: ifP => // HK [EFD]; case: ifP => // HS [EGD].
set K := (k + l)%N in HK EFD; set Kg := (k + d + l)%N in HS EGD; rewrite -EFD -EGD ![d_size _]/= ![d_gen _]/=.
move=> Hps Hdeg HG Hroots Hgroot Hdrawn Hz Hgz Hcan.
have HK0 : (0 < K)%N by rewrite addn_gt0 Hk0.
have HKg0 : (0 < Kg)%N by rewrite !addn_gt0 Hk0.
pose decode (d : digest) := if bytes_to_field fp d is Ok x then x else 0.
have HdecP d0 : bytes_to_field fp d0 = Ok (decode d0) by rewrite /decode; have [x ->] := Hdec d0.
pose cols := [seq evals p 1 (dom_gen fp K) (2 ^ K) | p : {poly F} <- ps].
pose gv := evals G 1 (dom_gen fp Kg) (2 ^ Kg).
have Hsz : all (fun c => size c == 2 ^ K)%N cols by apply/allP => c /mapP [p _ ->]; rewrite size_evals.
have Hgv : size gv = (2 ^ Kg)%N by rewrite size_evals.
have Efr : f_roots = [seq vroot fp H K c | c <- cols].
  move: Hroots; rewrite -/cols; elim: (cols) f_roots Hsz {Hdrawn} => [|c s IH] fr /=; first by move=> _ [<-].
  case/andP => /eqP Hc Hs; rewrite {1}/commitment (tree_createP fp H _ Hc HK0) // bind_ok get_root_vtree // bind_ok.
  by case E: (mapM _ _) => [fr'| |] // [<-]; rewrite (IH fr').
have Egr : g_root = vroot fp H Kg gv.
  by move: Hgroot; rewrite /commitment (tree_createP fp H _ Hgv HKg0) // bind_ok get_root_vtree // => -[].
move: Hdrawn; rewrite /drawn /transcript_new Hbits bind_ok.
set t_f := foldl _ _ f_roots; rewrite (challenge_pairsE H HdecP) bind_ok.
set n1 := size (flatten _); set bs := ip_boundary_constraints (v_instance v).
rewrite (challenge_pairsE H HdecP) bind_ok stream_stateD -doubleD.
set t_g := commit_bytes _ _; rewrite (get_challengeE H HdecP) bind_ok (mask_challengesE H HdecP) bind_ok => -[Echs Ebchs Ez Eal].
set masks := v_all_masks v in Eal.
pose t_z := stream_state H t_g (size masks).+1.
have Hz0 e : (e <= Kg)%N -> z ^+ (2 ^ e) != 1.
  by move=> He; apply: contraNneq Hz => E; rewrite -(subnKC He) expnD exprM E expr1n.
have Hav : all (avoids fp K z) masks.
  apply: sub_all (ft_roots Hf) => m; rewrite /mask_root /avoids; case: m.2 => // mk /eqP Hmk.
  apply/allP => x Hx; rewrite subr_eq0; apply: contraNneq (Hz0 K _); last by rewrite leq_add2r leq_addr.
  move=> E; have Hx1 : x ^+ (2 ^ K) = 1.
    case/(nthP 0): Hx => i; rewrite size_points => Hi <-; rewrite nth_mkseq // mul1r -exprM mulnC exprM.
    by rewrite (prim_expr_order (dom_gen_prim Hok HK)) expr1n.
  by apply/eqP; move: Hx1; rewrite E /= exprMn {1}/K expnD exprM Hmk expr1n mul1r.
have Hxz i : dom_gen fp Kg ^+ i - z != 0.
  rewrite subr_eq0; apply: contraNneq Hz => <-; rewrite -exprM mulnC exprM.
  by rewrite (prim_expr_order (dom_gen_prim Hok HS)) expr1n.
pose f1 := deep_h1 ps masks z alphas; pose f2 := deep_quotient G z.
have Hf1 : (size f1 <= 2 ^ k)%N by apply: size_deep_h1; apply: sub_all Hdeg => p /leqW.
have Hf2 : (size f2 <= 2 ^ (k + d))%N by apply: size_deep_quotient; apply: leqW.
have Hlt e : (0 < e)%N -> (1 < lde < 2 ^ (e + l))%N by move=> He; rewrite Hl1 El ltn_exp2l // -{1}[l]add0n ltn_add2r.
have [|root1 [finals1 [roots1 [Hr1 Hacc1]]]] := @fri_made K lde f1 Hlde (Hlt _ Hk0) HK.
  by rewrite El /K expnD mulnK ?expn_gt0.
have Hkd0 : (0 < k + d)%N by rewrite addn_gt0 Hk0.
have [|root2 [finals2 [roots2 [Hr2 Hacc2]]]] := @fri_made Kg lde f2 Hlde (Hlt _ Hkd0) HS.
  by rewrite El /Kg expnD mulnK ?expn_gt0.
pose t1 := foldl (commit_field_element fp) (commit_bytes t_z root1) finals1.
pose t2 := foldl (commit_field_element fp) (commit_bytes t1 root2) finals2.
have Hidx (s : digest) e : (0 < e)%N -> exists i, [/\ bytes_to_challenge_index s (2 ^ e) lde = Ok i, (i < 2 ^ e)%N & odd i].
  move=> He; have [|||||i [-> Hi Hi' _]] := @C32_challenge_index s (2 ^ e) lde; last by exists i.
  - by rewrite size_tuple.
  - by rewrite expn_gt0.
  - by rewrite oddX eqn0Ngt He.
  - by rewrite ltnW.
  - by rewrite El oddX eqn0Ngt Hl.
have [i1 [Hi1 Hlt1 Ho1]] := Hidx (H t2) K HK0.
have [i2 [Hi2 Hlt2 Ho2]] := Hidx (H (t2 ++ H t2)) Kg HKg0.
have [pr1 [Hm1 Hfin1 Hv1]] := Hacc1 i1 Hlt1 Ho1.
have [pr2 [Hm2 Hfin2 Hv2]] := Hacc2 i2 Hlt2 Ho2.
pose pf := Proof vals f_roots g_root [seq hquery fp H K c i1 | c <- cols] (hquery fp H Kg gv i2) roots1 roots2 pr1 pr2.
have Hdraw : draw_challenges fp H v pf = Ok (Challenges chs bchs z alphas i1 i2, dom fp K, dom fp Kg).
  rewrite /draw_challenges /transcript_new Hbits bind_ok [pr_f_iop_roots _]/= -/t_f.
  rewrite (challenge_pairsE H HdecP) bind_ok (challenge_pairsE H HdecP) bind_ok -/n1 -/bs stream_stateD -doubleD.
  rewrite [pr_g_iop_root _]/= -/t_g (get_challengeE H HdecP) bind_ok (mask_challengesE H HdecP) bind_ok stream_stateD add1n.
  rewrite -/masks -/t_z Hr1 bind_ok Hr2 bind_ok [pr_fri_h1 _]/= [pr_fri_h2 _]/= Hfin1 Hfin2 -/t1 -/t2.
  rewrite (ft_col Hf) (ft_con Hf) Elde ![d_size _]/= {1 2}El !domain_new_mul HK HS !bind_ok.
  rewrite /get_challenge_bytes El -!expnD -/K -/Kg -El Hi1 bind_ok Hi2 bind_ok.
  by rewrite Echs Ebchs Ez Eal.
exists pf; split; [|exists (Challenges chs bchs z alphas i1 i2), (dom fp K), (dom fp Kg), ps, G, f1, f2|by []]; last first.
  split.
  - exact: Hdraw.
  - by split; [rewrite (ft_col Hf); exact: Hdeg | exact: Hroots].
  - by split; [rewrite (ft_con Hf); exact: HG | exact: Hgroot].
  - by rewrite (ft_col Hf) Elde.
  - by rewrite (ft_con Hf) Elde.
rewrite /verify Hdraw bind_ok [pr_f_queries _]/= !size_map Hps (ft_regs Hf) eqxx [pr_f_iop_roots _]/= Efr !size_map Hps eqxx.
rewrite [ch_index_h1 _]/=.
have -> : check_f_queries fp H pf i1.
  rewrite /check_f_queries /= Efr; elim: (cols) Hsz => //= c s IH /andP [/eqP Hc /IH ->].
  by rewrite verify_hquery // eqxx.
rewrite [ch_masks _]/= [ch_z _]/= [ch_constraints _]/= [ch_boundary _]/= [ch_index_h2 _]/= [pr_f_at_z_m _]/=.
have -> : [seq q_value q | q <- [seq hquery fp H K c i1 | c <- cols]] = [seq p.[d_gen (dom fp K) ^+ i1] | p : {poly F} <- ps].
  by rewrite -!map_comp; apply: eq_map => p /=; rewrite nth_evals // mul1r.
rewrite simulate_h1_claims //; last first.
- by rewrite -Eal size_mkseq.
- have Hx : dom_gen fp K ^+ i1 \in points fp K 1 by apply/mapP; exists i1; rewrite ?mul1r // mem_iota.
  by apply: sub_all Hav => m Ha; apply: (allP Ha).
- by rewrite Hps -(ft_regs Hf) (ft_masks Hf).
rewrite bind_ok Hgz bind_ok [pr_g_query _]/= [pr_g_iop_root _]/= Egr verify_hquery // [q_index _]/= eqxx.
rewrite /simulate_h2 [d_gen _]/= inverse_neq0 // [ok_or _]/= !bind_ok [q_value _]/=.
have E2 : (gv`_i2 - G.[z]) * (dom_gen fp Kg ^+ i2 - z)^-1 = f2.[dom_gen fp Kg ^+ i2].
  by rewrite deep_quotientE // nth_evals // mul1r.
by rewrite E2 [pr_fri_h1 _]/= Hv1 bind_ok [pr_fri_h2 _]/= Hv2.
Qed.

(** Claims for two cells at the same point can be wrong by any amount [t] in the
    first one, if the coefficient of the second one is not zero. *)
Definition shifted_claims (v : verifier F) (ps : seq {poly F}) (z : F) (alphas : seq F) (j k : nat) (t : F) : seq F :=
  mkseq (fun i => true_opening v ps z i + (if i == j then t else if i == k then - (t * alphas`_j / alphas`_k) else 0))
    (size (v_all_masks v)).

Theorem C63_line (v : verifier F) (ps : seq {poly F}) (z : F) (alphas : seq F) (j k : nat) (t : F) :
  (j < size (v_all_masks v))%N -> (k < size (v_all_masks v))%N -> j != k -> alphas`_k != 0 ->
  shifted (nth (Reg 0, Mask 1) (v_all_masks v) j).2 z = shifted (nth (Reg 0, Mask 1) (v_all_masks v) k).2 z ->
  cancels v ps z alphas (shifted_claims v ps z alphas j k t).
Proof.
move=> Hj Hk Hjk Ha Hu; split; first by rewrite size_mkseq.
move=> u; pose e (i : nat) := if i == j then t else if i == k then - (t * alphas`_j / alphas`_k) else 0.
rewrite (eq_bigr (fun i : 'I_(size (v_all_masks v)) => alphas`_i * e i)) => [|i _]; last first.
  by rewrite nth_mkseq // addrC addKr.
have [Eu|Eu] := eqVneq (shifted (nth (Reg 0, Mask 1) (v_all_masks v) j).2 z) u; last first.
  rewrite big1 // => i /eqP Ei; rewrite /e; case: eqP => [Ej|_]; first by move: Eu; rewrite -Ei Ej eqxx.
  by case: eqP => [Ek|_]; [move: Eu; rewrite Hu -Ei Ek eqxx | rewrite mulr0].
rewrite (bigD1 (Ordinal Hj)) /=; last by rewrite Eu.
rewrite (bigD1 (Ordinal Hk)) /=; last by rewrite -Hu Eu eqxx /= -val_eqE /= eq_sym.
rewrite big1 => [|i /andP [/andP [_ Hij] Hik]]; last first.
  by rewrite /e; move: Hij Hik; rewrite -!val_eqE /= => /negbTE -> /negbTE ->; rewrite mulr0.
rewrite /e eqxx [k == j]eq_sym (negbTE Hjk) eqxx addr0 mulrN mulrCA divff // mulr1 mulrC.
by rewrite subrr.
Qed.

Lemma evals0 (g : F) n : evals 0 1 g n = nseq n 0.
Proof.
apply: (@eq_from_nth _ 0); first by rewrite size_evals size_nseq.
by move=> i; rewrite size_evals => Hi; rewrite nth_evals // horner0 nth_nseq Hi.
Qed.

(** The attack with zero polynomials, as a test on an instance: the amount [t]
    is chosen such that the constraints seem to hold (which is a linear equation
    when the constraints are linear in the two cells). *)
Definition forge (props : instance_properties F) (lde j k : nat) : outcome (seq F) :=
  let* v := verifier_new fp props lde in
  let* FD := domain_new fp (d_size (v_column_domain v) * lde) in
  let* GD := domain_new fp (d_size (v_constraints_domain v) * lde) in
  let* f_roots := mapM (commitment fp H) (nseq (ip_num_registers props) (nseq (d_size FD) 0)) in
  let* g_root := commitment fp H (nseq (d_size GD) 0) in
  let* '(chs, bchs, z, alphas) := drawn v f_roots g_root in
  let M := size (v_all_masks v) in
  let claims t := mkseq (fun i => if i == j then t else if i == k then - (t * alphas`_j / alphas`_k) else 0) M in
  let* y0 := calculate_g_at_z v chs bchs (claims 0) z in
  let* y1 := calculate_g_at_z v chs bchs (claims 1) z in
  let vals := claims (y0 / (y0 - y1)) in
  let* y := calculate_g_at_z v chs bchs vals z in
  if [&& y == 0, z ^+ d_size GD != 1, alphas`_k != 0, (j < M)%N, (k < M)%N, j != k &
      shifted (nth (Reg 0, Mask 1) (v_all_masks v) j).2 z == shifted (nth (Reg 0, Mask 1) (v_all_masks v) k).2 z]
  then Ok vals else Err.

Lemma forge_ok props lde j k : (ff_num_bits fp <? 256)%num ->
  supported_but_density props -> ranges_fit props -> is_pow2 lde -> (1 < lde)%N -> is_ok (forge props lde j k) ->
  exists v pf, [/\ verifier_new fp props lde = Ok v, verify fp H v pf = Ok true & low_degree_proof v pf].
Proof.
move=> Hbits Hsup Hr Hl Hl1; case E: (forge props lde j k) => [vals| |] // _; move: E; rewrite /forge => E.
have [v Hv {}E] := bind_Ok E; have [FD HFD {}E] := bind_Ok E; have [GD HGD {}E] := bind_Ok E.
have [fr Hfr {}E] := bind_Ok E; have [gr Hgr {}E] := bind_Ok E.
have [[[[chs bchs] z] alphas] Hdr {}E] := bind_Ok E.
set M := size (v_all_masks v) in E.
have [y0 _ {}E] := bind_Ok E; have [y1 _ {}E] := bind_Ok E; set t := y0 / _ in E; have [y Hy {}E] := bind_Ok E.
move: E; case: ifP => // /and5P [/eqP Ey Hz Ha Hj /and3P [Hk Hjk /eqP Hu]] _; rewrite {}Ey in Hy.
pose ps : seq {poly F} := nseq (ip_num_registers props) 0.
have Hps r : column_poly ps r = 0 by case: r => // r; rewrite /column_poly nth_nseq if_same.
have Htrue i : true_opening v ps z i = 0 by rewrite /true_opening Hps horner0.
have Hcl : shifted_claims v ps z alphas j k t =
    mkseq (fun i => if i == j then t else if i == k then - (t * alphas`_j / alphas`_k) else 0) M.
  by apply: eq_mkseq => i; rewrite Htrue add0r.
rewrite -Hcl in Hy.
have Hc := C63_line ps t Hj Hk Hjk Ha Hu.
have [||||||pf [Hpf Hlow _]] := @C63_false_claims props lde v FD GD ps 0 fr gr chs bchs z alphas _ Hbits Hsup Hr Hv Hl Hl1 HFD HGD
  _ _ _ _ _ Hdr Hz _ Hc; last by exists v, pf.
- by rewrite size_nseq.
- by rewrite all_nseq size_poly0 orbT.
- by rewrite size_poly0.
- by rewrite map_nseq evals0.
- by rewrite evals0.
- by rewrite horner0.
Qed.

Lemma C63_fails props lde j k : (ff_num_bits fp <? 256)%num ->
  supported_but_density props -> ranges_fit props -> is_pow2 lde -> (1 < lde)%N -> is_ok (forge props lde j k) ->
  (forall trace, ~ satisfied props trace) -> ~ C63_statement.
Proof.
move=> H1 H2 H3 H4 H5 H6 Hno HC; have [v [pf [Hv Hpf Hlow]]] := forge_ok H1 H2 H3 H4 H5 H6.
by have [trace /Hno] := HC props lde v pf H2 H5 Hv Hpf Hlow.
Qed.
End C63.

(** Two registers: the first is constant and starts with 3 and with 5, the
    second starts with 7. *)
Definition two_starts : instance_properties F257 :=
  Props 4 2 [:: Constr 0 [:: Univariate (UTerm 1 (Reg 0) (Steps 1) 1%N); Univariate (UTerm (-1) (Reg 0) (Steps 0) 1%N)] 1%N (Dense 0 1)]
    [:: Boundary (Reg 0) 0 (Some 3); Boundary (Reg 0) 0 (Some 5); Boundary (Reg 1) 0 (Some 7)].
Lemma two_starts_supported : supported_but_density two_starts.
Proof. by rewrite supportedE; vm_compute. Qed.
Lemma two_starts_fits : ranges_fit two_starts.
Proof. by vm_compute. Qed.
Lemma two_starts_forge : is_ok (forge f257 toy_hash two_starts 4 1 2).
Proof. vm_cast_no_check (erefl true). Qed.
Lemma two_starts_unsat trace : ~ satisfied two_starts trace.
Proof. exact (@contradictory _ two_starts 0 0 3 5 isT erefl erefl three_five trace). Qed.

Theorem C63_refuted : ~ C63_statement f257 toy_hash.
Proof.
exact (@C63_fails _ f257 toy_hash f257_ok Hdec257 two_starts 4 1 2 isT two_starts_supported two_starts_fits
  isT isT two_starts_forge two_starts_unsat).
Qed.

(** The proof that is accepted. *)
Example C63_ex : exists v pf, [/\ verifier_new f257 two_starts 4 = Ok v, verify f257 toy_hash v pf = Ok true &
  low_degree_proof f257 toy_hash v pf].
Proof.
exact (@forge_ok _ f257 toy_hash f257_ok Hdec257 two_starts 4 1 2 isT two_starts_supported two_starts_fits
  isT isT two_starts_forge).
Qed.

Print Assumptions C63_absorbed.
Print Assumptions C63_known_early.
Print Assumptions C63_line.
Print Assumptions C63_false_claims.
Print Assumptions C63_refuted.
Print Assumptions C63_ex.
