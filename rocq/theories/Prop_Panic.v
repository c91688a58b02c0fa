(** C43, exactly: on which proofs the verifier panics. *)
From Coq Require Import NArith Lia.
From mathcomp Require Import all_ssreflect all_algebra.
From Verif Require Import M_Base M_Worker M_Field M_Domain M_Fft M_Poly M_Bytes M_Transcript M_Merkle M_Fri.
From Verif Require Import M_Challenge M_Air M_Arp M_Ali M_Verifier M_Prover.
From Verif Require Import Spec SpecPoly SpecFri SpecAir SpecStark P_Base P_Fft P_Domain P_Poly P_Lde P_PolyOps P_Wf P_Bytes P_Merkle P_Fri P_Air P_Arp.
From Verif Require Import P_Vals P_Maps P_Ali P_AliG P_Comp P_Honest P_Gz P_Deep P_Stark.
From Verif Require Import Instances Prop_Hash Prop_Fri Prop_Air Prop_Arp Prop_Ali Prop_Stark Prop_Verify.

Set Implicit Arguments.
Unset Strict Implicit.
Unset Printing Implicit Defensive.
Import GRing.Theory.
Local Open Scope ring_scope.

Section Panic.
Variables (F : fieldType) (fp : ff_params F) (H : hash_fun).
Hypothesis Hok : ff_ok fp.
Hypothesis Hdec : forall d, exists x, bytes_to_field fp d = Ok x.
Hypothesis Hbits : (ff_num_bits fp <? 256)%num.
Notation S := (ff_S fp).

(** The domain that a FRI proof claims has [2 ^ claimed p] points. *)
Definition claimed (p : fri_proof F) : nat := up_log 2 (fpr_degree_plus_one p * fpr_lde_factor p).

(** A FRI proof makes the verifier panic at a position: it claims a domain that exists, the position is odd,
    the number of openings is even, and there is no round or the domain does not have the position. *)
Definition fri_panics (p : fri_proof F) (idx : nat) : bool :=
  [&& (0 < claimed p)%N, (claimed p <= S)%N, odd idx, ~~ odd (size (fpr_queries p)) &
      (rounds p == 0%N) || (2 ^ claimed p <= idx)%N].

Theorem C43_fri_exact p idx ex : verify_proof fp H p idx ex = Panic <-> fri_panics p idx.
Proof.
rewrite /fri_panics; set K := claimed p.
have [_ _ H2] := Hok.
have Hstart : verify_proof fp H p idx ex =
    if [&& (0 < K)%N, (K <= S)%N & odd idx] then
      if odd (size (fpr_queries p)) then Err else
      let* ost := foldM (verify_queries_step fp H (1 + 1)^-1 idx ex)
            (Some (VerifyState None (2 ^ K) idx (dom_gen fp K) (dom_gen fp K)^-1))
            (enumerate (zip (fpr_roots p) (chunks_exact 2 (fpr_queries p)))) in
      if ost is Some st then verify_end (fpr_final_coefficients p) st else Ok false
    else Err.
  rewrite /verify_proof /verify_proof_queries /verify_start /fri_two inverse_neq0 //= domain_newE -/(claimed p) -/K.
  case: (leqP K S) => HK; last by rewrite andbF.
  have Hp := dom_gen_prim Hok HK.
  have Hg0 : dom_gen fp K != 0.
    apply/eqP => E; have := prim_expr_order Hp; rewrite E expr0n -leqn0 leqNgt expn_gt0 /= => /eqP.
    by rewrite eq_sym oner_eq0.
  rewrite /= -exprM mulnC exprM (prim_expr_order Hp) expr1n eqxx /=.
  case: (posnP K) => [K0|HK0]; first by rewrite K0 expn0 expr0 eqxx.
  have Hh : (2 ^ K %/ 2 = 2 ^ K.-1)%N by rewrite -{1}(prednK HK0) expnS mulKn.
  have -> : (dom_gen fp K ^+ idx ^+ (2 ^ K %/ 2) == 1) = ~~ odd idx.
    rewrite -exprM -(prim_order_dvd Hp) Hh -{1}(prednK HK0) expnS dvdn_pmul2r ?expn_gt0 //.
    by rewrite dvdn2.
  by case: (odd idx) => //=; rewrite inverse_neq0 //= modn2; case: (odd _).
split.
  move=> E; have : [&& (0 < K)%N, (K <= S)%N & odd idx] && ~~ odd (size (fpr_queries p)).
    by move: E; rewrite Hstart; case: ifP => // _; case: (odd (size _)).
  case/andP => /and3P [-> -> ->] -> /=; case: eqP => //= /eqP Hr; rewrite -lt0n in Hr.
  by rewrite leqNgt; apply/negP => Hi; have := verify_proof_total H Hdec ex Hr Hi; rewrite E.
case/and5P => H0 HK Ho Hq Hor; rewrite Hstart H0 HK Ho (negbTE Hq) /=.
have Hz : size (zip (fpr_roots p) (chunks_exact 2 (fpr_queries p))) = rounds p by rewrite size_zip size_mkseq.
case: (zip _ _) Hz Hor => [|[r qs] zs] /= Hz; first by rewrite /verify_end.
by rewrite -Hz /= => Hi; rewrite /get_coset_for_natural_index ltnNge Hi.
Qed.

(** The verifier gets as far as the FRI proofs, with the positions [i1] and [i2] and the values [h1] and [h2]. *)
Definition reaches_fri (v : verifier F) (pf : instance_proof F) (i1 i2 : nat) (h1 h2 : F) : Prop :=
  exists chs d1 d2 gz,
    [/\ draw_challenges fp H v pf = Ok (chs, d1, d2) /\ (ch_index_h1 chs = i1 /\ ch_index_h2 chs = i2),
        [/\ size (pr_f_queries pf) = ip_num_registers (v_instance v),
            size (pr_f_queries pf) = size (pr_f_iop_roots pf) & check_f_queries fp H pf i1],
        simulate_h1 v (ch_masks chs) i1 d1 [seq q_value q | q <- pr_f_queries pf] (pr_f_at_z_m pf) (ch_z chs) = Ok h1 /\
        calculate_g_at_z v (ch_constraints chs) (ch_boundary chs) (pr_f_at_z_m pf) (ch_z chs) = Ok gz,
        verify_query fp H (pr_g_query pf) (pr_g_iop_root pf) /\ q_index (pr_g_query pf) = i2 &
        simulate_h2 i2 d2 (q_value (pr_g_query pf)) (ch_z chs) gz = Ok h2].

Lemma reaches_verify v pf i1 i2 h1 h2 : reaches_fri v pf i1 i2 h1 h2 ->
  verify fp H v pf =
    let* valid := verify_proof fp H (pr_fri_h1 pf) i1 h1 in
    if ~~ valid then Ok false else verify_proof fp H (pr_fri_h2 pf) i2 h2.
Proof.
case=> chs [d1 [d2 [gz [[Ed [E1 E2]] [Q1 Q2 Q3] [S1 S2] [G1 G2] S3]]]].
by rewrite /verify Ed bind_ok {1}Q1 eqxx {1}Q2 eqxx /= E1 Q3 /= S1 bind_ok S2 bind_ok G1 /= E2 G2 eqxx /= S3 bind_ok.
Qed.

Lemma no_roots2 v pf : pr_h2_iop_roots pf = [::] -> verify fp H v pf = Panic.
Proof.
move=> E; pose decode (d : digest) := if bytes_to_field fp d is Ok x then x else 0.
have HdecP d0 : bytes_to_field fp d0 = Ok (decode d0) by rewrite /decode; have [x ->] := Hdec d0.
rewrite /verify /draw_challenges /transcript_new Hbits bind_ok.
rewrite (challenge_pairsE H HdecP) bind_ok (challenge_pairsE H HdecP) bind_ok.
rewrite (get_challengeE H HdecP) bind_ok (mask_challengesE H HdecP) bind_ok E.
by case: (pr_h1_iop_roots pf).
Qed.

Lemma panic_or_reaches props lde v pf :
  supported_but_density props -> ranges_fit props -> is_pow2 lde -> verifier_new fp props lde = Ok v ->
  (0 < size (pr_h1_iop_roots pf))%N -> (0 < size (pr_h2_iop_roots pf))%N ->
  nopanic (verify fp H v pf) \/ exists i1 i2 h1 h2, reaches_fri v pf i1 i2 h1 h2.
Proof.
move=> Hsup Hr /is_pow2P [l ->] Hv Hr1 Hr2.
have [Elde [k [d Hf]]] := supported_fit Hok Hsup Hr Hv.
pose decode (d : digest) := if bytes_to_field fp d is Ok x then x else 0.
have HdecP d0 : bytes_to_field fp d0 = Ok (decode d0) by rewrite /decode; have [x ->] := Hdec d0.
rewrite /verify.
have Hidx (s : digest) e : exists2 i, bytes_to_challenge_index s (2 ^ e) (2 ^ l) = Ok i & (i < 2 ^ e)%N.
  rewrite /bytes_to_challenge_index /usub size_tuple /= -lt0n expn_gt0 /= /urem -lt0n expn_gt0 /=.
  have He : (0 < 2 ^ e)%N by rewrite expn_gt0.
  eexists; first reflexivity.
  set x := N.to_nat _; have Hx : (x < 2 ^ e)%N.
    have Hlt : (be_value (drop (32 - 8) s) mod N.of_nat (2 ^ e) < N.of_nat (2 ^ e))%num.
      by apply: N.mod_lt => E; move: He; rewrite -[(2 ^ e)%N]Nat2N.id E.
    by apply/ltP; rewrite /x; move: (_ mod _)%num Hlt => y Hlt; lia.
  by case: ifP => _; case: ifP => _; rewrite ?ltn_mod.
have [chs [bchs [z [al [i1 [i2 [Hd [Hi1 Hi2 Hc Hb]]]]]]]] : exists chs bchs z al i1 i2,
   (draw_challenges fp H v pf = Err \/ draw_challenges fp H v pf = Ok (Challenges chs bchs z al i1 i2, dom fp (k + l), dom fp (k + d + l))) /\
   [/\ (i1 < d_size (v_column_domain v) * 2 ^ l)%N, (i2 < d_size (v_constraints_domain v) * 2 ^ l)%N,
       size chs = size (flatten (map snd (v_batches v))) & size bchs = size (ip_boundary_constraints (v_instance v))].
  rewrite /draw_challenges /transcript_new Hbits bind_ok.
  rewrite (challenge_pairsE H HdecP) bind_ok; set chs := stream_pairs _ _ _ _.
  rewrite (challenge_pairsE H HdecP) bind_ok; set bchs := stream_pairs _ _ _ _.
  rewrite (get_challengeE H HdecP) bind_ok (mask_challengesE H HdecP) bind_ok.
  case: (pr_h1_iop_roots pf) Hr1 => // r1 s1 _; case: (pr_h2_iop_roots pf) Hr2 => // r2 s2 _.
  rewrite [last_root _]/= bind_ok [last_root _]/= bind_ok.
  rewrite (ft_col Hf) (ft_con Hf) Elde ![d_size _]/= !domain_new_mul.
  rewrite /get_challenge_bytes -!expnD.
  set b1 := H _; have [i1 E1 Hi1] := Hidx b1 (k + l)%N; set b2 := H _; have [i2 E2 Hi2] := Hidx b2 (k + d + l)%N.
  rewrite !E1 !E2.
  exists chs, bchs; do 4! eexists; split; last by split; [exact: Hi1 | exact: Hi2 | |]; rewrite size_mkseq.
  case: ifP => _; last by left.
  by case: ifP => _; [right | left].
case: Hd => Hd; first by left; rewrite Hd.
case Q1: (size (pr_f_queries pf) == ip_num_registers (v_instance v)); last by left; rewrite Hd bind_ok /=.
case Q2: (size (pr_f_queries pf) == size (pr_f_iop_roots pf)); last by left; rewrite Hd bind_ok /=.
case Q3: (check_f_queries fp H pf i1); last by left; rewrite Hd bind_ok /= ?Q3 /=.
move/eqP: (Q1) => Hq1; move/eqP: (Q2) => Hq2.
have : nopanic (simulate_h1 v al i1 (dom fp (k + l)) [seq q_value q | q <- pr_f_queries pf] (pr_f_at_z_m pf) z).
  rewrite /simulate_h1.
  have Hz : all (fun mfa : mask_properties F * F * F => mask_ok (ip_num_registers (v_instance v)) mfa.1.1)
      (zip (zip (v_all_masks v) (pr_f_at_z_m pf)) al).
    by elim: (v_all_masks v) (pr_f_at_z_m pf) (al) (ft_masks Hf) => [|m ms IH] [|y f] [|a al'] //= /andP [-> /IH ->].
  apply: (nopanic_foldM1 _ Hz) => h [[[r s] y] a]; rewrite /mask_ok /= => Hm.
  case: r Hm => // r; case: s => //= mk Hrr; rewrite (get_nth 0) ?size_map ?Hq1 //=.
  by case: (inverse _).
case S1: (simulate_h1 _ _ _ _ _ _ _) => [h1| |] // _; last by left; rewrite Hd bind_ok /= ?Q3 /= ?S1 /=.
have : nopanic (calculate_g_at_z v chs bchs (pr_f_at_z_m pf) z).
  rewrite /calculate_g_at_z; have [H1 H2] := opened_nopanic Hf (pr_f_at_z_m pf).
  apply: nopanic_bind => // vals /H2 Hvals; apply: nopanic_bind.
    by apply: (batches_nopanic Hok Hf Hvals _ (ft_batches Hf)); rewrite Hc.
  move=> [g ?] _; apply: nopanic_bind => [|[? ?] //].
  exact: (boundaries_nopanic Hf Hvals _ _ (ft_bounds Hf) Hb).
case S2: (calculate_g_at_z _ _ _ _ _) => [gz| |] // _; last by left; rewrite Hd bind_ok /= ?Q3 /= ?S1 /= ?S2 /=.
case G1: (verify_query fp H (pr_g_query pf) (pr_g_iop_root pf));
  last by left; rewrite Hd bind_ok /= ?Q3 /= ?S1 /= ?S2 /=.
case G2: (q_index (pr_g_query pf) == i2);
  last by left; rewrite Hd bind_ok /= ?Q3 /= ?S1 /= ?S2 /= ?G2 /=.
have : nopanic (simulate_h2 i2 (dom fp (k + d + l)) (q_value (pr_g_query pf)) z gz).
  by rewrite /simulate_h2; case: (inverse _).
case S3: (simulate_h2 _ _ _ _ _) => [h2| |] // _;
  last by left; rewrite Hd bind_ok /= ?Q3 /= ?S1 /= ?S2 /= ?G2 /= ?S3 /=.
right; exists i1, i2, h1, h2; exists (Challenges chs bchs z al i1 i2), (dom fp (k + l)), (dom fp (k + d + l)), gz.
by move/eqP: G2 => G2.
Qed.

(** On a supported instance the verifier panics on exactly these proofs: one of the two lists of roots is empty,
    or the first FRI proof panics, or it is accepted and the second one panics. *)
Theorem C43_exact props lde v pf :
  supported_but_density props -> ranges_fit props -> is_pow2 lde -> verifier_new fp props lde = Ok v ->
  verify fp H v pf = Panic <->
  [\/ pr_h1_iop_roots pf = [::], pr_h2_iop_roots pf = [::] |
      exists i1 i2 h1 h2, reaches_fri v pf i1 i2 h1 h2 /\
        (fri_panics (pr_fri_h1 pf) i1 \/
         verify_proof fp H (pr_fri_h1 pf) i1 h1 = Ok true /\ fri_panics (pr_fri_h2 pf) i2)].
Proof.
move=> Hsup Hr Hl Hv; split; last first.
  case=> [E1|E2|[i1 [i2 [h1 [h2 [Hreach Hp]]]]]]; [exact: C43_no_roots | exact: no_roots2 |].
  rewrite (reaches_verify Hreach).
  case: Hp => [/(C43_fri_exact _ _ h1) -> //|[-> /(C43_fri_exact _ _ h2) E]]; by rewrite bind_ok.
move=> E; case E1: (pr_h1_iop_roots pf) => [|r1 s1]; first by apply: Or31.
case E2: (pr_h2_iop_roots pf) => [|r2 s2]; first by apply: Or32.
have Hr1 : (0 < size (pr_h1_iop_roots pf))%N by rewrite E1.
have Hr2 : (0 < size (pr_h2_iop_roots pf))%N by rewrite E2.
apply: Or33; have [Hn|[i1 [i2 [h1 [h2 Hreach]]]]] := panic_or_reaches Hsup Hr Hl Hv Hr1 Hr2.
  by move: Hn; rewrite E.
exists i1, i2, h1, h2; split=> //; move: E; rewrite (reaches_verify Hreach).
case Ep: (verify_proof _ _ _ _ _) => [[]| |] //=; last by left; apply/(C43_fri_exact _ _ h1).
by move=> E; right; split=> //; apply/(C43_fri_exact _ _ h2).
Qed.

End Panic.

Print Assumptions C43_fri_exact.
Print Assumptions C43_exact.

(** The hypotheses are met, and both cases occur: an accepted proof, and the same proof without rounds. *)
Example C43_exact_ex : exists v pf pf', [/\ verifier_new f257 contradiction 4 = Ok v,
  supported_but_density contradiction /\ ranges_fit contradiction,
  verify f257 toy_hash v pf = Ok true & verify f257 toy_hash v pf' = Panic].
Proof.
have [v [pf [Hv Hpf]]] := contradiction_forged.
exists v, pf; eexists; split; [exact Hv | exact (conj contradiction_supported contradiction_fits) | exact Hpf |].
exact (@C43_no_rounds _ f257 toy_hash v pf Hpf).
Qed.
