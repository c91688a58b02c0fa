(** Properties C41 to C44: what the verifier accepts and when it fails. *)
From Coq Require Import NArith Lia.
From mathcomp Require Import all_ssreflect all_algebra.
From Verif Require Import M_Base M_Worker M_Field M_Domain M_Fft M_Poly M_Bytes M_Transcript M_Merkle M_Fri.
From Verif Require Import M_Challenge M_Air M_Arp M_Ali M_Verifier M_Prover.
From Verif Require Import Spec SpecPoly SpecFri SpecAir SpecStark P_Base P_Fft P_Domain P_Poly P_Lde P_PolyOps P_Wf P_Bytes P_Merkle P_Fri P_Air P_Arp.
From Verif Require Import P_Vals P_Maps P_Ali P_AliG P_Comp P_Honest P_Gz P_Deep P_Stark.
From Verif Require Import Instances Prop_Hash Prop_Fri Prop_Air Prop_Arp Prop_Ali Prop_Stark.

Set Implicit Arguments.
Unset Strict Implicit.
Unset Printing Implicit Defensive.
Import GRing.Theory.
Local Open Scope ring_scope.
(** * C42 *)
Section C42.
Variables (F : fieldType) (fp : ff_params F) (H : hash_fun).

(** What an accepted proof satisfies: as many openings of the witness oracles
    as registers, each one verifies under its root at the index that the
    transcript gives, the same for g, and both FRI proofs are accepted. *)
Theorem C42_openings v (pf : instance_proof F) : verify fp H v pf = Ok true ->
  exists chs D1 D2, draw_challenges fp H v pf = Ok (chs, D1, D2) /\
  [/\ size (pr_f_queries pf) = ip_num_registers (v_instance v),
      size (pr_f_iop_roots pf) = ip_num_registers (v_instance v),
      forall i, (i < ip_num_registers (v_instance v))%N ->
        let q := nth (Query 0 0 [::]) (pr_f_queries pf) i in
        verify_query fp H q (nth zero_digest (pr_f_iop_roots pf) i) /\ q_index q = ch_index_h1 chs,
      verify_query fp H (pr_g_query pf) (pr_g_iop_root pf) /\ q_index (pr_g_query pf) = ch_index_h2 chs &
      exists h1 h2 g_at_z,
      [/\ simulate_h1 v (ch_masks chs) (ch_index_h1 chs) D1 [seq q_value q | q <- pr_f_queries pf] (pr_f_at_z_m pf)
            (ch_z chs) = Ok h1,
          calculate_g_at_z v (ch_constraints chs) (ch_boundary chs) (pr_f_at_z_m pf) (ch_z chs) = Ok g_at_z,
          simulate_h2 (ch_index_h2 chs) D2 (q_value (pr_g_query pf)) (ch_z chs) g_at_z = Ok h2,
          verify_proof fp H (pr_fri_h1 pf) (ch_index_h1 chs) h1 = Ok true &
          verify_proof fp H (pr_fri_h2 pf) (ch_index_h2 chs) h2 = Ok true]].
Proof.
rewrite /verify => H0; have [cd Hd {}H0] := bind_Ok H0; case: cd Hd H0 => -[chs D1] D2 Hd.
exists chs, D1, D2; split=> //; move: H0; case: eqP => //= E1; case: eqP => //= E2; case E3: (check_f_queries _ _ _ _) => //= H0.
have [h1 Hh1 {}H0] := bind_Ok H0; have [gz Hgz {}H0] := bind_Ok H0; move: H0.
case E4: (verify_query _ _ _ _) => //=; case: eqP => //= E5 H0.
have [h2 Hh2 {}H0] := bind_Ok H0; have [[|] Hf1 {}H0] := bind_Ok H0 => //.
split=> //.
- by rewrite -E2.
- move=> i Hi /=.
  have Hz : (i < size (zip (pr_f_queries pf) (pr_f_iop_roots pf)))%N by rewrite size_zip -E2 minnn E1.
  move: E3; rewrite /check_f_queries => /(all_nthP (Query 0 0 [::], zero_digest)) /(_ i Hz).
  by rewrite nth_zip //= => /andP [-> /eqP ->].
- by exists h1, h2, gz.
Qed.

(** Every claimed value f(z * mask) is there. *)
Definition C42_statement : Prop := forall props lde v pf,
  verifier_new fp props lde = Ok v -> verify fp H v pf = Ok true -> size (pr_f_at_z_m pf) = size (v_all_masks v).

Lemma foldM_each A B (f : B -> A -> outcome B) (Q : pred A) b s r :
  (forall b x b', f b x = Ok b' -> Q x) -> foldM f b s = Ok r -> all Q s.
Proof.
move=> HQ; elim: s b => //= x s IH b E; have [b' Hb {}E] := bind_Ok E.
by rewrite (HQ _ _ _ Hb) (IH _ E).
Qed.

(** The opening of a mask has been inserted. *)
Definition has_opening (vals : openings F) (m : mask_properties F) : bool :=
  if m.1 is Reg r then (r < size vals)%N && (im_get (nth [::] vals r) m.2 != None) else false.

Lemma opened_values_masks v f vals : opened_values v f = Ok vals ->
  forall m, has_opening vals m -> m \in take (size f) (v_all_masks v).
Proof.
rewrite /opened_values; set vals0 := nseq _ _.
have : forall m, has_opening vals0 m -> m \in take (size f) (v_all_masks v).
  by case=> [[?|r|?|?] s] //=; rewrite /has_opening /= nth_nseq; case: ifP; rewrite /= andbF.
have : {subset map fst (zip (v_all_masks v) f) <= take (size f) (v_all_masks v)}.
  move=> m; elim: (v_all_masks v) f => [|m' ms IH] [|y f] //=; rewrite !inE => /orP [->//|/IH ->]; exact: orbT.
elim: (zip _ _) vals0 => [|[m y] ms IH] vals0 Hs H0.
  by case=> <-.
rewrite foldM_cons => E; have [vals1 H1 {}E] := bind_Ok E; apply: IH E.
  by move=> m' Hm'; apply: Hs; rewrite /= inE Hm' orbT.
move: H1; case: m Hs => [[?|r|?|?] [?|mk]] //= Hs E; have [vs Hvs [<-]] := bind_Ok E.
have [Hr Evs] := get_Ok [::] Hvs; case=> [[?|r'|?|?] s] //.
rewrite /has_opening /= size_set_nth (maxn_idPr Hr) nth_set_nth /=; case: (r' =P r) => [->|Hne] /andP [Hr' Hg].
  case Em: (s == Mask mk); first by rewrite (eqP Em) Hs // inE eqxx.
  apply: H0; rewrite /has_opening /= Hr -Evs; by move: Hg; rewrite im_get_insert (eq_sym (Mask mk)) Em.
by apply: H0; rewrite /has_opening /= Hr'.
Qed.

Lemma eval_uni_opening vals (u : univariate_term F) y : eval_uni_at_z vals u = Ok y -> has_opening vals (uni_mask u).
Proof.
rewrite /eval_uni_at_z /has_opening /uni_mask /=; case: (ut_register u) => // r; rewrite bind_ok => E.
have [m Hm {}E] := bind_Ok E; have [Hr Em] := get_Ok [::] Hm; rewrite Hr -Em.
by case: (im_get _ _) E.
Qed.

Lemma verifier_new_masks props lde v : verifier_new fp props lde = Ok v ->
  exists cs bs, [/\ v_all_masks v = masks_of cs bs, v_batches v = batch_by_density cs &
                    ip_boundary_constraints (v_instance v) = bs].
Proof.
rewrite verifier_newE; case: ifP => // _; case: ifP => // _; case: ifP => // _ [<-] /=.
by eexists; eexists; split.
Qed.

Lemma calculate_g_openings props lde v chs bchs f z g : verifier_new fp props lde = Ok v ->
  calculate_g_at_z v chs bchs f z = Ok g -> (size (v_all_masks v) <= size f)%N.
Proof.
move=> Hv; rewrite /calculate_g_at_z => E; have [vals Hvals {}E] := bind_Ok E.
have [[g1 c1] H1 {}E] := bind_Ok E; have [[g2 c2] H2 _] := bind_Ok E.
have Ham : all (has_opening vals) (v_all_masks v).
  have [cs [bs [-> Eb Ebs]]] := verifier_new_masks Hv; rewrite Eb in H1; rewrite Ebs in H2.
  rewrite all_masks_of; apply/andP; split.
    rewrite -(batch_all (fun c => all (fun u => has_opening vals (uni_mask u)) (c_unis c))).
    apply: foldM_each H1 => st db st'; rewrite /g_at_z_batch => E'; have [inv _ {}E'] := bind_Ok E'.
    apply: foldM_each E' => -[y l] c st''; case: ifP => // _; case: l => // -[al be] l {}E'.
    have [val Hval _] := bind_Ok E'; move: Hval; rewrite /eval_constraint_at_z /c_unis => Hval.
    have : all (fun t => all (fun u => has_opening vals (uni_mask u)) (t_unis t)) (c_terms c).
      apply: foldM_each Hval => y' t y''; case: t => [u|p] Ht; have [y3 Hy3 _] := bind_Ok Ht.
        by rewrite /= (eval_uni_opening Hy3).
      move: Hy3; rewrite /eval_term_at_z => Hy3; have [y4 Hy4 _] := bind_Ok Hy3.
      apply: foldM_each Hy4 => y5 u y6 Hu; have [y7 Hy7 _] := bind_Ok Hu; exact: eval_uni_opening Hy7.
    by elim: (c_terms c) => //= t ts IH /andP [Ht /IH Hts]; rewrite all_cat Ht.
  apply: foldM_each H2 => -[y l] b st'; rewrite /g_at_z_boundary => E'; have [adj _ {}E'] := bind_Ok E'.
  case: l E' => // -[al be] l E'; have [r Hr {}E'] := bind_Ok E'; have [vs Hvs {}E'] := bind_Ok E'.
  have [val Hval _] := bind_Ok E'; have [Hr' Evs] := get_Ok [::] Hvs.
  move: Hr; rewrite /has_opening /=; case: (b_register b) => //= r' [->]; rewrite Hr' -Evs.
  by case: (im_get _ _) Hval.
have Hu : uniq (v_all_masks v).
  have [cs [bs [-> _ _]]] := verifier_new_masks Hv; exact: uniq_masks_of.
have Hsub : {subset v_all_masks v <= take (size f) (v_all_masks v)}.
  by move=> m /(allP Ham); apply: opened_values_masks.
by have := uniq_leq_size Hu Hsub; rewrite size_take; case: ltnP => // Hlt; rewrite leqNgt Hlt.
Qed.

Theorem C42_no_missing_value props lde v pf : verifier_new fp props lde = Ok v -> verify fp H v pf = Ok true ->
  (size (v_all_masks v) <= size (pr_f_at_z_m pf))%N.
Proof.
move=> Hv /C42_openings [chs [D1 [D2 [_ [_ _ _ _ [h1 [h2 [g [_ Hg _ _ _]]]]]]]]].
exact: (calculate_g_openings Hv Hg).
Qed.

(** Values after the last mask are ignored. *)
Definition with_values (pf : instance_proof F) (f : seq F) : instance_proof F :=
  Proof f (pr_f_iop_roots pf) (pr_g_iop_root pf) (pr_f_queries pf) (pr_g_query pf)
    (pr_h1_iop_roots pf) (pr_h2_iop_roots pf) (pr_fri_h1 pf) (pr_fri_h2 pf).

Lemma zip_extra A B (s : seq A) (f e : seq B) : (size s <= size f)%N -> zip s (f ++ e) = zip s f.
Proof. by elim: s f => [|x s IH] [|y f] //=; [case: e | move=> Hs; rewrite IH]. Qed.

Theorem C42_extra_values_ignored v pf extra : (size (v_all_masks v) <= size (pr_f_at_z_m pf))%N ->
  verify fp H v (with_values pf (pr_f_at_z_m pf ++ extra)) = verify fp H v pf.
Proof.
move=> Hs; have E : draw_challenges fp H v (with_values pf (pr_f_at_z_m pf ++ extra)) = draw_challenges fp H v pf by [].
rewrite /verify E; apply: eq_bind => -[[chs D1] D2].
by rewrite /check_f_queries /simulate_h1 /calculate_g_at_z /opened_values /= !zip_extra.
Qed.

Lemma C42_fails props lde v pf : verifier_new fp props lde = Ok v -> verify fp H v pf = Ok true -> ~ C42_statement.
Proof.
move=> Hv Hpf HC; have E := HC _ _ _ _ Hv Hpf.
have := C42_extra_values_ignored [:: 0] (eq_leq (esym E)); rewrite Hpf => /(HC _ _ _ _ Hv).
by rewrite /= size_cat E addn1 => /eqP; rewrite eqn_leq ltnn.
Qed.
End C42.

(** * The verifier of a supported instance *)
Section Fit.
Variables (F : fieldType) (fp : ff_params F).
Hypothesis Hok : ff_ok fp.
Notation S := (ff_S fp).

Definition mask_root (n : nat) (m : mask_properties F) : bool := if m.2 is Mask mk then mk ^+ n == 1 else false.

Record fit (props : instance_properties F) (v : verifier F) (k d : nat) : Prop := Fit {
  ft_rows : ip_num_rows (v_instance v) = (2 ^ k)%N;
  ft_props_rows : ip_num_rows props = (2 ^ k)%N;
  ft_regs : ip_num_registers (v_instance v) = ip_num_registers props;
  ft_k : (0 < k <= S)%N;
  ft_kd : (k + d <= S)%N;
  ft_max : v_max_power v = (2 ^ d)%N;
  ft_col : v_column_domain v = dom fp k;
  ft_con : v_constraints_domain v = dom fp (k + d);
  ft_masks : all (mask_ok (ip_num_registers (v_instance v))) (v_all_masks v);
  ft_roots : all (mask_root (2 ^ k)) (v_all_masks v);
  ft_batches : all (db_fit k v) (v_batches v);
  ft_bounds : all (fun b => ((b_register b, Mask 1) \in v_all_masks v) && (b_value b != None))
                (ip_boundary_constraints (v_instance v)) }.

Lemma supported_fit props lde v : supported_but_density props -> ranges_fit props -> verifier_new fp props lde = Ok v ->
  v_lde_factor v = lde /\ exists k d, fit props v k d.
Proof.
case/and5P => /is_pow2P [k Hn] H1 /is_pow2P [d Hd] Hcs Hbs Hr.
rewrite verifier_newE Hn up_expnK //; case: ltnP => // Hk; case: ifP => // Hst.
set cs := map _ _; set bs := ip_boundary_constraints props.
have Ed : max_degree cs = (2 ^ d)%N by rewrite /cs mask_max.
rewrite Ed up_expnK // [(d + k)%N]addnC; case: ltnP => // Hkd [<-]; split=> //; exists k, d.
have Hk0 : (0 < k)%N by move: H1; rewrite Hn; case: (k).
have [Hin1 Hin2] : all (fun c => all (fun u => uni_mask u \in masks_of cs bs) (c_unis c)) cs /\
           all (fun b => (b_register b, Mask 1) \in masks_of cs bs) bs.
  have := all_masks_of (mem (masks_of cs bs)) cs bs; rewrite (introT allP) //.
  by move/esym/andP => [].
have Hfits : all (fun c => if c_density c is Dense s sp then (s + sp <= 2 ^ k)%N else false) cs.
  by rewrite /cs all_map; move: Hr; rewrite /ranges_fit Hn; apply: sub_all => c.
split=> //=.
- by rewrite Hk0.
- rewrite all_masks_of /=; apply/andP; split.
    have Hst2 : all (predI (@c_steps F) (c_supported (ip_num_registers props))) (ip_constraints props).
      by rewrite all_predI Hst Hcs.
    rewrite all_map; apply: sub_all Hst2 => c /andP [H4 /andP [/supported_unis [_ H3] _]] /=.
    rewrite mask_unis all_map; rewrite c_steps_unis in H4.
    elim: (c_unis c) H3 H4 => //= u us IH /andP [Hu1 /IH {}IH] /andP [Hu2 /IH ->]; rewrite andbT.
    move: Hu1 Hu2; rewrite /u_supported /u_steps /mask_ok /=.
    by case: (ut_register u) => // r; case: (ut_steps u).
  apply: sub_all Hbs => b /andP [Hb _]; move: Hb; rewrite /mask_ok /=; by case: (b_register b).
- rewrite all_masks_of /=; apply/andP; split.
    rewrite all_map; apply: sub_all Hst => c H4 /=.
    rewrite mask_unis all_map; rewrite c_steps_unis in H4.
    elim: (c_unis c) H4 => //= u us IH /andP [Hu2 /IH ->]; rewrite andbT.
    move: Hu2; rewrite /u_steps /mask_root /=; case: (ut_steps u) => // s _ /=.
    by rewrite -exprM mulnC exprM (prim_expr_order (dom_gen_prim Hok Hk)) expr1n.
  by elim: (bs) => //= b s ->; rewrite /mask_root /= expr1n eqxx.
- have H2 : all (fun c => c_degree c <= 2 ^ d)%N cs by rewrite -Ed max_degree_all.
  have H3 := all_and3 Hfits H2 Hin1; rewrite -batch_all in H3.
  have H4 : all (fun db => has (fun c => c_density c == db.1) cs) (batch_by_density cs).
    have : all (fun dn => has (fun c => c_density c == dn) cs) (map fst (batch_by_density cs)).
      by apply/allP => dn; rewrite batch_keys.
    by rewrite all_map.
  have H5 := batch_density cs.
  elim: (batch_by_density cs) H3 H4 H5 => //= db m IH /andP [H3 H3'] /andP [H4 H4'] /andP [H5 H5'].
  rewrite IH // andbT /db_fit; apply/andP; split.
    have := all_and3 H3 H5 H5; apply: sub_all => c /and3P [/and3P [_ -> ->] -> _] //.
  move: Hfits; elim: (cs) H4 => //= c s IHs /orP [/eqP <-|H4] /andP [Hc Hs] //; exact: IHs.
- have H2 : all (fun b => b_value b != None) bs by apply: sub_all Hbs => b; case/andP.
  by apply: sub_all (all_and3 Hin2 H2 H2) => b /and3P [-> -> _].
Qed.
End Fit.

(** * C41 *)
Section C41.
Variables (F : fieldType) (fp : ff_params F) (H : hash_fun).
Hypothesis Hok : ff_ok fp.
Notation S := (ff_S fp).

(** An accepted proof means that some witness satisfies the instance (for the
    supported instances and a blow-up of at least two). *)
Definition C41_statement : Prop := forall props lde v pf,
  supported_but_density props -> (1 < lde)%N -> verifier_new fp props lde = Ok v ->
  verify fp H v pf = Ok true -> exists trace, satisfied props trace.

(** The challenge [z] that the verifier draws from these commitments. *)
Definition drawn_z (v : verifier F) (f_roots : seq digest) (g_root : digest) : outcome F :=
  let* t := transcript_new fp in
  let t := foldl (fun t (r : digest) => commit_bytes t r) t f_roots in
  let* '(_, t) := challenge_pairs fp H t (flatten [seq db.2 | db <- v_batches v]) in
  let* '(_, t) := challenge_pairs fp H t (ip_boundary_constraints (v_instance v)) in
  let* '(z, _) := get_challenge fp H (commit_bytes t g_root) in
  Ok z.

(** The commitment to a vector. *)
Definition commitment (c : seq F) : outcome digest := let* t := tree_create fp H 1 c in get_root t.

(** Whoever commits to arbitrary vectors, of the right lengths, instead of
    extensions of a witness and of the composition polynomial, can complete
    the commitments to a proof that is accepted, unless the challenge [z] is in
    the evaluation domain.  Nothing is assumed about the constraints, except
    that they are well-formed: they need not be satisfiable. *)
Hypothesis Hdec : forall d, exists x, bytes_to_field fp d = Ok x.
Theorem C41_forgery props lde v cols gv f_roots g_root z :
  (ff_num_bits fp <? 256)%num ->
  supported_but_density props -> ranges_fit props -> verifier_new fp props lde = Ok v ->
  is_pow2 lde -> (1 < lde)%N -> is_ok (domain_new fp (d_size (v_constraints_domain v) * lde)) ->
  size cols = ip_num_registers props -> all (fun c => size c == d_size (v_column_domain v) * lde)%N cols ->
  size gv = (d_size (v_constraints_domain v) * lde)%N ->
  mapM commitment cols = Ok f_roots -> commitment gv = Ok g_root ->
  drawn_z v f_roots g_root = Ok z -> z ^+ (d_size (v_constraints_domain v) * lde) != 1 ->
  exists pf, [/\ verify fp H v pf = Ok true, pr_f_iop_roots pf = f_roots & pr_g_iop_root pf = g_root].
Proof.
move=> Hbits Hsup Hr Hv /is_pow2P [l El] Hl1.
have [Elde [k [d Hf]]] := supported_fit Hok Hsup Hr Hv.
have /andP [Hk0 Hk] := ft_k Hf.
have Hl : (0 < l)%N by move: Hl1; rewrite El; case: (l).
rewrite (ft_con Hf) (ft_col Hf) ![d_size _]/= El domain_new_mul -!expnD => HS; have {}HS : (k + d + l <= S)%N by move: HS; case: ifP.
move=> Hcols Hsz Hgv Hroots Hgroot Hdz Hz.
set K := (k + l)%N in Hsz; set Kg := (k + d + l)%N in HS Hgv Hz.
have HK : (K <= S)%N by apply: leq_trans HS; rewrite leq_add2r leq_addr.
have HK0 : (0 < K)%N by rewrite addn_gt0 Hk0.
have HKg0 : (0 < Kg)%N by rewrite !addn_gt0 Hk0.
pose decode (d : digest) := if bytes_to_field fp d is Ok x then x else 0.
have HdecP d0 : bytes_to_field fp d0 = Ok (decode d0) by rewrite /decode; have [x ->] := Hdec d0.
pose wc := [seq ifft_vec fp K c | c <- cols].
pose ps := [seq poly_of c | c <- wc].
have Ecols i : (i < 2 ^ K)%N -> [seq c`_i | c <- cols] = [seq (poly_of c).[dom_gen fp K ^+ i] | c <- wc].
  move=> Hi; rewrite /wc -map_comp; elim: cols Hsz {Hcols Hroots wc ps} => //= c s IH /andP [/eqP Hc Hs]; congr cons; last exact: IH.
  have := ifft_vecK Hok Hc HK => /(congr1 (fun s => nth 0 s i)).
  by rewrite nth_evals // mul1r.
have Efr : f_roots = [seq vroot fp H K c | c <- cols].
  elim: cols f_roots Hsz Hroots {Hcols wc ps Ecols Hdz} => [|c s IH] fr /=; first by move=> _ [<-].
  case/andP => /eqP Hc Hs; rewrite {1}/commitment (tree_createP fp H _ Hc HK0) // bind_ok get_root_vtree // bind_ok.
  by case E: (mapM _ _) => [fr'| |] // [<-]; rewrite (IH fr').
have Egr : g_root = vroot fp H Kg gv.
  by move: Hgroot; rewrite /commitment (tree_createP fp H _ Hgv HKg0) // bind_ok get_root_vtree // => -[].
move: Hdz; rewrite /drawn_z /transcript_new Hbits bind_ok.
set t_f := foldl _ _ f_roots; rewrite !(challenge_pairsE H HdecP) !bind_ok.
set n1 := size (flatten _); set bs := ip_boundary_constraints (v_instance v).
rewrite (challenge_pairsE H HdecP) bind_ok stream_stateD -doubleD.
set t_g := commit_bytes _ _; rewrite (get_challengeE H HdecP) bind_ok => -[Ez].
set masks := v_all_masks v.
pose chs := stream_pairs H decode t_f n1; pose bchs := stream_pairs H decode (stream_state H t_f n1.*2) (size bs).
pose alphas := mkseq (stream H decode (stream_state H t_g 1)) (size masks).
pose t_z := stream_state H t_g (size masks).+1.
pose vals := [seq (column_poly ps m.1).[shifted m.2 z] | m <- masks].
have Hz0 e : (e <= Kg)%N -> z ^+ (2 ^ e) != 1.
  by move=> He; apply: contraNneq Hz => E; rewrite -(subnKC He) expnD exprM E expr1n.
have [gz Hgz] : exists gz, calculate_g_at_z v chs bchs vals z = Ok gz.
  eexists; apply: (@calculate_g_at_zP F fp Hok ps k z Hk (Hz0 _ _) v (ft_masks Hf) (ft_col Hf) chs bchs).
  - by rewrite /Kg -addnA leq_addr.
  - by rewrite (ft_max Hf) expn_gt0.
  - exact: (ft_rows Hf).
  - exact: (ft_batches Hf).
  - exact: (ft_bounds Hf).
  - by rewrite size_mkseq.
  - by rewrite size_mkseq.
have Hav : all (avoids fp K z) masks.
  apply: sub_all (ft_roots Hf) => m; rewrite /mask_root /avoids; case: m.2 => // mk /eqP Hmk.
  apply/allP => x Hx; rewrite subr_eq0; apply: contraNneq (Hz0 K _); last by rewrite leq_add2r leq_addr.
  move=> E; have Hx1 : x ^+ (2 ^ K) = 1.
    case/(nthP 0): Hx => i; rewrite size_points => Hi <-; rewrite nth_mkseq // mul1r -exprM mulnC exprM.
    by rewrite (prim_expr_order (dom_gen_prim Hok HK)) expr1n.
  by apply/eqP; move: Hx1; rewrite E /= exprMn {1}/K expnD exprM Hmk expr1n mul1r.
have Hxz i : dom_gen fp Kg ^+ i - z != 0.
  rewrite subr_eq0; apply: contraNneq Hz => <-; rewrite -exprM mulnC exprM.
  by rewrite (prim_expr_order (dom_gen_prim Hok HS)) expr1n.
pose h1v := mkseq (fun i => (deep_h1 ps masks z alphas).[dom_gen fp K ^+ i]) (2 ^ K).
pose h2v := mkseq (fun i => (gv`_i - gz) * (dom_gen fp Kg ^+ i - z)^-1) (2 ^ Kg).
have Hh1 : size h1v = (2 ^ K)%N by rewrite size_mkseq.
have Hh2 : size h2v = (2 ^ Kg)%N by rewrite size_mkseq.
have [finals1 Hacc1] : exists finals, accepted_everywhere fp H (2 ^ k) 1 lde [:: vroot fp H K h1v] finals h1v.
  have [b Hb] := Hdec (vroot fp H K h1v).
  apply: (@C31_any_vector_accepted F fp H Hok 1 (2 ^ k) 1 lde h1v K (vtree fp H K h1v) _ b) => //.
  - by rewrite HK0.
  - by rewrite El -expnD.
  - by rewrite (tree_createP fp H _ Hh1 HK0).
  - by rewrite get_root_vtree.
have [finals2 Hacc2] : exists finals, accepted_everywhere fp H (2 ^ (k + d)) 1 lde [:: vroot fp H Kg h2v] finals h2v.
  have [b Hb] := Hdec (vroot fp H Kg h2v).
  apply: (@C31_any_vector_accepted F fp H Hok 1 (2 ^ (k + d)) 1 lde h2v Kg (vtree fp H Kg h2v) _ b) => //.
  - by rewrite HKg0.
  - by rewrite El -expnD.
  - by rewrite (tree_createP fp H _ Hh2 HKg0).
  - by rewrite get_root_vtree.
pose t1 := foldl (commit_field_element fp) (commit_bytes t_z (vroot fp H K h1v)) finals1.
pose t2 := foldl (commit_field_element fp) (commit_bytes t1 (vroot fp H Kg h2v)) finals2.
have Hidx (s : digest) e : (0 < e)%N -> exists i, [/\ bytes_to_challenge_index s (2 ^ e) lde = Ok i, (i < 2 ^ e)%N & odd i].
  move=> He; have [|||||i [-> Hi Hi' _]] := @C32_challenge_index s (2 ^ e) lde; last by exists i.
  - by rewrite size_tuple.
  - by rewrite expn_gt0.
  - by rewrite oddX eqn0Ngt He.
  - by rewrite ltnW.
  - by rewrite El oddX eqn0Ngt Hl.
have [i1 [Hi1 Hlt1 Ho1]] := Hidx (H t2) K HK0.
have [i2 [Hi2 Hlt2 Ho2]] := Hidx (H (t2 ++ H t2)) Kg HKg0.
have [|q1 Hq1] := Hacc1 i1 Ho1; first by rewrite Hh1.
have [|q2 Hq2] := Hacc2 i2 Ho2; first by rewrite Hh2.
exists (Proof vals f_roots g_root [seq hquery fp H K c i1 | c <- cols] (hquery fp H Kg gv i2)
  [:: vroot fp H K h1v] [:: vroot fp H Kg h2v]
  (FriProof q1 [:: vroot fp H K h1v] finals1 (2 ^ k) 1 lde) (FriProof q2 [:: vroot fp H Kg h2v] finals2 (2 ^ (k + d)) 1 lde)).
split=> //; set pf := Proof _ _ _ _ _ _ _ _ _.
have Hdraw : draw_challenges fp H v pf = Ok (Challenges chs bchs z alphas i1 i2, dom fp K, dom fp Kg).
  rewrite /draw_challenges /transcript_new Hbits bind_ok [pr_f_iop_roots _]/= -/t_f.
  rewrite (challenge_pairsE H HdecP) bind_ok (challenge_pairsE H HdecP) bind_ok -/n1 -/bs stream_stateD -doubleD.
  rewrite [pr_g_iop_root _]/= -/t_g (get_challengeE H HdecP) bind_ok (mask_challengesE H HdecP) bind_ok stream_stateD add1n.
  rewrite -/masks -/t_z [last_root _]/= bind_ok [last_root _]/= bind_ok [fpr_final_coefficients _]/= -/t1.
  rewrite [fpr_final_coefficients _]/= -/t2 (ft_col Hf) (ft_con Hf) Elde ![d_size _]/= {1 2}El !domain_new_mul HK HS !bind_ok.
  rewrite /get_challenge_bytes El -!expnD -/K -/Kg -El Hi1 bind_ok Hi2 bind_ok.
  by rewrite Ez.
rewrite /verify Hdraw bind_ok [pr_f_queries _]/= size_map Hcols (ft_regs Hf) eqxx [pr_f_iop_roots _]/= Efr size_map Hcols eqxx.
rewrite [ch_index_h1 _]/=.
have -> : check_f_queries fp H pf i1.
  rewrite /check_f_queries /= Efr; elim: (cols) Hsz => //= c s IH /andP [/eqP Hc /IH ->].
  by rewrite verify_hquery // eqxx.
rewrite [ch_masks _]/= [ch_z _]/= [ch_constraints _]/= [ch_boundary _]/= [ch_index_h2 _]/= [pr_f_at_z_m _]/=.
have -> : [seq q_value q | q <- [seq hquery fp H K c i1 | c <- cols]] = [seq c`_i1 | c <- cols] by rewrite -map_comp.
rewrite (Ecols _ Hlt1).
have Hmk : all (mask_ok (size wc)) masks by rewrite size_map Hcols -(ft_regs Hf) (ft_masks Hf).
have -> := @simulate_h1P F fp K wc v z alphas i1 _ vals Hmk Hav Hlt1 erefl erefl.
rewrite bind_ok Hgz bind_ok [pr_g_query _]/= [pr_g_iop_root _]/= Egr verify_hquery // [q_index _]/= eqxx.
rewrite /simulate_h2 [d_gen _]/= inverse_neq0 // [ok_or _]/= !bind_ok [q_value _]/=.
have E1 : (deep_h1 [seq poly_of c | c <- wc] masks z alphas).[dom_gen fp K ^+ i1] = h1v`_i1 by rewrite nth_mkseq.
have E2 : (gv`_i2 - gz) * (dom_gen fp Kg ^+ i2 - z)^-1 = h2v`_i2 by rewrite nth_mkseq.
by rewrite E1 E2 Hq1 bind_ok Hq2.
Qed.

(** The attack with zero vectors, as a test on an instance. *)
Definition zeros_z (props : instance_properties F) (lde : nat) : outcome F :=
  let* v := verifier_new fp props lde in
  let* f_roots := mapM commitment (nseq (ip_num_registers props) (nseq (d_size (v_column_domain v) * lde) 0)) in
  let* g_root := commitment (nseq (d_size (v_constraints_domain v) * lde) 0) in
  let* z := drawn_z v f_roots g_root in
  let* _ := domain_new fp (d_size (v_constraints_domain v) * lde) in
  if z ^+ (d_size (v_constraints_domain v) * lde) != 1 then Ok z else Err.

Lemma zeros_forgery props lde : (ff_num_bits fp <? 256)%num ->
  supported_but_density props -> ranges_fit props -> is_pow2 lde -> (1 < lde)%N -> is_ok (zeros_z props lde) ->
  exists v pf, verifier_new fp props lde = Ok v /\ verify fp H v pf = Ok true.
Proof.
move=> Hbits Hsup Hr Hl Hl1; case E: (zeros_z props lde) => [z| |] // _; move: E; rewrite /zeros_z => E.
have [v Hv {}E] := bind_Ok E; have [fr Hfr {}E] := bind_Ok E; have [gr Hgr {}E] := bind_Ok E.
have [z' Hz {}E] := bind_Ok E; have [D HD {}E] := bind_Ok E; move: E; case: ifP => // Hz' _.
have [||||pf [Hpf _ _]] := C41_forgery Hbits Hsup Hr Hv Hl Hl1 _ _ _ _ Hfr Hgr Hz Hz'; last by exists v, pf.
- by rewrite HD.
- by rewrite size_nseq.
- by rewrite all_nseq size_nseq eqxx orbT.
- by rewrite size_nseq.
Qed.

Lemma C41_fails props lde : (ff_num_bits fp <? 256)%num ->
  supported_but_density props -> ranges_fit props -> is_pow2 lde -> (1 < lde)%N -> is_ok (zeros_z props lde) ->
  (forall trace, ~ satisfied props trace) -> ~ C41_statement.
Proof.
move=> H1 H2 H3 H4 H5 H6 Hno HC; have [v [pf [Hv Hpf]]] := zeros_forgery H1 H2 H3 H4 H5 H6.
by have [trace /Hno] := HC props lde v pf H2 H5 Hv Hpf.
Qed.

(** Two boundary constraints that contradict each other. *)
Lemma contradictory (props : instance_properties F) r row x y : (1 < size (ip_boundary_constraints props))%N ->
  nth (Boundary (Reg 0) 0 None) (ip_boundary_constraints props) 0 = Boundary (Reg r) row (Some x) ->
  nth (Boundary (Reg 0) 0 None) (ip_boundary_constraints props) 1 = Boundary (Reg r) row (Some y) ->
  x != y -> forall trace, ~ satisfied props trace.
Proof.
move=> Hs E0 E1 Hxy trace [_ _ Hb].
have [n0 En0 H0] := Hb 0%N (ltnW Hs); have [n1 En1 H1] := Hb 1%N Hs.
move: En0 En1 H0 H1; rewrite E0 E1 /= => -[<-] [<-] /(_ x erefl) [_ _ Ex] /(_ y erefl) [_ _ Ey].
by move: Hxy; rewrite -Ex -Ey eqxx.
Qed.
End C41.

(** * C43 *)
Definition nopanic A (x : outcome A) : bool := if x is Panic then false else true.

Section NoPanic.
Lemma nopanic_bind A B (x : outcome A) (f : A -> outcome B) :
  nopanic x -> (forall a, x = Ok a -> nopanic (f a)) -> nopanic (bind x f).
Proof. by case: x => //= a _ /(_ a erefl). Qed.

Lemma nopanic_foldM A B (Q : pred A) (I : nat -> B -> Prop) (f : B -> A -> outcome B) b s :
  all Q s -> I 0%N b ->
  (forall j b x, (j < size s)%N -> Q x -> I j b -> nopanic (f b x) /\ forall b', f b x = Ok b' -> I j.+1 b') ->
  nopanic (foldM f b s) /\ forall b', foldM f b s = Ok b' -> I (size s) b'.
Proof.
elim: s I b => [|x s IH] I b Hs Hb Hf; first by split=> // b' [<-].
case/andP: Hs => Hx Hs; have [H1 H2] := Hf 0%N b x isT Hx Hb.
have X b1 : f b x = Ok b1 -> nopanic (foldM f b1 s) /\ forall b', foldM f b1 s = Ok b' -> I (size s).+1 b'.
  by move=> /H2 Hb1; apply: (IH (fun j => I j.+1)) => // j b2 y Hy; apply: Hf.
rewrite foldM_cons; split; first by apply: nopanic_bind => // b1 /X [].
by move=> b' E; have [b1 /X [_ Y] /Y] := bind_Ok E.
Qed.

Lemma nopanic_foldM1 A B (Q : pred A) (f : B -> A -> outcome B) b s :
  all Q s -> (forall b x, Q x -> nopanic (f b x)) -> nopanic (foldM f b s).
Proof.
by move=> Hs Hf; have [|_ b0 x _ Hx _|] := @nopanic_foldM _ _ Q (fun _ _ => True) f b s Hs => //; split=> //; apply: Hf.
Qed.
End NoPanic.

Section C43.
Variables (F : fieldType) (fp : ff_params F) (H : hash_fun).
Hypothesis Hok : ff_ok fp.
Hypothesis Hdec : forall d, exists x, bytes_to_field fp d = Ok x.
Hypothesis Hbits : (ff_num_bits fp <? 256)%num.
Notation S := (ff_S fp).

Definition C43_statement : Prop := forall props lde v pf,
  supported_but_density props -> ranges_fit props -> (1 < lde)%N -> verifier_new fp props lde = Ok v ->
  verify fp H v pf <> Panic.

(** A FRI proof that claims at least the domain of the instance and has at least one round. *)
Definition fri_shape (p : fri_proof F) (n : nat) : Prop :=
  (n <= fpr_degree_plus_one p * fpr_lde_factor p)%N /\ (0 < rounds p)%N.

Definition state_fits (K j : nat) (ost : option (verify_state F)) : Prop :=
  if ost is Some st then
    [/\ vs_size st = (2 ^ (K - j))%N, (vs_idx st < 2 ^ (K - j))%N & ((0 < j)%N -> vs_expected st <> None)]
  else True.

Lemma nopanic_step two_inv idx ex K j ost rq : (j < K)%N -> size rq.2.2 = 2%N -> state_fits K j ost ->
  nopanic (verify_queries_step fp H two_inv idx ex ost rq) /\
  forall b', verify_queries_step fp H two_inv idx ex ost rq = Ok b' -> state_fits K j.+1 b'.
Proof.
move=> HjK; case: ost => [st|] /=; last by move=> _ _; split=> // b' [<-].
case: rq => r [root qs] /= Hq [Es Hi _].
have Hj1 : (1 < 2 ^ (K - j))%N by rewrite -[1%N]/(2 ^ 0)%N ltn_exp2l // subn_gt0.
have Hnext : index_and_size_for_next_domain (vs_idx st) (vs_size st) =
    Ok (if vs_idx st < 2 ^ (K - j.+1) then vs_idx st else vs_idx st - 2 ^ (K - j.+1), 2 ^ (K - j.+1))%N.
  rewrite /index_and_size_for_next_domain Es Hj1 is_pow2_exp.
  by rewrite (_ : (2 ^ (K - j) %/ 2 = 2 ^ (K - j.+1))%N) // -(subnSK HjK) expnS mulKn.
have Hlt : ((if vs_idx st < 2 ^ (K - j.+1) then vs_idx st else vs_idx st - 2 ^ (K - j.+1)) < 2 ^ (K - j.+1))%N.
  by case: (ltnP (vs_idx st)) => // Hge; rewrite ltn_subLR // addnn -mul2n -expnS subnSK.
rewrite /get_coset_for_natural_index Es Hi /=; set cv := sort _ _.
case: ifP => _ //; case: ifP => _; first by split=> // b' [<-].
case: ifP => _; first by split=> // b' [<-].
case: ifP => _ //; case: ifP => _; first by split=> // b' [<-].
rewrite /encode_root_into_challenge; have [c ->] := Hdec root.
rewrite Es in Hnext.
have G0 : get qs 0 = Ok (nth (Query 0 0 [::]) qs 0) by apply: get_nth; rewrite Hq.
have G1 : get qs 1 = Ok (nth (Query 0 0 [::]) qs 1) by apply: get_nth; rewrite Hq.
rewrite /= G0 /= G1 /=.
set cons := (match vs_expected st with Some _ => _ | None => _ end).
have : nopanic cons.
  rewrite /cons; case: (vs_expected st) => // y; case: ifP => // _; case: eqP => //= Hsz.
  by rewrite (get_nth (Query 0 0 [::])) ?Hsz.
clearbody cons; case: cons => [[]| |] //= _; last by split=> // b' [<-].
rewrite Hnext /=; split=> // b' [<-]; split=> //.
Qed.

(** More rounds than the domain allows: the pair of the only point is not a pair, and the check that finds the
    folded value in it fails. *)
Lemma nopanic_late two_inv idx ex K j ost rq : (0 < K)%N -> (K <= j)%N -> size rq.2.2 = 2%N -> state_fits K j ost ->
  nopanic (verify_queries_step fp H two_inv idx ex ost rq) /\
  forall b', verify_queries_step fp H two_inv idx ex ost rq = Ok b' -> state_fits K j.+1 b'.
Proof.
move=> HK HjK; case: ost => [st|] /=; last by move=> _ _; split=> // b' [<-].
case: rq => r [root qs] /= Hq; rewrite (eqP HjK) expn0 => -[Es Hi Hex].
have Ei : vs_idx st = 0%N by case: (vs_idx st) Hi.
have [y Ey] : exists y, vs_expected st = Some y.
  by case: (vs_expected st) (Hex (leq_trans HK HjK)) => // y _; exists y.
rewrite /get_coset_for_natural_index Es Ei Ey /=.
case: ifP => _; first by split=> // b' [<-].
case: ifP => _; first by split=> // b' [<-].
case: ifP => Hall //; case: ifP => _; first by split=> // b' [<-].
rewrite /encode_root_into_challenge; have [c ->] := Hdec root.
case: qs Hq Hall => [|q0 [|q1 [|]]] //= _ /negbFE.
case/and3P => E0 E1 _; rewrite E0 E1 /=.
by split=> // b' [<-].
Qed.

Lemma verify_proof_total p idx ex : (0 < rounds p)%N ->
  (idx < 2 ^ up_log 2 (fpr_degree_plus_one p * fpr_lde_factor p))%N -> nopanic (verify_proof fp H p idx ex).
Proof.
move=> Hr0; rewrite /verify_proof /verify_proof_queries /verify_start; set m := (_ * _)%N => Hi.
case: (inverse _) => //= ti; rewrite domain_newE; set K := up_log 2 m in Hi *; case: ltnP => //= HK.
case: ifP => // _; case: ifP => // Hhalf; case: (inverse _) => //= oi; case: ifP => // _.
have HK0 : (0 < K)%N by case: (K) Hhalf => //; rewrite expn0 expr0 eqxx.
set zs := zip _ _; have Hzs : size (enumerate zs) = rounds p by rewrite size_enumerate size_zip size_mkseq.
have Hall : all (fun rq : nat * (digest * seq (query F)) => size rq.2.2 == 2%N) (enumerate zs).
  apply/(all_nthP (0%N, (zero_digest, [::]))) => i; rewrite size_enumerate => Hi'; rewrite nth_enumerate //.
  have Hi2 : (i < minn (size (fpr_roots p)) (size (fpr_queries p) %/ 2))%N by move: Hi'; rewrite /zs size_zip size_mkseq.
  move: (Hi2); rewrite leq_min => /andP [Hia Hib].
  rewrite /zs nth_zip_cond size_zip size_mkseq Hi2 /= nth_mkseq // /chunk_at size_takel // size_drop.
  rewrite ltn_subRL addn1; apply: leq_trans (leq_trunc_div _ 2).
  by rewrite -[X in (X <= _)%N]/(i.+1 * 2)%N leq_mul2r.
have Hst0 : state_fits K 0 (Some (VerifyState None (2 ^ K) idx (dom_gen fp K) oi)) by split; rewrite ?subn0.
have [|H1 H2] := nopanic_foldM Hall Hst0 (f := verify_queries_step fp H ti idx ex).
  by move=> j b x _ /eqP Hx; case: (ltnP j K) => HjK; [apply: nopanic_step | apply: nopanic_late].
apply: nopanic_bind => // -[st|] // /H2; rewrite Hzs => -[_ _ /(_ Hr0)].
by rewrite /verify_end; case: (vs_expected st).
Qed.

Lemma verify_proof_nopanic p idx ex n : fri_shape p n -> (idx < n)%N -> nopanic (verify_proof fp H p idx ex).
Proof.
case=> En Hr0 Hin; apply: verify_proof_total => //.
by apply: leq_trans (up_logP _ _); first exact: leq_trans En.
Qed.

Section Instance.
Variables (props : instance_properties F) (v : verifier F) (k d : nat).
Hypothesis Hf : fit fp props v k d.
Let nr := ip_num_registers (v_instance v).

Lemma opened_nopanic f : nopanic (opened_values v f) /\ forall vals, opened_values v f = Ok vals -> size vals = nr.
Proof.
rewrite /opened_values -/nr.
have Hz : all (fun mf : mask_properties F * F => mask_ok nr mf.1) (zip (v_all_masks v) f).
  by elim: (v_all_masks v) f (ft_masks Hf) => [|m ms IH] [|y f] //= /andP [-> /IH ->].
apply: (nopanic_foldM (I := fun _ vals => size vals = nr) Hz); first by rewrite size_nseq.
move=> _ vals [[r s] y] _; rewrite /mask_ok /=; case: r => // r; case: s => //= mk Hr Hs.
rewrite (get_nth [::]) ?Hs //=; split=> // _ [<-]; rewrite size_set_nth Hs; exact/maxn_idPr.
Qed.

Variable vals : openings F.
Hypothesis Hvals : size vals = nr.

Lemma eval_uni_nopanic u : uni_mask u \in v_all_masks v -> nopanic (eval_uni_at_z vals u).
Proof.
move/(allP (ft_masks Hf)); rewrite /mask_ok /eval_uni_at_z /=; case: (ut_register u) => // r.
case: (ut_steps u) => // mk Hr; rewrite /= (get_nth [::]) ?Hvals //=; by case: (im_get _ _).
Qed.

Lemma eval_constraint_nopanic c : all (fun u => uni_mask u \in v_all_masks v) (c_unis c) ->
  nopanic (eval_constraint_at_z vals c).
Proof.
rewrite /eval_constraint_at_z /c_unis => Hc.
have Ht : all (fun t => all (fun u => uni_mask u \in v_all_masks v) (t_unis t)) (c_terms c).
  by elim: (c_terms c) Hc => //= t ts IH; rewrite all_cat => /andP [-> /IH].
apply: (nopanic_foldM1 _ Ht) => x t {}Ht.
apply: nopanic_bind => //; case: t Ht => [u|p]; first by rewrite /= andbT; apply: eval_uni_nopanic.
move=> Hp; rewrite /eval_term_at_z; apply: nopanic_bind => //.
apply: (nopanic_foldM1 _ Hp) => y u Hu.
by apply: nopanic_bind => //; apply: eval_uni_nopanic.
Qed.

Lemma batch_nopanic z st db : db_fit k v db -> (size db.2 <= size st.2)%N ->
  nopanic (g_at_z_batch v vals z st db) /\
  forall st', g_at_z_batch v vals z st db = Ok st' -> size st'.2 = (size st.2 - size db.2)%N.
Proof.
case: db st => [dn cs] [g chs] /andP [Hcs Hdn] /= Hsz; rewrite /g_at_z_batch /=.
case: dn Hdn Hcs => // s sp Hsp Hcs; have /andP [_ Hk] := ft_k Hf; rewrite /= in Hsp Hcs.
rewrite (ft_col Hf) (ft_rows Hf) (inverse_divisor_atE Hok) // Hsp; case: ifP => // _; rewrite !bind_ok.
set f := fun _ _ => _.
have [||H1 H2] := @nopanic_foldM _ _ _ (fun j (st : F * seq (F * F)) => size st.2 = size chs - j)%N f (g, chs) cs Hcs.
- by rewrite subn0.
- move=> j [g' l] c Hj /and3P [Hd Hu _] /= El; rewrite /f Hd.
  case: l El => [|[al be] l] El.
    have : (0 < size chs - j)%N by rewrite subn_gt0 (leq_trans Hj).
    by rewrite -El.
  split; first by apply: nopanic_bind => //; apply: eval_constraint_nopanic.
  move=> st' E; have [y _ [<-]] := bind_Ok E; rewrite /= subnS -El //.
by split=> // st' /H2.
Qed.

Lemma batches_nopanic z st dbs : all (db_fit k v) dbs -> (size (flatten (map snd dbs)) <= size st.2)%N ->
  nopanic (foldM (g_at_z_batch v vals z) st dbs).
Proof.
elim: dbs st => [|db dbs IH] st //= /andP [Hdb Hdbs]; rewrite size_cat => Hsz.
have [H1 H2] := batch_nopanic z Hdb (leq_trans (leq_addr _ _) Hsz).
by apply: nopanic_bind => // st' /H2 E; apply: IH => //; rewrite E leq_subRL // (leq_trans _ Hsz) // leq_addr.
Qed.

Lemma boundaries_nopanic z g chs bs : all (fun b => ((b_register b, Mask 1) \in v_all_masks v) && (b_value b != None)) bs ->
  size chs = size bs -> nopanic (foldM (g_at_z_boundary v vals z) (g, chs) bs).
Proof.
elim: bs chs g => [|b bs IH] [|[al be] chs] g // /andP [/andP [Hm Hb] Hbs] [Hsz].
rewrite foldM_cons {1}/g_at_z_boundary (ft_max Hf) /usub expn_gt0 /=.
have := allP (ft_masks Hf) _ Hm; rewrite /mask_ok /=; case: (b_register b) => //= r Hr.
rewrite (get_nth [::]) ?Hvals //=; case: (im_get _ _) => //= y; case: (b_value b) Hb => //= x _.
case: (inverse _) => //= i; exact: IH.
Qed.
End Instance.

Theorem C43_no_panic_partial props lde v pf :
  supported_but_density props -> ranges_fit props -> is_pow2 lde -> verifier_new fp props lde = Ok v ->
  (0 < size (pr_h1_iop_roots pf))%N -> (0 < size (pr_h2_iop_roots pf))%N ->
  fri_shape (pr_fri_h1 pf) (d_size (v_column_domain v) * lde) ->
  fri_shape (pr_fri_h2 pf) (d_size (v_constraints_domain v) * lde) ->
  verify fp H v pf <> Panic.
Proof.
move=> Hsup Hr /is_pow2P [l ->] Hv Hr1 Hr2 Hs1 Hs2.
have [Elde [k [d Hf]]] := supported_fit Hok Hsup Hr Hv.
suff : nopanic (verify fp H v pf) by case: verify.
pose decode (d : digest) := if bytes_to_field fp d is Ok x then x else 0.
have HdecP d0 : bytes_to_field fp d0 = Ok (decode d0) by rewrite /decode; have [x ->] := Hdec d0.
rewrite /verify.
have Hidx (s : digest) e : exists2 i, bytes_to_challenge_index s (2 ^ e) (2 ^ l) = Ok i & (i < 2 ^ e)%N.
  rewrite /bytes_to_challenge_index /usub size_tuple /= -lt0n expn_gt0 /= /urem -lt0n expn_gt0 /=.
  have He : (0 < 2 ^ e)%N by rewrite expn_gt0.
  eexists; first reflexivity.
  set x := N.to_nat _; have Hx : (x < 2 ^ e)%N.
    have Hlt : (be_value (drop (32 - 8) s) mod N.of_nat (2 ^ e) < N.of_nat (2 ^ e))%num.
      by apply: N.mod_lt => E; move: He; rewrite -[(2 ^ e)%N]Nat2N.id E.
    by apply/ltP; rewrite /x; move: (_ mod _)%num Hlt => y Hlt; lia.
  by case: ifP => _; case: ifP => _; rewrite ?ltn_mod.
have [chs [bchs [z [al [i1 [i2 [Hd [Hi1 Hi2 Hc Hb]]]]]]]] : exists chs bchs z al i1 i2,
   (draw_challenges fp H v pf = Err \/ draw_challenges fp H v pf = Ok (Challenges chs bchs z al i1 i2, dom fp (k + l), dom fp (k + d + l))) /\
   [/\ (i1 < d_size (v_column_domain v) * 2 ^ l)%N, (i2 < d_size (v_constraints_domain v) * 2 ^ l)%N,
       size chs = size (flatten (map snd (v_batches v))) & size bchs = size (ip_boundary_constraints (v_instance v))].
  rewrite /draw_challenges /transcript_new Hbits bind_ok.
  rewrite (challenge_pairsE H HdecP) bind_ok; set chs := stream_pairs _ _ _ _.
  rewrite (challenge_pairsE H HdecP) bind_ok; set bchs := stream_pairs _ _ _ _.
  rewrite (get_challengeE H HdecP) bind_ok (mask_challengesE H HdecP) bind_ok.
  case: (pr_h1_iop_roots pf) Hr1 => // r1 s1 _; case: (pr_h2_iop_roots pf) Hr2 => // r2 s2 _.
  rewrite [last_root _]/= bind_ok [last_root _]/= bind_ok.
  rewrite (ft_col Hf) (ft_con Hf) Elde ![d_size _]/= !domain_new_mul.
  rewrite /get_challenge_bytes -!expnD.
  set b1 := H _; have [i1 E1 Hi1] := Hidx b1 (k + l)%N; set b2 := H _; have [i2 E2 Hi2] := Hidx b2 (k + d + l)%N.
  rewrite !E1 !E2.
  exists chs, bchs; do 4! eexists; split; last by split; [exact: Hi1 | exact: Hi2 | |]; rewrite size_mkseq.
  case: ifP => _; last by left.
  by case: ifP => _; [right | left].
case: Hd => ->; rewrite ?bind_ok //=; case: eqP => //= Hq1; case: eqP => //= Hq2; case: ifP => // _.
apply: nopanic_bind.
  rewrite /simulate_h1.
  have Hz : all (fun mfa : mask_properties F * F * F => mask_ok (ip_num_registers (v_instance v)) mfa.1.1)
      (zip (zip (v_all_masks v) (pr_f_at_z_m pf)) al).
    by elim: (v_all_masks v) (pr_f_at_z_m pf) al (ft_masks Hf) => [|m ms IH] [|y f] [|a al'] //= /andP [-> /IH ->].
  apply: (nopanic_foldM1 _ Hz) => h [[[r s] y] a]; rewrite /mask_ok /= => Hm.
  case: r Hm => // r; case: s => //= mk Hrr; rewrite (get_nth 0) ?size_map ?Hq1 //=.
  by case: (inverse _).
move=> h1 _; apply: nopanic_bind.
  rewrite /calculate_g_at_z; have [H1 H2] := opened_nopanic Hf (pr_f_at_z_m pf).
  apply: nopanic_bind => // vals /H2 Hvals; apply: nopanic_bind.
    by apply: (batches_nopanic Hf Hvals _ (ft_batches Hf)); rewrite Hc.
  move=> [g ?] _; apply: nopanic_bind => [|[? ?] //].
  exact: (boundaries_nopanic Hf Hvals _ _ (ft_bounds Hf) Hb).
move=> g _; case: ifP => // _; case: ifP => // _; apply: nopanic_bind.
  by rewrite /simulate_h2; case: (inverse _).
move=> h2 _; apply: nopanic_bind.
  exact: verify_proof_nopanic Hs1 Hi1.
move=> b _; case: ifP => // _; exact: verify_proof_nopanic Hs2 Hi2.
Qed.

(** The proofs that crash the verifier: no roots, *)
Theorem C43_no_roots v pf : pr_h1_iop_roots pf = [::] -> verify fp H v pf = Panic.
Proof.
move=> E; pose decode (d : digest) := if bytes_to_field fp d is Ok x then x else 0.
have HdecP d0 : bytes_to_field fp d0 = Ok (decode d0) by rewrite /decode; have [x ->] := Hdec d0.
rewrite /verify /draw_challenges /transcript_new Hbits bind_ok.
rewrite (challenge_pairsE H HdecP) bind_ok (challenge_pairsE H HdecP) bind_ok.
by rewrite (get_challengeE H HdecP) bind_ok (mask_challengesE H HdecP) bind_ok E.
Qed.

(** or an accepted proof whose first FRI proof is cut down to no rounds, *)
Definition with_fri_h1 (pf : instance_proof F) (p : fri_proof F) : instance_proof F :=
  Proof (pr_f_at_z_m pf) (pr_f_iop_roots pf) (pr_g_iop_root pf) (pr_f_queries pf) (pr_g_query pf)
    (pr_h1_iop_roots pf) (pr_h2_iop_roots pf) p (pr_fri_h2 pf).

Lemma with_fri_h1E v pf p : verify fp H v pf = Ok true ->
  fpr_final_coefficients p = fpr_final_coefficients (pr_fri_h1 pf) ->
  exists idx h1, verify_proof fp H (pr_fri_h1 pf) idx h1 = Ok true /\
    (verify_proof fp H p idx h1 = Panic -> verify fp H v (with_fri_h1 pf p) = Panic).
Proof.
move=> H0 Efin; have E : draw_challenges fp H v (with_fri_h1 pf p) = draw_challenges fp H v pf.
  by rewrite /draw_challenges /with_fri_h1 /= Efin.
move: H0; rewrite /verify E => H0; have [cd -> {}H0] := bind_Ok H0; case: cd H0 => -[chs D1] D2; rewrite bind_ok.
rewrite /with_fri_h1 /check_f_queries /=.
case: ifP => //= _; case: ifP => //= _; case: ifP => //= _ H0.
have [h1 Hh1 {}H0] := bind_Ok H0; have [gz Hgz {}H0] := bind_Ok H0; move: H0; rewrite Hh1 /= Hgz /=.
case: ifP => // _; case: ifP => // _ H0; have [h2 Hh2 {}H0] := bind_Ok H0; have [[|] Hf1 {}H0] := bind_Ok H0 => //.
by exists (ch_index_h1 chs), h1; split=> // ->; rewrite Hh2.
Qed.

Lemma verify_start_expected n idx st : verify_start fp n idx = Ok st -> vs_expected st.2 = None.
Proof.
rewrite /verify_start => E; have [ti _ {}E] := bind_Ok E; have [D _ {}E] := bind_Ok E; move: E.
by case: ifP => // _; case: ifP => // _; case: (ok_or _) => //= oi [<-].
Qed.

Theorem C43_no_rounds v pf : verify fp H v pf = Ok true ->
  let p := pr_fri_h1 pf in
  verify fp H v (with_fri_h1 pf (FriProof [::] [::] (fpr_final_coefficients p) (fpr_degree_plus_one p)
    (fpr_output p) (fpr_lde_factor p))) = Panic.
Proof.
move=> Hv p; set p' := FriProof _ _ _ _ _ _; have [//|idx [h1 [H1]]] := @with_fri_h1E v pf p' Hv; apply.
move: H1; rewrite /verify_proof /verify_proof_queries /= -/p => H1.
have [st Est _] := bind_Ok H1; rewrite Est bind_ok /verify_end (verify_start_expected Est).
by [].
Qed.

(** or one whose FRI proofs claim a domain that does not have the position. *)
Theorem C43_small_domain p idx ex K : (0 < K <= S)%N -> (fpr_degree_plus_one p * fpr_lde_factor p = 2 ^ K)%N ->
  ~~ odd (size (fpr_queries p)) -> (0 < rounds p)%N -> odd idx -> (2 ^ K <= idx)%N ->
  verify_proof fp H p idx ex = Panic.
Proof.
move=> /andP [HK0 HK] En Hq Hr Ho Hidx; rewrite /verify_proof /verify_proof_queries /verify_start En.
have [_ _ H2] := Hok; rewrite /fri_two inverse_neq0 //= domain_new_pow //=.
have Hp := dom_gen_prim Hok HK.
have Hg0 : dom_gen fp K != 0.
  apply/eqP => E; have := prim_expr_order Hp; rewrite E expr0n -leqn0 leqNgt expn_gt0 /= => /eqP.
  by rewrite eq_sym oner_eq0.
rewrite -exprM mulnC exprM (prim_expr_order Hp) expr1n eqxx /=.
have Hh : (2 ^ K %/ 2 = 2 ^ K.-1)%N by rewrite -{1}(prednK HK0) expnS mulKn.
have -> : dom_gen fp K ^+ idx ^+ (2 ^ K %/ 2) == 1 = false.
  rewrite -exprM -(prim_order_dvd Hp) Hh; apply/negP => Hd; move: Hd.
  rewrite -{1}(prednK HK0) expnS dvdn_pmul2r ?expn_gt0 // => Hd.
  by move: Ho; case/dvdnP: Hd => c ->; rewrite oddM andbF.
rewrite inverse_neq0 //= modn2 (negbTE Hq) /=.
move: Hr; rewrite /rounds; case: (fpr_roots p) => [|r rs]; first by rewrite min0n.
rewrite /chunks_exact; case: (_ %/ 2)%N => [|n]; first by rewrite minn0.
by move=> _; rewrite /= /get_coset_for_natural_index ltnNge Hidx.
Qed.
End C43.

(** * Concrete instances *)
Lemma Hdec257 d : exists x, bytes_to_field f257 d = Ok x.
Proof. by exists (decode257 d); exact (decode257P d). Qed.

(** x_{i+1} = x_i^2 with x_0 = 3 and x_0 = 5. *)
Definition contradiction : instance_properties F257 :=
  Props 4 1 [:: sq_constraint 0 1] [:: Boundary (Reg 0) 0 (Some 3); Boundary (Reg 0) 0 (Some 5)].
Lemma contradiction_supported : supported_but_density contradiction.
Proof. by rewrite supportedE; vm_compute. Qed.
Lemma contradiction_fits : ranges_fit contradiction.
Proof. by vm_compute. Qed.
Lemma contradiction_zeros : is_ok (zeros_z f257 toy_hash contradiction 4).
Proof. vm_cast_no_check (erefl true). Qed.
Lemma three_five : (3 : F257) != 5.
Proof. by vm_compute. Qed.
Lemma contradiction_unsat trace : ~ satisfied contradiction trace.
Proof. exact (@contradictory _ contradiction 0 0 3 5 isT erefl erefl three_five trace). Qed.

Theorem C41_refuted : ~ C41_statement f257 toy_hash.
Proof.
exact (@C41_fails _ f257 toy_hash f257_ok Hdec257 contradiction 4 isT contradiction_supported contradiction_fits
  isT isT contradiction_zeros contradiction_unsat).
Qed.

Lemma contradiction_forged : exists v pf, verifier_new f257 contradiction 4 = Ok v /\ verify f257 toy_hash v pf = Ok true.
Proof.
exact (@zeros_forgery _ f257 toy_hash f257_ok Hdec257 contradiction 4 isT contradiction_supported contradiction_fits
  isT isT contradiction_zeros).
Qed.

Theorem C42_refuted : ~ C42_statement f257 toy_hash.
Proof.
have [v [pf [Hv Hpf]]] := contradiction_forged.
exact (@C42_fails _ f257 toy_hash contradiction 4 v pf Hv Hpf).
Qed.

Lemma C43_fails (F : fieldType) (fp : ff_params F) (H : hash_fun) props lde v pf :
  supported_but_density props -> ranges_fit props -> (1 < lde)%N -> verifier_new fp props lde = Ok v ->
  verify fp H v pf = Panic -> ~ C43_statement fp H.
Proof. by move=> H1 H2 H3 H4 H5 HC; apply: (HC props lde v pf). Qed.

Theorem C43_refuted : ~ C43_statement f257 toy_hash.
Proof.
have [v [pf [Hv Hpf]]] := contradiction_forged.
have E := @C43_no_rounds _ f257 toy_hash v pf Hpf.
exact (@C43_fails _ f257 toy_hash contradiction 4 v _ contradiction_supported contradiction_fits isT Hv E).
Qed.

(** The hypotheses are met by an honest proof: it is accepted, opens as many
    values as there are masks, and has FRI proofs of the right shape. *)
Section Examples.
Variables (F : fieldType) (fp : ff_params F) (H : hash_fun).
Definition fri_shape_b (p : fri_proof F) (n : nat) : bool :=
  ((n <= fpr_degree_plus_one p * fpr_lde_factor p) && (0 < rounds p))%N.
Definition honest_test (props : instance_properties F) (trace : seq (seq F)) (lde : nat) : outcome bool :=
  let* P := prover_new fp props lde 1 1 in
  let* pf := prove fp H P trace in
  let* v := verifier_new fp props lde in
  let* b := verify fp H v pf in
  Ok [&& b, 0 < size (pr_h1_iop_roots pf), 0 < size (pr_h2_iop_roots pf),
      fri_shape_b (pr_fri_h1 pf) (d_size (v_column_domain v) * lde),
      fri_shape_b (pr_fri_h2 pf) (d_size (v_constraints_domain v) * lde) &
      size (pr_f_at_z_m pf) == size (v_all_masks v)]%N.

Lemma honest_testP props trace lde : honest_test props trace lde = Ok true ->
  exists v pf, [/\ verifier_new fp props lde = Ok v, verify fp H v pf = Ok true,
    (0 < size (pr_h1_iop_roots pf))%N /\ (0 < size (pr_h2_iop_roots pf))%N,
    fri_shape (pr_fri_h1 pf) (d_size (v_column_domain v) * lde) /\
    fri_shape (pr_fri_h2 pf) (d_size (v_constraints_domain v) * lde) &
    size (pr_f_at_z_m pf) = size (v_all_masks v)].
Proof.
rewrite /honest_test => E; have [P _ {}E] := bind_Ok E; have [pf _ {}E] := bind_Ok E.
have [v Hv {}E] := bind_Ok E; have [b Hb [{}E]] := bind_Ok E.
move: E Hb => /andP [-> /and5P [H1 H2 /andP [H3 H4] /andP [H6 H7] /eqP H9]] Hb.
by exists v, pf; split=> //; split.
Qed.
End Examples.

Lemma honest_test_one : honest_test f257 toy_hash one_density (sq_trace 3) 4 = Ok true.
Proof. vm_cast_no_check (erefl (Ok true)). Qed.

Example C42_C43_ex : exists v pf, [/\ verifier_new f257 one_density 4 = Ok v, verify f257 toy_hash v pf = Ok true,
    (0 < size (pr_h1_iop_roots pf))%N /\ (0 < size (pr_h2_iop_roots pf))%N,
    fri_shape (pr_fri_h1 pf) (d_size (v_column_domain v) * 4) /\
    fri_shape (pr_fri_h2 pf) (d_size (v_constraints_domain v) * 4) &
    size (pr_f_at_z_m pf) = size (v_all_masks v)].
Proof. exact (@honest_testP _ f257 toy_hash one_density (sq_trace 3) 4 honest_test_one). Qed.

Print Assumptions C41_forgery.
Print Assumptions C41_refuted.
Print Assumptions C42_openings.
Print Assumptions C42_no_missing_value.
Print Assumptions C42_extra_values_ignored.
Print Assumptions C42_refuted.
Print Assumptions C43_no_panic_partial.
Print Assumptions C43_no_roots.
Print Assumptions C43_no_rounds.
Print Assumptions C43_small_domain.
Print Assumptions C43_refuted.
Print Assumptions C42_C43_ex.
