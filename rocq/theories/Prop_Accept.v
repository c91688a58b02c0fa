(** C75: exactly which proofs are accepted. *)
From Coq Require Import NArith Lia.
From mathcomp Require Import all_ssreflect all_algebra.
From Verif Require Import M_Base M_Worker M_Field M_Domain M_Fft M_Poly M_Bytes M_Transcript M_Merkle M_Fri.
From Verif Require Import M_Challenge M_Air M_Arp M_Ali M_Verifier M_Prover.
From Verif Require Import Spec SpecPoly SpecFri SpecAir SpecStark SpecVerify P_Base P_Fft P_Domain P_Poly P_Lde P_PolyOps P_Wf P_Bytes P_Merkle P_Fri P_Air P_Arp.
From Verif Require Import P_Vals P_Maps P_Ali P_AliG P_AliMany P_Comp P_Honest P_Gz P_GzAny P_Deep P_Stark P_SoundDeep.
From Verif Require Import Instances Prop_Hash Prop_Fri Prop_Air Prop_Arp Prop_Ali Prop_Stark Prop_Verify Prop_Sound Prop_Claims.

Set Implicit Arguments.
Unset Strict Implicit.
Unset Printing Implicit Defensive.
Import GRing.Theory.
Local Open Scope ring_scope.

Section Position.
Lemma positionE (s : digest) e l : (0 < e)%N -> (0 < l)%N ->
  bytes_to_challenge_index s (2 ^ e) (2 ^ l) = Ok (position s (2 ^ e)).
Proof.
move=> He Hl; rewrite /position; set n := (N.to_nat _ %% _)%N.
have Hn : (n < 2 ^ e)%N by rewrite ltn_mod expn_gt0.
rewrite /bytes_to_challenge_index /usub size_tuple /= -lt0n expn_gt0 /= /urem -lt0n expn_gt0 /=.
have -> : N.to_nat (be_value (drop 24 s) mod N.of_nat (2 ^ e)) = n.
  rewrite N2Nat.inj_mod Nat2N.id /n; move: (N.to_nat _) (2 ^ e)%N (expn_gt0 2 e) => a b /= Hb.
  have Hb0 : b <> 0%N by move=> E; rewrite E in Hb.
  apply: esym; apply: (PeanoNat.Nat.mod_unique _ _ (a %/ b)%N); first by apply/ltP; rewrite ltn_mod lt0n; apply/eqP.
  by rewrite {1}(divn_eq a b) mulnC.
have He2 : (2 ^ e = (2 ^ e.-1).*2)%N by rewrite -{1}(prednK He) expnS mul2n.
have Hn1 : ~~ odd n -> (n.+1 < 2 ^ e)%N.
  move=> Ho; rewrite ltn_neqAle Hn andbT; apply/eqP => E; have := odd_double (2 ^ e.-1).
  by rewrite -He2 -E /= Ho.
have Hdiv : odd n -> (n %% 2 ^ l == 0)%N = false.
  move=> Ho; apply/eqP => E; have : (2 ^ l %| n)%N by rewrite /dvdn E.
  by move/(dvdn_trans (dvdn_exp Hl (dvdnn 2))); rewrite dvdn2 Ho.
case Ho: (odd n); first by rewrite Hdiv // modn2 Ho.
have {}Hn1 := Hn1 (negbT Ho); case: (n %% 2 ^ l == 0)%N.
  by rewrite (modn_small Hn1) modn2 /= Ho.
by rewrite modn2 Ho /= (modn_small Hn1).
Qed.
End Position.

Section C75.
Variables (F : fieldType) (fp : ff_params F) (H : hash_fun) (decode : digest -> F).
Hypothesis Hok : ff_ok fp.
Hypothesis Hdec : forall d, bytes_to_field fp d = Ok (decode d).
Hypothesis Hbits : (ff_num_bits fp <? 256)%num.
Notation S := (ff_S fp).

Lemma fri_acceptsP p idx y : verify_proof fp H p idx y = Ok true <-> fri_accepts fp H p idx y.
Proof.
case Hd: (domain_new fp (fpr_degree_plus_one p * fpr_lde_factor p)) => [d| |].
- split=> [/(C30_verify_exact H Hok idx y Hd) Ha|[d' Hd' Ha]]; first by exists d.
  by apply/(C30_verify_exact H Hok idx y Hd); move: Hd'; rewrite Hd => -[->].
- split=> [|[d']]; last by rewrite Hd.
  by rewrite /verify_proof /verify_proof_queries /verify_start (fri_two_inv Hok) bind_eq Hd.
- split=> [|[d']]; last by rewrite Hd.
  by rewrite /verify_proof /verify_proof_queries /verify_start (fri_two_inv Hok) bind_eq Hd.
Qed.

Lemma commit_roots t (rs : seq digest) : foldl (fun t (r : digest) => commit_bytes t r) t rs = t ++ flatten [seq val r | r <- rs].
Proof. by elim: rs t => [|r rs IH] t /=; rewrite ?cats0 // IH /commit_bytes catA. Qed.

Lemma commit_fields t (xs : seq F) : foldl (commit_field_element fp) t xs = t ++ flatten [seq field_bytes fp x | x <- xs].
Proof. by elim: xs t => [|r rs IH] t /=; rewrite ?cats0 // IH /commit_field_element catA. Qed.

Lemma last_rootE (s : seq digest) : last_root s = if s is [::] then Panic else Ok (last zero_digest s).
Proof. by case: s. Qed.

Variables (props : instance_properties F) (lde : nat) (v : verifier F) (FD GD : domain F).
Hypothesis Hsup : supported_but_density props.
Hypothesis Hr : ranges_fit props.
Hypothesis Hv : verifier_new fp props lde = Ok v.
Hypothesis Hlde : is_pow2 lde.
Hypothesis Hl1 : (1 < lde)%N.
Let n := ip_num_rows props.
Let D := \max_(c <- ip_constraints props) c_degree c.
Hypothesis HFD : domain_new fp (n * lde) = Ok FD.
Hypothesis HGD : domain_new fp (D * n * lde) = Ok GD.
Variable pf : instance_proof F.

Let cs := in_batches props.
Let masks := v_all_masks v.
Let g := d_gen (v_column_domain v).
Let gf := d_gen FD.
Let gg := d_gen GD.

Lemma new_facts : [/\ ip_constraints (v_instance v) = map (mask_constraint g) (ip_constraints props),
   ip_boundary_constraints (v_instance v) = ip_boundary_constraints props,
   v_max_power v = D, v_batches v = batch_by_density (ip_constraints (v_instance v)) &
   all (@c_steps F) (ip_constraints props)] /\
   v_all_masks v = masks_of (ip_constraints (v_instance v)) (ip_boundary_constraints props).
Proof.
move: Hv; rewrite verifier_newE /g; case: ifP => // _; case Hst: (all _ _) => //; case: ifP => // _ [<-] /=.
by split=> //; split=> //; rewrite mask_max.
Qed.

Lemma batches_cs : flatten [seq db.2 | db <- v_batches v] = map (mask_constraint g) cs.
Proof. by have [[E _ _ -> _] _] := new_facts; rewrite E in_batches_map. Qed.

Definition the_challenges : challenges F :=
  Challenges (constraint_coeffs H decode cs pf) (boundary_coeffs H decode props cs pf) (drawn_point H decode props cs pf)
    (mask_coeffs H decode props cs masks pf) (position1 fp H props lde cs masks pf) (position2 fp H props lde cs masks pf).

Lemma drawnE : draw_challenges fp H v pf =
  if (pr_h1_iop_roots pf == [::]) || (pr_h2_iop_roots pf == [::]) then Panic else Ok (the_challenges, FD, GD).
Proof.
have [Elde [k [d Hf]]] := supported_fit Hok Hsup Hr Hv; have [[_ Ebs Emax _ _] _] := new_facts.
have /andP [Hk0 Hk] := ft_k Hf.
case/is_pow2P: Hlde => l El; have Hl : (0 < l)%N by move: Hl1; rewrite El; case: (l).
have En : n = (2 ^ k)%N by exact: ft_props_rows Hf.
have ED : D = (2 ^ d)%N by rewrite -Emax (ft_max Hf).
rewrite /draw_challenges /transcript_new Hbits bind_ok commit_roots cat0s -/(t_columns pf).
rewrite (challenge_pairsE H Hdec) bind_ok (challenge_pairsE H Hdec) bind_ok batches_cs size_map Ebs stream_stateD -doubleD.
rewrite -/(t_composition H props cs pf) (get_challengeE H Hdec) bind_ok (mask_challengesE H Hdec) bind_ok stream_stateD add1n.
set tz := stream_state _ _ _.+1.
rewrite !last_rootE; case E1: (pr_h1_iop_roots pf == [::]); first by rewrite (eqP E1).
have -> : (if pr_h1_iop_roots pf is [::] then Panic else Ok (last zero_digest (pr_h1_iop_roots pf))) =
    Ok (last zero_digest (pr_h1_iop_roots pf)) by case: (pr_h1_iop_roots pf) E1.
rewrite bind_ok; case E2: (pr_h2_iop_roots pf == [::]); first by rewrite (eqP E2).
have -> : (if pr_h2_iop_roots pf is [::] then Panic else Ok (last zero_digest (pr_h2_iop_roots pf))) =
    Ok (last zero_digest (pr_h2_iop_roots pf)) by case: (pr_h2_iop_roots pf) E2.
rewrite bind_ok (ft_col Hf) (ft_con Hf) Elde ![d_size _]/=.
have -> : (2 ^ k * lde = n * lde)%N by rewrite En.
have -> : (2 ^ (k + d) * lde = D * n * lde)%N by rewrite En ED expnD [(2 ^ k * _)%N]mulnC.
rewrite HFD HGD !bind_ok !commit_fields /commit_bytes /get_challenge_bytes.
set tf := (((tz ++ _) ++ _) ++ _) ++ _.
have -> : tf = t_fri fp H props cs masks pf by rewrite /tf /t_fri /fri_bytes -!catA.
have P1 (s : digest) : bytes_to_challenge_index s (n * lde) lde = Ok (position s (n * lde)).
  by rewrite En El -expnD positionE // addn_gt0 Hk0.
have P2 (s : digest) : bytes_to_challenge_index s (D * n * lde) lde = Ok (position s (D * n * lde)).
  by rewrite En ED El -!expnD positionE // !addn_gt0 Hk0 orbT.
rewrite P1 bind_ok P2 bind_ok; congr (Ok (_, _, _)); rewrite /the_challenges; congr Challenges.
by apply: eq_mkseq => i; rewrite streamD add1n.
Qed.

Let vals := pr_f_at_z_m pf.
Let z := drawn_point H decode props cs pf.

Lemma masks_uniq : uniq masks.
Proof. by rewrite /masks; have [_ ->] := new_facts; apply: uniq_masks_of. Qed.

Lemma calc_outside chs bchs y gz : calculate_g_at_z v chs bchs vals y = Ok gz -> y ^+ n != 1.
Proof.
have [_ [k [d Hf]]] := supported_fit Hok Hsup Hr Hv; have [[E _ _ Eb _] _] := new_facts.
have /andP [Hk0 Hk] := ft_k Hf; have En : n = (2 ^ k)%N by exact: ft_props_rows Hf.
rewrite /calculate_g_at_z => Ec; have [os _ {}Ec] := bind_Ok Ec; have [gc Hb _] := bind_Ok Ec.
have : (0 < size (flatten [seq db.2 | db <- v_batches v]))%N.
  rewrite batches_cs size_map size_in_batches; move: Hsup; case/and5P => _ _ H1 _ _.
  by case: (ip_constraints props) H1 => //; rewrite big_nil => /is_pow2P [e]; case: (2 ^ e)%N (expn_gt0 2 e).
have := ft_batches Hf; case: (v_batches v) Hb => [//|db dbs] Hb /andP [/andP [_ Hdb] _] _.
apply/negP => Hy; move: Hb; rewrite /= {1}/g_at_z_batch; case: (db.1) Hdb => // s sp Hs.
by rewrite (ft_col Hf) (ft_rows Hf) (inverse_divisor_atE Hok) // Hs -En Hy.
Qed.

Lemma calcE : (size masks <= size vals)%N -> z ^+ n != 1 ->
  calculate_g_at_z v (constraint_coeffs H decode cs pf) (boundary_coeffs H decode props cs pf) vals z =
  Ok (composition_at H decode props cs masks g pf z).
Proof.
move=> Hs Hz.
have [_ [k [d Hf]]] := supported_fit Hok Hsup Hr Hv; have [[E Ebs Emax Eb Hst] Em] := new_facts.
have /andP [Hk0 Hk] := ft_k Hf; have En : n = (2 ^ k)%N by exact: ft_props_rows Hf.
pose op (m : mask_properties F) := nth 0 vals (seq.index m masks).
have Eop : map op masks = take (size masks) vals.
  apply: (@eq_from_nth _ 0); first by rewrite size_map size_takel.
  rewrite size_map => i Hi; rewrite (nth_map (Reg 0, Mask 1)) // /op index_uniq ?masks_uniq // nth_take //.
have -> : forall chs bchs, calculate_g_at_z v chs bchs vals z = calculate_g_at_z v chs bchs (map op masks) z.
  move=> chs bchs; rewrite Eop /calculate_g_at_z /opened_values -{1}(cat_take_drop (size masks) vals) zip_extra //.
  by rewrite size_takel.
have Eg : g = dom_gen fp k by rewrite /g (ft_col Hf).
have Hbs := ft_bounds Hf; rewrite Ebs in Hbs.
rewrite (@any_calculate_g_at_zP _ fp Hok op k z Hk _ v); first last.
- by rewrite Ebs size_mkseq.
- by rewrite batches_cs size_mkseq size_map.
- by rewrite Ebs.
- exact: ft_batches Hf.
- exact: ft_rows Hf.
- by rewrite (ft_max Hf) expn_gt0.
- exact: ft_col Hf.
- exact: ft_masks Hf.
- by rewrite -En.
congr (Ok (_ + _)).
  rewrite batches_cs zip_map_l big_map.
  have : all (@c_steps F) cs by rewrite /cs /in_batches all_batches.
  elim: cs (constraint_coeffs H decode cs pf) => [|c s IH] [|ab chs]; rewrite ?big_nil //.
  case/andP => Hc /IH {}IH; rewrite [zip _ _]/= !big_cons IH; congr (_ + _).
  rewrite /any_cterm /= Emax -En -Eg; congr (_ * _ * _).
  apply: (@mask_cval_eq _ _ _ g c (@u_steps F)); last by rewrite -c_steps_unis.
  by move=> u; rewrite /u_steps /uval /=; case: (ut_steps u).
rewrite Ebs; apply: eq_bigr => -[b ab] _ /=.
by rewrite /any_bterm /= Emax -Eg /claimed expr0.
Qed.

(** C75: the verifier accepts exactly the proofs described in SpecVerify.v. *)
Theorem C75_accepts_iff : verify fp H v pf = Ok true <-> accepted_proof fp H decode props lde cs masks g gf gg pf.
Proof.
have [_ [k [d Hf]]] := supported_fit Hok Hsup Hr Hv.
have HR : ip_num_registers (v_instance v) = ip_num_registers props := ft_regs Hf.
have Ecell r : cell [seq q_value q | q <- pr_f_queries pf] r = queried pf r.
  case: r => //= i; case: (ltnP i (size (pr_f_queries pf))) => Hi; first by rewrite (nth_map (Query 0 0 [::])).
  by rewrite !nth_default ?size_map.
have Eq1 x y : \sum_(mfa <- zip (zip masks vals) (mask_coeffs H decode props cs masks pf))
     (cell [seq q_value q | q <- pr_f_queries pf] mfa.1.1.1 - mfa.1.2) * (x - shifted mfa.1.1.2 y)^-1 * mfa.2 =
   quotient1 H decode props cs masks pf y x.
  by apply: eq_bigr => mfa _; rewrite Ecell [LHS]mulrC mulrA.
split.
  move=> Ha; have Hmz := C42_no_missing_value Hv Ha.
  have [chs [D1 [D2 [Hdr [S1 S2 Hq Hg [h1 [h2 [gz [Hh1 Hgz Hh2 Hf1 Hf2]]]]]]]]] := C42_openings Ha.
  move: Hdr; rewrite drawnE; case: ifP => // /norP [N1 N2] [E1 E2 E3].
  rewrite -E1 -?E2 -?E3 /= in Hq Hg Hh1 Hgz Hh2 Hf1 Hf2.
  have Hz := calc_outside Hgz; rewrite calcE // in Hgz; case: Hgz => Egz.
  have [Hden Eh1] := simulate_h1_inv Hh1.
  move: Hh2; rewrite /simulate_h2 -/gg /inverse; case: ifP => // Hx2 [Eh2].
  split=> //.
  - by split; apply/eqP.
  - by rewrite -HR.
  - by move=> i Hi; apply: Hq; rewrite HR.
  - move=> m Hm; rewrite -subr_eq0; set j := seq.index m masks.
    have Hj : (j < size masks)%N by rewrite index_mem.
    have Hs : (j < size (zip (zip masks vals) (mask_coeffs H decode props cs masks pf)))%N.
      by rewrite size_zip size_mkseq size_zip (minn_idPl Hmz) minnn.
    have := all_nthP (m, 0, 0) Hden j Hs.
    rewrite nth_zip_cond Hs /= nth_zip_cond size_zip (minn_idPl Hmz) Hj /=.
    by rewrite (nth_index m Hm).
  - by rewrite -subr_eq0 Hx2.
  - by apply/fri_acceptsP; rewrite -Hf1 Eh1 Eq1.
  - by apply/fri_acceptsP; rewrite -Hf2 -Eh2 -Egz.
case=> [[N1 N2] [S1 S2] Hq [Hg1 Hg2] Hmz Hz Hd1 Hd2 /fri_acceptsP Hf1 /fri_acceptsP Hf2].
rewrite /verify drawnE (_ : (_ == _) || (_ == _) = false); last by apply/norP; split; apply/eqP.
rewrite bind_ok S1 HR eqxx S2 eqxx /=.
have -> : check_f_queries fp H pf (position1 fp H props lde cs masks pf).
  apply/(all_nthP (Query 0 0 [::], zero_digest)) => i; rewrite size_zip S1 S2 minnn => Hi.
  by rewrite nth_zip ?S1 ?S2 //=; have [-> ->] := Hq i Hi; rewrite eqxx.
rewrite simulate_h1_sum; first last.
- by apply/allP => m Hm; rewrite subr_eq0; apply: Hd1.
- by rewrite size_map S1 -HR; exact: ft_masks Hf.
rewrite bind_ok calcE // bind_ok Hg1 Hg2 eqxx /= /simulate_h2 inverse_neq0 ?subr_eq0 // [ok_or _]/= !bind_ok.
by rewrite Eq1 Hf1 bind_ok.
Qed.

(** The openings that a proof has to claim: one for each register and number of
    rows that a factor of a constraint reads, and the register of each boundary
    constraint. *)
Theorem C75_masks : uniq masks /\ forall r s, ((r, s) \in masks) =
  has (fun c => has (fun u => (ut_register u == r) &&
         (if ut_steps u is Steps d then s == Mask (g ^+ d) else false)) (c_unis c)) (ip_constraints props) ||
  has (fun b => (b_register b == r) && (s == Mask 1)) (ip_boundary_constraints props).
Proof.
split=> [|r s]; first exact: masks_uniq.
have [[E _ _ _ Hst] Em] := new_facts.
have -> : ((r, s) \in masks) = ~~ all (predC (pred1 (r, s))) masks by rewrite -has_predC -has_pred1; apply: eq_has => m /=; rewrite negbK.
rewrite /masks Em all_masks_of negb_and -!has_predC E has_map; congr (_ || _).
  elim: (ip_constraints props) Hst => //= c l IH /andP [Hc /IH ->]; congr (_ || _).
  rewrite mask_unis -has_predC has_map; rewrite c_steps_unis in Hc.
  elim: (c_unis c) Hc => //= u us IHu /andP [Hu /IHu ->]; congr (_ || _).
  rewrite negbK /uni_mask /= xpair_eqE; move: Hu; rewrite /u_steps; case: (ut_steps u) => // d _.
  by rewrite [s == _]eq_sym.
apply: eq_has => b /=; by rewrite negbK xpair_eqE [s == _]eq_sym.
Qed.

(** The order in which the constraints get their coefficients: each one once. *)
Theorem C75_constraints (P : pred (constraint F)) : count P cs = count P (ip_constraints props).
Proof.
rewrite /cs /in_batches /batch_by_density.
rewrite -[RHS]add0n -[0%N]/(count P (flatten [seq db.2 | db <- ([::] : seq (density * seq (constraint F)))])).
elim: (ip_constraints props) [::] => [|c l IH] m; first by rewrite addn0.
rewrite [foldl _ _ _]/= IH /= addnA; congr (_ + _)%N.
elim: m => [|[dn b] m IHm] /=; first by rewrite addn0.
case: ifP => _ /=; rewrite !count_cat ?IHm ?addnA //.
by rewrite -cats1 count_cat /= addn0 -!addnA; congr (_ + _)%N; rewrite addnC.
Qed.
End C75.

(** A proof that the theorem applies to. *)
Example C75_ex : exists v pf FD GD, [/\ supported_but_density one_density /\ ranges_fit one_density,
  verifier_new f257 one_density 4 = Ok v,
  domain_new f257 (ip_num_rows one_density * 4) = Ok FD,
  domain_new f257 ((\max_(c <- ip_constraints one_density) c_degree c) * ip_num_rows one_density * 4) = Ok GD &
  accepted_proof f257 toy_hash decode257 one_density 4 (in_batches one_density) (v_all_masks v)
    (d_gen (v_column_domain v)) (d_gen FD) (d_gen GD) pf].
Proof.
have [v [pf [Hv Hpf _ _ _]]] := C42_C43_ex.
have Hr : ranges_fit one_density by vm_compute.
have : is_ok (domain_new f257 (ip_num_rows one_density * 4)) by vm_compute.
case EF: (domain_new f257 (ip_num_rows one_density * 4)) => [FD| |] // _.
have : is_ok (domain_new f257 ((\max_(c <- ip_constraints one_density) c_degree c) * ip_num_rows one_density * 4)).
  by rewrite -max_degreeE; vm_compute.
case EG: (domain_new f257 ((\max_(c <- ip_constraints one_density) c_degree c) * ip_num_rows one_density * 4)) => [GD| |] // _.
exists v, pf, FD, GD; split=> //; first by split; [exact: one_supported|].
have H4 : is_pow2 4 by vm_compute.
have Hb : (ff_num_bits f257 <? 256)%num by vm_compute.
exact/(C75_accepts_iff toy_hash f257_ok decode257P Hb one_supported Hr Hv H4 isT EF EG pf).
Qed.

Print Assumptions C75_accepts_iff.
Print Assumptions C75_masks.
Print Assumptions C75_constraints.
Print Assumptions C75_ex.
