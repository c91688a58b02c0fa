(** Property C80: what the verdict of the verifier does not depend on. *)
From Coq Require Import NArith Lia.
From mathcomp Require Import all_ssreflect all_algebra.
From Verif Require Import M_Base M_Worker M_Field M_Domain M_Fft M_Poly M_Bytes M_Transcript M_Merkle M_Fri.
From Verif Require Import M_Challenge M_Air M_Arp M_Ali M_Verifier M_Prover.
From Verif Require Import Spec SpecAir P_Base P_Stark Instances Prop_Hash Prop_Ali Prop_Verify.

Set Implicit Arguments.
Unset Strict Implicit.
Unset Printing Implicit Defensive.
Import GRing.Theory.
Local Open Scope ring_scope.

(** * Specification *)
Section Spec.
Variable F : fieldType.

(** Two FRI proofs that differ only in what is not read: the number of output
    coefficients, how the size of the domain is written as degree times
    factor, and the roots after the last one that has a pair of openings. *)
Definition same_fri_read (p q : fri_proof F) : Prop :=
  [/\ fpr_queries p = fpr_queries q,
      fpr_final_coefficients p = fpr_final_coefficients q,
      (fpr_degree_plus_one p * fpr_lde_factor p = fpr_degree_plus_one q * fpr_lde_factor q)%N &
      take (size (fpr_queries p) %/ 2) (fpr_roots p) = take (size (fpr_queries p) %/ 2) (fpr_roots q)].

(** Two lists of oracle roots with the same last one. *)
Definition same_last (r s : seq digest) : Prop :=
  (size r == 0%N) = (size s == 0%N) /\ last zero_digest r = last zero_digest s.

(** Two proofs of an instance with [n] masks that differ only in what is not
    read: values after the first [n], roots of h1 and h2 before the last one,
    and the unread parts of the two FRI proofs. *)
Definition same_read (n : nat) (p q : instance_proof F) : Prop :=
  [/\ take n (pr_f_at_z_m p) = take n (pr_f_at_z_m q),
      [/\ pr_f_iop_roots p = pr_f_iop_roots q, pr_g_iop_root p = pr_g_iop_root q,
          pr_f_queries p = pr_f_queries q & pr_g_query p = pr_g_query q],
      same_last (pr_h1_iop_roots p) (pr_h1_iop_roots q) /\ same_last (pr_h2_iop_roots p) (pr_h2_iop_roots q),
      same_fri_read (pr_fri_h1 p) (pr_fri_h1 q) & same_fri_read (pr_fri_h2 p) (pr_fri_h2 q)].

(** The same proof with other root lists for h1 and h2. *)
Definition with_h_roots (p : instance_proof F) (r1 r2 : seq digest) : instance_proof F :=
  Proof (pr_f_at_z_m p) (pr_f_iop_roots p) (pr_g_iop_root p) (pr_f_queries p) (pr_g_query p) r1 r2
    (pr_fri_h1 p) (pr_fri_h2 p).
End Spec.

Section C80.
Variables (F : fieldType) (fp : ff_params F) (H : hash_fun).

Lemma zip_take A B (s : seq A) (t : seq B) : zip s (take (size s) t) = zip s t.
Proof. by elim: s t => [|x s IH] [|y t] //=; rewrite IH. Qed.

Lemma take_zip A B (s : seq A) (t : seq B) : zip (take (size t) s) t = zip s t.
Proof. by elim: s t => [|x s IH] [|y t] //=; rewrite IH. Qed.

Lemma last_rootE (r s : seq digest) : same_last r s -> last_root r = last_root s.
Proof. by case: r => [|x r]; case: s => [|y s] [] //= _; rewrite /last_root => ->. Qed.

Theorem C80_fri p q i (e : F) : same_fri_read p q -> verify_proof fp H p i e = verify_proof fp H q i e.
Proof.
case=> Hq Hc Hd Hr; rewrite /verify_proof /verify_proof_queries Hd -Hq -Hc.
have E : zip (fpr_roots p) (chunks_exact 2 (fpr_queries p)) = zip (fpr_roots q) (chunks_exact 2 (fpr_queries p)).
  have Es : size (chunks_exact 2 (fpr_queries p)) = (size (fpr_queries p) %/ 2)%N.
    by rewrite size_mkseq.
  by rewrite -[LHS]take_zip -[RHS]take_zip Es Hr.
by rewrite E.
Qed.

(** The verdict is a function of what is read. *)
Theorem C80_same_verdict v (p q : instance_proof F) : same_read (size (v_all_masks v)) p q ->
  verify fp H v p = verify fp H v q.
Proof.
case=> Hz [Hf Hg Hfq Hgq] [/last_rootE H1 /last_rootE H2] F1 F2.
have [_ C1 _ _] := F1; have [_ C2 _ _] := F2.
have Ed : draw_challenges fp H v p = draw_challenges fp H v q by rewrite /draw_challenges Hf Hg H1 H2 C1 C2.
have Ez : zip (v_all_masks v) (pr_f_at_z_m p) = zip (v_all_masks v) (pr_f_at_z_m q).
  by rewrite -[LHS]zip_take -[RHS]zip_take Hz.
rewrite /verify Ed; apply: eq_bind => -[[chs D1] D2].
rewrite /check_f_queries /simulate_h1 /calculate_g_at_z /opened_values Hf Hg Hfq Hgq Ez.
case: ifP => // _; case: ifP => // _; case: ifP => // _.
apply: eq_bind => h1; apply: eq_bind => gz; case: ifP => // _; case: ifP => // _.
apply: eq_bind => h2; rewrite (C80_fri _ _ F1); apply: eq_bind => b; case: ifP => // _.
exact: C80_fri.
Qed.

(** Any root can be put in front of the two lists of roots. *)
Theorem C80_roots_ignored v p r1 r2 : pr_h1_iop_roots p <> [::] -> pr_h2_iop_roots p <> [::] ->
  verify fp H v (with_h_roots p (r1 ++ pr_h1_iop_roots p) (r2 ++ pr_h2_iop_roots p)) = verify fp H v p.
Proof.
move=> N1 N2; apply: C80_same_verdict; split=> //=; split; split=> //.
- by rewrite size_cat; case: (pr_h1_iop_roots p) N1 => // x s _; rewrite /= addnS.
- by rewrite last_cat; case: (pr_h1_iop_roots p) N1.
- by rewrite size_cat; case: (pr_h2_iop_roots p) N2 => // x s _; rewrite /= addnS.
by rewrite last_cat; case: (pr_h2_iop_roots p) N2.
Qed.

(** A FRI proof may claim any degree that divides the size of its domain. *)
Theorem C80_claimed_degree qs rs cs d out l d' out' l' i (e : F) : (d * l = d' * l')%N ->
  verify_proof fp H (FriProof qs rs cs d out l) i e = verify_proof fp H (FriProof qs rs cs d' out' l') i e.
Proof. by move=> E; apply: C80_fri. Qed.

(** An accepted proof cannot be changed into another accepted one by editing
    only its lists of oracle roots for h1 and h2. *)
Definition C80_statement : Prop := forall props lde v p r1 r2, verifier_new fp props lde = Ok v ->
  verify fp H v p = Ok true -> verify fp H v (with_h_roots p r1 r2) = Ok true ->
  r1 = pr_h1_iop_roots p /\ r2 = pr_h2_iop_roots p.

Lemma C80_nonempty v p : verify fp H v p = Ok true -> pr_h1_iop_roots p <> [::] /\ pr_h2_iop_roots p <> [::].
Proof.
move=> /C42_openings[chs [D1 [D2 [Hd _]]]]; move: Hd; rewrite /draw_challenges => Hd.
have [t _ {}Hd] := bind_Ok Hd; have [[c t1] _ {}Hd] := bind_Ok Hd; have [[c' t2] _ {}Hd] := bind_Ok Hd.
have [[z t3] _ {}Hd] := bind_Ok Hd; have [[a t4] _ {}Hd] := bind_Ok Hd.
have [x1 E1 {}Hd] := bind_Ok Hd; have [x2 E2 _] := bind_Ok Hd.
by split=> E; [rewrite E in E1 | rewrite E in E2].
Qed.

(** What holds instead: an accepted proof has both lists, and only the last
    root of each has an effect. *)
Theorem C80_last_roots_partial v p r1 r2 : verify fp H v p = Ok true ->
  [/\ pr_h1_iop_roots p <> [::], pr_h2_iop_roots p <> [::] &
      same_last r1 (pr_h1_iop_roots p) -> same_last r2 (pr_h2_iop_roots p) ->
      verify fp H v (with_h_roots p r1 r2) = Ok true].
Proof.
move=> Hp; have [N1 N2] := C80_nonempty Hp; split=> // S1 S2; rewrite -Hp.
by apply: C80_same_verdict; split.
Qed.

Lemma C80_fails props lde v p : verifier_new fp props lde = Ok v -> verify fp H v p = Ok true -> ~ C80_statement.
Proof.
move=> Hv Hp HC; have [N1 N2] := C80_nonempty Hp.
have := C80_roots_ignored v [:: zero_digest] [::] N1 N2; rewrite Hp => /(HC _ _ _ _ _ _ Hv Hp)[E _].
by have := congr1 size E; rewrite /= => /eqP; rewrite eqn_leq ltnn.
Qed.
End C80.

Theorem C80_refuted : ~ C80_statement f257 toy_hash.
Proof.
have [v [pf [Hv Hpf]]] := contradiction_forged.
exact (@C80_fails _ f257 toy_hash contradiction 4 v pf Hv Hpf).
Qed.

(** An accepted proof, and another one with a root more that is accepted too. *)
Example C80_ex : exists v p, [/\ verifier_new f257 contradiction 4 = Ok v, verify f257 toy_hash v p = Ok true &
  verify f257 toy_hash v (with_h_roots p (zero_digest :: pr_h1_iop_roots p) (pr_h2_iop_roots p)) = Ok true].
Proof.
have [v [p [Hv Hp]]] := contradiction_forged; exists v, p; split=> //.
have [N1 N2] := C80_nonempty Hp.
by rewrite -[in RHS]Hp; exact: (C80_roots_ignored f257 toy_hash v [:: zero_digest] [::] N1 N2).
Qed.

Print Assumptions C80_fri.
Print Assumptions C80_same_verdict.
Print Assumptions C80_roots_ignored.
Print Assumptions C80_claimed_degree.
Print Assumptions C80_last_roots_partial.
Print Assumptions C80_refuted.
Print Assumptions C80_ex.
