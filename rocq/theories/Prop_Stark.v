(** Property C40: prover and verifier end to end. *)
From Coq Require Import NArith.
From mathcomp Require Import all_ssreflect all_algebra.
From Verif Require Import M_Base M_Worker M_Field M_Domain M_Fft M_Poly M_Bytes M_Transcript M_Merkle M_Fri.
From Verif Require Import M_Challenge M_Air M_Arp M_Ali M_Verifier M_Prover.
From Verif Require Import Spec SpecPoly SpecFri SpecAir SpecStark P_Base P_Fft P_Domain P_Poly P_Lde P_PolyOps P_Wf P_Bytes P_Merkle P_Fri P_Air P_Arp.
From Verif Require Import P_Vals P_Maps P_Ali P_AliG P_Comp P_Honest P_Gz P_Deep P_Stark.
From Verif Require Import Instances Prop_Hash Prop_Fri Prop_Air Prop_Arp Prop_Ali.

Set Implicit Arguments.
Unset Strict Implicit.
Unset Printing Implicit Defensive.
Import GRing.Theory.
Local Open Scope ring_scope.

(** * C40 *)
Section C40.
Variables (F : fieldType) (fp : ff_params F) (H : hash_fun).
Hypothesis Hok : ff_ok fp.
Notation S := (ff_S fp).

(** Whatever the instance, the satisfying trace, the LDE factor, the final
    degree, the number of CPUs: a proof that the prover returns is accepted. *)
Definition C40_statement : Prop :=
  forall w props trace lde out P pf,
  (0 < w)%N -> satisfied props trace ->
  prover_new fp props lde out w = Ok P -> prove fp H P trace = Ok pf ->
  exists2 v, verifier_new fp props lde = Ok v & verify fp H v pf = Ok true.

Lemma lde_pow2 (p : hpoly F Coefficients) w f q : lde fp p w f = Ok q -> is_pow2 f.
Proof.
rewrite /lde /lde_using_multiple_cosets; case: eqP => [->|_] //.
by case: (is_pow2 f).
Qed.

(** Every digest decodes to a field element; C25 shows this for the constants
    of the field macro. *)
Hypothesis Hdec : forall d, exists x, bytes_to_field fp d = Ok x.
Let decode (d : digest) : F := if bytes_to_field fp d is Ok x then x else 0.
Let HdecP d : bytes_to_field fp d = Ok (decode d).
Proof. by rewrite /decode; have [x ->] := Hdec d. Qed.

(** For supported instances with one density, final degree one, and CPU counts
    for which the extensions are right (C09), the statement holds. *)
Theorem C40_completeness_partial w props trace lde P pf :
  (0 < w)%N -> supported props -> satisfied props trace ->
  w = 1%N \/ (lde < 2 * w)%N /\ (\max_(c <- ip_constraints props) c_degree c < 2 * w)%N ->
  prover_new fp props lde 1 w = Ok P -> prove fp H P trace = Ok pf ->
  exists2 v, verifier_new fp props lde = Ok v & verify fp H v pf = Ok true.
Proof.
move=> Hw /andP [Hsup Hden] Hsat Hcpus HP Hpf.
have Hm0 : (0 < \max_(c <- ip_constraints props) c_degree c)%N.
  by move: Hsup => /and5P [_ _ /is_pow2P [d ->] _ _]; rewrite expn_gt0.
have [v Hv] := C45_verifier_exists Hok Hw Hm0 HP; exists v => //.
move: HP; rewrite /prover_new => HP; have [props' Hinst {}HP] := bind_Ok HP.
have [a Ha [EP]] := bind_Ok HP; subst P.
have Htr : (0 < size trace)%N by case: Hsat.
have := Hpf; rewrite /prove [p_worker _]/= [p_arp _]/= [p_ali _]/= [p_lde_factor _]/= => H0.
have [t Ht {}H0] := bind_Ok H0; have [ws Hws {}H0] := bind_Ok H0.
have [k [d [HH Hall Ews]]] := honest_setup Hok Hw Hsup Hinst Hws.
set wc := map _ trace in HH Ews.
have Hbits : (ff_num_bits fp <? 256)%num by move: Ht; rewrite /transcript_new; case: (_ <? _)%num.
have Et : t = [::] by move: Ht; rewrite /transcript_new Hbits => -[<-].
have [fl Hfl {}H0] := bind_Ok H0; have [fo Hfo {}H0] := bind_Ok H0; have [fr Hfr {}H0] := bind_Ok H0.
have [gt Hg {}H0] := bind_Ok H0; case: gt Hg H0 => gp t' Hg H0; have [gl Hgl _] := bind_Ok H0.
have /is_pow2P [l El] := lde_pow2 Hgl; rewrite El in Hcpus Hfl Hgl Hpf Hv.
have Hcpu : lde_cpus_ok w (2 ^ d).
  rewrite /lde_cpus_ok -(hn_max HH); case: Hcpus => [->|[_ ->]] //; exact: orbT.
have Hcpul : lde_cpus_ok w (2 ^ l).
  rewrite /lde_cpus_ok; case: Hcpus => [->|[-> _]] //; exact: orbT.
have HS : (k + d + l <= S)%N.
  move: Hg; rewrite Ews (honest_g Hok Hw HH Hall Hsat H HdecP Ha Hden Hcpu) => -[Eg _].
  by move: Hgl; rewrite -Eg vf_lde ?(honest_kd Hok Hw HH Ha) ?size_mkseq //; case: ifP.
have := proveE H Hok HdecP Hw 1 HH Hall Htr Hsat Ha Hden Hcpu Hcpul HS Hws Ews.
rewrite Hpf Hbits; case: ifP => // Hz /esym Hfin.
have [p1 [p2 [i1 [i2 [pf1 [pf2 Hf]]]]]] := finish_inv Hok HdecP Hw HH Htr Ha Hden HS Hinst Hv Hbits Hfin.
rewrite (verify_finished Hok Hw HH Hall Hsat Ha Hden HS Hinst Hv Hz Hf).
have HK : (k + l <= S)%N by apply: leq_trans HS; rewrite leq_add2r leq_addr.
have Hk1 : (0 < k)%N by have := hn_1k HH; case: (k).
set h1 := h1_pol _ _ _ _ _ _ _ _ in Hf *; set h2 := h2_pol _ _ _ _ _ _ _ _ in Hf *.
have V1 := vf_values h1 HK; have V2 := vf_values h2 HS.
have Hl : (0 < l)%N.
  have [K [e [r [u [[_ _ _ Ee Er] [h _ _ _]]]]]] := by_values_inv Hok Hw V1.1 (fi_by1 Hf).
  move: h; move/eqP: Er; rewrite -{1}(expn0 2) eqn_exp2l // => /eqP <-.
  by move/eqP: Ee; rewrite eqn_exp2l // addn0 => /eqP <-.
have Hodd K i : (0 < K)%N -> (exists s : digest, bytes_to_challenge_index s (2 ^ K) (2 ^ l) = Ok i) -> odd i.
  move=> HK0 [s]; have [|||||j [-> _ Hj _] [<-] //] := @C32_challenge_index s (2 ^ K) (2 ^ l).
  - by rewrite size_tuple.
  - by rewrite expn_gt0.
  - by rewrite oddX eqn0Ngt HK0.
  - by rewrite expn_gt0.
  - by rewrite oddX eqn0Ngt Hl.
have S1 : (size h1 <= 2 ^ (k + l) %/ 2 ^ l)%N.
  rewrite expnD mulnK ?expn_gt0 // -[X in (_ <= X)%N]prednK ?expn_gt0 //; apply: leq_trans (leqnSn _).
  apply: size_deep_h1; rewrite all_map prednK ?expn_gt0 //; apply: sub_all (hn_sizes HH) => c /eqP <-; exact: size_poly_of.
have S2 : (size h2 <= 2 ^ (k + d + l) %/ 2 ^ l)%N.
  rewrite expnD mulnK ?expn_gt0 // -[X in (_ <= X)%N]prednK ?expn_gt0 //; apply: leq_trans (leqnSn _).
  apply: size_deep_quotient; rewrite prednK ?expn_gt0 //; exact: (size_g_pol H decode Hok Hw l HH Ha Hden).
have N1 : size (p_coeffs (vf fp (k + l) 1 (horner h1))) = (2 ^ (k + l))%N by rewrite size_map size_points.
have N2 : size (p_coeffs (vf fp (k + d + l) 1 (horner h2))) = (2 ^ (k + d + l))%N by rewrite size_map size_points.
have C1 := @C29_complete_partial F fp H Hok w _ h1 (2 ^ l) p1 pf1 i1 Hw V1; rewrite N1 in C1.
have C2 := @C29_complete_partial F fp H Hok w _ h2 (2 ^ l) p2 pf2 i2 Hw V2; rewrite N2 in C2.
have HK1 : (0 < k + l)%N by rewrite addn_gt0 Hk1.
have HK2 : (0 < k + d + l)%N by rewrite !addn_gt0 Hk1.
have := C1 S1 (fi_by1 Hf) (Hodd _ _ HK1 (fi_idx1 Hf)) (fi_lt1 Hf) (fi_prod1 Hf).
have := C2 S2 (fi_by2 Hf) (Hodd _ _ HK2 (fi_idx2 Hf)) (fi_lt2 Hf) (fi_prod2 Hf).
by rewrite !nth_vdef ?(fi_lt1 Hf) ?(fi_lt2 Hf) // => E2 E1; rewrite E1 bind_ok.
Qed.
End C40.

(** The statement fails (a) for two CPUs, (b) for final degree two, (c) for two
    densities; each instance is otherwise supported. *)
Section C40Refuted.
Variables (F : fieldType) (fp : ff_params F) (H : hash_fun).

(** Prove and verify. *)
Definition end_to_end (props : instance_properties F) (trace : seq (seq F)) (lde out : nat) (w : worker) : outcome bool :=
  let* P := prover_new fp props lde out w in
  let* pf := prove fp H P trace in
  let* v := verifier_new fp props lde in
  verify fp H v pf.

Definition rejected (r : outcome bool) : bool := if r is Ok b then ~~ b else false.

Lemma C40_fails props trace lde out w : rejected (end_to_end props trace lde out w) ->
  (0 < w)%N -> satisfied props trace -> ~ C40_statement fp H.
Proof.
rewrite /end_to_end; case EP: (prover_new _ _ _ _ _) => [P| |] //; rewrite bind_ok.
case Epf: (prove _ _ _ _) => [pf| |] //; rewrite bind_ok.
case Ev: (verifier_new _ _ _) => [v| |] //; rewrite bind_ok => Hr Hw Hs HC.
have [v' Ev' E] := HC _ _ _ _ _ _ _ Hw Hs EP Epf.
by move: Ev' Hr; rewrite Ev => -[->]; rewrite E.
Qed.
End C40Refuted.

Lemma rejected_cpus : rejected (end_to_end f257 toy_hash one_density (sq_trace 3) 4 1 2).
Proof. vm_cast_no_check (erefl true). Qed.
Lemma rejected_output : rejected (end_to_end f257 toy_hash one_density (sq_trace 3) 2 2 1).
Proof. vm_cast_no_check (erefl true). Qed.
Definition two_densities5 := sq_props [:: (0, 1); (1, 1)]%N 5.
Lemma two_supported5 : supported_but_density two_densities5.
Proof. by rewrite supportedE; vm_compute. Qed.
Lemma two_satisfied5 : satisfied two_densities5 (sq_trace 5).
Proof. by apply/is_satisfiedP; vm_compute. Qed.
Lemma rejected_densities : rejected (end_to_end f257 toy_hash two_densities5 (sq_trace 5) 4 1 1).
Proof. vm_cast_no_check (erefl true). Qed.

Theorem C40_refuted_cpus : ~ C40_statement f257 toy_hash.
Proof. exact (@C40_fails _ f257 toy_hash one_density (sq_trace 3) 4 1 2 rejected_cpus isT one_satisfied). Qed.
Theorem C40_refuted_output : ~ C40_statement f257 toy_hash.
Proof. exact (@C40_fails _ f257 toy_hash one_density (sq_trace 3) 2 2 1 rejected_output isT one_satisfied). Qed.
Theorem C40_refuted_densities : ~ C40_statement f257 toy_hash.
Proof. exact (@C40_fails _ f257 toy_hash two_densities5 (sq_trace 5) 4 1 1 rejected_densities isT two_satisfied5). Qed.

(** The hypotheses of [C40_completeness_partial] are met: four rows, LDE factor
    4, three CPUs. *)
Example C40_ex : [/\ supported one_density, satisfied one_density (sq_trace 3), (4 < 2 * 3)%N &
  is_ok (let* P := prover_new f257 one_density 4 1 3 in prove f257 toy_hash P (sq_trace 3))].
Proof.
have H1 : single_density one_density by vm_compute.
have H2 : is_ok (let* P := prover_new f257 one_density 4 1 3 in prove f257 toy_hash P (sq_trace 3)).
  by vm_cast_no_check (erefl true).
by split; [rewrite /supported one_supported H1 | exact one_satisfied | | exact H2].
Qed.

Print Assumptions C40_completeness_partial.
Print Assumptions C40_refuted_cpus.
Print Assumptions C40_refuted_output.
Print Assumptions C40_refuted_densities.
