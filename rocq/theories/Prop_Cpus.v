(** C72: the prover on machines with different numbers of CPUs. *)
From Coq Require Import NArith Lia.
From mathcomp Require Import all_ssreflect all_algebra.
From Verif Require Import M_Base M_Worker M_Field M_Domain M_Fft M_Poly M_Bytes M_Transcript M_Merkle M_Fri.
From Verif Require Import M_Challenge M_Air M_Arp M_Ali M_Verifier M_Prover.
From Verif Require Import Spec SpecPoly SpecFri SpecAir SpecStark SpecMany SpecSound P_Base P_Fft P_Domain P_Poly P_Lde P_PolyOps P_Wf P_Bytes P_Merkle P_Fri P_Air P_Arp.
From Verif Require Import P_Vals P_Maps P_Ali P_AliG P_AliMany P_Comp P_Honest P_Gz P_Deep P_Stark P_Sound P_SoundDeep P_Few P_Run.
From Verif Require Import Instances Prop_Hash Prop_Fri Prop_Air Prop_Arp Prop_Ali Prop_Stark Prop_AnyWitness.

Set Implicit Arguments.
Unset Strict Implicit.
Unset Printing Implicit Defensive.
Import GRing.Theory.
Local Open Scope ring_scope.

Section C72.
Variables (F : fieldType) (fp : ff_params F).
Hypothesis Hok : ff_ok fp.
Notation S := (ff_S fp).

(** What a machine with [w] CPUs answers: it makes a prover for the instance and lets it
    prove the witness. *)
Definition proof_on (H : hash_fun) (w : worker) (props : instance_properties F) (lde out : nat) (trace : seq (seq F)) :
    outcome (instance_proof F) :=
  let* P := prover_new fp props lde out w in prove fp H P trace.

(** Every machine gives the same answer. *)
Definition C72_statement (H : hash_fun) : Prop :=
  forall w w' props lde out trace, (0 < w)%N -> (0 < w')%N ->
  proof_on H w props lde out trace = proof_on H w' props lde out trace.

Lemma bind_congr A B (x y : outcome A) (f g : A -> outcome B) : x = y -> (forall a, f a = g a) ->
  (let* a := x in f a) = (let* a := y in g a).
Proof. by move=> -> E; case: y => //= a; apply: E. Qed.

Lemma from_arp_cpus w w' props : (0 < w)%N -> (0 < w')%N -> from_arp fp props w = from_arp fp props w'.
Proof.
move=> Hw Hw'; rewrite (from_arpE Hok Hw) (from_arpE Hok Hw').
case: ltnP => // Hk; case: ltnP => // HK.
apply: bind_congr => [|divs].
  by apply: eq_foldM => m dn; have := div_ofE Hok Hw dn Hk HK; rewrite -(div_ofE Hok Hw' dn Hk HK) => /= ->.
apply: bind_congr => // ; apply: eq_foldM => m row; have := bdiv_ofE Hok Hw row HK.
by rewrite -(bdiv_ofE Hok Hw' row HK) => /= ->.
Qed.

(** The same prover on another machine. *)
Definition on_cpus (w : worker) (P : prover F) : prover F :=
  Prover (p_arp P) (p_ali P) (p_lde_factor P) (p_final_degree_plus_one P) w.

(** The preparation is the same on every machine. *)
Theorem C72_new w w' props lde out : (0 < w)%N -> (0 < w')%N ->
  prover_new fp props lde out w' = let* P := prover_new fp props lde out w in Ok (on_cpus w' P).
Proof.
move=> Hw Hw'; rewrite /prover_new; case: (from_instance fp props) => //= props'.
by rewrite (from_arp_cpus _ Hw Hw'); case: (from_arp _ _ _).
Qed.

Lemma end_to_end_on H w props lde out trace :
  end_to_end fp H props trace lde out w =
  let* pf := proof_on H w props lde out trace in let* v := verifier_new fp props lde in verify fp H v pf.
Proof. by rewrite /end_to_end /proof_on; case: (prover_new _ _ _ _ _). Qed.

Definition accepted (r : outcome bool) : bool := if r is Ok b then b else false.

Lemma C72_fails H w w' props lde out trace : (0 < w)%N -> (0 < w')%N ->
  rejected (end_to_end fp H props trace lde out w) -> accepted (end_to_end fp H props trace lde out w') ->
  ~ C72_statement H.
Proof.
move=> Hw Hw' Hr Ha HC; move: Hr Ha; rewrite !end_to_end_on (HC w w' _ _ _ _ Hw Hw').
by case: (bind _ _) => // -[].
Qed.

Variable H : hash_fun.
Hypothesis Hdec : forall d, exists x, bytes_to_field fp d = Ok x.
Let decode (d : digest) : F := if bytes_to_field fp d is Ok x then x else 0.
Let HdecP d : bytes_to_field fp d = Ok (decode d).
Proof. by rewrite /decode; have [x ->] := Hdec d. Qed.

Lemma by_values_cpus w w' P lde out : (0 < w)%N -> (0 < w')%N -> wf_poly fp P ->
  proof_from_lde_by_values fp H P lde out w = proof_from_lde_by_values fp H P lde out w'.
Proof.
move=> Hw Hw' /wfE [K [v [-> Hv HK]]].
case Hp: (is_pow2 lde && is_pow2 out); last by rewrite !by_values_bad.
by case/andP: Hp => /is_pow2P [e ->] /is_pow2P [r ->]; rewrite !by_values_exact.
Qed.

Lemma mapM_err A B (f : A -> outcome B) (s : seq A) : (0 < size s)%N -> (forall x, f x = Err) -> mapM f s = Err.
Proof. by case: s => //= x s _ ->. Qed.

(** An instance whose extended domain is too large for the field. *)
Lemma prove_large w props props' a trace k d l out : (0 < w)%N ->
  let wc := [seq ifft_vec fp k c | c <- trace] in
  honest fp props props' trace k d wc -> (0 < size trace)%N -> from_arp fp props' w = Ok a ->
  lde_cpus_ok w (2 ^ d) -> lde_cpus_ok w (2 ^ l) -> (S < k + d + l)%N ->
  calculate_witness_polys fp props' w trace = Ok (map (std fp Coefficients k) wc) ->
  prove fp H (Prover props' a (2 ^ l) out w) trace = check! (ff_num_bits fp <? 256)%num ;; Err.
Proof.
move=> Hw wc HH Htr Ha Hcpu Hcpul HS Ew.
rewrite /prove [p_worker _]/= [p_arp _]/= [p_lde_factor _]/= [p_ali _]/= [p_final_degree_plus_one _]/=.
rewrite /transcript_new; case: (_ <? _)%num => //; rewrite bind_ok Ew bind_ok.
have Hwc0 : (0 < size wc)%N by rewrite size_map.
have Hsz := hn_sizes HH.
case: (leqP (k + l) S) => HK; last first.
  have -> // : mapM (fun f => lde fp f w (2 ^ l)) (map (std fp Coefficients k) wc) = Err.
  case: (wc) Hwc0 Hsz => // c s _ /= /andP [/eqP Hc Hs].
  by rewrite (vf_lde Hok Hw Hc (hn_k HH) Hcpul) leqNgt HK.
have -> : mapM (fun f => lde fp f w (2 ^ l)) (map (std fp Coefficients k) wc) =
          Ok [seq vf fp (k + l) 1 (horner (poly_of c)) | c <- wc].
  elim: (wc) Hsz => //= c s IH /andP [/eqP Hc Hs].
  by rewrite (vf_lde Hok Hw Hc (hn_k HH) Hcpul) HK bind_ok IH.
rewrite bind_ok.
have HK0 : (0 < k + l)%N by have := hn_1k HH; case: (k).
have -> : mapM (fun p : hpoly F Values => tree_create fp H w (p_coeffs p)) [seq vf fp (k + l) 1 (horner (poly_of c)) | c <- wc] =
          Ok [seq vtree fp H (k + l) (fvals fp k l c) | c <- wc].
  elim: (wc) => //= c s IH.
  by rewrite -/(fvals fp k l c) (tree_createP fp H Hw (size_fvals fp k l c) HK0) bind_ok IH.
rewrite bind_ok.
have -> : mapM (@get_root) [seq vtree fp H (k + l) (fvals fp k l c) | c <- wc] = Ok (f_roots fp H trace k l).
  rewrite /f_roots -/wc; elim: (wc) => // c s IH; rewrite [LHS]/= get_root_vtree ?size_fvals //.
  by rewrite bind_ok IH.
have [comp [Hcs [_ Hcg]]] := any_comp Hok Hw HH Ha Hcpu.
rewrite bind_ok (Hcg H decode HdecP) bind_ok.
set g := mkseq _ _; have Hg : size g = (2 ^ (k + d))%N by rewrite size_mkseq.
by rewrite (vf_lde Hok Hw Hg (honest_kd Hok Hw HH Ha) Hcpul) leqNgt HS.
Qed.

(** Numbers of CPUs for which the extensions are right (C09): the answer is the same,
    whatever the witness. *)
Theorem C72_same_proof_partial w w' props lde out trace : (0 < w)%N -> (0 < w')%N ->
  supported_but_density props -> cpus_ok w props lde -> cpus_ok w' props lde -> is_pow2 lde -> (ff_num_bits fp <? 256)%num ->
  proof_on H w props lde out trace = proof_on H w' props lde out trace.
Proof.
move=> Hw Hw' Hsup Hc Hc' Hlde Hbits; rewrite /proof_on; have E := C72_new props lde out Hw Hw'.
case HP: (prover_new fp props lde out w) E => [P| |] ->; [|by []|by []].
rewrite -[LHS]/(prove fp H P trace) -[RHS]/(prove fp H (on_cpus w' P) trace).
have HP' : prover_new fp props lde out w' = Ok (on_cpus w' P) by rewrite (C72_new _ _ _ Hw Hw') HP.
case Hsh: (right_shape props trace); last first.
  by rewrite (C64_shapes H Hw HP Hbits (negbT Hsh)) (C64_shapes H Hw' HP' Hbits (negbT Hsh)).
have [k [d [l [props' [a [El EP Hinst Ha [HH Hall Hws]]]]]]] := shape_setup Hok Hw Hsup HP Hsh Hlde.
have Htr : (0 < size trace)%N by case/and3P: Hsh.
rewrite /on_cpus {HP HP'}; subst P lde; rewrite [p_arp _]/= [p_ali _]/= [p_lde_factor _]/= [p_final_degree_plus_one _]/=.
have Ha' : from_arp fp props' w' = Ok a by rewrite -(from_arp_cpus _ Hw Hw').
have Hws' : calculate_witness_polys fp props' w' trace = Ok (map (std fp Coefficients k) [seq ifft_vec fp k c | c <- trace]).
  have := calculate_witness_std Hok Hw props' Htr Hall (hn_k HH).
  by rewrite (calculate_witness_std Hok Hw' props' Htr Hall (hn_k HH)) Hws.
have [Hcpu Hcpul] := cpus_split Hc (hn_max HH); have [Hcpu' Hcpul'] := cpus_split Hc' (hn_max HH).
case: (leqP (k + d + l) S) => HS; last first.
  by rewrite (prove_large out Hw HH Htr Ha Hcpu Hcpul HS Hws) (prove_large out Hw' HH Htr Ha' Hcpu' Hcpul' HS Hws').
have [comp [Hcs [Hcv Hcg]]] := any_comp Hok Hw HH Ha Hcpu.
have [comp' [Hcs' [Hcv' Hcg']]] := any_comp Hok Hw' HH Ha' Hcpu'.
have Hkd := honest_kd Hok Hw HH Ha.
have Ecomp chs bchs : comp' chs bchs = comp chs bchs.
  have Hg0 : ff_gen fp != 0 by case: Hok.
  apply: (interp_points Hok Hkd Hg0 (Hcs' chs bchs) (Hcs chs bchs)).
  by move=> x Hx; rewrite Hcv' // Hcv.
have Hcg2 : forall t, calculate_g fp H a t (map (std fp Coefficients k) [seq ifft_vec fp k c | c <- trace]) w' =
    Ok (std fp Coefficients (k + d)
        (mkseq (fun i => (comp (stream_pairs H decode t (size (ip_constraints props')))
            (stream_pairs H decode (stream_state H t (size (ip_constraints props')).*2) (size (ip_boundary_constraints props'))))`_i) (2 ^ (k + d))),
      stream_state H t (size (ip_constraints props') + size (ip_boundary_constraints props')).*2).
  move=> t; rewrite (Hcg' H decode HdecP); congr (Ok (std _ _ _ _, _)).
  by apply: eq_mkseq => i; rewrite Ecomp.
rewrite (P_Run.proveE Hok HdecP Hw out HH Htr Ha Hcpul HS Hcs (Hcg H decode HdecP) Hws erefl).
rewrite (P_Run.proveE Hok HdecP Hw' out HH Htr Ha' Hcpul' HS Hcs Hcg2 Hws' erefl).
case: (_ <? _)%num => //; case: ifP => // _; rewrite /finish.
have HK : (k + l <= S)%N by apply: leq_trans HS; rewrite leq_add2r leq_addr.
have V L f : (L <= S)%N -> wf_poly fp (vf fp L 1 f).
  by move=> HL; apply: (wf_std Values _ HL); rewrite size_map size_points.
by rewrite (by_values_cpus (2 ^ l) out Hw' Hw (V _ _ HK)) (by_values_cpus (2 ^ l) out Hw' Hw (V _ _ HS)).
Qed.
End C72.

(** Two CPUs and blow-up factor four: another answer than on one CPU, because the proof
    is rejected. *)
Theorem C72_refuted : ~ C72_statement f257 toy_hash.
Proof.
have H1 : accepted (end_to_end f257 toy_hash one_density (sq_trace 3) 4 1 1) by vm_cast_no_check (erefl true).
exact (@C72_fails _ f257 toy_hash 2 1 one_density 4 1 (sq_trace 3) isT isT rejected_cpus H1).
Qed.

(** The hypotheses are met by the squaring instance with four rows, blow-up factor four, on
    three and on one CPU, and the answer is a proof. *)
Example C72_ex : [/\ supported_but_density one_density, cpus_ok 3 one_density 4, cpus_ok 1 one_density 4 &
  is_ok (proof_on f257 toy_hash 3 one_density 4 1 (sq_trace 3))].
Proof. by split; [exact: one_supported | exact: one_cpus | | vm_cast_no_check (erefl true)]. Qed.

Print Assumptions C72_new.
Print Assumptions C72_same_proof_partial.
Print Assumptions C72_refuted.
