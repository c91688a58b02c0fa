(** Property C54: instances whose number of rows or maximal degree is not a
    power of two. *)
From Coq Require Import NArith.
From mathcomp Require Import all_ssreflect all_algebra.
From Verif Require Import M_Base M_Worker M_Field M_Domain M_Fft M_Poly M_Bytes M_Transcript M_Merkle M_Fri.
From Verif Require Import M_Challenge M_Air M_Arp M_Ali M_Verifier M_Prover.
From Verif Require Import Spec SpecAir SpecStark P_Base P_Fft P_Domain P_Poly P_Lde P_PolyOps P_Air P_Arp.
From Verif Require Import P_Vals P_Maps P_Ali P_AliG P_Comp P_Honest P_Stark.
From Verif Require Import Instances Prop_Hash Prop_Air Prop_Arp Prop_Ali Prop_Verify.

Set Implicit Arguments.
Unset Strict Implicit.
Unset Printing Implicit Defensive.
Import GRing.Theory.
Local Open Scope ring_scope.

Section C54.
Variables (F : fieldType) (fp : ff_params F) (H : hash_fun).
Hypothesis Hok : ff_ok fp.

(** The number of rows or the largest declared degree is not a power of two. *)
Definition malformed (props : instance_properties F) : bool :=
  ~~ is_pow2 (ip_num_rows props) || ~~ is_pow2 (\max_(c <- ip_constraints props) c_degree c).

(** C54. Full statement. *)
Definition C54_statement : Prop := forall props lde out w witness,
  (0 < w)%N -> malformed props ->
  (let* P := prover_new fp props lde out w in prove fp H P witness) = Err.

Definition noerr A (x : outcome A) : bool := if x is Err then false else true.
Lemma noerr_mapM A B (f : A -> outcome B) s : (forall x, noerr (f x)) -> noerr (mapM f s).
Proof. by move=> Hf; elim: s => //= x s; have := Hf x; case: (f x) => //= y _; case: (mapM f s). Qed.

Lemma best_fft_bad (a : seq F) w omega log_n hint : size a <> (2 ^ log_n)%N -> best_fft a w omega log_n hint = Panic.
Proof.
move=> /eqP Hs; rewrite /best_fft.
set lc := (match hint with Some _ => _ | None => _ end).
have : noerr lc.
  by rewrite {}/lc /log_num_cpus /log2_floor; case: hint => [h|]; do ?case: ifP.
clearbody lc; case: lc => [lc| |] //= _; case: ifP => _; first by rewrite /serial_fft (negbTE Hs).
rewrite /parallel_fft; case: ifP => // _; case: leqP => // H1.
set m := mapM _ _; have : noerr m by apply: noerr_mapM => j; rewrite /serial_fft; case: ifP.
by clearbody m; case: m => //= m _; rewrite leqNgt ltn_neqAle eq_sym Hs H1.
Qed.

(** The witness of an instance whose number of rows is not a power of two makes
    the prover panic if it has the shape that the instance asks for, and is
    rejected otherwise. *)
Theorem C54_rows_panic props lde out w P witness :
  ~~ is_pow2 (ip_num_rows props) -> prover_new fp props lde out w = Ok P ->
  (0 < size witness)%N -> size witness = ip_num_registers props ->
  all (fun c => size c == ip_num_rows props) witness -> prove fp H P witness = Panic.
Proof.
move=> Hp HP Hw0 Hreg Hall; move: HP; rewrite /prover_new => HP.
have [arp Harp {}HP] := bind_Ok HP; have [ali Hali [<-]] := bind_Ok HP; rewrite /prove /=.
rewrite /transcript_new; case: ifP => //= _.
move: Harp; rewrite /from_instance => Harp; have [col Hcol {}Harp] := bind_Ok Harp.
have [cs Hcs [<-]] := bind_Ok Harp.
case: witness Hw0 Hreg Hall => // c ws _ Hreg /andP [/eqP Hc Hall].
rewrite /calculate_witness_polys [get _ _]/= bind_ok.
have -> : all (fun v : seq F => size c == size v) (c :: ws).
  by rewrite /= eqxx; apply: sub_all Hall => v; rewrite Hc eq_sym.
rewrite /= -Hreg /= eqxx Hc eqxx /= /make_witness_polynomials [get _ _]/= bind_ok.
have -> : all (fun v : seq F => size c == size v) (c :: ws).
  by rewrite /= eqxx; apply: sub_all Hall => v; rewrite Hc eq_sym.
rewrite Hc Hcol bind_ok; case: (inverse _) => //= oi; case: (inverse _) => //= mi.
rewrite best_fft_bad //.
move: Hcol; rewrite /next_pow2 domain_newE; case: ifP => // _ [<-] /= => Ec.
rewrite up_expnK // in Ec; move: Hp; rewrite -Hc Ec is_pow2_exp //.
Qed.

Theorem C54_shape_rejected props lde out w P c witness :
  prover_new fp props lde out w = Ok P -> (ff_num_bits fp <? 256)%num ->
  all (fun c' => size c' == size c) witness ->
  (size witness).+1 <> ip_num_registers props \/ size c <> ip_num_rows props ->
  prove fp H P (c :: witness) = Err.
Proof.
move=> HP Hbits Hall Hne; move: HP; rewrite /prover_new => HP.
have [arp Harp {}HP] := bind_Ok HP; have [ali Hali [<-]] := bind_Ok HP; rewrite /prove /= /transcript_new Hbits /=.
move: Harp; rewrite /from_instance => Harp; have [col Hcol {}Harp] := bind_Ok Harp.
have [cs Hcs [<-]] := bind_Ok Harp; rewrite /calculate_witness_polys [get _ _]/= bind_ok.
have -> : all (fun v : seq F => size c == size v) (c :: witness).
  by rewrite /= eqxx; apply: sub_all Hall => v; rewrite eq_sym.
by rewrite /=; case: eqP => //= E1; case: eqP => //= E2; case: Hne.
Qed.

(** No proof comes out for such a number of rows, and none for a degree that is
    not a power of two, if the instance has a boundary constraint or a term. *)
Theorem C54_no_proof_partial props lde out w P witness pf :
  prover_new fp props lde out w = Ok P -> prove fp H P witness = Ok pf ->
  is_pow2 (ip_num_rows props) /\
  ((0 < size (ip_boundary_constraints props))%N \/ has (fun c => 0 < size (c_terms c))%N (ip_constraints props) ->
   is_pow2 (\max_(c <- ip_constraints props) c_degree c)).
Proof.
move=> HP Hpf; split.
  apply: contraT => Hp.
  case: witness Hpf => [|c ws] Hpf.
    by move: Hpf; rewrite /prove; case: (transcript_new fp) => // t; rewrite bind_ok.
  have : prove fp H P (c :: ws) = Panic \/ prove fp H P (c :: ws) = Err.
    case Ha: (all (fun c' => size c' == size c) ws); last first.
      left; move: HP; rewrite /prover_new => HP.
      have [arp Harp {}HP] := bind_Ok HP; have [ali Hali [<-]] := bind_Ok HP; rewrite /prove /transcript_new /=.
      case: ifP => //= _; rewrite /calculate_witness_polys [get _ _]/= bind_ok /= eqxx /=.
      by rewrite (eq_all (a2 := fun c' => size c' == size c)) ?Ha // => v; rewrite eq_sym.
    have Hbits : (ff_num_bits fp <? 256)%num.
      by move: Hpf; rewrite /prove /transcript_new; case: ifP.
    case: ((size ws).+1 =P ip_num_registers props) => E1; last by right; apply: (C54_shape_rejected HP Hbits Ha); left.
    case: (size c =P ip_num_rows props) => E2; last by right; apply: (C54_shape_rejected HP Hbits Ha); right.
    by left; apply: (C54_rows_panic Hp HP) => //=; rewrite -E2 eqxx.
  by rewrite Hpf; case.
move=> Hb; move: HP Hpf; rewrite /prover_new => HP.
have [arp Harp {}HP] := bind_Ok HP; have [ali Hali [<-]] := bind_Ok HP; rewrite /prove /=.
rewrite /transcript_new; case: ifP => //= _ E; have [wp Hwp {}E] := bind_Ok E; have [fl Hfl {}E] := bind_Ok E.
have [fo Hfo {}E] := bind_Ok E; have [fr Hfr {}E] := bind_Ok E; have [[g t] Hg _] := bind_Ok E.
move: Harp; rewrite from_instanceE; case: ltnP => // _; case: ifP => // _ [Earp].
have [Em Eb Ep] : [/\ a_max_power ali = \max_(c <- ip_constraints props) c_degree c,
    a_batches ali = batch_by_density (ip_constraints arp) & a_properties ali = arp].
  move: Hali; rewrite /from_arp => Ha; have [col _ {}Ha] := bind_Ok Ha; have [con _ {}Ha] := bind_Ok Ha.
  have [pre _ {}Ha] := bind_Ok Ha; have [dv _ {}Ha] := bind_Ok Ha; have [bd _ [<-]] := bind_Ok Ha.
  by split=> //=; rewrite -Earp /= mask_max.
rewrite -Em; move: Hg; rewrite /calculate_g; case: ifP => // _ Hg.
have [gv Hgv {}Hg] := bind_Ok Hg; have [mp Hmp {}Hg] := bind_Ok Hg; have [[[g1 t1] ch1] H1 {}Hg] := bind_Ok Hg.
have [[g2 t2] H2 _] := bind_Ok Hg.
case: Hb => [Hb|Ht].
  move: H2 Hb; rewrite Ep -Earp /=; case: (ip_boundary_constraints props) => // b bs.
  rewrite foldM_cons => H2 _; have [[g3 t3] {}H2 _] := bind_Ok H2; move: H2; rewrite /g_boundary => H2.
  have [[al u1] _ {}H2] := bind_Ok H2; have [[be u2] _ {}H2] := bind_Ok H2; have [adj _ {}H2] := bind_Ok H2.
  have [ad _ {}H2] := bind_Ok H2; have [n _ {}H2] := bind_Ok H2; have [p _ {}H2] := bind_Ok H2.
  have [val _ {}H2] := bind_Ok H2; have [c0 _ {}H2] := bind_Ok H2; have [vv {}H2 _] := bind_Ok H2.
  move: H2; rewrite /coset_lde /coset_lde_using_multiple_cosets; case: eqP => [->|_] //.
  by case: ifP.
rewrite Eb in H1.
have : all (fun c => (0 < size (c_terms c))%N ==> is_pow2 (a_max_power ali)) (ip_constraints arp).
  rewrite -batch_all; apply: foldM_each H1 => -[[g3 t3] ch3] db st'; rewrite /g_batch => E'.
  have [[[b1 t4] ch4] {}E' _] := bind_Ok E'; apply: foldM_each E' => -[[g5 t5] ch5] c st'' E'.
  apply/implyP => Hc; move: E'; rewrite /g_constraint; case: ifP => // _ E'.
  have [[al u1] _ {}E'] := bind_Ok E'; have [[be u2] _ {}E'] := bind_Ok E'; have [ad _ {}E'] := bind_Ok E'.
  have [[v6 ch6] {}E' _] := bind_Ok E'; case: (c_terms c) Hc E' => // tm tms _; rewrite foldM_cons => E'.
  have [[v7 ch7] {}E' _] := bind_Ok E'; have [[v8 ch8] {}E' _] := bind_Ok E'; move: E'.
  by rewrite /eval_term_values; case: ifP.
rewrite -Earp /= all_map; elim: (ip_constraints props) Ht => //= c cs IH /orP [Hc|/IH X] /andP [Hi Hcs]; last exact: X.
by move: Hi; rewrite /= size_map Hc.
Qed.
End C54.

(** Three rows. *)
Definition three_rows : instance_properties F257 :=
  Props 3 1 [:: sq_constraint 0 1] [:: Boundary (Reg 0) 0 (Some 3)].
(** Degree three: x_{i+1} = x_i^3. *)
Definition cube : constraint F257 :=
  Constr 0 [:: Univariate (UTerm 1 (Reg 0) (Steps 1) 1%N); Univariate (UTerm (-1) (Reg 0) (Steps 0) 3%N)] 3%N (Dense 0 1).
Definition degree_three : instance_properties F257 := Props 4 1 [:: cube] [:: Boundary (Reg 0) 0 (Some 3)].
(** A constraint of declared degree three without terms. *)
Definition no_terms : instance_properties F257 := Props 4 1 [:: Constr 0 [::] 3%N (Dense 0 1)] [::].
Definition x3 : F257 := 3.

Section Refute.
Variables (F : fieldType) (fp : ff_params F) (H : hash_fun).
Definition malformed_b (props : instance_properties F) : bool :=
  ~~ is_pow2 (ip_num_rows props) || ~~ is_pow2 (foldr maxn 0%N [seq c_degree c | c <- ip_constraints props]).
Lemma malformedE props : malformed props = malformed_b props.
Proof. by rewrite /malformed /malformed_b foldrE big_map. Qed.
Definition panics A (x : outcome A) : bool := if x is Panic then true else false.
Definition run props trace : outcome (instance_proof F) := let* P := prover_new fp props 4 1 1 in prove fp H P trace.
Lemma C54_fails props trace : malformed_b props -> panics (run props trace) || is_ok (run props trace) -> ~ C54_statement fp H.
Proof.
rewrite -malformedE => Hm Hr HC; move: Hr; rewrite /run (HC props 4%N 1%N 1%N trace) //.
Qed.
End Refute.

Lemma three_rows_panic : panics (run f257 toy_hash three_rows [:: [:: x3; x3 ^+ 2; x3 ^+ 4]]).
Proof. by vm_compute. Qed.
Lemma degree_three_panic : panics (run f257 toy_hash degree_three [:: [:: x3; x3 ^+ 3; x3 ^+ 9; x3 ^+ 27]]).
Proof. by vm_compute. Qed.
Lemma no_terms_proof : is_ok (run f257 toy_hash no_terms [:: [:: x3; x3 ^+ 3; x3 ^+ 9; x3 ^+ 27]]).
Proof. vm_cast_no_check (erefl true). Qed.

Theorem C54_refuted_rows : ~ C54_statement f257 toy_hash.
Proof.
have Hm : malformed_b three_rows by vm_compute.
refine (@C54_fails _ f257 toy_hash three_rows _ Hm _); apply/orP; left; exact three_rows_panic.
Qed.
Theorem C54_refuted_degree : ~ C54_statement f257 toy_hash.
Proof.
have Hm : malformed_b degree_three by vm_compute.
refine (@C54_fails _ f257 toy_hash degree_three _ Hm _); apply/orP; left; exact degree_three_panic.
Qed.
(** A malformed instance for which a proof comes out. *)
Theorem C54_refuted_proof : ~ C54_statement f257 toy_hash.
Proof.
have Hm : malformed_b no_terms by vm_compute.
refine (@C54_fails _ f257 toy_hash no_terms _ Hm _); apply/orP; right; exact no_terms_proof.
Qed.

(** The hypotheses of the positive theorems are met. *)
Example C54_ex : is_ok (prover_new f257 three_rows 4 1 1) /\
  is_ok (let* P := prover_new f257 one_density 4 1 1 in prove f257 toy_hash P (sq_trace 3)).
Proof. split; vm_cast_no_check (erefl true). Qed.

Print Assumptions C54_rows_panic.
Print Assumptions C54_shape_rejected.
Print Assumptions C54_no_proof_partial.
Print Assumptions C54_refuted_rows.
Print Assumptions C54_refuted_degree.
Print Assumptions C54_refuted_proof.
