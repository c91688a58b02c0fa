(** C35: witness polynomials interpolate the trace and masks are row shifts. *)
From Coq Require Import NArith.
From mathcomp Require Import all_ssreflect all_algebra.
From Verif Require Import M_Base M_Worker M_Field M_Domain M_Fft M_Poly M_Air M_Arp.
From Verif Require Import Spec SpecPoly SpecAir P_Base P_Fft P_Domain P_Poly P_Wf P_Air P_Arp Instances Prop_Air.

Set Implicit Arguments.
Unset Strict Implicit.
Unset Printing Implicit Defensive.
Import GRing.Theory.
Local Open Scope ring_scope.

Section C35.
Variables (F : fieldType) (fp : ff_params F).
Hypothesis Hok : ff_ok fp.

(** [ps] are the polynomials of the columns of [trace] on a domain of generator
    [g]: one per column, of degree below the number of rows [n], with value
    [column[i]] at [g^i]. *)
Definition interpolates (g : F) (n : nat) (ps : seq (hpoly F Coefficients)) (trace : seq (seq F)) : Prop :=
  size ps = size trace /\
  forall r, (r < size trace)%N ->
    let p := nth (HPoly Coefficients [::] 0 0 0 0 0) ps r in
    [/\ wf_poly fp p, size (p_coeffs p) = n, p_omega p = g &
        forall i, (i < n)%N -> (poly_of (p_coeffs p)).[g ^+ i] = (nth [::] trace r)`_i].

(** The polynomials the objects stand for. *)
Definition polys_of (ps : seq (hpoly F Coefficients)) : seq {poly F} := [seq poly_of (p_coeffs p) | p <- ps].

(** For every number of CPUs and every trace whose [n] rows form a domain, the
    witness polynomials are computed (no error, no panic) when the sizes of the
    trace are those of the instance, and they interpolate the columns; with
    other sizes the call reports an error. *)
Theorem C35_witness_polynomials (w : worker) (props : instance_properties F) (trace : seq (seq F))
    (n : nat) (D : domain F) :
  (0 < w)%N -> (0 < size trace)%N -> all (fun c => size c == n) trace ->
  domain_new fp n = Ok D -> d_size D = n ->
  (size trace = ip_num_registers props -> n = ip_num_rows props ->
   exists ps, calculate_witness_polys fp props w trace = Ok ps /\ interpolates (d_gen D) n ps trace) /\
  (size trace <> ip_num_registers props \/ n <> ip_num_rows props ->
   calculate_witness_polys fp props w trace = Err).
Proof.
move=> Hw H0 Hall; rewrite domain_newE; case: leqP => // Hk [<-] /= Hn.
set k := up_log 2 n in Hk Hn *.
have Hall' : all (fun v : seq F => size v == (2 ^ k)%N) trace by rewrite Hn.
have E := @calculate_witness_std F fp Hok w Hw props k trace H0 Hall' Hk.
rewrite E Hn; split.
- move=> <- <-; rewrite !eqxx /=; eexists; split; first by [].
  split; first by rewrite size_map.
  move=> r Hr /=; rewrite (nth_map [::]) //=.
  have Hv : size (nth [::] trace r) = (2 ^ k)%N by apply/eqP; apply: (all_nthP [::] Hall').
  rewrite (size_ifft_vec fp k); split=> //; first by apply: wf_std => //; rewrite size_ifft_vec.
  move=> i Hi; have := ifft_vecK Hok Hv Hk => /(congr1 (fun s => nth 0 s i)).
  by rewrite nth_evals ?Hn // mul1r.
- by case=> /eqP /negbTE ->; rewrite ?andbF.
Qed.

(** Remapping of constraints: succeeds exactly when the domain exists and all
    offsets are step counts; offsets of [d] steps become the mask [g^d]. *)
Theorem C35_remap_total (props : instance_properties F) :
  all (@c_steps F) (ip_constraints props) -> (up_log 2 (ip_num_rows props) <= ff_S fp)%N ->
  exists props', from_instance fp props = Ok props'.
Proof. by move=> H Hk; rewrite from_instanceE ltnNge Hk H /=; eexists. Qed.

(** The remapped constraints, evaluated on the witness polynomials at g^i, have
    the value of the original constraints at row i (all cells read being in the
    trace). *)
Theorem C35_masks_are_shifts (w : worker) (props props' : instance_properties F) (trace : seq (seq F))
    (ps : seq (hpoly F Coefficients)) (D : domain F) (k i : nat) :
  (0 < w)%N -> all (fun c => size c == d_size D) trace ->
  domain_new fp (ip_num_rows props) = Ok D -> d_size D = ip_num_rows props ->
  from_instance fp props = Ok props' ->
  calculate_witness_polys fp props w trace = Ok ps ->
  (k < size (ip_constraints props))%N ->
  let c := nth c_default (ip_constraints props) k in
  let c' := nth c_default (ip_constraints props') k in
  c_in_trace trace i c ->
  cval (mask_env (polys_of ps) (d_gen D ^+ i)) c' = cval (row_env trace i) c.
Proof.
move=> Hw; rewrite domain_newE; case: (leqP _ _) => // Hk Hall [ED] Hn.
move: Hall Hn; rewrite -ED /= => Hall Hn.
set e := up_log 2 _ in Hk Hn Hall ED *.
rewrite from_instanceE ltnNge Hk /=; case: ifP => // _ [<-] Eps Hkc.
have H0 : (0 < size trace)%N.
  by move: Eps; rewrite /calculate_witness_polys; case: (trace).
move: Eps; rewrite (@calculate_witness_std F fp Hok w Hw props e trace H0 Hall Hk).
case: ifP => // _ [<-] /=; rewrite (nth_map c_default) //.
set c := nth _ _ _ => Hin.
apply: (@mask_cval_eq _ _ _ _ _ (u_in_trace trace i)); last by rewrite -c_in_trace_unis.
move=> u; rewrite /u_in_trace /uval /=; case: (ut_register u) => // r.
case: (ut_steps u) => // d /andP [Hr Hd]; congr (_ * _ ^+ _).
rewrite /= /polys_of -map_comp (nth_map [::]) //=.
have Hv : size (nth [::] trace r) = (2 ^ e)%N by apply/eqP; apply: (all_nthP [::] Hall).
rewrite -exprD addnC; have := ifft_vecK Hok Hv Hk => /(congr1 (fun s => nth 0 s (i + d))).
by rewrite nth_evals -?Hv // mul1r.
Qed.

(** Shifts wrap around the trace: multiplying the argument by the mask of [d]
    steps moves row [i] to row [i + d] modulo the number of rows. *)
Theorem C35_shift_wraps (g : F) n ps trace r i d :
  interpolates g n ps trace -> (r < size trace)%N -> (0 < n)%N -> g ^+ n = 1 ->
  (nth 0 (polys_of ps) r).[g ^+ d * g ^+ i] = (nth [::] trace r)`_((i + d) %% n).
Proof.
case=> Hs H Hr Hn Hg; have [_ _ _ Hv] := H r Hr.
rewrite -Hv ?ltn_mod // /polys_of (nth_map (HPoly Coefficients [::] 0 0 0 0 0)) ?Hs //.
rewrite -exprD addnC {1}(divn_eq (i + d) n) exprD mulnC exprM Hg expr1n mul1r.
by [].
Qed.
End C35.

(** The Fibonacci instance with 8 rows over F_257. *)
Example C35_ex : is_ok (calculate_witness_polys f257 (Props 8 2 [:: fib_c0 F257; fib_c1 F257] [::]) 3
    (fib_columns F257 7)).
Proof. by vm_compute. Qed.
Example C35_ex2 : is_ok (from_instance f257 (Props 8 2 [:: fib_c0 F257; fib_c1 F257] [::])).
Proof. by vm_compute. Qed.

Print Assumptions C35_witness_polynomials.
Print Assumptions C35_remap_total.
Print Assumptions C35_masks_are_shifts.
Print Assumptions C35_shift_wraps.
