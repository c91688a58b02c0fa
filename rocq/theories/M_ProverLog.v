(** The prover with a log of what it draws from the transcript.

    These are copies of [g_constraint], [g_batch], [g_boundary], [calculate_g],
    [deep_mask], [calculate_deep] (M_Ali.v) and [prove] (M_Prover.v) that model
    the same lines of /repo and also return the challenges and query indices in
    the order in which they were drawn.  [Prop_Challenges.prove_erase] shows that
    they compute what the functions of the model compute. *)
From Coq Require Import NArith.
From mathcomp Require Import all_ssreflect all_algebra.
From Verif Require Import M_Base M_Worker M_Field M_Domain M_Fft M_Poly M_Bytes M_Transcript M_Merkle M_Fri.
From Verif Require Import M_Challenge M_Air M_Arp M_Ali M_Verifier M_Prover.

Set Implicit Arguments.
Unset Strict Implicit.
Unset Printing Implicit Defensive.
Import GRing.Theory.
Local Open Scope ring_scope.

Section Log.
Variables (F : fieldType) (fp : ff_params F) (H : hash_fun).

(** src/ali/per_register/mod.rs:421-467 with the log of (alpha, beta). *)
Definition g_constraint_log (a : ali_instance F) (w : worker) masked (g_values : hpoly F Values)
    (st : hpoly F Values * transcript * cache F * seq (F * F)) (c : constraint F) :
    outcome (hpoly F Values * transcript * cache F * seq (F * F)) :=
  let: (batch_values, t, ch, log) := st in
  check! (c_degree c <= a_max_power a)%N ;;
  let adjustment := (a_max_power a - c_degree c)%N in
  let* '(alpha, t) := get_challenge fp H t in
  let* '(beta, t) := get_challenge fp H t in
  let* adj := adjust fp a w adjustment alpha beta in
  let* '(v, ch) := foldM (fun st term =>
      let: (v, ch) := st in
      let* '(s, ch) := eval_term_values fp masked (a_max_power a) w ch term in
      let* v := add_assign v w s in Ok (v, ch)) (g_values, ch) (c_terms c) in
  let v := add_constant v w (c_constant_term c) in
  let* v := apply_adjustment w alpha adj v in
  let* batch_values := add_assign batch_values w v in
  Ok (batch_values, t, ch, rcons log (alpha, beta)).

(** src/ali/per_register/mod.rs:419-474. *)
Definition g_batch_log (a : ali_instance F) (w : worker) masked
    (st : hpoly F Values * transcript * cache F * seq (F * F)) (db : density * seq (constraint F)) :
    outcome (hpoly F Values * transcript * cache F * seq (F * F)) :=
  let: (g_values, t, ch, log) := st in
  let* '(batch_values, t, ch, log) := foldM (g_constraint_log a w masked g_values) (g_values, t, ch, log) db.2 in
  let* divisors := unwrap (im_get (a_divisors a) db.1) in
  let* batch_values := mul_assign batch_values w divisors in
  let* g_values := add_assign g_values w batch_values in
  Ok (g_values, t, ch, log).

(** src/ali/per_register/mod.rs:479-524. *)
Definition g_boundary_log (a : ali_instance F) (w : worker) (witness : seq (hpoly F Coefficients))
    (st : hpoly F Values * transcript * seq (F * F)) (b : boundary_constraint F) :
    outcome (hpoly F Values * transcript * seq (F * F)) :=
  let: (g_values, t, log) := st in
  let* '(alpha, t) := get_challenge fp H t in
  let* '(beta, t) := get_challenge fp H t in
  let* adjustment := usub (a_max_power a) 1 in
  let* adj := adjust fp a w adjustment alpha beta in
  let* n := reg_number (b_register b) in
  let* p := get witness n in
  let* value := unwrap (b_value b) in
  let* c0 := get (p_coeffs p) 0 in
  let p := with_coeffs Coefficients p (set_nth 0 (p_coeffs p) 0 (c0 - value)) in
  let* v := coset_lde fp p w (a_max_power a) in
  let* v := apply_adjustment w alpha adj v in
  let* divisors := unwrap (im_get (a_boundary_divisors a) (b_at_row b)) in
  let* v := mul_assign v w divisors in
  let* g_values := add_assign g_values w v in
  Ok (g_values, t, rcons log (alpha, beta)).

(** src/ali/per_register/mod.rs:246-529. *)
Definition calculate_g_log (a : ali_instance F) (t : transcript) (witness : seq (hpoly F Coefficients))
    (w : worker) : outcome (hpoly F Coefficients * transcript * seq (F * F) * seq (F * F)) :=
  check! size witness == ip_num_registers (a_properties a) ;;
  let* g_values := new_for_size fp Values (d_size (a_constraints_domain a)) in
  let* masked := masked_polynomials a witness w in
  let* '(g_values, t, _, log) := foldM (g_batch_log a w masked) (g_values, t, [::], [::]) (a_batches a) in
  let* '(g_values, t, blog) := foldM (g_boundary_log a w witness) (g_values, t, [::])
                           (ip_boundary_constraints (a_properties a)) in
  let* g := icoset_fft g_values w in
  Ok (g, t, log, blog).

(** src/ali/per_register/deep.rs:32-87 with the log of alpha. *)
Definition deep_mask_log (f_polys : seq (hpoly F Coefficients)) (f_ldes : seq (hpoly F Values)) (f_lde_size : nat)
    (w : worker) (z : F)
    (st : hpoly F Values * seq F * seq (step_difference F * hpoly F Values) * transcript * seq F)
    (m : mask_properties F) :
    outcome (hpoly F Values * seq F * seq (step_difference F * hpoly F Values) * transcript * seq F) :=
  let: (h1, vals, divisors, t, log) := st in
  let* mask := (if m.2 is Mask mk then Ok mk else Panic) in
  let root := mask * z in
  let* reg := reg_number m.1 in
  let* f := get f_polys reg in
  let value := evaluate_at f w root in
  let* '(divisor, divisors) :=
    (if im_get divisors m.2 is Some d then Ok (d, divisors)
     else
       let* q := linear_poly fp root in
       let* v := evaluate_at_domain_for_degree_one fp q w f_lde_size in
       let* v := batch_inversion v w in
       Ok (v, im_insert divisors m.2 v)) in
  let* l := get f_ldes reg in
  let l := add_constant l w (- value) in
  let* '(alpha, t) := get_challenge fp H t in
  let l := scale l w alpha in
  let* l := mul_assign l w divisor in
  let* h1 := add_assign h1 w l in
  Ok (h1, rcons vals value, divisors, t, rcons log alpha).

(** src/ali/per_register/deep.rs:14-149 with z and the log. *)
Definition calculate_deep_log (a : ali_instance F) (f_polys : seq (hpoly F Coefficients))
    (f_ldes : seq (hpoly F Values)) (g_poly : hpoly F Coefficients) (g_lde : hpoly F Values)
    (t : transcript) (w : worker) :
    outcome (hpoly F Values * hpoly F Values * seq F * F * transcript * F * seq F) :=
  let* '(z, t) := get_challenge fp H t in
  let* l0 := get f_ldes 0 in
  let f_lde_size := p_size l0 in
  let g_lde_size := p_size g_lde in
  let* h1 := new_for_size fp Values f_lde_size in
  let* '(h1, vals, _, t, log) :=
    foldM (deep_mask_log f_polys f_ldes f_lde_size w z) (h1, [::], [::], t, [::]) (a_all_masks a) in
  let* q := linear_poly fp z in
  let* v := evaluate_at_domain_for_degree_one fp q w g_lde_size in
  let* v := batch_inversion v w in
  let g_at_z := evaluate_at g_poly w z in
  let h2 := add_constant g_lde w (- g_at_z) in
  let* h2 := mul_assign h2 w v in
  Ok (h1, h2, vals, g_at_z, t, z, log).

(** src/prover/mod.rs:66-174: the proof and everything drawn on the way. *)
Definition prove_log (p : prover F) (witness : seq (seq F)) : outcome (instance_proof F * challenges F) :=
  let w := p_worker p in
  let* t := transcript_new fp in
  let* witness_polys := calculate_witness_polys fp (p_arp p) w witness in
  let* f_ldes := mapM (fun f => lde fp f w (p_lde_factor p)) witness_polys in
  let* f_oracles := mapM (fun l : hpoly F Values => tree_create fp H w (p_coeffs l)) f_ldes in
  let* f_iop_roots := mapM get_root f_oracles in
  let t := foldl (fun t (r : digest) => commit_bytes t r) t f_iop_roots in
  let* '(g_poly, t, chs, bchs) := calculate_g_log (p_ali p) t witness_polys w in
  let* g_lde := lde fp g_poly w (p_lde_factor p) in
  let* g_oracle := tree_create fp H w (p_coeffs g_lde) in
  let* g_iop_root := get_root g_oracle in
  let t := commit_bytes t g_iop_root in
  let* '(h1_lde, h2_lde, f_at_z_m, _, t, z, alphas) :=
    calculate_deep_log (p_ali p) witness_polys f_ldes g_poly g_lde t w in
  let* h1_proto := proof_from_lde_by_values fp H h1_lde (p_lde_factor p) (p_final_degree_plus_one p) w in
  let* h2_proto := proof_from_lde_by_values fp H h2_lde (p_lde_factor p) (p_final_degree_plus_one p) w in
  let* h1_iop_roots := fpt_get_roots h1_proto in
  let* h2_iop_roots := fpt_get_roots h2_proto in
  let t := commit_bytes t (fpt_final_root h1_proto) in
  let t := foldl (commit_field_element fp) t (fpt_final_coefficients h1_proto) in
  let t := commit_bytes t (fpt_final_root h2_proto) in
  let t := foldl (commit_field_element fp) t (fpt_final_coefficients h2_proto) in
  let: (b1, t) := get_challenge_bytes H t in
  let* i1 := bytes_to_challenge_index b1 (p_size h1_lde) (p_lde_factor p) in
  let: (b2, t) := get_challenge_bytes H t in
  let* i2 := bytes_to_challenge_index b2 (p_size h2_lde) (p_lde_factor p) in
  let* h1_proof := produce_proof fp H h1_proto h1_lde i1 in
  let* h2_proof := produce_proof fp H h2_proto h2_lde i2 in
  let* f_queries := mapM (fun ol => iop_query fp H ol.1 i1 (p_coeffs ol.2)) (zip f_oracles f_ldes) in
  let* g_query := iop_query fp H g_oracle i2 (p_coeffs g_lde) in
  Ok (Proof f_at_z_m f_iop_roots g_iop_root f_queries g_query h1_iop_roots h2_iop_roots h1_proof h2_proof,
      Challenges chs bchs z alphas i1 i2).
End Log.
