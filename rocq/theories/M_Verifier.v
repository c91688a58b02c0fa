(** Model of src/verifier/mod.rs. *)
From Coq Require Import NArith.
From mathcomp Require Import all_ssreflect all_algebra.
From Verif Require Import M_Base M_Worker M_Field M_Domain M_Fft M_Poly M_Bytes M_Transcript M_Merkle M_Fri.
From Verif Require Import M_Challenge M_Air M_Arp M_Ali.

Set Implicit Arguments.
Unset Strict Implicit.
Unset Printing Implicit Defensive.
Import GRing.Theory.
Local Open Scope ring_scope.

Section Verifier.
Variables (F : fieldType) (fp : ff_params F) (H : hash_fun).

(** src/verifier/mod.rs:95-117 [InstanceProof]. *)
Record instance_proof := Proof {
  pr_f_at_z_m : seq F;
  pr_f_iop_roots : seq digest;
  pr_g_iop_root : digest;
  pr_f_queries : seq (query F);
  pr_g_query : query F;
  pr_h1_iop_roots : seq digest;
  pr_h2_iop_roots : seq digest;
  pr_fri_h1 : fri_proof F;
  pr_fri_h2 : fri_proof F }.

(** src/verifier/mod.rs:144-158. *)
Record verifier := Verifier {
  v_instance : instance_properties F;
  v_max_power : nat;
  v_column_domain : domain F;
  v_constraints_domain : domain F;
  v_all_masks : seq (mask_properties F);
  v_boundary_registers : seq register;
  v_batches : seq (density * seq (constraint F));
  v_lde_factor : nat }.

(** src/verifier/mod.rs:161-244 [new].  u64 products are natural numbers. *)
Definition verifier_new (instance : instance_properties F) (lde_factor : nat) : outcome verifier :=
  let num_rows_sup := next_pow2 (ip_num_rows instance) in
  let* column_domain := domain_new fp num_rows_sup in
  let* cs := mapM (remap_constraint column_domain) (ip_constraints instance) in
  let instance := Props (ip_num_rows instance) (ip_num_registers instance) cs
                    (ip_boundary_constraints instance) in
  let masks := foldl (@get_masks_from_constraint F) [::] cs in
  let max_power := max_degree cs in
  let* constraints_domain := domain_new fp (next_pow2 max_power * num_rows_sup) in
  let batches := batch_by_density cs in
  let masks := foldl (@get_mask_from_boundary_constraint F) masks (ip_boundary_constraints instance) in
  let registers := foldl (fun s b => set_insert s (b_register b)) [::] (ip_boundary_constraints instance) in
  check! all (fun db => all (fun c => c_degree c <= max_power)%N db.2) batches ;;
  Ok (Verifier instance max_power column_domain constraints_domain masks registers batches lde_factor).

(** The [Vec<IndexMap<StepDifference<F>, F>>] of opened values. *)
(** The opened values of src/verifier/mod.rs:206-300. *)
Definition openings := seq (seq (step_difference F * F)).

(** src/verifier/mod.rs:71-94. *)
Definition eval_uni_at_z (witness : openings) (u : univariate_term F) : outcome F :=
  let* reg_num := reg_number (ut_register u) in
  let* m := get witness reg_num in
  let* f := ok_or (im_get m (ut_steps u)) in
  Ok (f ^+ ut_power u * ut_coeff u).

(** src/verifier/mod.rs:43-69. *)
Definition eval_term_at_z (witness : openings) (t : constraint_term F) : outcome F :=
  match t with
  | Univariate u => eval_uni_at_z witness u
  | Polyvariate p =>
      let* result := foldM (fun result u =>
          let* v := eval_uni_at_z witness u in Ok (result * v)) 1 (pt_terms p) in
      Ok (result * pt_coeff p)
  end.

(** src/verifier/mod.rs:30-41. *)
Definition eval_constraint_at_z (witness : openings) (c : constraint F) : outcome F :=
  foldM (fun value t => let* v := eval_term_at_z witness t in Ok (value + v)) (c_constant_term c) (c_terms c).

(** src/verifier/mod.rs:635-677 [inverse_divisor_for_dense_constraint]. *)
Definition inverse_divisor_at (x : F) (column : domain F) (start_at span num_rows : nat) : outcome (F * nat) :=
  let* divisor_degree := dense_divisor_degree (d_size column) start_at span num_rows in
  let* inverse_divisor := ok_or (inverse (x ^+ d_size column - 1)) in
  let* roots := dense_roots (d_gen column) (d_size column) start_at span num_rows in
  Ok (foldl (fun d root => d * (x - root)) inverse_divisor roots, divisor_degree).

(** src/verifier/mod.rs:564-576 and 611-622. *)
Definition adjust_at (z : F) (adjustment : nat) (alpha beta value : F) : F :=
  if adjustment == 0%N then value * alpha else value * (z ^+ adjustment * alpha + beta).

(** src/verifier/mod.rs:488-520: the opened values, per register. *)
Definition opened_values (v : verifier) (f_at_z_m : seq F) : outcome openings :=
  foldM (fun (vals : openings) mf =>
      let: (m, f_at_z) := mf in
      let* _ := (if m.2 is Mask mk then Ok mk else Panic) in
      let* reg_num := reg_number m.1 in
      let* vs := get vals reg_num in
      Ok (set_nth [::] vals reg_num (im_insert vs m.2 f_at_z)))
    (nseq (ip_num_registers (v_instance v)) [::]) (zip (v_all_masks v) f_at_z_m).

(** src/verifier/mod.rs:538-580: a batch of constraints; [chs] are the
    challenges that are left. *)
Definition g_at_z_batch (v : verifier) (vals : openings) (z : F)
    (st : F * seq (F * F)) (db : density * seq (constraint F)) : outcome (F * seq (F * F)) :=
  let* inverse_divisor :=
    (if db.1 is Dense start_at span then
       let* '(d, _) := inverse_divisor_at z (v_column_domain v) start_at span (ip_num_rows (v_instance v)) in
       Ok d
     else Panic) in
  foldM (fun st c =>
      let: (g_at_z, chs) := st in
      check! (c_degree c <= v_max_power v)%N ;;
      if chs is (alpha, beta) :: chs then
        let* value := eval_constraint_at_z vals c in
        let value := adjust_at z (v_max_power v - c_degree c) alpha beta value in
        Ok (g_at_z + value * inverse_divisor, chs)
      else Panic) st db.2.

(** src/verifier/mod.rs:585-628. *)
Definition g_at_z_boundary (v : verifier) (vals : openings) (z : F)
    (st : F * seq (F * F)) (b : boundary_constraint F) : outcome (F * seq (F * F)) :=
  let: (g_at_z, chs) := st in
  let* adjustment := usub (v_max_power v) 1 in
  if chs is (alpha, beta) :: chs then
    let* reg_num := reg_number (b_register b) in
    let* vs := get vals reg_num in
    let* value := ok_or (im_get vs (Mask 1)) in
    let* expected := ok_or (b_value b) in
    let value := value - expected in
    let root := d_gen (v_column_domain v) ^+ b_at_row b in
    let* inverse_divisor := ok_or (inverse (z - root)) in
    let value := adjust_at z adjustment alpha beta value in
    Ok (g_at_z + value * inverse_divisor, chs)
  else Panic.

(** src/verifier/mod.rs:490-631 [calculate_g_at_z_from_f_at_z]. *)
Definition calculate_g_at_z (v : verifier) (chs bchs : seq (F * F)) (f_at_z_m : seq F) (z : F) : outcome F :=
  let* vals := opened_values v f_at_z_m in
  let* '(g_at_z, _) := foldM (g_at_z_batch v vals z) (0, chs) (v_batches v) in
  let* '(g_at_z, _) := foldM (g_at_z_boundary v vals z) (g_at_z, bchs)
                         (ip_boundary_constraints (v_instance v)) in
  Ok g_at_z.

(** src/verifier/mod.rs:405-461 [simulate_h1_from_f_at_z]. *)
Definition simulate_h1 (v : verifier) (mask_challenges : seq F) (natural_x_index : nat) (f_lde_domain : domain F)
    (f_ldes_at_x f_at_z_m : seq F) (z : F) : outcome F :=
  let x := d_gen f_lde_domain ^+ natural_x_index in
  foldM (fun h mfa =>
      let: (m, f_at_z, alpha) := mfa in
      let* mask := (if m.2 is Mask mk then Ok mk else Panic) in
      let root := mask * z in
      let* reg_num := reg_number m.1 in
      let* f_at_x := get f_ldes_at_x reg_num in
      let* den_inv := ok_or (inverse (x - root)) in
      Ok (h + (f_at_x - f_at_z) * den_inv * alpha)) 0
    (zip (zip (v_all_masks v) f_at_z_m) mask_challenges).

(** src/verifier/mod.rs:463-488 [simulate_h2_from_g_at_z]. *)
Definition simulate_h2 (natural_x_index : nat) (g_lde_domain : domain F) (g_lde_at_x z g_at_z : F) : outcome F :=
  let x := d_gen g_lde_domain ^+ natural_x_index in
  let* den_inv := ok_or (inverse (x - z)) in
  Ok ((g_lde_at_x - g_at_z) * den_inv).

(** src/verifier/mod.rs:276-283: a pair of challenges for each element. *)
Definition challenge_pairs A (t : transcript) (s : seq A) : outcome (seq (F * F) * transcript) :=
  foldM (fun (st : seq (F * F) * transcript) _ =>
      let: (chs, t) := st in
      let* '(alpha, t) := get_challenge fp H t in
      let* '(beta, t) := get_challenge fp H t in
      Ok (rcons chs (alpha, beta), t)) ([::], t) s.

(** src/verifier/mod.rs:297-301. *)
Definition mask_challenges A (t : transcript) (s : seq A) : outcome (seq F * transcript) :=
  foldM (fun (st : seq F * transcript) _ =>
      let: (chs, t) := st in
      let* '(alpha, t) := get_challenge fp H t in
      Ok (rcons chs alpha, t)) ([::], t) s.

(** [Vec::last().expect(..)]. *)
(** src/verifier/mod.rs:305, 310. *)
Definition last_root (s : seq digest) : outcome digest :=
  unwrap (if s is x :: s' then Some (last x s') else None).

(** src/verifier/mod.rs:119-142 [InstanceProofScratchSpace], z and the query
    indices: everything the verifier draws from the transcript. *)
Record challenges := Challenges {
  ch_constraints : seq (F * F);
  ch_boundary : seq (F * F);
  ch_z : F;
  ch_masks : seq F;
  ch_index_h1 : nat;
  ch_index_h2 : nat }.

(** src/verifier/mod.rs:269-328: the part of [verify] that talks to the
    transcript, with the two LDE domains it creates on the way. *)
Definition draw_challenges (v : verifier) (proof : instance_proof) :
    outcome (challenges * domain F * domain F) :=
  let* t := transcript_new fp in
  let t := foldl (fun t (r : digest) => commit_bytes t r) t (pr_f_iop_roots proof) in
  let* '(chs, t) := challenge_pairs t (flatten [seq db.2 | db <- v_batches v]) in
  let* '(bchs, t) := challenge_pairs t (ip_boundary_constraints (v_instance v)) in
  let t := commit_bytes t (pr_g_iop_root proof) in
  let* '(z, t) := get_challenge fp H t in
  let* '(alphas, t) := mask_challenges t (v_all_masks v) in
  let* r1 := last_root (pr_h1_iop_roots proof) in
  let t := commit_bytes t r1 in
  let t := foldl (commit_field_element fp) t (fpr_final_coefficients (pr_fri_h1 proof)) in
  let* r2 := last_root (pr_h2_iop_roots proof) in
  let t := commit_bytes t r2 in
  let t := foldl (commit_field_element fp) t (fpr_final_coefficients (pr_fri_h2 proof)) in
  let f_lde_size := (d_size (v_column_domain v) * v_lde_factor v)%N in
  let g_lde_size := (d_size (v_constraints_domain v) * v_lde_factor v)%N in
  let* f_lde_domain := domain_new fp f_lde_size in
  let* g_lde_domain := domain_new fp g_lde_size in
  let: (b1, t) := get_challenge_bytes H t in
  let* i1 := bytes_to_challenge_index b1 f_lde_size (v_lde_factor v) in
  let: (b2, t) := get_challenge_bytes H t in
  let* i2 := bytes_to_challenge_index b2 g_lde_size (v_lde_factor v) in
  Ok (Challenges chs bchs z alphas i1 i2, f_lde_domain, g_lde_domain).

(** src/verifier/mod.rs:340-348: the openings of the witness oracles; [false]
    stops the verification. *)
Definition check_f_queries (proof : instance_proof) (index : nat) : bool :=
  all (fun qr => verify_query fp H qr.1 qr.2 && (q_index qr.1 == index))
      (zip (pr_f_queries proof) (pr_f_iop_roots proof)).

(** src/verifier/mod.rs:265-402 [verify]. *)
Definition verify (v : verifier) (proof : instance_proof) : outcome bool :=
  let* '(chs, f_lde_domain, g_lde_domain) := draw_challenges v proof in
  if size (pr_f_queries proof) != ip_num_registers (v_instance v) then Err
  else if size (pr_f_queries proof) != size (pr_f_iop_roots proof) then Err
  else if ~~ check_f_queries proof (ch_index_h1 chs) then Ok false
  else
    let f_ldes_at_x := [seq q_value q | q <- pr_f_queries proof] in
    let* h1 := simulate_h1 v (ch_masks chs) (ch_index_h1 chs) f_lde_domain f_ldes_at_x
                 (pr_f_at_z_m proof) (ch_z chs) in
    let* g_at_z := calculate_g_at_z v (ch_constraints chs) (ch_boundary chs) (pr_f_at_z_m proof) (ch_z chs) in
    if ~~ verify_query fp H (pr_g_query proof) (pr_g_iop_root proof) then Ok false
    else if q_index (pr_g_query proof) != ch_index_h2 chs then Ok false
    else
      let* h2 := simulate_h2 (ch_index_h2 chs) g_lde_domain (q_value (pr_g_query proof)) (ch_z chs) g_at_z in
      let* valid := verify_proof fp H (pr_fri_h1 proof) (ch_index_h1 chs) h1 in
      if ~~ valid then Ok false
      else verify_proof fp H (pr_fri_h2 proof) (ch_index_h2 chs) h2.

(** src/verifier/mod.rs:330-402: the rest of [verify] (see [verifyE] in
    Prop_SoundGame.v), which takes everything that was drawn as an argument. *)
Definition check_proof (v : verifier) (proof : instance_proof) (chs : challenges) (f_lde_domain g_lde_domain : domain F) :
    outcome bool :=
  if size (pr_f_queries proof) != ip_num_registers (v_instance v) then Err
  else if size (pr_f_queries proof) != size (pr_f_iop_roots proof) then Err
  else if ~~ check_f_queries proof (ch_index_h1 chs) then Ok false
  else
    let f_ldes_at_x := [seq q_value q | q <- pr_f_queries proof] in
    let* h1 := simulate_h1 v (ch_masks chs) (ch_index_h1 chs) f_lde_domain f_ldes_at_x
                 (pr_f_at_z_m proof) (ch_z chs) in
    let* g_at_z := calculate_g_at_z v (ch_constraints chs) (ch_boundary chs) (pr_f_at_z_m proof) (ch_z chs) in
    if ~~ verify_query fp H (pr_g_query proof) (pr_g_iop_root proof) then Ok false
    else if q_index (pr_g_query proof) != ch_index_h2 chs then Ok false
    else
      let* h2 := simulate_h2 (ch_index_h2 chs) g_lde_domain (q_value (pr_g_query proof)) (ch_z chs) g_at_z in
      let* valid := verify_proof fp H (pr_fri_h1 proof) (ch_index_h1 chs) h1 in
      if ~~ valid then Ok false
      else verify_proof fp H (pr_fri_h2 proof) (ch_index_h2 chs) h2.
End Verifier.
