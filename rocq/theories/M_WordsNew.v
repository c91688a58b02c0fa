(** The constructor of the verifier and the sizes that the verifier computes itself, with the integers of
    the machine (see M_Words). *)
From Coq Require Import NArith.
From mathcomp Require Import all_ssreflect all_algebra.
From Verif Require Import M_Base M_Worker M_Field M_Domain M_Fft M_Poly M_Bytes M_Transcript M_Merkle M_Fri.
From Verif Require Import M_Challenge M_Air M_Arp M_Ali M_Verifier M_Words M_WordsFri.

Set Implicit Arguments.
Unset Strict Implicit.
Unset Printing Implicit Defensive.
Import GRing.Theory.
Local Open Scope ring_scope.

Section WordsNew.
Variables (F : fieldType) (fp : ff_params F) (H : hash_fun) (pr : profile) (fuel : nat).

(** src/verifier/mod.rs:161-244 [new].  The number of rows is a [usize], the degrees are [u64]s. *)
Definition w_verifier_new (instance : instance_properties F) (lde_factor : nat) : run (verifier F) :=
  let+ num_rows_sup := Some (w_next_power_of_two pr (ip_num_rows instance)) in
  let+ column_domain := w_domain_new fp pr fuel num_rows_sup in
  let+ cs := Some (mapM (remap_constraint column_domain) (ip_constraints instance)) in
  let instance := Props (ip_num_rows instance) (ip_num_registers instance) cs
                    (ip_boundary_constraints instance) in
  let masks := foldl (@get_masks_from_constraint F) [::] cs in
  let max_power := max_degree cs in
  let+ constraint_power := Some (w_next_power_of_two pr max_power) in
  let+ size := Some (wmul pr 64 constraint_power num_rows_sup) in
  let+ constraints_domain := w_domain_new fp pr fuel size in
  let batches := batch_by_density cs in
  let masks := foldl (@get_mask_from_boundary_constraint F) masks (ip_boundary_constraints instance) in
  let registers := foldl (fun s b => set_insert s (b_register b)) [::] (ip_boundary_constraints instance) in
  if all (fun db => all (fun c => c_degree c <= max_power)%N db.2) batches then
    Some (Ok (Verifier instance max_power column_domain constraints_domain masks registers batches lde_factor))
  else Some Panic.

(** src/verifier/mod.rs:246-263 [bytes_to_challenge_index]. *)
Definition w_bytes_to_challenge_index (s : bytes) (lde_size lde_factor : nat) : outcome nat :=
  let* from := wsub pr 64 (size s) 8 in
  let natural_x_index := be_value (drop from s) in
  check! lde_size != 0%N ;;
  let natural_x_index := N.to_nat (N.modulo natural_x_index (N.of_nat lde_size)) in
  let* r := urem natural_x_index lde_factor in
  let* natural_x_index :=
    (if r == 0%N then let* y := wadd pr 64 natural_x_index 1 in Ok (y %% lde_size)%N else Ok natural_x_index) in
  if (natural_x_index %% 2 == 0)%N then let* y := wadd pr 64 natural_x_index 1 in Ok (y %% lde_size)%N
  else Ok natural_x_index.

(** src/verifier/mod.rs:269-313: the part of [verify] before the sizes, without arithmetic. *)
Definition draw_prefix (v : verifier F) (proof : instance_proof F) :
    outcome (seq (F * F) * seq (F * F) * F * seq F * transcript) :=
  let* t := transcript_new fp in
  let t := foldl (fun t (r : digest) => commit_bytes t r) t (pr_f_iop_roots proof) in
  let* '(chs, t) := challenge_pairs fp H t (flatten [seq db.2 | db <- v_batches v]) in
  let* '(bchs, t) := challenge_pairs fp H t (ip_boundary_constraints (v_instance v)) in
  let t := commit_bytes t (pr_g_iop_root proof) in
  let* '(z, t) := get_challenge fp H t in
  let* '(alphas, t) := mask_challenges fp H t (v_all_masks v) in
  let* r1 := last_root (pr_h1_iop_roots proof) in
  let t := commit_bytes t r1 in
  let t := foldl (commit_field_element fp) t (fpr_final_coefficients (pr_fri_h1 proof)) in
  let* r2 := last_root (pr_h2_iop_roots proof) in
  let t := commit_bytes t r2 in
  let t := foldl (commit_field_element fp) t (fpr_final_coefficients (pr_fri_h2 proof)) in
  Ok (chs, bchs, z, alphas, t).

(** src/verifier/mod.rs:269-326. *)
Definition w_draw_challenges (v : verifier F) (proof : instance_proof F) :
    run (challenges F * domain F * domain F) :=
  let+ '(chs, bchs, z, alphas, t) := Some (draw_prefix v proof) in
  let+ f_lde_size := Some (wmul pr 64 (d_size (v_column_domain v)) (v_lde_factor v)) in
  let+ g_lde_size := Some (wmul pr 64 (d_size (v_constraints_domain v)) (v_lde_factor v)) in
  let+ f_lde_domain := w_domain_new fp pr fuel f_lde_size in
  let+ g_lde_domain := w_domain_new fp pr fuel g_lde_size in
  let: (b1, t) := get_challenge_bytes H t in
  let+ i1 := Some (w_bytes_to_challenge_index b1 f_lde_size (v_lde_factor v)) in
  let: (b2, t) := get_challenge_bytes H t in
  let+ i2 := Some (w_bytes_to_challenge_index b2 g_lde_size (v_lde_factor v)) in
  Some (Ok (Challenges chs bchs z alphas i1 i2, f_lde_domain, g_lde_domain)).

(** src/verifier/mod.rs:265-402 [verify], all of it.  What is left to natural numbers are exponents, row
    numbers and register numbers. *)
Definition w_verify_all (v : verifier F) (proof : instance_proof F) : run bool :=
  let+ '(chs, f_lde_domain, g_lde_domain) := w_draw_challenges v proof in
  if size (pr_f_queries proof) != ip_num_registers (v_instance v) then Some Err
  else if size (pr_f_queries proof) != size (pr_f_iop_roots proof) then Some Err
  else if ~~ check_f_queries fp H proof (ch_index_h1 chs) then Some (Ok false)
  else
    let f_ldes_at_x := [seq q_value q | q <- pr_f_queries proof] in
    let+ h1 := Some (simulate_h1 v (ch_masks chs) (ch_index_h1 chs) f_lde_domain f_ldes_at_x
                 (pr_f_at_z_m proof) (ch_z chs)) in
    let+ g_at_z := Some (calculate_g_at_z v (ch_constraints chs) (ch_boundary chs) (pr_f_at_z_m proof)
                     (ch_z chs)) in
    if ~~ verify_query fp H (pr_g_query proof) (pr_g_iop_root proof) then Some (Ok false)
    else if q_index (pr_g_query proof) != ch_index_h2 chs then Some (Ok false)
    else
      let+ h2 := Some (simulate_h2 (ch_index_h2 chs) g_lde_domain (q_value (pr_g_query proof)) (ch_z chs)
                         g_at_z) in
      let+ valid := w_verify_proof fp H pr fuel (pr_fri_h1 proof) (ch_index_h1 chs) h1 in
      if ~~ valid then Some (Ok false)
      else w_verify_proof fp H pr fuel (pr_fri_h2 proof) (ch_index_h2 chs) h2.
End WordsNew.
