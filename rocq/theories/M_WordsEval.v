(** The verifier's value of the composition polynomial, and the verifier with it, with the integers of the
    machine (see M_Words). *)
From Coq Require Import NArith.
From mathcomp Require Import all_ssreflect all_algebra.
From Verif Require Import M_Base M_Worker M_Field M_Domain M_Fft M_Poly M_Bytes M_Transcript M_Merkle M_Fri.
From Verif Require Import M_Challenge M_Air M_Arp M_Ali M_Verifier M_Words M_WordsFri M_WordsNew M_WordsRange.

Set Implicit Arguments.
Unset Strict Implicit.
Unset Printing Implicit Defensive.
Import GRing.Theory.
Local Open Scope ring_scope.

Section WordsEval.
Variables (F : fieldType) (fp : ff_params F) (H : hash_fun) (pr : profile) (fuel : nat).

(** src/verifier/mod.rs:525-580: a batch of constraints.  [max_constraint_power - constraint_power] comes
    after the assertion that it does not wrap. *)
Definition w_g_at_z_batch (v : verifier F) (vals : openings F) (z : F)
    (st : F * seq (F * F)) (db : density * seq (constraint F)) : outcome (F * seq (F * F)) :=
  let* inverse_divisor :=
    (if db.1 is Dense start_at span then
       let* '(d, _) := w_inverse_divisor_at pr z (v_column_domain v) start_at span (ip_num_rows (v_instance v)) in
       Ok d
     else Panic) in
  foldM (fun st c =>
      let: (g_at_z, chs) := st in
      check! (c_degree c <= v_max_power v)%N ;;
      if chs is (alpha, beta) :: chs then
        let* value := eval_constraint_at_z vals c in
        let* adjustment := wsub pr 64 (v_max_power v) (c_degree c) in
        let value := adjust_at z adjustment alpha beta value in
        Ok (g_at_z + value * inverse_divisor, chs)
      else Panic) st db.2.

(** src/verifier/mod.rs:585-628: [max_constraint_power - 1] is not preceded by an assertion. *)
Definition w_g_at_z_boundary (v : verifier F) (vals : openings F) (z : F)
    (st : F * seq (F * F)) (b : boundary_constraint F) : outcome (F * seq (F * F)) :=
  let: (g_at_z, chs) := st in
  let* adjustment := wsub pr 64 (v_max_power v) 1 in
  if chs is (alpha, beta) :: chs then
    let* reg_num := reg_number (b_register b) in
    let* vs := get vals reg_num in
    let* value := ok_or (im_get vs (Mask 1)) in
    let* expected := ok_or (b_value b) in
    let value := value - expected in
    let root := d_gen (v_column_domain v) ^+ b_at_row b in
    let* inverse_divisor := ok_or (inverse (z - root)) in
    let value := adjust_at z adjustment alpha beta value in
    Ok (g_at_z + value * inverse_divisor, chs)
  else Panic.

(** src/verifier/mod.rs:490-631 [calculate_g_at_z_from_f_at_z]. *)
Definition w_calculate_g_at_z (v : verifier F) (chs bchs : seq (F * F)) (f_at_z_m : seq F) (z : F) : outcome F :=
  let* vals := opened_values v f_at_z_m in
  let* '(g_at_z, _) := foldM (w_g_at_z_batch v vals z) (0, chs) (v_batches v) in
  let* '(g_at_z, _) := foldM (w_g_at_z_boundary v vals z) (g_at_z, bchs)
                         (ip_boundary_constraints (v_instance v)) in
  Ok g_at_z.

(** src/verifier/mod.rs:265-402 [verify], as [w_verify_all] of M_WordsNew, with the value above. *)
Definition w_verify_words (v : verifier F) (proof : instance_proof F) : run bool :=
  let+ '(chs, f_lde_domain, g_lde_domain) := w_draw_challenges fp H pr fuel v proof in
  if size (pr_f_queries proof) != ip_num_registers (v_instance v) then Some Err
  else if size (pr_f_queries proof) != size (pr_f_iop_roots proof) then Some Err
  else if ~~ check_f_queries fp H proof (ch_index_h1 chs) then Some (Ok false)
  else
    let f_ldes_at_x := [seq q_value q | q <- pr_f_queries proof] in
    let+ h1 := Some (simulate_h1 v (ch_masks chs) (ch_index_h1 chs) f_lde_domain f_ldes_at_x
                 (pr_f_at_z_m proof) (ch_z chs)) in
    let+ g_at_z := Some (w_calculate_g_at_z v (ch_constraints chs) (ch_boundary chs) (pr_f_at_z_m proof)
                     (ch_z chs)) in
    if ~~ verify_query fp H (pr_g_query proof) (pr_g_iop_root proof) then Some (Ok false)
    else if q_index (pr_g_query proof) != ch_index_h2 chs then Some (Ok false)
    else
      let+ h2 := Some (simulate_h2 (ch_index_h2 chs) g_lde_domain (q_value (pr_g_query proof)) (ch_z chs)
                         g_at_z) in
      let+ valid := w_verify_proof fp H pr fuel (pr_fri_h1 proof) (ch_index_h1 chs) h1 in
      if ~~ valid then Some (Ok false)
      else w_verify_proof fp H pr fuel (pr_fri_h2 proof) (ch_index_h2 chs) h2.
End WordsEval.
