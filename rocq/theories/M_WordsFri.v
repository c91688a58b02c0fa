(** The FRI verifier and the verifier with the integers of the machine (see M_Words).  The two sizes in
    the proof, [initial_degree_plus_one] and [lde_factor] (src/fri/mod.rs [FRIProof]), are numbers the
    prover writes; they reach the arithmetic unchecked. *)
From Coq Require Import NArith.
From mathcomp Require Import all_ssreflect all_algebra.
From Verif Require Import M_Base M_Worker M_Field M_Domain M_Fft M_Poly M_Bytes M_Transcript M_Merkle M_Fri.
From Verif Require Import M_Challenge M_Air M_Arp M_Ali M_Verifier M_Words.

Set Implicit Arguments.
Unset Strict Implicit.
Unset Printing Implicit Defensive.
Import GRing.Theory.
Local Open Scope ring_scope.

Section WordsFri.
Variables (F : fieldType) (fp : ff_params F) (H : hash_fun) (pr : profile) (fuel : nat).

(** src/iop/trivial_coset_combiner.rs:31-38 [get_coset_for_natural_index]. *)
Definition w_get_coset (natural_index domain_size : nat) : outcome (seq nat) :=
  check! (natural_index < domain_size)%N ;;
  let* s := wadd pr 64 natural_index (domain_size %/ 2) in
  let pair := (s %% domain_size)%N in
  Ok (sort leq [:: natural_index; pair]).

(** src/domains/mod.rs:56-71 [index_and_size_for_next_domain]. *)
Definition w_next_domain (natural_index domain_size : nat) : outcome (nat * nat) :=
  check! (1 < domain_size)%N ;;
  check! is_pow2 domain_size ;;
  let next_size := (domain_size %/ 2)%N in
  let* next_index :=
    (if (natural_index < next_size)%N then Ok natural_index else wsub pr 64 natural_index next_size) in
  Ok (next_index, next_size).

(** src/fri/verifier.rs:136-162; line 146 multiplies the two sizes of the proof. *)
Definition w_verify_start (p : fri_proof F) (natural_element_index : nat) : run (F * verify_state F) :=
  let+ two_inv := Some (ok_or (inverse (fri_two F))) in
  let+ initial_size := Some (wmul pr 64 (fpr_degree_plus_one p) (fpr_lde_factor p)) in
  let+ domain := w_domain_new fp pr fuel initial_size in
  let domain_element := d_gen domain ^+ natural_element_index in
  if domain_element ^+ d_size domain != 1 then Some Err
  else if domain_element ^+ (d_size domain %/ 2)%N == 1 then Some Err
  else
    let+ omega_inv := Some (ok_or (inverse (d_gen domain))) in
    Some (Ok (two_inv, VerifyState None (d_size domain) natural_element_index (d_gen domain) omega_inv)).

(** src/fri/verifier.rs:170-268, as [verify_queries_step] of M_Fri. *)
Definition w_verify_queries_step (two_inv : F) (natural_element_index : nat) (expected_from_oracle : F)
    (ost : option (verify_state F)) (rq : nat * (digest * seq (query F))) :
    outcome (option (verify_state F)) :=
  if ost is Some st then
    let: (round, (root, queries)) := rq in
    let domain_idx := vs_idx st in
    let* coset_values := w_get_coset domain_idx (vs_size st) in
    if size coset_values != 2%N then Err
    else if ~~ all (fun q => q_index q \in coset_values) queries then Ok None
    else if (round == 0%N) &&
            has (fun q => (q_index q == natural_element_index) && (q_value q != expected_from_oracle)) queries
    then Ok None
    else if ~~ all (fun cq => q_index cq.2 == cq.1) (zip coset_values queries) then Err
    else if ~~ all (fun q => verify_query fp H q root) queries then Ok None
    else
      let* challenge := encode_root_into_challenge fp root in
      let* q0 := get queries 0 in
      let f_at_omega := q_value q0 in
      let* consistent :=
        (if vs_expected st is Some value then
           if domain_idx \notin coset_values then Ok false
           else
             let q := [seq el <- queries | q_index el == domain_idx] in
             if size q != 1%N then Ok false
             else let* qq := get q 0 in Ok (q_value qq == value)
         else Ok true) in
      if ~~ consistent then Ok None
      else
        let* q1 := get queries 1 in
        let f_at_minus_omega := q_value q1 in
        let divisor := vs_omega_inv st ^+ nth 0%N coset_values 0 in
        let tmp := fold_value two_inv divisor challenge f_at_omega f_at_minus_omega in
        let* next := w_next_domain domain_idx (vs_size st) in
        Ok (Some (VerifyState (Some tmp) next.2 next.1 (vs_omega st * vs_omega st)
                              (vs_omega_inv st * vs_omega_inv st)))
  else Ok None.

(** src/fri/verifier.rs:131-289 [verify_proof_queries]; src/fri/mod.rs:96-103 calls it with degree 2. *)
Definition w_verify_proof (p : fri_proof F) (natural_element_index : nat) (expected : F) : run bool :=
  let degree := 2%N in
  let+ start := w_verify_start p natural_element_index in
  if (size (fpr_queries p) %% degree != 0)%N then Some Err
  else
    Some (let* ost := foldM (w_verify_queries_step start.1 natural_element_index expected) (Some start.2)
              (enumerate (zip (fpr_roots p) (chunks_exact degree (fpr_queries p)))) in
          if ost is Some st then verify_end (fpr_final_coefficients p) st else Ok false).

(** src/verifier/mod.rs:265-402 [verify].  Up to the calls of the FRI verifier (lines 385-402) the sizes
    are those of the verifier's own instance, not of the proof: that part is taken from M_Verifier. *)
Definition w_verify (v : verifier F) (proof : instance_proof F) : run bool :=
  let+ '(chs, f_lde_domain, g_lde_domain) := Some (draw_challenges fp H v proof) in
  if size (pr_f_queries proof) != ip_num_registers (v_instance v) then Some Err
  else if size (pr_f_queries proof) != size (pr_f_iop_roots proof) then Some Err
  else if ~~ check_f_queries fp H proof (ch_index_h1 chs) then Some (Ok false)
  else
    let f_ldes_at_x := [seq q_value q | q <- pr_f_queries proof] in
    let+ h1 := Some (simulate_h1 v (ch_masks chs) (ch_index_h1 chs) f_lde_domain f_ldes_at_x
                 (pr_f_at_z_m proof) (ch_z chs)) in
    let+ g_at_z := Some (calculate_g_at_z v (ch_constraints chs) (ch_boundary chs) (pr_f_at_z_m proof)
                     (ch_z chs)) in
    if ~~ verify_query fp H (pr_g_query proof) (pr_g_iop_root proof) then Some (Ok false)
    else if q_index (pr_g_query proof) != ch_index_h2 chs then Some (Ok false)
    else
      let+ h2 := Some (simulate_h2 (ch_index_h2 chs) g_lde_domain (q_value (pr_g_query proof)) (ch_z chs)
                         g_at_z) in
      let+ valid := w_verify_proof (pr_fri_h1 proof) (ch_index_h1 chs) h1 in
      if ~~ valid then Some (Ok false)
      else w_verify_proof (pr_fri_h2 proof) (ch_index_h2 chs) h2.
End WordsFri.
