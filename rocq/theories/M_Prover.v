(** Model of src/prover/mod.rs. *)
From Coq Require Import NArith.
From mathcomp Require Import all_ssreflect all_algebra.
From Verif Require Import M_Base M_Worker M_Field M_Domain M_Fft M_Poly M_Bytes M_Transcript M_Merkle M_Fri.
From Verif Require Import M_Challenge M_Air M_Arp M_Ali M_Verifier.

Set Implicit Arguments.
Unset Strict Implicit.
Unset Printing Implicit Defensive.
Import GRing.Theory.
Local Open Scope ring_scope.

Section Prover.
Variables (F : fieldType) (fp : ff_params F) (H : hash_fun).

(** src/prover/mod.rs:29-42; the ARP instance is its properties.  The worker
    is a CPU count. *)
Record prover := Prover {
  p_arp : instance_properties F;
  p_ali : ali_instance F;
  p_lde_factor : nat;
  p_final_degree_plus_one : nat;
  p_worker : worker }.

(** src/prover/mod.rs:46-64 [new]; [w] is what [Worker::new] finds. *)
Definition prover_new (instance : instance_properties F) (lde_factor fri_final_degree_plus_one : nat)
    (w : worker) : outcome prover :=
  let* arp := from_instance fp instance in
  let* ali := from_arp fp arp w in
  Ok (Prover arp ali lde_factor fri_final_degree_plus_one w).

(** src/prover/mod.rs:66-174 [prove].  [I::create] makes a worker of its own;
    the model uses the same CPU count. *)
Definition prove (p : prover) (witness : seq (seq F)) : outcome (instance_proof F) :=
  let w := p_worker p in
  let* t := transcript_new fp in
  let* witness_polys := calculate_witness_polys fp (p_arp p) w witness in
  let* f_ldes := mapM (fun f => lde fp f w (p_lde_factor p)) witness_polys in
  let* f_oracles := mapM (fun l : hpoly F Values => tree_create fp H w (p_coeffs l)) f_ldes in
  let* f_iop_roots := mapM get_root f_oracles in
  let t := foldl (fun t (r : digest) => commit_bytes t r) t f_iop_roots in
  let* '(g_poly, t) := calculate_g fp H (p_ali p) t witness_polys w in
  let* g_lde := lde fp g_poly w (p_lde_factor p) in
  let* g_oracle := tree_create fp H w (p_coeffs g_lde) in
  let* g_iop_root := get_root g_oracle in
  let t := commit_bytes t g_iop_root in
  let* '(h1_lde, h2_lde, f_at_z_m, _, t) := calculate_deep fp H (p_ali p) witness_polys f_ldes g_poly g_lde t w in
  let* h1_proto := proof_from_lde_by_values fp H h1_lde (p_lde_factor p) (p_final_degree_plus_one p) w in
  let* h2_proto := proof_from_lde_by_values fp H h2_lde (p_lde_factor p) (p_final_degree_plus_one p) w in
  let* h1_iop_roots := fpt_get_roots h1_proto in
  let* h2_iop_roots := fpt_get_roots h2_proto in
  let t := commit_bytes t (fpt_final_root h1_proto) in
  let t := foldl (commit_field_element fp) t (fpt_final_coefficients h1_proto) in
  let t := commit_bytes t (fpt_final_root h2_proto) in
  let t := foldl (commit_field_element fp) t (fpt_final_coefficients h2_proto) in
  let: (b1, t) := get_challenge_bytes H t in
  let* i1 := bytes_to_challenge_index b1 (p_size h1_lde) (p_lde_factor p) in
  let: (b2, t) := get_challenge_bytes H t in
  let* i2 := bytes_to_challenge_index b2 (p_size h2_lde) (p_lde_factor p) in
  let* h1_proof := produce_proof fp H h1_proto h1_lde i1 in
  let* h2_proof := produce_proof fp H h2_proto h2_lde i2 in
  let* f_queries := mapM (fun ol => iop_query fp H ol.1 i1 (p_coeffs ol.2)) (zip f_oracles f_ldes) in
  let* g_query := iop_query fp H g_oracle i2 (p_coeffs g_lde) in
  Ok (Proof f_at_z_m f_iop_roots g_iop_root f_queries g_query h1_iop_roots h2_iop_roots h1_proof h2_proof).
End Prover.
