(** The constructor of the prover with the integers of the machine (see M_Words). *)
From Coq Require Import NArith.
From mathcomp Require Import all_ssreflect all_algebra.
From Verif Require Import M_Base M_Worker M_Field M_Domain M_Fft M_Poly M_Bytes M_Transcript.
From Verif Require Import M_Challenge M_Air M_Arp M_Ali M_Prover M_Words M_WordsRange.

Set Implicit Arguments.
Unset Strict Implicit.
Unset Printing Implicit Defensive.
Import GRing.Theory.
Local Open Scope ring_scope.

Section WordsProver.
Variables (F : fieldType) (fp : ff_params F) (pr : profile) (fuel : nat).

(** src/arp/per_register/mod.rs:92-104 and 119-132 [from_instance], [route]. *)
Definition w_from_instance (props : instance_properties F) : run (instance_properties F) :=
  let+ num_rows_sup := Some (w_next_power_of_two pr (ip_num_rows props)) in
  let+ column_domain := w_domain_new fp pr fuel num_rows_sup in
  let+ cs := Some (mapM (remap_constraint column_domain) (ip_constraints props)) in
  Some (Ok (Props (ip_num_rows props) (ip_num_registers props) cs (ip_boundary_constraints props))).

(** src/ali/per_register/mod.rs:162-244: [from_arp] after the two domains. *)
Definition w_from_arp_rest (props : instance_properties F) (column constraints_domain : domain F) (w : worker) :
    outcome (ali_instance F) :=
  let max_power := max_degree (ip_constraints props) in
  let num_rows := ip_num_rows props in
  let* pre := precompute fp constraints_domain w in
  let masks := foldl (@get_masks_from_constraint F) [::] (ip_constraints props) in
  let batches := batch_by_density (ip_constraints props) in
  let* divisors := foldM (fun m db =>
      match db.1 with
      | Dense start_at span =>
          let* '(p, _) := w_inverse_divisor_in_coset fp pr column constraints_domain start_at span num_rows w in
          Ok (im_insert m db.1 p)
      | _ => Panic
      end) [::] batches in
  let registers := foldl (fun s b => set_insert s (b_register b)) [::] (ip_boundary_constraints props) in
  let masks := foldl (@get_mask_from_boundary_constraint F) masks (ip_boundary_constraints props) in
  let steps := foldl (fun s b => set_insert s (b_at_row b)) [::] (ip_boundary_constraints props) in
  let* boundary_divisors := foldM (fun m row =>
      let* q := linear_poly fp (d_gen column ^+ row) in
      let* v := coset_evaluate_at_domain_for_degree_one fp q w (d_size constraints_domain) in
      let* v := batch_inversion v w in
      Ok (im_insert m row v)) [::] steps in
  Ok (ALI props max_power column constraints_domain masks registers divisors boundary_divisors batches pre).

(** src/ali/per_register/mod.rs:36-50: the two domains; [column_domain.size * max_constraint_power] is a
    product of [u64]s. *)
Definition w_from_arp (props : instance_properties F) (w : worker) : run (ali_instance F) :=
  let max_power := max_degree (ip_constraints props) in
  let+ column := w_domain_new fp pr fuel (ip_num_rows props) in
  let+ size := Some (wmul pr 64 (d_size column) max_power) in
  let+ constraints_domain := w_domain_new fp pr fuel size in
  Some (w_from_arp_rest props column constraints_domain w).

(** src/prover/mod.rs:46-64 [new]. *)
Definition w_prover_new (instance : instance_properties F) (lde_factor fri_final_degree_plus_one : nat)
    (w : worker) : run (prover F) :=
  let+ arp := w_from_instance instance in
  let+ ali := w_from_arp arp w in
  Some (Ok (Prover arp ali lde_factor fri_final_degree_plus_one w)).
End WordsProver.
