(** Model of src/arp: instance properties, mappings.rs, density_query.rs and
    per_register/mod.rs. *)
From Coq Require Import NArith.
From mathcomp Require Import all_ssreflect all_algebra.
From Verif Require Import M_Base M_Worker M_Field M_Domain M_Fft M_Poly M_Air.

Set Implicit Arguments.
Unset Strict Implicit.
Unset Printing Implicit Defensive.
Import GRing.Theory.
Local Open Scope ring_scope.

Section Arp.
Variables (F : fieldType) (fp : ff_params F).

(** src/arp/mod.rs:78-84. *)
Record instance_properties := Props {
  ip_num_rows : nat;
  ip_num_registers : nat;
  ip_constraints : seq (constraint F);
  ip_boundary_constraints : seq (boundary_constraint F) }.

(** [match register { Register::Register(n) => n, _ => unreachable!() }]. *)
(** src/arp/per_register/mod.rs:195-198 and 249-252. *)
Definition reg_number (r : register) : outcome nat := if r is Reg n then Ok n else Panic.

(** * mappings.rs *)

(** src/arp/mappings.rs:6-22. *)
Definition remap_univariate_term (column_domain : domain F) (t : univariate_term F) :
    outcome (univariate_term F) :=
  match ut_steps t with
  | Steps step_delta =>
      Ok (UTerm (ut_coeff t) (ut_register t) (Mask (d_gen column_domain ^+ step_delta)) (ut_power t))
  | Mask _ => Panic
  end.

(** src/arp/mappings.rs:24-44. *)
Definition remap_term (column_domain : domain F) (t : constraint_term F) :
    outcome (constraint_term F) :=
  match t with
  | Univariate u => let* u := remap_univariate_term column_domain u in Ok (Univariate u)
  | Polyvariate p =>
      let* ts := mapM (remap_univariate_term column_domain) (pt_terms p) in
      Ok (Polyvariate (PTerm (pt_coeff p) ts (pt_total_degree p)))
  end.

(** src/arp/mappings.rs:46-56. *)
Definition remap_constraint (column_domain : domain F) (c : constraint F) : outcome (constraint F) :=
  let* ts := mapM (remap_term column_domain) (c_terms c) in
  Ok (Constr (c_constant_term c) ts (c_degree c) (c_density c)).

(** * density_query.rs *)

(** src/arp/density_query.rs:15-45: the rows produced by the iterator. *)
Definition dense_rows (start_at span num_rows : nat) : outcome (seq nat) :=
  let* limit := usub num_rows span in
  Ok (iota start_at (limit - start_at)).

(** * per_register/mod.rs *)

(** src/arp/per_register/mod.rs:13-66. The registers are transformed by
    independent tasks; a panic in one of them panics the scope. *)
Definition make_witness_polynomials (w : worker) (witness : seq (seq F)) :
    outcome (seq (hpoly F Coefficients)) :=
  let num_registers := size witness in
  let* w0 := get witness 0 in
  let num_rows := size w0 in
  check! all (fun v => num_rows == size v) witness ;;
  let num_rows_sup := next_pow2 num_rows in
  let* domain := domain_new fp num_rows_sup in
  let log_n := d_pow domain in
  let omega := d_gen domain in
  let* omega_inv := unwrap (inverse omega) in
  let* minv := unwrap (inverse (from_nat F (d_size domain))) in
  let num_cpus_hint :=
    if (w <= num_registers)%N then Some 1%N
    else Some (num_registers %/ w + (num_registers %% w != 0%N))%N in
  let* ws := mapM (fun v => best_fft v w omega_inv log_n num_cpus_hint) witness in
  mapM (fun v => from_coeffs fp (par_each w (fun x => x * minv) v)) ws.

(** src/arp/per_register/mod.rs:69-90; only [num_rows] and [num_registers] of
    the instance are used. *)
Definition calculate_witness_polys (props : instance_properties) (w : worker) (witness : seq (seq F)) :
    outcome (seq (hpoly F Coefficients)) :=
  let num_registers := size witness in
  let* w0 := get witness 0 in
  let num_rows := size w0 in
  check! all (fun v => num_rows == size v) witness ;;
  if num_registers != ip_num_registers props then Err
  else if num_rows != ip_num_rows props then Err
  else make_witness_polynomials w witness.

(** src/arp/per_register/mod.rs:92-104 and 119-132 [from_instance], [route]. *)
Definition from_instance (props : instance_properties) : outcome instance_properties :=
  let num_rows_sup := next_pow2 (ip_num_rows props) in
  let* column_domain := domain_new fp num_rows_sup in
  let* cs := mapM (remap_constraint column_domain) (ip_constraints props) in
  Ok (Props (ip_num_rows props) (ip_num_registers props) cs (ip_boundary_constraints props)).

(** src/arp/per_register/mod.rs:183-213. *)
Definition eval_univariate_on_witness (witness : seq (seq F)) (base_row : nat) (t : univariate_term F) :
    outcome F :=
  let* step_delta := (if ut_steps t is Steps s then Ok s else Panic) in
  let* reg_num := reg_number (ut_register t) in
  let* column := get witness reg_num in
  let num_rows := size column in
  let row := (base_row + step_delta)%N in
  if (num_rows <= row)%N then Err
  else
    let* value := get column row in
    Ok (value ^+ ut_power t * ut_coeff t).

(** src/arp/per_register/mod.rs:152-181. *)
Definition eval_term_on_witness (witness : seq (seq F)) (base_row : nat) (t : constraint_term F) :
    outcome F :=
  match t with
  | Univariate u => eval_univariate_on_witness witness base_row u
  | Polyvariate p =>
      let* result := foldM (fun result u =>
          let* v := eval_univariate_on_witness witness base_row u in Ok (result * v)) 1 (pt_terms p) in
      Ok (result * pt_coeff p)
  end.

(** src/arp/per_register/mod.rs:138-150. *)
Definition eval_constraint_on_witness (witness : seq (seq F)) (base_row : nat) (c : constraint F) :
    outcome F :=
  foldM (fun value t => let* v := eval_term_on_witness witness base_row t in Ok (value + v))
    (c_constant_term c) (c_terms c).

(** src/arp/per_register/mod.rs:106-112 and 134-264 [is_satisfied],
    [verify_witness]. *)
Definition is_satisfied (props : instance_properties) (witness : seq (seq F)) : outcome unit :=
  let* w0 := get witness 0 in
  let num_rows := size w0 in
  let* _ := foldM (fun _ c =>
      let* rows := (if c_density c is Dense start_at span then dense_rows start_at span num_rows else Panic) in
      foldM (fun _ row =>
          let* value := eval_constraint_on_witness witness row c in
          if value != 0 then Err else Ok tt) tt rows) tt (ip_constraints props) in
  foldM (fun _ bc =>
      let* reg_num := reg_number (b_register bc) in
      if b_value bc is Some expected then
        let* column := get witness reg_num in
        let* from_witness := get column (b_at_row bc) in
        if expected != from_witness then Err else Ok tt
      else Ok tt) tt (ip_boundary_constraints props).
End Arp.
