(** Model of src/experiments/vdf.rs and src/experiments/cubic_vdf.rs: iterated
    squaring and cubing of c0 + c1*u with u^2 = -1, as AIR instances. *)
From mathcomp Require Import all_ssreflect all_algebra.
From Verif Require Import M_Base M_Field M_Air M_Arp.

Set Implicit Arguments.
Unset Strict Implicit.
Unset Printing Implicit Defensive.
Import GRing.Theory.
Local Open Scope ring_scope.

Section Vdf.
Variable F : fieldType.

(** src/experiments/vdf.rs:21-34 and cubic_vdf.rs:21-34 [square]. *)
Definition ext_square (el : F * F) (non_residue : F) : F * F :=
  let: (c0, c1) := el in
  let two_c0_c1 := c0 * c1 in
  let two_c0_c1 := two_c0_c1 + two_c0_c1 in
  let c0 := c0 ^+ 2 in
  let c1 := c1 ^+ 2 in
  let c1 := c1 * non_residue in
  (c0 + c1, two_c0_c1).

(** src/experiments/cubic_vdf.rs:36-58 [mul]. *)
Definition ext_mul (el by_ : F * F) (non_residue : F) : F * F :=
  let: (c0, c1) := el in
  let: (other_c0, other_c1) := by_ in
  let ac := c0 * other_c0 in
  let bd_by_r := c1 * other_c1 * non_residue in
  let new_c0 := ac + bd_by_r in
  let ad := c0 * other_c1 in
  let bc := c1 * other_c0 in
  (new_c0, ad + bc).

(** src/experiments/vdf.rs:97-118 and cubic_vdf.rs:231-257: two conditions on
    the first row and two on row [num_operations]; [last()] of the witness. *)
Definition vdf_boundary (start_c0 start_c1 : F) (num_operations : nat) (c0_witness c1_witness : seq F) :
    seq (boundary_constraint F) :=
  [:: Boundary (Reg 0) 0 (Some start_c0); Boundary (Reg 1) 0 (Some start_c1);
      Boundary (Reg 0) num_operations (Some (last 0 c0_witness));
      Boundary (Reg 1) num_operations (Some (last 0 c1_witness))].

(** src/experiments/vdf.rs:19-129 [VDF::into_arp]. *)
Definition vdf_into_arp (start_c0 start_c1 : F) (num_operations : nat) :
    outcome (option (seq (seq F)) * instance_properties F) :=
  let non_residue : F := - 1 in
  let c0_value_now := ut_from F (Reg 0) in
  let c1_value_now := ut_from F (Reg 1) in
  let c0_value_next_step := ut_set_step_difference (ut_from F (Reg 0)) 1 in
  let c1_value_next_step := ut_set_step_difference (ut_from F (Reg 1)) 1 in
  let* c0_squared := ut_pow c0_value_now 2 in
  let* c1_squared := ut_pow c1_value_now 2 in
  let c1_squared_by_r := ut_mul_assign c1_squared non_residue in
  let two : F := 1 + 1 in
  let two_c0_c1 := pt_mul_scalar pt_default two in
  let* two_c0_c1 := pt_mul_uni two_c0_c1 c0_value_now in
  let* two_c0_c1 := pt_mul_uni two_c0_c1 c1_value_now in
  let constraint_0 := c_sub_uni c_default c0_squared in
  let constraint_0 := c_sub_uni constraint_0 c1_squared_by_r in
  let constraint_0 := c_add_uni constraint_0 c0_value_next_step in
  let constraint_1 := c_sub_poly c_default two_c0_c1 in
  let constraint_1 := c_add_uni constraint_1 c1_value_next_step in
  let num_values := (num_operations + 1)%N in
  (* lines 78-94 *)
  let c0_witness := set_nth 0 (nseq num_values 0) 0 start_c0 in
  let c1_witness := set_nth 0 (nseq num_values 0) 0 start_c1 in
  let: (_, c0_witness, c1_witness) :=
    foldl (fun st i =>
             let: (v, c0_witness, c1_witness) := st in
             let tmp := ext_square v non_residue in
             (tmp, set_nth 0 c0_witness i.+1 tmp.1, set_nth 0 c1_witness i.+1 tmp.2))
          ((start_c0, start_c1), c0_witness, c1_witness) (iota 0 num_operations) in
  Ok (Some [:: c0_witness; c1_witness],
      Props (num_operations + 1) 2 [:: constraint_0; constraint_1]
            (vdf_boundary start_c0 start_c1 num_operations c0_witness c1_witness)).

(** src/experiments/cubic_vdf.rs:20-264 [CubicVDF::into_arp]. *)
Definition cubic_vdf_into_arp (start_c0 start_c1 : F) (num_operations : nat) :
    outcome (option (seq (seq F)) * instance_properties F) :=
  let non_residue : F := - 1 in
  let c0_value_now := UTerm (1 : F) (Reg 0) (Steps 0) 1 in
  let c1_value_now := UTerm (1 : F) (Reg 1) (Steps 0) 1 in
  let c0_value_next_step := UTerm (1 : F) (Reg 0) (Steps 1) 1 in
  let c1_value_next_step := UTerm (1 : F) (Reg 1) (Steps 1) 1 in
  let c0_squared := UTerm (1 : F) (Reg 0) (Steps 0) 2 in
  let c1_squared_by_r := UTerm non_residue (Reg 1) (Steps 0) 2 in
  let squaring_step_intermediate_c0 := UTerm (1 : F) (Reg 2) (Steps 0) 1 in
  let squaring_step_intermediate_c1 := UTerm (1 : F) (Reg 3) (Steps 0) 1 in
  let two : F := 1 + 1 in
  let two_c0_c1 := PTerm two [:: c0_value_now; c1_value_now] 2 in
  let constraint_0 := c_sub_uni c_default c0_squared in
  let constraint_0 := c_sub_uni constraint_0 c1_squared_by_r in
  let constraint_0 := c_add_uni constraint_0 squaring_step_intermediate_c0 in
  let constraint_1 := c_sub_poly c_default two_c0_c1 in
  let constraint_1 := c_add_uni constraint_1 squaring_step_intermediate_c1 in
  let c0_by_intermediate := PTerm 1 [:: c0_value_now; squaring_step_intermediate_c0] 2 in
  let r_c1_by_intermediate := PTerm non_residue [:: c1_value_now; squaring_step_intermediate_c1] 2 in
  let constraint_2 := c_sub_poly c_default c0_by_intermediate in
  let constraint_2 := c_sub_poly constraint_2 r_c1_by_intermediate in
  let constraint_2 := c_add_uni constraint_2 c0_value_next_step in
  let c0_by_intermediate_c1 := PTerm 1 [:: c0_value_now; squaring_step_intermediate_c1] 2 in
  let c1_by_intermediate_c0 := PTerm 1 [:: c1_value_now; squaring_step_intermediate_c0] 2 in
  let constraint_3 := c_sub_poly c_default c0_by_intermediate_c1 in
  let constraint_3 := c_sub_poly constraint_3 c1_by_intermediate_c0 in
  let constraint_3 := c_add_uni constraint_3 c1_value_next_step in
  let num_values := (num_operations + 1)%N in
  (* lines 195-229 *)
  let c0_witness := set_nth 0 (nseq num_values 0) 0 start_c0 in
  let c1_witness := set_nth 0 (nseq num_values 0) 0 start_c1 in
  let tmp := ext_square (start_c0, start_c1) non_residue in
  let c0_squaring_witness := set_nth 0 (nseq num_values 0) 0 tmp.1 in
  let c1_squaring_witness := set_nth 0 (nseq num_values 0) 0 tmp.2 in
  let: (_, _, c0_witness, c1_witness, c0_squaring_witness, c1_squaring_witness) :=
    foldl (fun st i =>
             let: (v, v_squared, c0w, c1w, c0sw, c1sw) := st in
             let cubed := ext_mul v_squared v non_residue in
             let tmp := ext_square cubed non_residue in
             (cubed, tmp, set_nth 0 c0w i.+1 cubed.1, set_nth 0 c1w i.+1 cubed.2,
              set_nth 0 c0sw i.+1 tmp.1, set_nth 0 c1sw i.+1 tmp.2))
          ((start_c0, start_c1), tmp, c0_witness, c1_witness, c0_squaring_witness, c1_squaring_witness)
          (iota 0 num_operations) in
  Ok (Some [:: c0_witness; c1_witness; c0_squaring_witness; c1_squaring_witness],
      Props (num_operations + 1) 4 [:: constraint_0; constraint_1; constraint_2; constraint_3]
            (vdf_boundary start_c0 start_c1 num_operations c0_witness c1_witness)).
End Vdf.
