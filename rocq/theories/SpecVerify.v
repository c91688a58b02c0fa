(** Specification of the verifier: which proofs are accepted, in terms of the
    instance, the hash function and the contents of the proof. *)
From Coq Require Import NArith.
From mathcomp Require Import all_ssreflect all_algebra.
From Verif Require Import M_Base M_Field M_Domain M_Bytes M_Merkle M_Fri M_Air M_Arp M_Ali M_Verifier.
From Verif Require Import SpecAir SpecStark SpecFri.

Set Implicit Arguments.
Unset Strict Implicit.
Unset Printing Implicit Defensive.
Import GRing.Theory.
Local Open Scope ring_scope.

Section SpecVerify.
Variables (F : fieldType) (fp : ff_params F) (H : hash_fun) (decode : digest -> F).
Variables (props : instance_properties F) (lde : nat).

(** The constraints in the order in which coefficients are drawn for them, and
    the openings that a proof has to claim. *)
Variables (cs : seq (constraint F)) (masks : seq (register * step_difference F)).

(** Generators of the trace domain, of the [n * lde] points where the columns
    are opened and of the [D * n * lde] points where the composition
    polynomial is opened. *)
Variables (g gf gg : F).

Variable pf : instance_proof F.

Let n := ip_num_rows props.
Let D := \max_(c <- ip_constraints props) c_degree c.
Let R := ip_num_registers props.
Let bs := ip_boundary_constraints props.

(** * What is drawn from the transcript *)

(** The roots of the columns give the coefficients of the constraints. *)
Definition t_columns : bytes := flatten [seq val r | r <- pr_f_iop_roots pf].
Definition constraint_coeffs : seq (F * F) := stream_pairs H decode t_columns (size cs).
Definition boundary_coeffs : seq (F * F) := stream_pairs H decode (stream_state H t_columns (size cs).*2) (size bs).

(** The root of the composition polynomial gives z and the coefficients of the
    openings. *)
Definition t_composition : bytes := stream_state H t_columns (size cs + size bs).*2 ++ pr_g_iop_root pf.
Definition drawn_point : F := stream H decode t_composition 0.
Definition mask_coeffs : seq F := mkseq (fun i => stream H decode t_composition i.+1) (size masks).

(** The last roots and the final coefficients of the two FRI proofs give the
    positions. *)
Definition field_bytes (x : F) : bytes := be_bytes (8 * ff_limbs fp) (ff_repr fp x).
Definition fri_bytes (roots : seq digest) (p : fri_proof F) : bytes :=
  last zero_digest roots ++ flatten [seq field_bytes x | x <- fpr_final_coefficients p].
Definition t_fri : bytes :=
  stream_state H t_composition (size masks).+1 ++
  fri_bytes (pr_h1_iop_roots pf) (pr_fri_h1 pf) ++ fri_bytes (pr_h2_iop_roots pf) (pr_fri_h2 pf).
Definition position (d : digest) (N : nat) : nat :=
  let x := (N.to_nat (be_value (drop 24 d)) %% N)%N in if odd x then x else x.+1.
Definition position1 : nat := position (H t_fri) (n * lde).
Definition position2 : nat := position (H (t_fri ++ H t_fri)) (D * n * lde).

(** * What is checked *)

(** The claimed value of register [r], [d] rows later. *)
Definition claimed : env F := fun r s =>
  if s is Steps d then nth 0 (pr_f_at_z_m pf) (seq.index (r, Mask (g ^+ d)) masks) else 0.

(** The composition polynomial at z, computed from the claimed values. *)
Definition composition_at (z : F) : F :=
  \sum_(cab <- zip cs constraint_coeffs)
     cval claimed cab.1 * (weight D (c_degree cab.1) cab.2).[z] / (density_divisor g n (c_density cab.1)).[z] +
  \sum_(bab <- zip bs boundary_coeffs)
     (claimed (b_register bab.1) (Steps 0) - (if b_value bab.1 is Some y then y else 0)) *
     (weight D 1 bab.2).[z] / (z - g ^+ b_at_row bab.1).

(** The value of register [r] at the queried position. *)
Definition queried (r : register) : F :=
  if r is Reg i then q_value (nth (Query 0 0 [::]) (pr_f_queries pf) i) else 0.

(** The two quotients at the queried positions. *)
Definition quotient1 (z x : F) : F :=
  \sum_(mya <- zip (zip masks (pr_f_at_z_m pf)) mask_coeffs)
     mya.2 * (queried mya.1.1.1 - mya.1.2) / (x - shifted mya.1.1.2 z).
Definition quotient2 (z x : F) : F := (q_value (pr_g_query pf) - composition_at z) / (x - z).

(** A FRI proof is accepted for the value [y] of its oracle at [idx]. *)
Definition fri_accepts (p : fri_proof F) (idx : nat) (y : F) : Prop :=
  exists2 d, domain_new fp (fpr_degree_plus_one p * fpr_lde_factor p) = Ok d &
    accepts fp H (d_pow d) (d_gen d) p idx y.

Record accepted_proof : Prop := AcceptedProof {
  ac_some_roots : pr_h1_iop_roots pf <> [::] /\ pr_h2_iop_roots pf <> [::];
  ac_registers : size (pr_f_queries pf) = R /\ size (pr_f_iop_roots pf) = R;
  ac_columns : forall i, (i < R)%N ->
    let q := nth (Query 0 0 [::]) (pr_f_queries pf) i in
    verify_query fp H q (nth zero_digest (pr_f_iop_roots pf) i) /\ q_index q = position1;
  ac_composition : verify_query fp H (pr_g_query pf) (pr_g_iop_root pf) /\ q_index (pr_g_query pf) = position2;
  ac_claims : (size masks <= size (pr_f_at_z_m pf))%N;
  ac_outside : drawn_point ^+ n != 1;
  ac_denominator1 : forall m, m \in masks -> gf ^+ position1 != shifted m.2 drawn_point;
  ac_denominator2 : gg ^+ position2 != drawn_point;
  ac_fri1 : fri_accepts (pr_fri_h1 pf) position1 (quotient1 drawn_point (gf ^+ position1));
  ac_fri2 : fri_accepts (pr_fri_h2 pf) position2 (quotient2 drawn_point (gg ^+ position2))
}.
End SpecVerify.
