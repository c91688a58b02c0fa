(** Specification vocabulary for the STARK layer: constraint polynomials,
    divisors and the composition polynomial. *)
From Coq Require Import NArith.
From mathcomp Require Import all_ssreflect all_algebra.
From Verif Require Import M_Base M_Bytes M_Air M_Arp SpecAir.

Set Implicit Arguments.
Unset Strict Implicit.
Unset Printing Implicit Defensive.
Import GRing.Theory.
Local Open Scope ring_scope.

Section SpecStark.
Variable F : fieldType.

(** [f(m X)] for a column polynomial [f] of the list [ps]. *)
Definition mask_poly (ps : seq {poly F}) (r : register) (s : step_difference F) : {poly F} :=
  match r, s with Reg n, Mask m => nth 0 ps n \Po (m *: 'X) | _, _ => 0 end.

(** The polynomial that a (masked) constraint becomes when the registers are
    replaced by the column polynomials. *)
Definition upoly ps (u : univariate_term F) : {poly F} :=
  ut_coeff u *: mask_poly ps (ut_register u) (ut_steps u) ^+ ut_power u.
Definition tpoly ps (t : constraint_term F) : {poly F} :=
  match t with
  | Univariate u => upoly ps u
  | Polyvariate p => pt_coeff p *: \prod_(u <- pt_terms p) upoly ps u
  end.
Definition cpoly ps (c : constraint F) : {poly F} :=
  (c_constant_term c)%:P + \sum_(t <- c_terms c) tpoly ps t.

(** The polynomial that vanishes at the rows [i] of a dense constraint, row [i]
    being the point [g^i]. *)
Definition divisor (g : F) (start_at span num_rows : nat) : {poly F} :=
  \prod_(i <- iota 0 num_rows | dense_row start_at span num_rows i) ('X - (g ^+ i)%:P).
Definition density_divisor (g : F) (num_rows : nat) (d : density) : {poly F} :=
  if d is Dense s n then divisor g s n num_rows else 0.

(** The weight of a constraint of degree [deg] under the challenges
    [(alpha, beta)], raising its degree to [D]. *)
Definition weight (D deg : nat) (ab : F * F) : {poly F} :=
  if (D - deg)%N == 0%N then ab.1%:P else ab.1 *: 'X^(D - deg) + ab.2%:P.

(** Weighted quotients of constraints and of boundary constraints, and the
    composition polynomial. *)
Definition constraint_quotient (g : F) (num_rows D : nat) ps (cab : constraint F * (F * F)) : {poly F} :=
  weight D (c_degree cab.1) cab.2 * (cpoly ps cab.1 %/ density_divisor g num_rows (c_density cab.1)).
Definition boundary_poly ps (b : boundary_constraint F) : {poly F} :=
  mask_poly ps (b_register b) (Mask 1) - (if b_value b is Some v then v else 0)%:P.
Definition boundary_quotient (g : F) (D : nat) ps (bab : boundary_constraint F * (F * F)) : {poly F} :=
  weight D 1 bab.2 * (boundary_poly ps bab.1 %/ ('X - (g ^+ b_at_row bab.1)%:P)).
Definition composition (g : F) (num_rows D : nat) ps
    (cs : seq (constraint F)) (chs : seq (F * F)) (bs : seq (boundary_constraint F)) (bchs : seq (F * F)) :
    {poly F} :=
  \sum_(cab <- zip cs chs) constraint_quotient g num_rows D ps cab +
  \sum_(bab <- zip bs bchs) boundary_quotient g D ps bab.

(** The DEEP quotients: (p - p(z)) / (X - z), and their combination over the
    masks of an instance. *)
Definition column_poly (ps : seq {poly F}) (r : register) : {poly F} := if r is Reg n then nth 0 ps n else 0.
Definition shifted (s : step_difference F) (z : F) : F := if s is Mask m then m * z else 0.
Definition deep_quotient (p : {poly F}) (z : F) : {poly F} := (p - p.[z]%:P) %/ ('X - z%:P).
Definition deep_h1 (ps : seq {poly F}) (masks : seq (register * step_difference F)) (z : F) (alphas : seq F) : {poly F} :=
  \sum_(ma <- zip masks alphas) ma.2 *: deep_quotient (column_poly ps ma.1.1) (shifted ma.1.2 z).

(** The instances that the prover supports.  The number of rows is a power of
    two and at least two.  The largest declared degree is a power of two.
    Every term reads registers of the trace, declared degrees bound the actual
    ones, boundary constraints have a value, and all constraints have the same
    density. *)
Definition u_supported (nr : nat) (u : univariate_term F) : bool :=
  if ut_register u is Reg r then (r < nr)%N else false.
Definition t_supported (nr : nat) (t : constraint_term F) : bool :=
  match t with
  | Univariate u => u_supported nr u
  | Polyvariate p => (0 < size (pt_terms p))%N && all (u_supported nr) (pt_terms p)
  end.
Definition c_supported (nr : nat) (c : constraint F) : bool :=
  all (t_supported nr) (c_terms c) && (cdeg c <= c_degree c)%N.
Definition b_supported (nr : nat) (b : boundary_constraint F) : bool :=
  (if b_register b is Reg r then (r < nr)%N else false) && (b_value b != None).
Definition supported_but_density (props : instance_properties F) : bool :=
  [&& is_pow2 (ip_num_rows props), (1 < ip_num_rows props)%N,
      is_pow2 (\max_(c <- ip_constraints props) c_degree c),
      all (c_supported (ip_num_registers props)) (ip_constraints props) &
      all (b_supported (ip_num_registers props)) (ip_boundary_constraints props)].
Definition single_density (props : instance_properties F) : bool :=
  constant [seq c_density c | c <- ip_constraints props].
Definition supported (props : instance_properties F) : bool :=
  supported_but_density props && single_density props.
End SpecStark.

(** The challenges that a transcript in state [t] gives one after the other:
    each one is the hash of everything absorbed so far, and is absorbed. *)
Section Stream.
Variables (H : hash_fun) (F : Type) (decode : digest -> F).
Definition stream_state (t : bytes) (i : nat) : bytes := iter i (fun t => t ++ H t) t.
Definition stream (t : bytes) (i : nat) : F := decode (H (stream_state t i)).
Definition stream_pairs (t : bytes) (n : nat) : seq (F * F) :=
  mkseq (fun i => (stream t i.*2, stream t i.*2.+1)) n.
End Stream.
