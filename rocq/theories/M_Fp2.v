(** Model of src/experiments/square_root_calculator/fp2.rs: the quadratic
    extension c0 + c1*u with u^2 = NON_RESIDUE and its square root. *)
From Coq Require Import NArith.
From mathcomp Require Import all_ssreflect all_algebra.
From Verif Require Import M_Base M_Field.

Set Implicit Arguments.
Unset Strict Implicit.
Unset Printing Implicit Defensive.
Import GRing.Theory.
Local Open Scope ring_scope.

(** fp2.rs:92-96 [struct Fq2]. *)
Record fq2 (F : Type) := Fq2 { c0 : F; c1 : F }.

(** The constants of fp2.rs:10-90, and the operations of the base field that
    the derive macro of the [ff] crate generates: [Fq::char], [Fq::sqrt]. *)
Record fq2_consts (F : fieldType) := Fq2Consts {
  non_residue : F;                 (* 10-15 NON_RESIDUE *)
  q_minus_one_by_four : N;         (* 44-49 Q_MINUS_ONE_BY_FOUR *)
  e_precomputed : fq2 F;           (* 51-65 E_PRECOMPUTED *)
  f_precomputed : fq2 F;           (* 67-81 F_PRECOMPUTED *)
  minus_one_fp2 : fq2 F;           (* 83-91 MINUS_ONE_FP2 *)
  q_char : N;                      (* Fq::char() *)
  q_sqrt : F -> option F           (* Fq::sqrt *)
}.

(** [ff::LegendreSymbol]. *)
(** Used at fp2.rs:288-290. *)
Inductive legendre_symbol := LegendreZero | QuadraticResidue | QuadraticNonResidue.

(** The bits of a number, most significant first: the order of [ff::BitIterator]
    (which also lists leading zero bits; [Field::pow] skips them). *)
(** Used by [pow] at fp2.rs:300-306. *)
Fixpoint pos_bits (e : positive) : seq bool :=
  match e with xH => [:: true] | xO e => rcons (pos_bits e) false | xI e => rcons (pos_bits e) true end.
(** Used by [pow] at fp2.rs:300-306. *)
Definition bits (e : N) : seq bool := if e is Npos e then pos_bits e else [::].

Section Fp2.
Variables (F : fieldType) (k : fq2_consts F).
Implicit Types (self other : fq2 F) (fq : F).

(** fp2.rs:126-138 [Fq2::norm]. *)
Definition fq2_norm self : F :=
  let t0 := c0 self in
  let t1 := c1 self in
  let t0 := t0 ^+ 2 in
  let t1 := t1 ^+ 2 in
  let t1 := t1 * non_residue k in
  t1 + t0.

(** fp2.rs:150-166 [zero], [one], [is_zero]. *)
Definition fq2_zero : fq2 F := Fq2 0 0.
(** fp2.rs:157-162 [one]. *)
Definition fq2_one : fq2 F := Fq2 1 0.
(** fp2.rs:164-166 [is_zero]. *)
Definition fq2_is_zero self : bool := (c0 self == 0) && (c1 self == 0).

(** Derived [PartialEq], fp2.rs:93. *)
Definition fq2_eq self other : bool := (c0 self == c0 other) && (c1 self == c1 other).

(** fp2.rs:168-190 [square]. *)
Definition fq2_square self : fq2 F :=
  let v0 := c0 self - c1 self in
  let v3 := c0 self in
  let t0 := c1 self * non_residue k in
  let v3 := v3 - t0 in
  let v2 := c0 self * c1 self in
  let v0 := v0 * v3 in
  let v0 := v0 + v2 in
  let c1' := v2 + v2 in
  let c0' := v0 in
  let v2 := v2 * non_residue k in
  Fq2 (c0' + v2) c1'.

(** fp2.rs:192-210 [double], [negate], [add_assign], [sub_assign]. *)
Definition fq2_double self : fq2 F := Fq2 (c0 self + c0 self) (c1 self + c1 self).
(** fp2.rs:197-200 [negate]. *)
Definition fq2_negate self : fq2 F := Fq2 (- c0 self) (- c1 self).
(** fp2.rs:202-205 [add_assign]. *)
Definition fq2_add self other : fq2 F := Fq2 (c0 self + c0 other) (c1 self + c1 other).
(** fp2.rs:207-210 [sub_assign]. *)
Definition fq2_sub self other : fq2 F := Fq2 (c0 self - c0 other) (c1 self - c1 other).

(** fp2.rs:212-228 [mul_assign]. *)
Definition fq2_mul self other : fq2 F :=
  let aa := c0 self * c0 other in
  let bb := c1 self * c1 other in
  let o := c0 other + c1 other in
  let c1' := c1 self + c0 self in
  let c1' := c1' * o in
  let c1' := c1' - aa in
  let c1' := c1' - bb in
  let c0' := aa in
  let bb := bb * non_residue k in
  Fq2 (c0' + bb) c1'.

(** fp2.rs:230-255 [inverse]. *)
Definition fq2_inverse self : option (fq2 F) :=
  if fq2_is_zero self then None else
  let v0 := c0 self ^+ 2 in
  let v1 := c1 self ^+ 2 in
  let v1_by_nonresidue := v1 * non_residue k in
  let v0 := v0 - v1_by_nonresidue in
  if inverse v0 is Some v1 then
    Some (Fq2 (c0 self * v1) (- (c1 self * v1)))
  else None.

(** [ff::Field::pow] (ff crate, default method) on the operations above:
    square and multiply from the most significant bit. *)
(** Used at fp2.rs:300-306. *)
Definition fq2_pow self (exp : N) : fq2 F :=
  (foldl (fun st bit =>
           let: (res, found_one) := st in
           let '(res, found_one) := if found_one then (fq2_square res, true) else (res, bit) in
           let res := if bit then fq2_mul res self else res in
           (res, found_one))
         (fq2_one, false) (bits exp)).1.

(** fp2.rs:268-284 [mul_by_0], [mul_by_1]. *)
Definition fq2_mul_by_0 self fq : fq2 F := Fq2 (c0 self * fq) (c1 self * fq).
(** fp2.rs:273-284 [mul_by_1]. *)
Definition fq2_mul_by_1 self fq : fq2 F :=
  let bb := c1 self * fq in
  let c1' := c1 self + c0 self in
  let c1' := c1' * fq in
  let c1' := c1' - bb in
  let bb := bb * non_residue k in
  Fq2 bb c1'.

(** [legendre] of the base field, as generated by [ff]: x^((q-1)/2). *)
(** Used at fp2.rs:288-290. *)
Definition fq_legendre (x : F) : legendre_symbol :=
  let s := x ^+ (N.to_nat (q_char k)).-1./2 in
  if s == 0 then LegendreZero else if s == 1 then QuadraticResidue else QuadraticNonResidue.

(** fp2.rs:287-290 [legendre]. *)
Definition fq2_legendre self : legendre_symbol := fq_legendre (fq2_norm self).

(** fp2.rs:292-351 [sqrt]; a failing [debug_assert!] panics. *)
Definition fq2_sqrt self : outcome (option (fq2 F)) :=
  if fq2_is_zero self then Ok (Some fq2_zero) else
  let b := fq2_pow self (q_minus_one_by_four k) in
  let b_squared := fq2_square b in
  let b_in_q := fq2_pow b (q_char k) in
  let b_in_q_by_b := fq2_mul b_in_q b in
  let a0 := fq2_square b_in_q_by_b in
  if fq2_eq a0 (minus_one_fp2 k) then Ok None else
  if fq2_eq b_in_q_by_b fq2_one then
    let b_squared_by_a := fq2_mul b_squared self in
    check! c1 b_squared_by_a == 0 ;;
    if q_sqrt k (c0 b_squared_by_a) is Some x0 then Ok (Some (fq2_mul_by_0 b_in_q x0))
    else Ok None
  else
    let b_squared_by_a_by_f := fq2_mul b_squared self in
    check! c1 (f_precomputed k) == 0 ;;
    let b_squared_by_a_by_f := fq2_mul_by_0 b_squared_by_a_by_f (c0 (f_precomputed k)) in
    check! c1 b_squared_by_a_by_f == 0 ;;
    if q_sqrt k (c0 b_squared_by_a_by_f) is Some x0 then
      let x := fq2_mul_by_0 b_in_q x0 in
      check! c0 (e_precomputed k) == 0 ;;
      Ok (Some (fq2_mul_by_1 x (c1 (e_precomputed k))))
    else Ok None.
End Fp2.
