(** Model of src/utils/poly.rs. *)
From mathcomp Require Import all_ssreflect all_algebra.
From Verif Require Import M_Base M_Worker M_Field.

Set Implicit Arguments.
Unset Strict Implicit.
Unset Printing Implicit Defensive.
Import GRing.Theory.
Local Open Scope ring_scope.

Section PolyUtils.
Variable F : fieldType.

(** src/utils/poly.rs:5-20.  The worker is created inside; its CPU count is a
    parameter here. *)
Definition mul_polynomial_by_scalar (w : worker) (a : seq F) (b : F) : seq F :=
  par_chunks w (fun _ _ c => [seq x * b | x <- c]) a.

(** src/utils/poly.rs:24-44. *)
Definition mul_add_polynomials (w : worker) (a b : seq F) (c : F) : outcome (seq F) :=
  check! size a == size b ;;
  Ok (par_zip w (size a) (fun x y => x + y * c) a b).

(** src/utils/poly.rs:61-79: what every spawned task sends to the channel, in
    the order of the chunks. *)
Definition consequitive_parts (w : worker) (coeffs : seq F) (first_power base : F) : seq F :=
  let chunk := get_chunk_size w (size coeffs) in
  mapi (fun i c =>
          (foldl (fun ap p => (ap.1 + p * ap.2, ap.2 * base))
                 (0, base ^+ (i * chunk)%N * first_power) c).1)
       (chunks chunk coeffs).

(** src/utils/poly.rs:86-96: the values are added in the order [arrived] in
    which the channel delivers them; after the scope has joined the channel
    holds one value per task, in some order. *)
Definition evaluate_at_consequitive_powers (arrived : seq F) : F :=
  foldl (fun r v => r + v) 0 arrived.

(** src/utils/poly.rs:115-146: one factor (X - x_j) multiplied to the
    contribution of a point. *)
Definition contribution_step (n : nat) (st : seq F * F * nat) (x_k x_j : F) : seq F * F * nat :=
  let: (contribution, denominator, max_deg) := st in
  let denominator := denominator * (x_k - x_j) in
  if max_deg == 0%N then
    let c := set_nth 0 contribution 0 (contribution`_0 - x_j) in
    (set_nth 0 c 1 (c`_1 + 1), denominator, 1%N)
  else
    let mul_by_minus_x_j := [seq - (el * x_j) | el <- contribution] in
    let shifted := take n (0 :: contribution) in
    ([seq q.1 + q.2 | q <- zip shifted mul_by_minus_x_j], denominator, max_deg).

(** src/utils/poly.rs:102-162. *)
Definition interpolate (points : seq (F * F)) : outcome (option (seq F)) :=
  let n := size points in
  check! (2 <= n)%N ;;
  let* coeffs := foldM (fun coeffs kp =>
      let: (k, (x_k, y_k)) := kp in
      let: (contribution, denominator, _) :=
        foldl (fun st jp => let: (j, (x_j, _)) := jp in
                 if j == k then st else contribution_step n st x_k x_j)
              (nseq n 0, 1, 0%N) (enumerate points) in
      let* denominator := unwrap (inverse denominator) in
      Ok [seq q.1 + q.2 * denominator * y_k | q <- zip coeffs contribution])
    (nseq n 0) (enumerate points) in
  Ok (Some coeffs).
End PolyUtils.
