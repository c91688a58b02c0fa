(** The rows of a dense constraint with the integers of the machine (see M_Words): the divisors of prover and
    verifier, and the rows that the check of a witness visits. *)
From Coq Require Import NArith.
From mathcomp Require Import all_ssreflect all_algebra.
From Verif Require Import M_Base M_Worker M_Field M_Domain M_Fft M_Poly M_Bytes M_Transcript M_Air M_Arp M_Ali M_Verifier.
From Verif Require Import M_Words.

Set Implicit Arguments.
Unset Strict Implicit.
Unset Printing Implicit Defensive.
Import GRing.Theory.
Local Open Scope ring_scope.

Section WordsRange.
Variables (F : fieldType) (fp : ff_params F) (pr : profile).

(** src/ali/per_register/mod.rs:68-74, src/verifier/mod.rs:642-648.  All numbers have 64 bits. *)
Definition w_dense_divisor_degree (size start_at span num_rows : nat) : outcome nat :=
  let* d := wsub pr 64 size start_at in
  let* pad := wsub pr 64 size num_rows in
  let* d := wsub pr 64 d pad in
  wsub pr 64 d span.

(** src/ali/per_register/mod.rs:77-94, src/verifier/mod.rs:659-674: the range [last_step..size] is empty if
    [last_step] is larger than [size]. *)
Definition w_dense_roots (g : F) (size start_at span num_rows : nat) : outcome (seq F) :=
  let roots := geometric 1 g start_at in
  let* last_step := wsub pr 64 num_rows span in
  Ok (roots ++ geometric (g ^+ last_step) g (size - last_step)).

(** src/verifier/mod.rs:635-677 [inverse_divisor_for_dense_constraint]. *)
Definition w_inverse_divisor_at (x : F) (column : domain F) (start_at span num_rows : nat) : outcome (F * nat) :=
  let* divisor_degree := w_dense_divisor_degree (d_size column) start_at span num_rows in
  let* inverse_divisor := ok_or (inverse (x ^+ d_size column - 1)) in
  let* roots := w_dense_roots (d_gen column) (d_size column) start_at span num_rows in
  Ok (foldl (fun d root => d * (x - root)) inverse_divisor roots, divisor_degree).

(** src/ali/per_register/mod.rs:59-158 [inverse_divisor_for_dense_constraint_in_coset]. *)
Definition w_inverse_divisor_in_coset (column evaluation : domain F) (start_at span num_rows : nat)
    (w : worker) : outcome (hpoly F Values * nat) :=
  let* divisor_degree := w_dense_divisor_degree (d_size column) start_at span num_rows in
  let* roots := w_dense_roots (d_gen column) (d_size column) start_at span num_rows in
  let g := d_gen evaluation in
  let* p := new_for_size fp Values (d_size evaluation) in
  let p := with_coeffs Values p (par_chunks w
      (fun i chunk c => mapacc (fun x (_ : F) => (x * g, x ^+ d_size column - 1))
                               (g ^+ (i * chunk)%N * ff_gen fp) c) (p_coeffs p)) in
  let* p := batch_inversion p w in
  let p := with_coeffs Values p (par_chunks w
      (fun i chunk c => mapacc (fun x v => (x * g, foldl (fun d root => d * (x - root)) v roots))
                               (g ^+ (i * chunk)%N * ff_gen fp) c) (p_coeffs p)) in
  Ok (p, divisor_degree).

(** src/arp/density_query.rs:15-45: the rows produced by the iterator.  The row is below the limit when it is
    increased, so this never wraps. *)
Definition w_dense_rows (start_at span num_rows : nat) : outcome (seq nat) :=
  let* limit := wsub pr 64 num_rows span in
  Ok (iota start_at (limit - start_at)).

(** src/arp/per_register/mod.rs:106-112 and 134-264 [is_satisfied], [verify_witness].  [row + step_delta] is
    a natural number here. *)
Definition w_is_satisfied (props : instance_properties F) (witness : seq (seq F)) : outcome unit :=
  let* w0 := get witness 0 in
  let num_rows := size w0 in
  let* _ := foldM (fun _ c =>
      let* rows := (if c_density c is Dense start_at span then w_dense_rows start_at span num_rows else Panic) in
      foldM (fun _ row =>
          let* value := eval_constraint_on_witness witness row c in
          if value != 0 then Err else Ok tt) tt rows) tt (ip_constraints props) in
  foldM (fun _ bc =>
      let* reg_num := reg_number (b_register bc) in
      if b_value bc is Some expected then
        let* column := get witness reg_num in
        let* from_witness := get column (b_at_row bc) in
        if expected != from_witness then Err else Ok tt
      else Ok tt) tt (ip_boundary_constraints props).
End WordsRange.
