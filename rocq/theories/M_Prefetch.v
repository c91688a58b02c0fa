(** Model of src/fft/prefetch_fft.rs and src/fft/prefetch_lde.rs, the kernels
    that replace those of fft.rs and lde.rs under the feature "nightly"
    (src/fft/mod.rs:18-42).  They prefetch operands one iteration ahead, for
    which the last iteration of the inner loops is peeled off, and the LDE
    kernel ends the bit reversal early.  [prefetch_index(a, i)]
    (src/fft/prefetch.rs:5-15) has no effect on the values but indexes the slice,
    which panics out of bounds. *)
From mathcomp Require Import all_ssreflect all_algebra.
From Verif Require Import M_Base M_Worker M_Fft.

Set Implicit Arguments.
Unset Strict Implicit.
Unset Printing Implicit Defensive.
Import GRing.Theory.
Local Open Scope ring_scope.

Section Prefetch.
Variable F : fieldType.
Implicit Types (a : seq F) (w omega : F).

(** src/fft/prefetch.rs:5-9 [prefetch_index]: the bounds check. *)
Definition prefetch_index a (i : nat) : bool := (i < size a)%N.

(** src/fft/prefetch_fft.rs:49-77 (also prefetch_lde.rs:69-97), one block: the
    first [m - 1] butterflies prefetch the operands of the next one. *)
Definition pf_block a (k m : nat) w_m : outcome (seq F) :=
  check! prefetch_index a (k + m) ;;
  check! prefetch_index a k ;;
  let* aw := foldM (fun aw j =>
      check! prefetch_index aw.1 (k + j + 1 + m) ;;
      check! prefetch_index aw.1 (k + j + 1) ;;
      Ok (butterfly aw.1 k j m aw.2, aw.2 * w_m)) (a, 1) (iota 0 (m - 1)) in
  let j := (m - 1)%N in
  Ok (butterfly aw.1 k j m aw.2).

(** src/fft/prefetch_fft.rs:46-77, one stage. *)
Definition pf_stage a (n m : nat) w_m : outcome (seq F) :=
  foldM (fun a b => pf_block a (b * (2 * m)) m w_m) a (iota 0 (ceil_div n (2 * m))).

(** src/fft/prefetch_fft.rs:22-81 [serial_fft]. *)
Definition pf_serial_fft a omega (log_n : nat) : outcome (seq F) :=
  let n := size a in
  check! n == (2 ^ log_n)%N ;;
  let a := bit_reverse_permute a n log_n in
  let* am := foldM (fun am _ =>
      let* a := pf_stage am.1 n am.2 (omega ^+ (n %/ (2 * am.2))%N) in
      Ok (a, (am.2 * 2)%N)) (a, 1%N) (iota 0 log_n) in
  Ok am.1.

(** src/fft/prefetch_fft.rs:83-139 [parallel_fft]. *)
Definition pf_parallel_fft a (w : worker) omega (log_n log_cpus : nat) : outcome (seq F) :=
  check! (log_cpus <= log_n)%N ;;
  let num_cpus := (2 ^ log_cpus)%N in
  let log_new_n := (log_n - log_cpus)%N in
  let new_omega := omega ^+ num_cpus in
  check! (2 ^ log_n <= size a)%N ;;
  let* tmp := mapM (fun j => pf_serial_fft (shuffle xpredT a omega log_n log_new_n num_cpus j)
                                           new_omega log_new_n)
                   (iota 0 num_cpus) in
  check! (size a <= 2 ^ log_n)%N ;;
  Ok (unshuffle w a tmp log_cpus).

(** src/fft/prefetch_fft.rs:6-20 [best_fft]. *)
Definition pf_best_fft a (w : worker) omega (log_n : nat) (use_cpus_hint : option nat) :
    outcome (seq F) :=
  let* log_cpus :=
    (if use_cpus_hint is Some hint then check! (hint <= w)%N ;; log2_floor hint
     else log_num_cpus w) in
  if (log_cpus == 0%N) || (log_n <= log_cpus)%N then pf_serial_fft a omega log_n
  else pf_parallel_fft a w omega log_n log_cpus.

(** src/fft/prefetch_lde.rs:47-55: the loop breaks at [non_trivial_len]. *)
Definition pf_bit_reverse a (n log_n non_trivial_len : nat) : seq F :=
  foldl (fun a k => let rk := bitreverse k log_n in
                    if (k < rk)%N then swap a rk k else a) a (iota 0 (minn n non_trivial_len)).

(** src/fft/prefetch_lde.rs:100-198, one block of a sparse round. *)
Definition pf_lde_block a (k m lde_factor step : nat) w_m : outcome (seq F) :=
  check! (is_non_zero k lde_factor step || is_non_zero (k + m) lde_factor step) ==>
         (prefetch_index a (k + m) && prefetch_index a k) ;;
  let* aw := foldM (fun aw j =>
      check! (is_non_zero (k + j + 1) lde_factor step || is_non_zero (k + j + m + 1) lde_factor step) ==>
             (prefetch_index aw.1 (k + j + m + 1) && prefetch_index aw.1 (k + j + 1)) ;;
      Ok (butterfly_sparse aw.1 k j m lde_factor step aw.2, aw.2 * w_m)) (a, 1) (iota 0 (m - 1)) in
  let j := (m - 1)%N in
  Ok (butterfly_sparse aw.1 k j m lde_factor step aw.2).

(** src/fft/prefetch_lde.rs:64-198. *)
Definition pf_lde_stage a (n m lde_factor step : nat) w_m : outcome (seq F) :=
  if is_dense_round lde_factor step then pf_stage a n m w_m
  else foldM (fun a b => pf_lde_block a (b * (2 * m)) m lde_factor step w_m) a
             (iota 0 (ceil_div n (2 * m))).

(** src/fft/prefetch_lde.rs:16-203 [serial_lde]; the division panics on
    factor 0. *)
Definition pf_serial_lde a omega (log_n lde_factor : nat) : outcome (seq F) :=
  let n := size a in
  check! lde_factor != 0%N ;;
  let non_trivial_len := (n %/ lde_factor)%N in
  check! n == (2 ^ log_n)%N ;;
  let a := pf_bit_reverse a n log_n non_trivial_len in
  let* am := foldM (fun am step =>
      let* a := pf_lde_stage am.1 n am.2 lde_factor step (omega ^+ (n %/ (2 * am.2))%N) in
      Ok (a, (am.2 * 2)%N)) (a, 1%N) (iota 0 log_n) in
  Ok am.1.

(** src/fft/prefetch_lde.rs:205-270 [parallel_lde]. *)
Definition pf_parallel_lde a (w : worker) omega (log_n log_cpus lde_factor : nat) : outcome (seq F) :=
  check! (log_cpus <= log_n)%N ;;
  let num_cpus := (2 ^ log_cpus)%N in
  let log_new_n := (log_n - log_cpus)%N in
  let new_omega := omega ^+ num_cpus in
  check! lde_factor != 0%N ;;
  let non_trivial_len := (size a %/ lde_factor)%N in
  let* tmp := mapM (fun j =>
      let t := shuffle (fun idx => (idx < non_trivial_len)%N) a omega log_n log_new_n num_cpus j in
      let new_lde_factor := (lde_factor %/ 2 ^ log_cpus)%N in
      if (new_lde_factor <= 1)%N then pf_serial_fft t new_omega log_new_n
      else pf_serial_lde t new_omega log_new_n new_lde_factor)
    (iota 0 num_cpus) in
  check! (size a <= 2 ^ log_n)%N ;;
  Ok (unshuffle w a tmp log_cpus).

(** src/fft/prefetch_lde.rs:5-14 [best_lde]. *)
Definition pf_best_lde a (w : worker) omega (log_n lde_factor : nat) : outcome (seq F) :=
  let* log_cpus := log_num_cpus w in
  if (log_n <= log_cpus)%N then pf_serial_lde a omega log_n lde_factor
  else pf_parallel_lde a w omega log_n log_cpus lde_factor.
End Prefetch.
