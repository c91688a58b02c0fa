(** Model of src/fft/recursive_fft.rs and src/fft/recursive_lde.rs.  The two files are part of the
    repository but their declarations are commented out in src/fft/mod.rs:13-14. *)
From mathcomp Require Import all_ssreflect all_algebra.
From Verif Require Import M_Base M_Worker M_Fft.

Set Implicit Arguments.
Unset Strict Implicit.
Unset Printing Implicit Defensive.
Import GRing.Theory.
Local Open Scope ring_scope.

Section FftRec.
Variable F : fieldType.
Implicit Types (a : seq F) (w omega : F).

(** src/fft/recursive_fft.rs:30-37 (also recursive_lde.rs:51-58): [c[0]] and [c[1]] of the chunks of
    length 2; a last chunk of length 1 panics at [c[1]]. *)
Definition split_even_odd a : outcome (seq F * seq F) :=
  let* even := mapM (fun c => get c 0) (chunks 2 a) in
  let* odd := mapM (fun c => get c 1) (chunks 2 a) in
  Ok (even, odd).

(** src/fft/recursive_fft.rs:49-63.  The two halves have length [n_half], so the indices are in
    bounds. *)
Definition merge_fft (n n_half : nat) omega (y_0 y_1 : seq F) : seq F :=
  (foldl (fun rw (iy : nat * (F * F)) =>
     let: (i, (y0, y1)) := iy in
     let: (result, w) := rw in
     let tmp := y1 * w in
     let result := set_nth 0 result i y0 in
     let result := set_nth 0 result i (result`_i + tmp) in
     let result := set_nth 0 result (i + n_half) y0 in
     let result := set_nth 0 result (i + n_half) (result`_(i + n_half) - tmp) in
     (result, w * omega)) (nseq n 0, 1) (enumerate (zip y_0 y_1))).1.

(** src/fft/recursive_fft.rs:15-66 [recursive_fft]; [log_n - 1] underflows for zero. *)
Fixpoint recursive_fft a omega (log_n : nat) : outcome (seq F) :=
  let n := size a in
  if n == 2%N then Ok [:: a`_0 + a`_1; a`_0 - a`_1]
  else
    check! n == (2 ^ log_n)%N ;;
    let n_half := (n %/ 2)%N in
    let* eo := split_even_odd a in
    let w_n := omega * omega in
    if log_n is next_log_n.+1 then
      let* y_0 := recursive_fft eo.1 w_n next_log_n in
      let* y_1 := recursive_fft eo.2 w_n next_log_n in
      Ok (merge_fft n n_half omega y_0 y_1)
    else Panic.

(** src/fft/recursive_fft.rs:68-124 [parallel_fft]; the shuffles are those of src/fft/fft.rs. *)
Definition rec_parallel_fft a (w : worker) omega (log_n log_cpus : nat) : outcome (seq F) :=
  check! (log_cpus <= log_n)%N ;;
  let num_cpus := (2 ^ log_cpus)%N in
  let log_new_n := (log_n - log_cpus)%N in
  let new_omega := omega ^+ num_cpus in
  check! (2 ^ log_n <= size a)%N ;;
  let* tmp := mapM (fun j => recursive_fft (shuffle xpredT a omega log_n log_new_n num_cpus j)
                                           new_omega log_new_n)
                   (iota 0 num_cpus) in
  check! (size a <= 2 ^ log_n)%N ;;
  Ok (unshuffle w a tmp log_cpus).

(** src/fft/recursive_fft.rs:4-13 [best_fft]. *)
Definition rec_best_fft a (w : worker) omega (log_n : nat) : outcome (seq F) :=
  let* log_cpus := log_num_cpus w in
  if (log_n <= log_cpus)%N then recursive_fft a omega log_n
  else rec_parallel_fft a w omega log_n log_cpus.

(** src/fft/recursive_lde.rs:67-88: nothing is written for two zeros. *)
Definition merge_lde (n n_half : nat) omega (y_0 y_1 : seq F) : seq F :=
  (foldl (fun rw (iy : nat * (F * F)) =>
     let: (i, (y0, y1)) := iy in
     let: (result, w) := rw in
     let result :=
       if y1 != 0 then
         let tmp := y1 * w in
         let result := set_nth 0 result i y0 in
         let result := set_nth 0 result i (result`_i + tmp) in
         let result := set_nth 0 result (i + n_half) y0 in
         set_nth 0 result (i + n_half) (result`_(i + n_half) - tmp)
       else if y0 != 0 then
         let result := set_nth 0 result i y0 in
         set_nth 0 result (i + n_half) y0
       else result in
     (result, w * omega)) (nseq n 0, 1) (enumerate (zip y_0 y_1))).1.

(** src/fft/recursive_lde.rs:18-89 [recursive_lde]. *)
Fixpoint recursive_lde a omega (log_n : nat) : outcome (seq F) :=
  let n := size a in
  if all (pred1 0) a then Ok (nseq n 0)
  else if n == 2%N then Ok [:: a`_0 + a`_1; a`_0 - a`_1]
  else
    check! n == (2 ^ log_n)%N ;;
    let n_half := (n %/ 2)%N in
    let* eo := split_even_odd a in
    let w_n := omega * omega in
    if log_n is next_log_n.+1 then
      let* y_0 := recursive_lde eo.1 w_n next_log_n in
      let* y_1 := recursive_lde eo.2 w_n next_log_n in
      Ok (merge_lde n n_half omega y_0 y_1)
    else Panic.

(** src/fft/recursive_lde.rs:91-149 [parallel_lde]: zero coefficients are skipped in the shuffle. *)
Definition rec_parallel_lde a (w : worker) omega (log_n log_cpus : nat) : outcome (seq F) :=
  check! (log_cpus <= log_n)%N ;;
  let num_cpus := (2 ^ log_cpus)%N in
  let log_new_n := (log_n - log_cpus)%N in
  let new_omega := omega ^+ num_cpus in
  check! (2 ^ log_n <= size a)%N ;;
  let* tmp := mapM (fun j => recursive_lde
                      (shuffle (fun idx => a`_idx != 0) a omega log_n log_new_n num_cpus j)
                      new_omega log_new_n)
                   (iota 0 num_cpus) in
  check! (size a <= 2 ^ log_n)%N ;;
  Ok (unshuffle w a tmp log_cpus).

(** src/fft/recursive_lde.rs:7-16 [best_lde]. *)
Definition rec_best_lde a (w : worker) omega (log_n : nat) : outcome (seq F) :=
  let* log_cpus := log_num_cpus w in
  if (log_n <= log_cpus)%N then recursive_lde a omega log_n
  else rec_parallel_lde a w omega log_n log_cpus.
End FftRec.
