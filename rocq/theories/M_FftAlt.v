(** Model of src/fft/radix4_fft/mod.rs and src/fft/dit_fft/mod.rs.
    Indices are in bounds by the length assertion at the start of each function,
    as in M_Fft.v. *)
From mathcomp Require Import all_ssreflect all_algebra.
From Verif Require Import M_Base M_Worker M_Fft.

Set Implicit Arguments.
Unset Strict Implicit.
Unset Printing Implicit Defensive.
Import GRing.Theory.
Local Open Scope ring_scope.

Section FftAlt.
Variable F : fieldType.
Implicit Types (a : seq F) (w omega : F).

(** * Radix 4 *)

(** src/fft/radix4_fft/mod.rs:23-31 [base_4_digit_reverse]. *)
Definition base_4_digit_reverse (n l : nat) : nat :=
  (foldl (fun rn _ => (rn.1 * 4 + rn.2 %% 4, rn.2 %/ 4)) (0, n) (iota 0 l)).1%N.

(** src/fft/radix4_fft/mod.rs:53-58. *)
Definition digit_reverse_permute a (n num_digits : nat) : seq F :=
  foldl (fun a k => let rk := base_4_digit_reverse k num_digits in
                    if (k < rk)%N then swap a rk k else a) a (iota 0 n).

(** src/fft/radix4_fft/mod.rs:71-110: one butterfly. *)
Definition butterfly4 (v : F) a (k j m : nat) w : seq F :=
  let u := w in
  let x0 := a`_(k + j) in
  let x1 := a`_(k + j + m) * w in
  let u := u * w in
  let x2 := a`_(k + j + 2 * m) * u in
  let u := u * w in
  let x3 := a`_(k + j + 3 * m) * u in
  let x0_plus_x2 := x0 + x2 in
  let x1_plus_x3 := x1 + x3 in
  let a := set_nth 0 a (k + j) (x0_plus_x2 + x1_plus_x3) in
  let a := set_nth 0 a (k + j + 2 * m) (x0_plus_x2 - x1_plus_x3) in
  let x0_minus_x2 := x0 - x2 in
  let x1_minus_x3_by_w4 := (x1 - x3) * v in
  let a := set_nth 0 a (k + j + m) (x0_minus_x2 + x1_minus_x3_by_w4) in
  set_nth 0 a (k + j + 3 * m) (x0_minus_x2 - x1_minus_x3_by_w4).

(** src/fft/radix4_fft/mod.rs:69-113: one block. *)
Definition fft4_block (v : F) a (k m : nat) w_m : seq F :=
  (foldl (fun aw j => (butterfly4 v aw.1 k j m aw.2, aw.2 * w_m)) (a, 1) (iota 0 m)).1.

(** src/fft/radix4_fft/mod.rs:67-116: one stage, [k = 0, 4m, 8m, ... < n]. *)
Definition fft4_stage (v : F) a (n m : nat) w_m : seq F :=
  foldl (fun a b => fft4_block v a (b * (4 * m)) m w_m) a (iota 0 (ceil_div n (4 * m))).

(** src/fft/radix4_fft/mod.rs:45-120 [serial_fft_radix_4]. *)
Definition serial_fft_radix_4 a omega (log_n : nat) : outcome (seq F) :=
  let n := size a in
  check! n == (2 ^ log_n)%N ;;
  check! (log_n %% 2 == 0)%N ;;
  let num_digits := (log_n %/ 2)%N in
  let a := digit_reverse_permute a n num_digits in
  let v := omega ^+ (n %/ 4)%N in
  Ok (foldl (fun am _ => (fft4_stage v am.1 n am.2 (omega ^+ (n %/ (4 * am.2))%N), (am.2 * 4)%N))
            (a, 1%N) (iota 0 (log_n %/ 2)%N)).1.

(** src/fft/radix4_fft/mod.rs:122-185 [parallel_fft_radix_4].  The indices of
    the shuffle are below 2^log_n, so the reduction in [shuffle] is void. *)
Definition parallel_fft_radix_4 a (w : worker) omega (log_n log_cpus : nat) : outcome (seq F) :=
  check! (log_cpus <= log_n)%N ;;
  check! (log_n %% 2 == 0)%N ;;
  check! (log_cpus %% 2 == 0)%N ;;
  let num_cpus := (2 ^ log_cpus)%N in
  let log_new_n := (log_n - log_cpus)%N in
  let new_omega := omega ^+ num_cpus in
  check! (2 ^ log_n <= size a)%N ;;
  let* tmp := mapM (fun j => serial_fft_radix_4 (shuffle xpredT a omega log_n log_new_n num_cpus j)
                                                new_omega log_new_n)
                   (iota 0 num_cpus) in
  check! (size a <= 2 ^ log_n)%N ;;
  Ok (unshuffle w a tmp log_cpus).

(** src/fft/radix4_fft/mod.rs:5-20 [best_fft]. *)
Definition best_fft_radix_4 a (w : worker) omega (log_n : nat) : outcome (seq F) :=
  check! (log_n %% 2 == 0)%N ;;
  let* log_cpus := log_num_cpus w in
  let log_cpus := if (log_cpus %% 2 != 0)%N then log_cpus.-1 else log_cpus in
  if (log_n <= log_cpus)%N then serial_fft_radix_4 a omega log_n
  else parallel_fft_radix_4 a w omega log_n log_cpus.

(** * Decimation in time *)

(** src/fft/dit_fft/mod.rs:30-36: one butterfly; [h] is block_len / 2. *)
Definition dit_butterfly a (k h : nat) w : seq F :=
  let t := a`_(k + h) in
  let tmp := a`_k - t in
  let a := set_nth 0 a (k + h) tmp in
  let a := set_nth 0 a (k + h) (a`_(k + h) * w) in
  set_nth 0 a k (a`_k + t).

(** src/fft/dit_fft/mod.rs:27-38: one block. *)
Definition dit_block a (start block_len non_zero : nat) w_m : seq F :=
  let h := (block_len %/ 2)%N in
  (foldl (fun aw i => (dit_butterfly aw.1 (start + i) h aw.2, aw.2 * w_m)) (a, 1)
         (iota 0 (minn h non_zero))).1.

(** src/fft/dit_fft/mod.rs:22-39: one stage. *)
Definition dit_stage a (n m non_zero : nat) omega : seq F :=
  let w_m := omega ^+ m in
  let block_len := (n %/ m)%N in
  foldl (fun a block => dit_block a (block * block_len) block_len non_zero w_m) a (iota 0 m).

(** src/fft/dit_fft/mod.rs:4-52 [serial_DIT_fft]. *)
Definition serial_dit_fft a omega (log_n non_zero_entries_count : nat) : outcome (seq F) :=
  let n := size a in
  check! n == (2 ^ log_n)%N ;;
  let a := (foldl (fun am _ => (dit_stage am.1 n am.2 non_zero_entries_count omega, (am.2 * 2)%N))
                  (a, 1%N) (iota 0 log_n)).1 in
  Ok (bit_reverse_permute a n log_n).

(** src/fft/dit_fft/mod.rs:54-106 [parallel_DIT_fft]. *)
Definition parallel_dit_fft a (w : worker) omega (log_n log_cpus non_zero_entries_count : nat) : outcome (seq F) :=
  check! (log_cpus <= log_n)%N ;;
  let num_cpus := (2 ^ log_cpus)%N in
  let log_new_n := (log_n - log_cpus)%N in
  let new_omega := omega ^+ num_cpus in
  check! (2 ^ log_n <= size a)%N ;;
  let* tmp := mapM (fun j => serial_dit_fft (shuffle xpredT a omega log_n log_new_n num_cpus j)
                                            new_omega log_new_n (minn non_zero_entries_count (2 ^ log_new_n)))
                   (iota 0 num_cpus) in
  check! (size a <= 2 ^ log_n)%N ;;
  Ok (unshuffle w a tmp log_cpus).

(** src/fft/dit_fft/mod.rs:108-117 [best_DIT_fft]. *)
Definition best_dit_fft a (w : worker) omega (log_n non_zero_entries_count : nat) : outcome (seq F) :=
  let* log_cpus := log_num_cpus w in
  if (log_n <= log_cpus)%N then serial_dit_fft a omega log_n non_zero_entries_count
  else parallel_dit_fft a w omega log_n log_cpus non_zero_entries_count.
End FftAlt.
