(** Model of src/fft/fft.rs, src/fft/lde.rs and src/fft/mod.rs:distribute_powers.
    Arrays are sequences; [nth 0]/[set_nth 0] are used for indices that are in
    bounds by the length assertion at the start of each function (the proofs
    show that sizes never change). *)
From mathcomp Require Import all_ssreflect all_algebra.
From Verif Require Import M_Base M_Worker.

Set Implicit Arguments.
Unset Strict Implicit.
Unset Printing Implicit Defensive.
Import GRing.Theory.
Local Open Scope ring_scope.

Section Fft.
Variable F : fieldType.
Implicit Types (a : seq F) (w omega : F).

(** src/fft/fft.rs:24-31 [bitreverse]. *)
Definition bitreverse (n l : nat) : nat :=
  (foldl (fun rn _ => (rn.1 * 2 + rn.2 %% 2, rn.2 %/ 2)) (0, n) (iota 0 l)).1%N.

(** [a.swap(i, j)]. *)
(** [a.swap], src/fft/fft.rs:39, src/fft/lde.rs:49. *)
Definition swap a (i j : nat) : seq F := set_nth 0 (set_nth 0 a i a`_j) j a`_i.

(** src/fft/fft.rs:36-41. *)
Definition bit_reverse_permute a (n log_n : nat) : seq F :=
  foldl (fun a k => let rk := bitreverse k log_n in
                    if (k < rk)%N then swap a rk k else a) a (iota 0 n).

(** src/fft/fft.rs:52-57, one butterfly. *)
Definition butterfly a (k j m : nat) w : seq F :=
  let t := a`_(k + j + m) * w in
  let tmp := a`_(k + j) - t in
  let a1 := set_nth 0 a (k + j + m) tmp in
  set_nth 0 a1 (k + j) (a1`_(k + j) + t).

(** src/fft/fft.rs:49-59, one block. *)
Definition fft_block a (k m : nat) w_m : seq F :=
  (foldl (fun aw j => (butterfly aw.1 k j m aw.2, aw.2 * w_m)) (a, 1) (iota 0 m)).1.

(** src/fft/fft.rs:47-62, one stage: [k = 0, 2m, 4m, ... < n]. *)
Definition fft_stage a (n m : nat) w_m : seq F :=
  foldl (fun a b => fft_block a (b * (2 * m)) m w_m) a (iota 0 (ceil_div n (2 * m))).

(** src/fft/fft.rs:21-66 [serial_fft]. *)
Definition serial_fft a omega (log_n : nat) : outcome (seq F) :=
  let n := size a in
  check! n == (2 ^ log_n)%N ;;
  let a := bit_reverse_permute a n log_n in
  Ok (foldl (fun am _ => (fft_stage am.1 n am.2 (omega ^+ (n %/ (2 * am.2))%N), (am.2 * 2)%N))
            (a, 1%N) (iota 0 log_n)).1.

(** src/fft/fft.rs:92-103, the shuffle of thread [j]: running factor [elt].
    [keep idx] says whether a[idx] is read (always for the FFT, see
    src/fft/lde.rs:159 for the LDE). *)
Definition shuffle (keep : pred nat) a omega (log_n log_new_n num_cpus j : nat) : seq F :=
  let omega_j := omega ^+ j in
  let omega_step := omega ^+ (j * 2 ^ log_new_n)%N in
  (foldl
     (fun te i =>
        let se := foldl
          (fun se s =>
             let idx := ((i + s * 2 ^ log_new_n) %% 2 ^ log_n)%N in
             ((if keep idx then se.1 + a`_idx * se.2 else se.1), se.2 * omega_step))
          (0, te.2) (iota 0 num_cpus) in
        (rcons te.1 se.1, se.2 * omega_j))
     ([::], 1) (iota 0 (2 ^ log_new_n)%N)).1.

(** src/fft/fft.rs:111-124: [a[idx] = tmp[idx & mask][idx >> log_cpus]]. *)
Definition unshuffle (w : worker) a (tmp : seq (seq F)) (log_cpus : nat) : seq F :=
  par_chunks w
    (fun i chunk c =>
       mapacc (fun idx _ =>
                 (idx.+1, nth 0 (nth [::] tmp (idx %% 2 ^ log_cpus)%N) (idx %/ 2 ^ log_cpus)%N))
              (i * chunk)%N c) a.

(** src/fft/fft.rs:68-125 [parallel_fft]. *)
Definition parallel_fft a (w : worker) omega (log_n log_cpus : nat) : outcome (seq F) :=
  check! (log_cpus <= log_n)%N ;;
  let num_cpus := (2 ^ log_cpus)%N in
  let log_new_n := (log_n - log_cpus)%N in
  let new_omega := omega ^+ num_cpus in
  (* a[idx] with idx < 2^log_n panics when the slice is shorter *)
  check! (2 ^ log_n <= size a)%N ;;
  let* tmp := mapM (fun j => serial_fft (shuffle xpredT a omega log_n log_new_n num_cpus j)
                                        new_omega log_new_n)
                   (iota 0 num_cpus) in
  (* tmp[..][idx >> log_cpus] panics when the slice is longer *)
  check! (size a <= 2 ^ log_n)%N ;;
  Ok (unshuffle w a tmp log_cpus).

(** src/fft/fft.rs:5-19 [best_fft]. *)
Definition best_fft a (w : worker) omega (log_n : nat) (use_cpus_hint : option nat) :
    outcome (seq F) :=
  let* log_cpus :=
    (if use_cpus_hint is Some hint then check! (hint <= w)%N ;; log2_floor hint
     else log_num_cpus w) in
  if (log_cpus == 0%N) || (log_n <= log_cpus)%N then serial_fft a omega log_n
  else parallel_fft a w omega log_n log_cpus.

(** src/fft/mod.rs:110-123 [distribute_powers]. *)
Definition distribute_powers a (w : worker) (g : F) : seq F :=
  par_chunks w
    (fun i chunk c => mapacc (fun u v => (u * g, v * u)) (g ^+ (i * chunk)%N) c) a.

(** src/fft/lde.rs:28-31 [is_non_zero]; [lde_factor] is a power of two, so the
    mask is a remainder. *)
Definition is_non_zero (idx lde_factor step : nat) : bool :=
  (idx %% lde_factor < 2 ^ step)%N.

(** src/fft/lde.rs:34-41 [is_dense_round]. *)
Definition is_dense_round (lde_factor step : nat) : bool :=
  (lde_factor %/ 2 ^ step <= 1)%N.

(** src/fft/lde.rs:81-116, one butterfly with skipping. *)
Definition butterfly_sparse a (k j m lde_factor step : nat) w : seq F :=
  let odd_idx := (k + j + m)%N in
  let even_idx := (k + j)%N in
  match is_non_zero odd_idx lde_factor step, is_non_zero even_idx lde_factor step with
  | true, true =>
      let t := a`_odd_idx * w in
      let tmp := a`_even_idx - t in
      let a1 := set_nth 0 a odd_idx tmp in
      set_nth 0 a1 even_idx (a1`_even_idx + t)
  | false, true => set_nth 0 a odd_idx a`_even_idx
  | true, false =>
      let t := a`_odd_idx * w in
      set_nth 0 (set_nth 0 a odd_idx (- t)) even_idx t
  | false, false => a
  end.

(** src/fft/lde.rs:78-120. *)
Definition lde_block a (k m lde_factor step : nat) w_m : seq F :=
  (foldl (fun aw j => (butterfly_sparse aw.1 k j m lde_factor step aw.2, aw.2 * w_m))
         (a, 1) (iota 0 m)).1.

Definition lde_stage a (n m lde_factor step : nat) w_m : seq F :=
  if is_dense_round lde_factor step then fft_stage a n m w_m
  else foldl (fun a b => lde_block a (b * (2 * m)) m lde_factor step w_m) a
             (iota 0 (ceil_div n (2 * m))).

(** src/fft/lde.rs:15-126 [serial_lde]. *)
Definition serial_lde a omega (log_n lde_factor : nat) : outcome (seq F) :=
  let n := size a in
  check! n == (2 ^ log_n)%N ;;
  let a := bit_reverse_permute a n log_n in
  Ok (foldl (fun am step =>
               (lde_stage am.1 n am.2 lde_factor step (omega ^+ (n %/ (2 * am.2))%N), (am.2 * 2)%N))
            (a, 1%N) (iota 0 log_n)).1.

(** src/fft/lde.rs:128-193 [parallel_lde]. *)
Definition parallel_lde a (w : worker) omega (log_n log_cpus lde_factor : nat) : outcome (seq F) :=
  check! (log_cpus <= log_n)%N ;;
  let num_cpus := (2 ^ log_cpus)%N in
  let log_new_n := (log_n - log_cpus)%N in
  let new_omega := omega ^+ num_cpus in
  let non_trivial_len := (size a %/ lde_factor)%N in
  let* tmp := mapM (fun j =>
      let t := shuffle (fun idx => (idx < non_trivial_len)%N) a omega log_n log_new_n num_cpus j in
      let new_lde_factor := (lde_factor %/ 2 ^ log_cpus)%N in
      if (new_lde_factor <= 1)%N then serial_fft t new_omega log_new_n
      else serial_lde t new_omega log_new_n new_lde_factor)
    (iota 0 num_cpus) in
  check! (size a <= 2 ^ log_n)%N ;;
  Ok (unshuffle w a tmp log_cpus).

(** src/fft/lde.rs:4-13 [best_lde]. *)
Definition best_lde a (w : worker) omega (log_n lde_factor : nat) : outcome (seq F) :=
  let* log_cpus := log_num_cpus w in
  if (log_n <= log_cpus)%N then serial_lde a omega log_n lde_factor
  else parallel_lde a w omega log_n log_cpus lde_factor.
End Fft.

Arguments serial_fft : simpl never.
Arguments parallel_fft : simpl never.
Arguments best_fft : simpl never.
Arguments serial_lde : simpl never.
Arguments parallel_lde : simpl never.
Arguments best_lde : simpl never.
Arguments distribute_powers : simpl never.
