(** Machine integers.  The other files model [usize], [u64] and [u32] by natural numbers.  This
    file models the functions that compute sizes and indices again, with the integers of the machine:
    an operation whose result does not fit panics in a build with overflow checks ([Debug]) and wraps in
    one without ([Release]); [as u32] truncates; shifts panic or reduce their amount; array accesses
    are checked against the length; [while] loops may run forever.  [usize] has 64 bits. *)
From Coq Require Import NArith.
From mathcomp Require Import all_ssreflect all_algebra.
From Verif Require Import M_Base M_Worker M_Field M_Domain M_Fft.

Set Implicit Arguments.
Unset Strict Implicit.
Unset Printing Implicit Defensive.
Import GRing.Theory.
Local Open Scope ring_scope.

(** The two build profiles (the Cargo profiles of /repo use the defaults: checks in dev and test, none in
    release). *)
(** The arithmetic of src/fft/fft.rs:21-66 and the other functions below depends on it. *)
Inductive profile := Debug | Release.

(** A result that must fit into [w] bits. *)
(** The results of [+], [*] on u32, u64 and usize, for instance src/fft/fft.rs:47-62. *)
Definition fit (pr : profile) (w x : nat) : outcome nat :=
  if (x < 2 ^ w)%N then Ok x else if pr is Debug then Panic else Ok (x %% 2 ^ w)%N.
(** [+], for instance src/fft/fft.rs:51-57. *)
Definition wadd pr w (x y : nat) := fit pr w (x + y).
(** [*], for instance src/fft/fft.rs:47, 60. *)
Definition wmul pr w (x y : nat) := fit pr w (x * y).
(** [x << s] and [x >> s]: lost bits are not an overflow, an amount of [w] or more is. *)
(** [<<], for instance src/fft/fft.rs:24-31, 34. *)
Definition wshl pr w (x s : nat) : outcome nat :=
  if (s < w)%N then Ok ((x * 2 ^ s) %% 2 ^ w)%N
  else if pr is Debug then Panic else Ok ((x * 2 ^ (s %% w)) %% 2 ^ w)%N.
(** [>>], for instance src/fft/fft.rs:24-31. *)
Definition wshr pr w (x s : nat) : outcome nat :=
  if (s < w)%N then Ok (x %/ 2 ^ s)%N else if pr is Debug then Panic else Ok (x %/ 2 ^ (s %% w))%N.
(** [x - y] in [w] bits. *)
(** [-], for instance src/fft/lde.rs:28-31. *)
Definition wsub pr w (x y : nat) : outcome nat :=
  if (y <= x)%N then Ok (x - y)%N else if pr is Debug then Panic else Ok (x + 2 ^ w - y)%N.
(** [x & y]. *)
(** [&], for instance src/fft/fft.rs:24-31, src/fft/lde.rs:28-31. *)
Definition wand (x y : nat) : nat := N.to_nat (N.land (N.of_nat x) (N.of_nat y)).
(** [x as u32]. *)
(** [as u32], for instance src/fft/fft.rs:33. *)
Definition as_u32 (x : nat) : nat := (x %% 2 ^ 32)%N.

(** Computations that may run forever: [None] is "still running after that many iterations". *)
(** The [while] loops of src/fft/fft.rs:47-62 and src/utils/mod.rs:108-118. *)
Definition run A := option (outcome A).
(** Sequencing after such a loop, for instance src/fft/fft.rs:43-65. *)
Definition bindR A B (x : run A) (f : A -> run B) : run B :=
  match x with
  | Some (Ok a) => f a | Some Err => Some Err | Some Panic => Some Panic | None => None
  end.
Notation "'let+' x ':=' a 'in' b" := (bindR a (fun x => b))
  (at level 200, x name, a at level 100, b at level 200).
Notation "'let+' ' p ':=' a 'in' b" := (bindR a (fun q => let: p := q in b))
  (at level 200, p strict pattern, a at level 100, b at level 200).
(** A [for] loop around such a loop, for instance src/fft/fft.rs:43-65. *)
Fixpoint foldR A B (f : B -> A -> run B) (b : B) (s : seq A) : run B :=
  if s is x :: s' then let+ b' := f b x in foldR f b' s' else Some (Ok b).
(** The same with one result per element, for instance src/fft/fft.rs:83-108. *)
Fixpoint mapR A B (f : A -> run B) (s : seq A) : run (seq B) :=
  if s is x :: s' then let+ y := f x in let+ ys := mapR f s' in Some (Ok (y :: ys)) else Some (Ok [::]).

(** [while cond { body }], at most [fuel] iterations. *)
(** src/fft/fft.rs:47-62 and src/utils/mod.rs:108-118. *)
Fixpoint while A (fuel : nat) (cond : A -> outcome bool) (body : A -> outcome A) (st : A) : run A :=
  let+ c := Some (cond st) in
  if c then
    if fuel is fuel'.+1 then let+ st' := Some (body st) in while fuel' cond body st' else None
  else Some (Ok st).

(** * Sizes and indices *)
(** [u64::next_power_of_two]: the library adds one to [2^k - 1] with the overflow checks of the caller. *)
(** Used at src/domains/mod.rs:22. *)
Definition w_next_power_of_two pr (x : nat) : outcome nat := fit pr 64 (next_pow2 x).

(** src/utils/mod.rs:108-118 and src/fft/multicore.rs:119-129 [log2_floor]; [pow] is a [u32], the shifted
    1 a [usize]. *)
Definition w_log2_floor pr fuel (num : nat) : run nat :=
  if (0 < num)%N then
    while fuel
      (fun pow => let* p1 := wadd pr 32 pow 1 in let* x := wshl pr 64 1 p1 in Ok (x <= num)%N)
      (fun pow => wadd pr 32 pow 1) 0%N
  else Some Panic.

Section Domain.
Variables (F : fieldType) (fp : ff_params F).

(** src/domains/mod.rs:21-44 [Domain::new_for_size].  Squaring the root of unity is not a computation
    with machine integers. *)
Definition w_domain_new pr fuel (size0 : nat) : run (domain F) :=
  let+ size := Some (w_next_power_of_two pr size0) in
  let+ kp := while fuel (fun kp : nat * nat => Ok (kp.1 != 1%N))
       (fun kp => let* k := wshr pr 64 kp.1 1 in let* p := wadd pr 64 kp.2 1 in Ok (k, p)) (size, 0%N) in
  let power_of_two := kp.2 in
  if (ff_S fp < power_of_two)%N then Some Err
  else
    let generator := iter (ff_S fp - power_of_two) (fun g => g * g) (ff_rou fp) in
    Some (Ok (Domain size power_of_two generator)).

(** src/domains/mod.rs:46-54 [coset_for_natural_index_and_size]. *)
Definition w_coset_for_natural_index_and_size pr (natural_index domain_size : nat) : outcome (seq nat) :=
  check! (1 < domain_size)%N ;;
  check! is_pow2 domain_size ;;
  let* s := wadd pr 64 natural_index (domain_size %/ 2) in
  Ok (sort leq [:: natural_index; s %% domain_size]%N).
End Domain.

(** * The transforms *)
Section Fft.
Variable F : fieldType.
Implicit Types (a : seq F) (w omega : F).

(** [a[i] = x] and [a.swap(i, j)], checked. *)
(** src/fft/fft.rs:51-57. *)
Definition put a (i : nat) (x : F) : outcome (seq F) := check! (i < size a)%N ;; Ok (set_nth 0 a i x).
(** src/fft/fft.rs:39. *)
Definition w_swap a (i j : nat) : outcome (seq F) :=
  check! (i < size a)%N ;; check! (j < size a)%N ;; Ok (swap a i j).

(** src/fft/fft.rs:24-31 [bitreverse] (u32); the [|] of an even number and a bit is a sum. *)
Definition w_bitreverse pr (n l : nat) : outcome nat :=
  let* rn := foldM (fun rn _ =>
    let* r := wshl pr 32 rn.1 1 in
    let* n' := wshr pr 32 rn.2 1 in
    Ok (r + wand rn.2 1, n')%N) (0%N, n) (iota 0 l) in
  Ok rn.1.

(** src/fft/fft.rs:36-41 (also src/fft/lde.rs:46-51). *)
Definition w_bit_reverse_permute pr a (n log_n : nat) : outcome (seq F) :=
  foldM (fun a k =>
    let* rk := w_bitreverse pr k log_n in
    if (k < rk)%N then w_swap a rk k else Ok a) a (iota 0 n).

(** src/fft/fft.rs:51-57. *)
Definition w_butterfly pr a (k j m : nat) w : outcome (seq F) :=
  let* kj := wadd pr 32 k j in
  let* kjm := wadd pr 32 kj m in
  let* o := get a kjm in
  let t := o * w in
  let* e := get a kj in
  let tmp := e - t in
  let* a1 := put a kjm tmp in
  let* e1 := get a1 kj in
  put a1 kj (e1 + t).

(** src/fft/fft.rs:49-59. *)
Definition w_fft_block pr a (k m : nat) w_m : outcome (seq F) :=
  let* aw := foldM (fun aw j =>
    let* a' := w_butterfly pr aw.1 k j m aw.2 in Ok (a', aw.2 * w_m)) (a, 1) (iota 0 m) in
  Ok aw.1.

(** src/fft/fft.rs:47-62: [while k < n { ...; k += 2*m }]. *)
Definition w_fft_stage pr fuel a (n m : nat) w_m : run (seq F) :=
  let+ ka := while fuel (fun ka : nat * seq F => Ok (ka.1 < n)%N)
    (fun ka =>
       let* a' := w_fft_block pr ka.2 ka.1 m w_m in
       let* m2 := wmul pr 32 2 m in
       let* k' := wadd pr 32 ka.1 m2 in
       Ok (k', a')) (0%N, a) in
  Some (Ok ka.2).

(** src/fft/fft.rs:21-66 [serial_fft]; a division by zero panics. *)
Definition w_serial_fft pr fuel a omega (log_n : nat) : run (seq F) :=
  let n := as_u32 (size a) in
  let+ lim := Some (wshl pr 32 1 log_n) in
  if n == lim then
    let+ a := Some (w_bit_reverse_permute pr a n log_n) in
    let+ am := foldR (fun (am : seq F * nat) _ =>
        let+ m2 := Some (wmul pr 32 2 am.2) in
        if m2 == 0%N then Some Panic
        else
          let+ a' := w_fft_stage pr fuel am.1 n am.2 (omega ^+ (n %/ m2)%N) in
          let+ m' := Some (wmul pr 32 am.2 2) in
          Some (Ok (a', m')))
      (a, 1%N) (iota 0 log_n) in
    Some (Ok am.1)
  else Some Panic.

(** src/fft/lde.rs:28-31 [is_non_zero], with the mask (usize). *)
Definition w_is_non_zero pr (idx lde_factor step : nat) : outcome bool :=
  let* mask := wsub pr 64 lde_factor 1 in
  let* lim := wshl pr 64 1 step in
  Ok (wand idx mask < lim)%N.

(** src/fft/lde.rs:34-41 [is_dense_round]. *)
Definition w_is_dense_round pr (lde_factor step : nat) : outcome bool :=
  let* f := wshr pr 64 lde_factor step in Ok (f <= 1)%N.

(** src/fft/lde.rs:81-116. *)
Definition w_butterfly_sparse pr a (k j m lde_factor step : nat) w : outcome (seq F) :=
  let* even_idx := wadd pr 32 k j in
  let* odd_idx := wadd pr 32 even_idx m in
  let* odd_nz := w_is_non_zero pr odd_idx lde_factor step in
  let* even_nz := w_is_non_zero pr even_idx lde_factor step in
  match odd_nz, even_nz with
  | true, true =>
      let* o := get a odd_idx in
      let t := o * w in
      let* e := get a even_idx in
      let tmp := e - t in
      let* a1 := put a odd_idx tmp in
      let* e1 := get a1 even_idx in
      put a1 even_idx (e1 + t)
  | false, true => let* e := get a even_idx in put a odd_idx e
  | true, false =>
      let* o := get a odd_idx in
      let t := o * w in
      let* a1 := put a odd_idx (- t) in
      put a1 even_idx t
  | false, false => Ok a
  end.

(** src/fft/lde.rs:78-120. *)
Definition w_lde_block pr a (k m lde_factor step : nat) w_m : outcome (seq F) :=
  let* aw := foldM (fun aw j =>
    let* a' := w_butterfly_sparse pr aw.1 k j m lde_factor step aw.2 in Ok (a', aw.2 * w_m)) (a, 1) (iota 0 m) in
  Ok aw.1.

(** src/fft/lde.rs:61-120: [(0..n).step_by(2*m)] (the step is a [usize]) visits the multiples of the step
    below [n]. *)
Definition w_lde_stage pr a (n m lde_factor step : nat) w_m : outcome (seq F) :=
  let* step_by := wmul pr 64 2 m in
  check! (0 < step_by)%N ;;
  let* dense := w_is_dense_round pr lde_factor step in
  foldM (fun a b => if dense then w_fft_block pr a (b * step_by) m w_m
                    else w_lde_block pr a (b * step_by) m lde_factor step w_m)
        a (iota 0 (ceil_div n step_by)).

(** src/fft/lde.rs:15-126 [serial_lde]; [step] is a [usize]. *)
Definition w_serial_lde pr a omega (log_n lde_factor : nat) : outcome (seq F) :=
  let n := as_u32 (size a) in
  let* lim := wshl pr 32 1 log_n in
  check! n == lim ;;
  let* a := w_bit_reverse_permute pr a n log_n in
  let* st := foldM (fun (st : seq F * nat * nat) _ =>
      let: (a, m, step) := st in
      let* m2 := wmul pr 32 2 m in
      check! m2 != 0%N ;;
      let* a' := w_lde_stage pr a n m lde_factor step (omega ^+ (n %/ m2)%N) in
      let* step' := wadd pr 64 step 1 in
      let* m' := wmul pr 32 m 2 in
      Ok (a', m', step')) (a, 1%N, 0%N) (iota 0 log_n) in
  Ok st.1.1.

(** src/fft/fft.rs:68-125 [parallel_fft]: the sizes are [usize]s.  The indices of the two shuffles are
    below [2^log_n]; they are taken from the model with natural numbers. *)
Definition w_parallel_fft pr fuel a (w : worker) omega (log_n log_cpus : nat) : run (seq F) :=
  if (log_cpus <= log_n)%N then
    let+ num_cpus := Some (wshl pr 64 1 log_cpus) in
    let log_new_n := (log_n - log_cpus)%N in
    let+ new_n := Some (wshl pr 64 1 log_new_n) in
    let+ n := Some (wshl pr 64 1 log_n) in
    let new_omega := omega ^+ num_cpus in
    if (2 ^ log_n <= size a)%N then
      let+ tmp := mapR (fun j => w_serial_fft pr fuel (shuffle xpredT a omega log_n log_new_n num_cpus j)
                                          new_omega log_new_n) (iota 0 num_cpus) in
      if (size a <= 2 ^ log_n)%N then Some (Ok (unshuffle w a tmp log_cpus)) else Some Panic
    else Some Panic
  else Some Panic.

(** src/fft/fft.rs:5-19 [best_fft]. *)
Definition w_best_fft pr fuel a (w : worker) omega (log_n : nat) (use_cpus_hint : option nat) : run (seq F) :=
  let+ log_cpus :=
    (if use_cpus_hint is Some hint then if (hint <= w)%N then w_log2_floor pr fuel hint else Some Panic
     else w_log2_floor pr fuel w) in
  if (log_cpus == 0%N) || (log_n <= log_cpus)%N then w_serial_fft pr fuel a omega log_n
  else w_parallel_fft pr fuel a w omega log_n log_cpus.
End Fft.
