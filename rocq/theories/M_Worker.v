(** Model of src/fft/multicore.rs (worker) and src/utils/mod.rs (log2_floor). *)
From mathcomp Require Import all_ssreflect.
From Verif Require Import M_Base.

Set Implicit Arguments.
Unset Strict Implicit.
Unset Printing Implicit Defensive.

(** src/fft/multicore.rs:119-129 and src/utils/mod.rs:108-118, [log2_floor].
    The while loop is a recursion with fuel [num] (it stops by itself earlier). *)
Fixpoint log2_loop (fuel pow num : nat) : nat :=
  if fuel is fuel'.+1 then
    if 2 ^ pow.+1 <= num then log2_loop fuel' pow.+1 num else pow
  else pow.
Definition log2_floor (num : nat) : outcome nat :=
  check! 0 < num ;; Ok (log2_loop num 0 num).

(** src/fft/multicore.rs:16-20: a [Worker] is its CPU count; the thread pool is
    not modelled (Sched.v treats interleavings). *)
Notation worker := nat (only parsing).

(** src/fft/multicore.rs:38-40 [Worker::log_num_cpus]. *)
Definition log_num_cpus (w : worker) : outcome nat := log2_floor w.

(** src/fft/multicore.rs:74-85 [Worker::get_chunk_size]. *)
Definition get_chunk_size (w : worker) (elements : nat) : nat :=
  if elements < w then 1 else elements %/ w.

(** src/fft/multicore.rs:87-102 [Worker::get_num_spawned_threads]. *)
Definition get_num_spawned_threads (w : worker) (elements : nat) : nat :=
  if elements < w then elements
  else
    let chunk_size := get_chunk_size w elements in
    let n := elements %/ chunk_size in
    if elements %% chunk_size != 0 then n.+1 else n.

(** src/fft/multicore.rs:60-72 [Worker::scope] used as
    [worker.scope(v.len(), |scope, chunk| for (i, v) in v.chunks_mut(chunk).enumerate()
      { scope.spawn(task i v) })]: every task gets its chunk number, the chunk
    size and its chunk and returns the overwritten chunk.  The tasks work on
    disjoint slices; Sched.v shows that the interleaving does not matter. *)
Definition par_chunks A B (w : worker) (task : nat -> nat -> seq A -> seq B)
    (s : seq A) : seq B :=
  let chunk := get_chunk_size w (size s) in
  flatten (mapi (fun i c => task i chunk c) (chunks chunk s)).

(** Same with a task that may panic: crossbeam's scope then panics
    ([expect("must run")], src/fft/multicore.rs:71). *)
Definition par_chunksM A B (w : worker) (task : nat -> nat -> seq A -> outcome (seq B))
    (s : seq A) : outcome (seq B) :=
  let chunk := get_chunk_size w (size s) in
  let* r := mapM (fun p => task p.1 chunk p.2) (enumerate (chunks chunk s)) in
  Ok (flatten r).

(** Two slices walked in lock step:
    [a.chunks_mut(chunk).zip(b.chunks(chunk))] with the chunk size taken from
    [elements]. *)
(** For instance src/polynomials/mod.rs:640-652, 817-829. *)
Definition par_zip A B (w : worker) (elements : nat) (f : A -> B -> A)
    (a : seq A) (b : seq B) : seq A :=
  let chunk := get_chunk_size w elements in
  let ca := chunks chunk a in
  let cb := chunks chunk b in
  (* chunks of [a] without partner are not visited; inside of a pair of chunks
     the elements without partner are not visited *)
  let upd (p : seq A) (q : seq B) :=
    [seq f x.1 x.2 | x <- zip p q] ++ drop (size q) p in
  flatten ([seq upd x.1 x.2 | x <- zip ca cb] ++ drop (size cb) ca).

Arguments par_chunks : simpl never.
Arguments par_chunksM : simpl never.
Arguments par_zip : simpl never.
Arguments log2_floor : simpl never.
