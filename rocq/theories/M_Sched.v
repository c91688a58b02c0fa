(** Interleaving semantics of the scoped threads of src/fft/multicore.rs:60-72
    ([Worker::scope], a crossbeam scope): the calling thread spawns tasks one
    after the other, the tasks that are already spawned run at the same time and
    take their steps in any order, and the scope returns when all of them ended.

    Simplifications: the memory is sequentially consistent (the tasks have no
    data races, which is what this file is used to prove, and then Rust's memory
    model gives sequential consistency); every task ends (all the task bodies of
    the crate are [for] loops over slices). *)
From mathcomp Require Import all_ssreflect.
From Verif Require Import M_Base M_Worker.

Set Implicit Arguments.
Unset Strict Implicit.
Unset Printing Implicit Defensive.

Section Sched.
Variable A : Type.

(** The memory the tasks share: cells 0, 1, 2, ...  Several vectors are put one
    after the other. *)
Notation memory := (seq A).

(** A mutable slice [(start, len)] of the memory. *)
Notation slice := (nat * nat)%type.

(** The body of a task.  [Rd k i f] loads element [i] of the [k]-th of its
    mutable slices, [Wr k i v p] stores; each is one step that other tasks
    cannot split.  Everything else a task computes (from what it loaded and from
    the captured immutable variables) is local and happens in the function [f].
    [Fail] is a panic inside of the task. *)
(** The closures given to [scope.spawn], for instance src/fft/mod.rs:112-122. *)
Inductive prog : Type :=
  | Ret
  | Fail
  | Rd (k i : nat) (f : A -> prog)
  | Wr (k i : nat) (v : A) (p : prog).

(** State of a spawned thread. *)
(** A thread of [crossbeam::scope], src/fft/multicore.rs:68-71. *)
Inductive thread : Type :=
  | Running of seq slice & prog
  | Finished
  | Panicked.

(** The cell of element [i] of slice number [k]; [None] if out of bounds
    (indexing a slice then panics). *)
(** Indexing of a slice in a closure, for instance src/fft/mod.rs:112-122. *)
Definition address (sl : seq slice) (k i : nat) : option nat :=
  let: (start, len) := nth (0, 0) sl k in if i < len then Some (start + i) else None.

(** An assignment to an element in a closure, for instance src/fft/mod.rs:112-122. *)
Fixpoint store (m : memory) (a : nat) (v : A) : memory :=
  match m, a with
  | _ :: m', 0 => v :: m'
  | x :: m', a'.+1 => x :: store m' a' v
  | [::], _ => [::]
  end.

(** One step of a thread. *)
(** A thread of [crossbeam::scope], src/fft/multicore.rs:68-71. *)
Definition thread_step (t : thread) (m : memory) : option (thread * memory) :=
  match t with
  | Running sl Ret => Some (Finished, m)
  | Running sl Fail => Some (Panicked, m)
  | Running sl (Rd k i f) =>
      if address sl k i is Some a then
        if get m a is Ok x then Some (Running sl (f x), m) else Some (Panicked, m)
      else Some (Panicked, m)
  | Running sl (Wr k i v p) =>
      if address sl k i is Some a then Some (Running sl p, store m a v) else Some (Panicked, m)
  | Finished | Panicked => None
  end.

(** A scope in progress: the tasks the calling thread has still to spawn, the
    threads spawned so far, and the memory. *)
(** [crossbeam::scope], src/fft/multicore.rs:68-71. *)
Record config : Type := Config {
  to_spawn : seq (seq slice * prog);
  threads : seq thread;
  mem : memory
}.

(** The calling thread spawns the next task, or some thread takes a step. *)
(** [crossbeam::scope] and [scope.spawn], src/fft/multicore.rs:68-71. *)
Inductive step : config -> config -> Prop :=
  | StepSpawn sl p ts th m :
      step (Config ((sl, p) :: ts) th m) (Config ts (th ++ [:: Running sl p]) m)
  | StepThread ts th1 t th2 m t' m' :
      thread_step t m = Some (t', m') ->
      step (Config ts (th1 ++ t :: th2) m) (Config ts (th1 ++ t' :: th2) m').

(** Any number of steps of the scope of src/fft/multicore.rs:68-71. *)
Inductive steps : config -> config -> Prop :=
  | StepsRefl c : steps c c
  | StepsStep c d e : step c d -> steps d e -> steps c e.

(** A thread that can be joined at the end of src/fft/multicore.rs:68-71. *)
Definition ended (t : thread) : bool := if t is Running _ _ then false else true.
(** A thread whose join fails at the end of src/fft/multicore.rs:68-71. *)
Definition panicked (t : thread) : bool := if t is Panicked then true else false.

(** All threads are joined. *)
(** The end of the scope of src/fft/multicore.rs:68-71. *)
Definition joined (c : config) : Prop := to_spawn c = [::] /\ all ended (threads c).

(** src/fft/multicore.rs:68-71: [crossbeam::scope(..).expect("must run")]; if a
    thread panicked the scope panics, when all threads are joined. *)
Definition scope_result (c : config) : outcome memory :=
  if has panicked (threads c) then Panic else Ok (mem c).

(** The scope before the calling thread spawned anything. *)
(** The start of the scope of src/fft/multicore.rs:68-71. *)
Definition scope_start (ts : seq (seq slice * prog)) (m : memory) : config := Config ts [::] m.

(** * Running one task after the other, without threads *)
(** A closure given to [scope.spawn], run to its end (no counterpart in /repo; the sequential
    reference for src/fft/multicore.rs:68-71). *)
Fixpoint exec (sl : seq slice) (p : prog) (m : memory) : outcome memory :=
  match p with
  | Ret => Ok m
  | Fail => Panic
  | Rd k i f =>
      if address sl k i is Some a then let* x := get m a in exec sl (f x) m else Panic
  | Wr k i v p => if address sl k i is Some a then exec sl p (store m a v) else Panic
  end.

(** All closures of a scope in the order of spawning (the sequential reference for
    src/fft/multicore.rs:68-71). *)
Definition exec_all (ts : seq (seq slice * prog)) (m : memory) : outcome memory :=
  foldM (fun m t => exec t.1 t.2 m) m ts.

(** * The shapes of parallel loops in the crate *)

(** [v.chunks_mut(chunk).enumerate()]: slice number [j] of [n] elements. *)
(** [chunks_mut], for instance src/fft/mod.rs:111. *)
Definition chunk_slice (n chunk j : nat) : slice := (j * chunk, minn chunk (n - j * chunk)).

(** [worker.scope(v.len(), |scope, chunk| { for (j, v) in v.chunks_mut(chunk).enumerate()
    { scope.spawn(move |_| body) } })], for instance src/fft/mod.rs:109-126.  The
    body may use the chunk number, the chunk size and the length of its slice. *)
Definition chunk_tasks (w : worker) (n : nat) (body : nat -> nat -> nat -> prog) :
    seq (seq slice * prog) :=
  let chunk := get_chunk_size w n in
  [seq let s := chunk_slice n chunk j in ([:: s], body j chunk s.2)
  | j <- iota 0 (ceil_div n chunk)].

(** The same with one cell of a second vector of [n2] elements per task:
    [v.chunks_mut(chunk).zip(results.iter_mut())], for instance
    src/polynomials/mod.rs:689-706; the second vector is stored behind the first. *)
Definition chunk_cell_tasks (w : worker) (n n2 : nat) (body : nat -> nat -> nat -> prog) :
    seq (seq slice * prog) :=
  let chunk := get_chunk_size w n in
  [seq let s := chunk_slice n chunk j in ([:: s; (n + j, 1)], body j chunk s.2)
  | j <- iota 0 (minn (ceil_div n chunk) n2)].

(** [for (i, x) in v.iter_mut().enumerate() { scope.spawn(..) }], for instance
    src/fft/fft.rs:83-108: one task per element. *)
Definition cell_tasks (n : nat) (body : nat -> prog) : seq (seq slice * prog) :=
  [seq ([:: (j, 1)], body j) | j <- iota 0 n].

(** [for x in v.iter_mut() { (st, *x) = f(st, *x) }] over the first slice, the
    form of nearly all task bodies; [f] may panic, [i] is the position reached
    and [left] counts the elements that are left. *)
(** The loops of the closures, for instance src/fft/mod.rs:113-120. *)
Fixpoint loop_from St (f : St -> A -> outcome (St * A)) (i left : nat) (st : St) : prog :=
  if left is left'.+1 then
    Rd 0 i (fun x => if f st x is Ok r then Wr 0 i r.2 (loop_from f i.+1 left' r.1) else Fail)
  else Ret.
(** The loops of the closures, for instance src/fft/mod.rs:113-120. *)
Definition loop St (f : St -> A -> outcome (St * A)) (st : St) (len : nat) : prog :=
  loop_from f 0 len st.

(** [for y in ys.iter() { s[0] = f(s[0], *y) }]: accumulate into one cell; the
    local variables are [st]. *)
(** The loop of src/polynomials/mod.rs:693-702. *)
Fixpoint accumulate St B (f : St -> A -> B -> St * A) (ys : seq B) (st : St) : prog :=
  if ys is y :: ys' then
    Rd 0 0 (fun x => let: (st', x') := f st x y in Wr 0 0 x' (accumulate f ys' st'))
  else Ret.

End Sched.

Arguments Ret {A}.
Arguments Fail {A}.
Arguments Finished {A}.
Arguments Panicked {A}.
