(** Basic vocabulary of the model: outcomes, loops, indexing and chunks.
    Nothing in this file models a particular function of /repo; it is the
    common language used by all [M_*] files. *)
From mathcomp Require Import all_ssreflect.

Set Implicit Arguments.
Unset Strict Implicit.
Unset Printing Implicit Defensive.

(** Result of running a Rust function: [Ok] is a normal return (or
    [Result::Ok]), [Err] is [Result::Err] (payload not modelled), [Panic] is a
    failed assertion, [unwrap]/[expect] of nothing, an out-of-bounds index, an
    arithmetic underflow, [unreachable!] or [unimplemented!]. *)
(** The [Result<_, SynthesisError>] of src/polynomials/mod.rs:85-166, src/domains/mod.rs:21-44 and
    others, and panics. *)
Inductive outcome (A : Type) : Type := Ok of A | Err | Panic.
Arguments Ok {A} _.
Arguments Err {A}.
Arguments Panic {A}.

(** The [?] operator, for instance src/polynomials/mod.rs:140-144, and propagation of panics. *)
Definition bind A B (x : outcome A) (f : A -> outcome B) : outcome B :=
  match x with Ok a => f a | Err => Err | Panic => Panic end.

Notation "'let*' x ':=' a 'in' b" := (bind a (fun x => b))
  (at level 200, x name, a at level 100, b at level 200).
Notation "'let*' ' p ':=' a 'in' b" := (bind a (fun q => let: p := q in b))
  (at level 200, p strict pattern, a at level 100, b at level 200).
Notation "'check!' c ';;' b" := (if c then b else Panic)
  (at level 200, c at level 100, b at level 200).

(** [unwrap]/[expect] and [ok_or]. *)
(** [unwrap]/[expect], for instance src/polynomials/mod.rs:102, src/fri/mod.rs:224-226. *)
Definition unwrap A (x : option A) : outcome A :=
  if x is Some a then Ok a else Panic.
(** [ok_or(..)?], for instance src/fri/verifier.rs:18-21. *)
Definition ok_or A (x : option A) : outcome A :=
  if x is Some a then Ok a else Err.

(** Loops that may fail. *)
(** [for] loops with a [?] or a panic in the body, for instance src/fri/verifier.rs:49-120. *)
Fixpoint foldM A B (f : B -> A -> outcome B) (b : B) (s : seq A) : outcome B :=
  if s is a :: s' then let* b' := f b a in foldM f b' s' else Ok b.

(** The same loops when they push one result per element, for instance src/prover/mod.rs:83-87. *)
Fixpoint mapM A B (f : A -> outcome B) (s : seq A) : outcome (seq B) :=
  if s is a :: s' then
    let* b := f a in let* bs := mapM f s' in Ok (b :: bs)
  else Ok [::].

(** Checked indexing [v[i]]. *)
(** [v[i]], for instance src/iop/blake2s_trivial_iop.rs:219-222. *)
Fixpoint get A (s : seq A) (i : nat) : outcome A :=
  match s, i with
  | x :: _, 0 => Ok x
  | _ :: s', i'.+1 => get s' i'
  | [::], _ => Panic
  end.

(** Checked subtraction of unsigned integers (debug-build semantics). *)
(** [a - b] on usize/u64, for instance src/ali/per_register/mod.rs:72-74. *)
Definition usub (a b : nat) : outcome nat := check! b <= a ;; Ok (a - b).

(** Observation of a [Result], as a caller of src/verifier/mod.rs:265-420 makes it. *)
Definition is_ok A (x : outcome A) : bool := if x is Ok _ then true else false.
(** Observation of a [Result], as a caller of src/verifier/mod.rs:265-420 makes it. *)
Definition is_err A (x : outcome A) : bool := if x is Err then true else false.
(** Observation of a panic, as a caller of src/verifier/mod.rs:265-420 makes it. *)
Definition is_panic A (x : outcome A) : bool := if x is Panic then true else false.

(** Rounded-up division: number of chunks of size [k] in [n] elements. *)
(** Number of pieces of [chunks]/[chunks_mut], for instance src/polynomials/mod.rs:62. *)
Definition ceil_div (n k : nat) : nat := n %/ k + (n %% k != 0).

(** [v.chunks(k)]: consecutive pieces of length [k], the last may be shorter. *)
(** One piece of [chunks]/[chunks_mut], for instance src/polynomials/mod.rs:62. *)
Definition chunk_at A (k : nat) (s : seq A) (i : nat) : seq A :=
  take k (drop (i * k) s).
(** [chunks]/[chunks_mut], for instance src/polynomials/mod.rs:62. *)
Definition chunks A (k : nat) (s : seq A) : seq (seq A) :=
  mkseq (chunk_at k s) (ceil_div (size s) k).

(** [enumerate]. *)
(** [iter().enumerate()], for instance src/fft/mod.rs:111. *)
Definition enumerate A (s : seq A) : seq (nat * A) := zip (iota 0 (size s)) s.

(** Index form of [map]. *)
(** A loop over [iter_mut().enumerate()], for instance src/fft/fft.rs:83. *)
Definition mapi A B (f : nat -> A -> B) (s : seq A) : seq B :=
  [seq f p.1 p.2 | p <- enumerate s].

(** A sequential loop over a slice that threads some local variables [st] and
    overwrites every element. *)
(** A loop over [iter_mut()] with a running variable, for instance src/fft/mod.rs:112-120. *)
Fixpoint mapacc St A B (f : St -> A -> St * B) (st : St) (s : seq A) : seq B :=
  if s is a :: s' then let: (st', b) := f st a in b :: mapacc f st' s' else [::].

(** [Vec::resize(n, x)]. *)
(** [Vec::resize], for instance src/air/test_trace_system.rs:286. *)
Definition resize A (x : A) (n : nat) (s : seq A) : seq A :=
  take n s ++ nseq (n - size s) x.

(** [usize::next_power_of_two] and [is_power_of_two]. *)
(** [next_power_of_two], for instance src/domains/mod.rs:22. *)
Definition next_pow2 (n : nat) : nat := 2 ^ up_log 2 n.
(** [is_power_of_two], for instance src/domains/mod.rs:48. *)
Definition is_pow2 (n : nat) : bool := (n != 0) && (next_pow2 n == n).

Arguments mapi : simpl never.
Arguments enumerate : simpl never.
Arguments chunks : simpl never.
Arguments chunk_at : simpl never.
Arguments resize : simpl never.
Arguments next_pow2 : simpl never.
Arguments is_pow2 : simpl never.
