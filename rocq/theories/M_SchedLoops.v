(** The parallel loops of the crate as sets of tasks with interleaved steps.
    The functions of the other [M_*] files compute the result of these loops
    without threads; Prop_Sched.v shows that every schedule gives this result. *)
From mathcomp Require Import all_ssreflect all_algebra.
From Verif Require Import M_Base M_Worker M_Field M_Domain M_Fft M_Poly M_Fri M_Sched.

Set Implicit Arguments.
Unset Strict Implicit.
Unset Printing Implicit Defensive.
Import GRing.Theory.
Local Open Scope ring_scope.

Section Loops.
Variable F : fieldType.

(** A loop step that cannot fail. *)
(** The bodies of the closures without panics, for instance src/fft/mod.rs:113-120. *)
Definition total St (f : St -> F -> St * F) (st : St) (x : F) : outcome (St * F) := Ok (f st x).

(** src/fft/mod.rs:112-122 [distribute_powers]. *)
Definition distribute_powers_body (g : F) (j chunk len : nat) : prog F :=
  loop (total (fun u v => (u * g, v * u))) (g ^+ (j * chunk)%N) len.

(** The loops that change every element without looking at the others, such as
    src/polynomials/mod.rs:61-69 and 749-757. *)
Definition each_body (f : F -> F) (j chunk len : nat) : prog F :=
  loop (total (fun (_ : unit) v => (tt, f v))) tt len.

(** The loops over two vectors of equal length, such as
    src/polynomials/mod.rs:820-828: [b] is only read.  The loop of the code stops
    when [b] ends; here it goes on and leaves the elements as they are. *)
Definition zip_body B (f : F -> B -> F) (b : seq B) (j chunk len : nat) : prog F :=
  loop (fun bs x => if bs is y :: bs' then Ok (bs', f x y) else Ok ([::], x)) (chunk_at chunk b j) len.

(** src/fft/fft.rs:111-123, the second half of [parallel_fft]; [tmp] is only read. *)
Definition unshuffle_body (tmp : seq (seq F)) (log_cpus j chunk len : nat) : prog F :=
  loop (total (fun idx _ =>
     (idx.+1, nth 0 (nth [::] tmp (idx %% 2 ^ log_cpus)%N) (idx %/ 2 ^ log_cpus)%N)))
    (j * chunk)%N len.

(** src/fft/fft.rs:83-108, the first half of [parallel_fft]: task [j] fills the
    vector [tmp[j]] and transforms it.  The cells of the memory are the vectors;
    the task is the only one that uses its vector, which is put back when it is
    finished. *)
Definition shuffle_body (a : seq F) (omega : F) (log_n log_cpus j : nat) : prog (seq F) :=
  let num_cpus := (2 ^ log_cpus)%N in
  let log_new_n := (log_n - log_cpus)%N in
  Rd 0 0 (fun _ =>
    if serial_fft (shuffle xpredT a omega log_n log_new_n num_cpus j)
         (omega ^+ num_cpus) log_new_n is Ok v then Wr 0 0 v Ret else Fail).

(** src/fri/fri_on_values.rs:70-105, one layer of the folding. *)
Definition fold_body (two_inv : F) (omegas_inv : seq F) (stride : nat) (challenge : F)
    (values : seq F) (next_domain_size j chunk len : nat) : prog F :=
  loop (fun idx _ =>
     let* v := (check! (idx < next_domain_size)%N ;;
       let omega_idx := (idx * stride)%N in
       let* f_at_omega := get values idx in
       let* f_at_minus_omega := get values (idx + next_domain_size)%N in
       let* omega_inv := get omegas_inv omega_idx in
       Ok (fold_value two_inv omega_inv challenge f_at_omega f_at_minus_omega)) in
     Ok (idx.+1, v))
    (j * chunk)%N len.

(** src/polynomials/mod.rs:400-413 and the three copies: interleaving of the cosets. *)
Definition interleave_body (results : seq (seq F)) (factor j chunk len : nat) : prog F :=
  loop (fun idx _ =>
     let* v := (let* r := get results (idx %% factor)%N in get r (idx %/ factor)%N) in
     Ok (idx.+1, v))
    (j * chunk)%N len.

(** src/polynomials/mod.rs:689-703 [evaluate_at]: every task adds to its own
    cell of [subvalues]; the coefficients are only read. *)
Definition evaluate_body (coeffs : seq F) (chunk : nat) (g : F) (j : nat) : prog F :=
  accumulate (fun x s a => (x * g, s + x * a)) (chunk_at chunk coeffs j) (g ^+ (j * chunk)%N).

(** src/polynomials/mod.rs:899-904: first loop of [batch_inversion]; the chunk is
    the one of [grand_products], the cell is the one of [subproducts]. *)
Fixpoint running_products (i : nat) (a : seq F) : prog F :=
  if a is x :: a' then
    Rd 1 0 (fun s => Wr 1 0 (s * x) (Rd 1 0 (fun s => Wr 0 i s (running_products i.+1 a'))))
  else Ret.

(** src/polynomials/mod.rs:938-948: second loop, from the end of the chunk of
    the values; the cell is the one of [subinverses].  [g] holds the pairs
    (position, factor) in the order of the loop. *)
Fixpoint unwind_products (g : seq (nat * F)) : prog F :=
  if g is (i, y) :: g' then
    Rd 0 i (fun tmp => Wr 0 i y (Rd 1 0 (fun s => Rd 0 i (fun a => Wr 0 i (a * s)
      (Rd 1 0 (fun s => Wr 1 0 (s * tmp) (unwind_products g')))))))
  else Ret.

(** src/polynomials/mod.rs:898-912: first loop. *)
Definition batch_body1 (a : seq F) (j chunk len : nat) : prog F :=
  running_products 0 (chunk_at chunk a j).

(** src/polynomials/mod.rs:938-948: second loop. *)
Definition batch_body2 (grand_products : seq F) (j chunk len : nat) : prog F :=
  unwind_products
    (zip (rev (iota 0 len)) (rcons (behead (rev (chunk_at chunk grand_products j))) 1)).
End Loops.
