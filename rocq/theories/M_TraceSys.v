(** Model of src/air/test_trace_system.rs ([TestTraceSystem], the Fibonacci AIR)
    and of the conversion [into_arp] in src/arp/mod.rs. *)
From Coq Require Import NArith.
From mathcomp Require Import all_ssreflect all_algebra.
From Verif Require Import M_Base M_Worker M_Field M_Domain M_Fft M_Poly M_Air M_Arp.

Set Implicit Arguments.
Unset Strict Implicit.
Unset Printing Implicit Defensive.
Import GRing.Theory.
Local Open Scope ring_scope.

Section TraceSys.
Variable F : fieldType.

(** src/air/test_trace_system.rs:17-35 [TestTraceSystem], without the
    generators.  Register names are only counted by the code, so each name
    vector is represented by its length.  The [register_generators] and
    [constant_register_generators] are stored and never called; they are left
    out.  The [witness_generators] are functions of the system itself; they are
    kept beside this record, in [trace_system], and read this record. *)
Record trace_state := TState {
  num_pc : nat; num_reg : nat; num_constant : nat; num_aux : nat;
  pc_witness : seq (seq F);
  reg_witness : seq (seq F);
  constant_witness : seq (seq F);
  aux_witness : seq (seq F);
  ts_constraints : seq (constraint F);
  ts_boundary : seq (boundary_constraint F);
  current_step : nat }.

(** The type of a witness generator, src/air/test_trace_system.rs:29. *)
Definition generator := trace_state -> outcome (seq (F * register * nat)).

(** src/air/test_trace_system.rs:17-35 [TestTraceSystem], with the witness generators. *)
Record trace_system := TSys { ts_state : trace_state; ts_generators : seq generator }.

(** src/air/test_trace_system.rs:249-266 [new]: every witness vector starts
    with one empty column. *)
Definition ts_new : trace_system :=
  TSys (TState 0 0 0 0 [:: [::]] [:: [::]] [:: [::]] [:: [::]] [::] [::] 0) [::].

(** src/air/test_trace_system.rs:41-51. *)
Definition allocate_register (t : trace_system) : outcome (register * trace_system) :=
  let: TState npc nr nc na pw rw cw aw cs bs st := ts_state t in
  Ok (Reg nr, TSys (TState npc nr.+1 nc na pw (rcons rw [::]) cw aw cs bs st) (ts_generators t)).

(** src/air/test_trace_system.rs:76-88 (the generator is not kept). *)
Definition allocate_constant_register (t : trace_system) : outcome (register * trace_system) :=
  let: TState npc nr nc na pw rw cw aw cs bs st := ts_state t in
  Ok (Constant nc, TSys (TState npc nr nc.+1 na pw rw (rcons cw [::]) aw cs bs st) (ts_generators t)).

(** src/air/test_trace_system.rs:91-100. *)
Definition allocate_aux_register (t : trace_system) : outcome (register * trace_system) :=
  let: TState npc nr nc na pw rw cw aw cs bs st := ts_state t in
  Ok (Aux na, TSys (TState npc nr nc na.+1 pw rw cw (rcons aw [::]) cs bs st) (ts_generators t)).

(** src/air/test_trace_system.rs:53-73. *)
Definition get_register (s : trace_state) (step : nat) (r : register) : outcome F :=
  if r is Reg n then
    if (size (reg_witness s) <= n)%N then Err
    else
      let* column := get (reg_witness s) n in
      if (size column <= step)%N then Err else get column step
  else Err.

(** src/air/test_trace_system.rs:102-112 [add_constraint]; its generator goes to
    [register_generators], which nothing reads, and is not kept. *)
Definition add_constraint (t : trace_system) (c : constraint F) : trace_system :=
  let: TState npc nr nc na pw rw cw aw cs bs st := ts_state t in
  TSys (TState npc nr nc na pw rw cw aw (rcons cs c) bs st) (ts_generators t).

(** src/air/test_trace_system.rs:114-123 [add_constraint_with_witness]. *)
Definition add_constraint_with_witness (t : trace_system) (c : constraint F) (g : generator) : trace_system :=
  let: TState npc nr nc na pw rw cw aw cs bs st := ts_state t in
  TSys (TState npc nr nc na pw rw cw aw (rcons cs c) bs st) (rcons (ts_generators t) g).

(** src/air/test_trace_system.rs:125-141. *)
Definition add_boundary_constraint (t : trace_system) (r : register) (at_step : nat) (v : option F) :
    trace_system :=
  let: TState npc nr nc na pw rw cw aw cs bs st := ts_state t in
  TSys (TState npc nr nc na pw rw cw aw cs (rcons bs (Boundary r at_step v)) st) (ts_generators t).

(** src/air/test_trace_system.rs:143-150. *)
Definition ts_step (t : trace_system) (num_steps : nat) : outcome trace_system :=
  if num_steps == 0%N then Err
  else
    let: TState npc nr nc na pw rw cw aw cs bs st := ts_state t in
    Ok (TSys (TState npc nr nc na pw rw cw aw cs bs (st + num_steps)%N) (ts_generators t)).

(** src/air/test_trace_system.rs:164-246 [Fibonacci::trace] with the
    [TestTraceSystem] as the tracer; [F::from_str] of a decimal number is its
    image in the field. *)
Definition fib_generator_a (a_register b_register : register) : generator := fun s =>
  let* value := get_register s (current_step s) b_register in
  Ok [:: (value, a_register, 1%N)].

(** The witness closure of src/air/test_trace_system.rs:164-246 for the second register. *)
Definition fib_generator_b (a_register b_register : register) : generator := fun s =>
  let* a_value := get_register s (current_step s) a_register in
  let* b_value := get_register s (current_step s) b_register in
  Ok [:: (a_value + b_value, b_register, 1%N)].

(** src/air/test_trace_system.rs:164-246 [Fibonacci::trace]. *)
Definition fib_trace (final_b at_step : option nat) (t : trace_system) : outcome trace_system :=
  let* '(a_register, t) := allocate_register t in
  let* '(b_register, t) := allocate_register t in
  let a_register_now := UTerm 1 a_register (Steps 0) 1 in
  let b_register_now := UTerm 1 b_register (Steps 0) 1 in
  let a_next_step := UTerm 1 a_register (Steps 1) 1 in
  let b_next_step := UTerm 1 b_register (Steps 1) 1 in
  let fib_constraint_0 := c_add_uni (c_sub_uni c_default b_register_now) a_next_step in
  let fib_constraint_1 :=
    c_add_uni (c_sub_uni (c_sub_uni c_default a_register_now) b_register_now) b_next_step in
  let t := add_constraint_with_witness t fib_constraint_0 (fib_generator_a a_register b_register) in
  let t := add_constraint_with_witness t fib_constraint_1 (fib_generator_b a_register b_register) in
  if final_b is Some final_b then
    let* at_step := unwrap at_step in
    let t := add_boundary_constraint t a_register 0 (Some 1) in
    let t := add_boundary_constraint t b_register 0 (Some 1) in
    Ok (add_boundary_constraint t b_register at_step (Some (from_nat F final_b)))
  else Ok t.

(** src/air/test_trace_system.rs:279-292. *)
Definition set_reg_witness (s : trace_state) (rw : seq (seq F)) (step : nat) : trace_state :=
  let: TState npc nr nc na pw _ cw aw cs bs _ := s in
  TState npc nr nc na pw rw cw aw cs bs step.

(** src/air/test_trace_system.rs:279-292: the write of one generated value. *)
Definition write_value (i : nat) (s : trace_state) (v : F * register * nat) : outcome trace_state :=
  let: (value, r, step_delta) := v in
  let* reg_num := reg_number r in
  let* column := get (reg_witness s) reg_num in
  let at_step := (i + step_delta)%N in
  let column := (if (size column <= at_step)%N then resize 0 at_step.+1 column else column) in
  Ok (set_reg_witness s (set_nth [::] (reg_witness s) reg_num (set_nth 0 column at_step value))
        (current_step s)).

(** src/air/test_trace_system.rs:268-298 [calculate_witness]; its first two
    arguments are unused.  [generator(&self).unwrap()] panics on an error. *)
Definition ts_calculate_witness (t : trace_system) (steps : nat) : outcome trace_system :=
  let s := ts_state t in
  let* c0 := get (reg_witness s) 0 in
  let s := set_reg_witness s (set_nth [::] (reg_witness s) 0 (rcons c0 1)) (current_step s) in
  let* c1 := get (reg_witness s) 1 in
  let s := set_reg_witness s (set_nth [::] (reg_witness s) 1 (rcons c1 1)) (current_step s) in
  let* s := foldM (fun s i =>
      let* s := foldM (fun s (g : generator) =>
          let* values := (if g s is Ok vs then Ok vs else Panic) in
          foldM (write_value i) s values) s (ts_generators t) in
      Ok (set_reg_witness s (reg_witness s) (current_step s).+1)) s (iota 0 steps) in
  Ok (TSys s (ts_generators t)).

(** * into_arp *)

(** src/arp/mod.rs:103-125. *)
Definition remap_register (reg_const aux_const constant_const : nat) (r : register) : register :=
  match r with
  | ProgramCounter i => Reg i
  | Reg i => Reg (i + reg_const)
  | Aux i => Reg (i + aux_const)
  | Constant i => Reg (i + constant_const)
  end.

(** src/arp/mod.rs:127-139, 141-167, 169-183: the same remapping in
    univariate terms, terms and constraints. *)
Definition arp_remap_univariate (f : register -> register) (t : univariate_term F) : univariate_term F :=
  UTerm (ut_coeff t) (f (ut_register t)) (ut_steps t) (ut_power t).
(** src/arp/mod.rs:141-167. *)
Definition arp_remap_term (f : register -> register) (t : constraint_term F) : constraint_term F :=
  match t with
  | Univariate u => Univariate (arp_remap_univariate f u)
  | Polyvariate p => Polyvariate (PTerm (pt_coeff p) [seq arp_remap_univariate f u | u <- pt_terms p] (pt_total_degree p))
  end.
(** src/arp/mod.rs:169-183. *)
Definition arp_remap_constraint (f : register -> register) (c : constraint F) : constraint F :=
  Constr (c_constant_term c) [seq arp_remap_term f t | t <- c_terms c] (c_degree c) (c_density c).

(** src/arp/mod.rs:87-248 [into_arp]; note that [num_registers] of the result
    is the number of ordinary registers only. *)
Definition into_arp (t : trace_system) : outcome (option (seq (seq F)) * instance_properties F) :=
  let s := ts_state t in
  let total_registers := (num_pc s + num_reg s + num_aux s + num_constant s)%N in
  let num_rows := (current_step s + 1)%N in
  let reg_const := num_pc s in
  let aux_const := (reg_const + num_reg s)%N in
  let constant_const := (aux_const + num_aux s)%N in
  let f := remap_register reg_const aux_const constant_const in
  let constraints := [seq arp_remap_constraint f c | c <- ts_constraints s] in
  let boundary := [seq Boundary (f (b_register b)) (b_at_row b) (b_value b) | b <- ts_boundary s] in
  let nonempty := filter (fun r : seq F => size r != 0%N) in
  let witness := nonempty (pc_witness s) ++ nonempty (reg_witness s) ++
                 nonempty (aux_witness s) ++ nonempty (constant_witness s) in
  check! size witness == total_registers ;;
  Ok (if size witness == 0%N then None else Some witness,
      Props num_rows (num_reg s) constraints boundary).
End TraceSys.
