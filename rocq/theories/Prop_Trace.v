(** Property C60: histories of calls on the trace system. *)
From Coq Require Import NArith.
From mathcomp Require Import all_ssreflect all_algebra.
From Verif Require Import M_Base M_Worker M_Field M_Domain M_Fft M_Poly M_Air M_Arp M_TraceSys.
From Verif Require Import SpecAir P_Base P_Air Instances Prop_Air.

Set Implicit Arguments.
Unset Strict Implicit.
Unset Printing Implicit Defensive.
Import GRing.Theory.
Local Open Scope ring_scope.

Section C60.
Variable F : fieldType.
Implicit Types (t : trace_system F) (s : trace_state F).

(** The calls that a user can make. *)
Inductive call :=
| AllocRegister | AllocConstant | AllocAux
| AddConstraint of constraint F
| AddConstraintWithWitness of constraint F & generator F
| AddBoundary of register & nat & option F
| Step of nat
| CalculateWitness of nat.

(** One call: the register that it returns, if any, and the new system. *)
Definition run_call (t : trace_system F) (c : call) : outcome (option register * trace_system F) :=
  match c with
  | AllocRegister => let* '(r, t) := allocate_register t in Ok (Some r, t)
  | AllocConstant => let* '(r, t) := allocate_constant_register t in Ok (Some r, t)
  | AllocAux => let* '(r, t) := allocate_aux_register t in Ok (Some r, t)
  | AddConstraint c => Ok (None, add_constraint t c)
  | AddConstraintWithWitness c g => Ok (None, add_constraint_with_witness t c g)
  | AddBoundary r i v => Ok (None, add_boundary_constraint t r i v)
  | Step n => let* t := ts_step t n in Ok (None, t)
  | CalculateWitness n => let* t := ts_calculate_witness t n in Ok (None, t)
  end.

(** A history of calls on a new system: the registers that were returned, in
    order, and the final system. *)
Definition history (h : seq call) : outcome (seq register * trace_system F) :=
  foldM (fun (rt : seq register * trace_system F) c =>
      let* '(r, t) := run_call rt.2 c in
      Ok (if r is Some r then rcons rt.1 r else rt.1, t)) ([::], ts_new F) h.

(** What the calls say. *)
Definition constraints_of (h : seq call) : seq (constraint F) :=
  pmap (fun c => match c with AddConstraint c | AddConstraintWithWitness c _ => Some c | _ => None end) h.
Definition boundaries_of (h : seq call) : seq (boundary_constraint F) :=
  pmap (fun c => if c is AddBoundary r i v then Some (Boundary r i v) else None) h.
Definition steps_of (h : seq call) : nat :=
  sumn [seq match c with Step n | CalculateWitness n => n | _ => 0%N end | c <- h].
Definition is_alloc (c : call) : bool := match c with AllocRegister | AllocConstant | AllocAux => true | _ => false end.
Definition is_special (c : call) : bool := match c with AllocConstant | AllocAux => true | _ => false end.

(** The invariant of all histories. *)
Definition kinds s : seq register :=
  [seq Reg i | i <- iota 0 (num_reg s)] ++ [seq Constant i | i <- iota 0 (num_constant s)] ++ [seq Aux i | i <- iota 0 (num_aux s)].
Definition empty_columns (cols : seq (seq F)) : bool := all (fun c : seq F => size c == 0%N) cols.
Definition inv (h : seq call) (rs : seq register) t : Prop :=
  let s := ts_state t in
  [/\ perm_eq rs (kinds s) /\ num_pc s = 0%N,
      ts_constraints s = constraints_of h /\ ts_boundary s = boundaries_of h,
      current_step s = steps_of h,
      size (reg_witness s) = (num_reg s).+1 &
      [/\ empty_columns (pc_witness s), empty_columns (constant_witness s), empty_columns (aux_witness s),
       (num_constant s + num_aux s = count is_special h)%N & (num_reg s + num_constant s + num_aux s = count is_alloc h)%N]].

(** Everything but the columns and the step stays as it is while the witness is computed. *)
Definition frozen s s' : Prop :=
  [/\ (num_pc s' = num_pc s) /\ (num_reg s' = num_reg s), num_constant s' = num_constant s /\ num_aux s' = num_aux s,
      ts_constraints s' = ts_constraints s /\ ts_boundary s' = ts_boundary s,
      pc_witness s' = pc_witness s /\ constant_witness s' = constant_witness s &
      aux_witness s' = aux_witness s /\ size (reg_witness s') = size (reg_witness s)].

Lemma frozen_refl s : frozen s s. Proof. by []. Qed.
Lemma frozen_trans s s' s'' : frozen s s' -> frozen s' s'' -> frozen s s''.
Proof.
move=> [[a1 a2] [a3 a4] [a5 a6] [a7 a8] [a9 a10]] [[b1 b2] [b3 b4] [b5 b6] [b7 b8] [b9 b10]].
by rewrite /frozen b1 b2 b3 b4 b5 b6 b7 b8 b9 b10.
Qed.
Lemma frozen_set s rw n : size rw = size (reg_witness s) -> frozen s (set_reg_witness s rw n).
Proof. by case: s. Qed.
Lemma step_set s rw n : current_step (set_reg_witness s rw n) = n. Proof. by case: s. Qed.
Lemma rw_set s rw n : reg_witness (set_reg_witness s rw n) = rw. Proof. by case: s. Qed.

Lemma get_lt A (l : seq A) i x : get l i = Ok x -> (i < size l)%N.
Proof. by elim: l i => [|y l IH] [|i] //=; rewrite /get /= => /IH. Qed.

Lemma write_frozen i s v s' : write_value i s v = Ok s' -> frozen s s' /\ current_step s' = current_step s.
Proof.
case: v => [[x r] d]; rewrite /write_value => E; have [n _ {}E] := bind_Ok E; have [c Hc [<-]] := bind_Ok E; have Hn := get_lt Hc.
by rewrite step_set; split=> //; apply: frozen_set; rewrite size_set_nth (maxn_idPr Hn).
Qed.

Lemma writes_frozen i vs s s' : foldM (write_value i) s vs = Ok s' -> frozen s s' /\ current_step s' = current_step s.
Proof.
elim: vs s => [|v vs IH] s /=; first by case=> <-.
move=> E; have [s1 /write_frozen [F1 E1] /IH [F2 E2]] := bind_Ok E.
by split; [apply: frozen_trans F1 F2 | rewrite E2].
Qed.

Lemma generators_frozen i (gs : seq (generator F)) s s' :
  foldM (fun s (g : generator F) => let* values := (if g s is Ok vs then Ok vs else Panic) in foldM (write_value i) s values)
    s gs = Ok s' -> frozen s s' /\ current_step s' = current_step s.
Proof.
elim: gs s => [|g gs IH] s /=; first by case=> <-.
move=> E; have [s1 E1 /IH [F2 E2]] := bind_Ok E; have [vs _ /writes_frozen [F1 E3]] := bind_Ok E1.
by split; [apply: frozen_trans F1 F2 | rewrite E2].
Qed.

Lemma witness_frozen t n t' : ts_calculate_witness t n = Ok t' ->
  frozen (ts_state t) (ts_state t') /\ current_step (ts_state t') = (current_step (ts_state t) + n)%N.
Proof.
rewrite /ts_calculate_witness => E; have [c0 G0 {}E] := bind_Ok E; have [c1 G1 {}E] := bind_Ok E.
have H0 := get_lt G0; have H1 := get_lt G1.
have [s E2 [<-]] := bind_Ok E => {E}; rewrite [ts_state _]/=.
set s1 := set_reg_witness _ _ _ in H1 E2; set s2 := set_reg_witness s1 _ _ in E2.
have F1 : frozen (ts_state t) s1 by apply: frozen_set; rewrite size_set_nth (maxn_idPr H0).
have F2 : frozen s1 s2 by apply: frozen_set; rewrite size_set_nth (maxn_idPr H1).
have Es2 : current_step s2 = current_step (ts_state t) by rewrite /s2 step_set /s1 step_set.
have F12 := frozen_trans F1 F2; move: E2; rewrite -Es2 -{2}(size_iota 0 n).
elim: (iota 0 n) s2 F12 {Es2 F2} => [|i l IH] s2 F12 /=; first by case=> <-; rewrite addn0.
move=> E; have [s3 E3 E4] := bind_Ok E; have [s4 /generators_frozen [F4 E5] [E6]] := bind_Ok E3.
have F3 : frozen s4 s3 by rewrite -E6; apply: frozen_set.
have [F5 E7] := IH s3 (frozen_trans F12 (frozen_trans F4 F3)) E4.
by split=> //; rewrite E7 -E6 step_set E5 addSnnS.
Qed.

Lemma kindsP s r : (r \in kinds s) = allocated s r && (if r is ProgramCounter _ then false else true).
Proof.
have mk (k : nat -> register) n i : injective k -> (k i \in [seq k j | j <- iota 0 n]) = (i < n)%N.
  by move=> Hk; rewrite mem_map // mem_iota.
rewrite /kinds !mem_cat; case: r => i; rewrite ?andbT ?andbF /=.
- by apply/negP => /or3P [] /mapP [].
- rewrite mk => [|? ? []//]; case: ltnP => //= _; by apply/negP => /orP [] /mapP [].
- have -> : (Constant i \in [seq Reg j | j <- iota 0 (num_reg s)]) = false by apply/negP => /mapP [].
  rewrite mk => [|? ? []//]; case: ltnP => //= _; by apply/negP => /mapP [].
have -> : (Aux i \in [seq Reg j | j <- iota 0 (num_reg s)]) = false by apply/negP => /mapP [].
have -> : (Aux i \in [seq Constant j | j <- iota 0 (num_constant s)]) = false by apply/negP => /mapP [].
by rewrite mk // => ? ? [].
Qed.

Lemma kinds_uniq s : uniq (kinds s).
Proof.
rewrite /kinds !cat_uniq !map_inj_uniq ?iota_uniq /= ?andbT; try by move=> ? ? [].
apply/andP; split; apply/hasPn => x; last by move=> /mapP [i _ ->]; apply/negP => /mapP [].
by rewrite mem_cat => /orP [] /mapP [i _ ->]; apply/negP => /mapP [].
Qed.

Lemma iotaS_rcons n : iota 0 n.+1 = rcons (iota 0 n) n.
Proof. by rewrite -addn1 iotaD add0n cats1. Qed.

Lemma empty_rcons (cols : seq (seq F)) : empty_columns (rcons cols [::]) = empty_columns cols.
Proof. by rewrite /empty_columns all_rcons. Qed.

Lemma perm_insert (A : eqType) (rs a b c : seq A) x : perm_eq rs (a ++ b ++ c) ->
  [/\ perm_eq (rcons rs x) (rcons a x ++ b ++ c), perm_eq (rcons rs x) (a ++ rcons b x ++ c) &
      perm_eq (rcons rs x) (a ++ b ++ rcons c x)].
Proof.
move=> H; have Hx : perm_eq (rcons rs x) (x :: a ++ b ++ c) by rewrite perm_rcons perm_cons.
have mid u v : perm_eq (x :: u ++ v) (u ++ x :: v) by rewrite perm_sym -cat1s perm_catCA.
split; apply: perm_trans Hx _; rewrite ?cat_rcons //.
- by rewrite !(catA a); apply: mid.
- by rewrite -cats1 !catA -{1}(cats0 ((a ++ b) ++ c)); apply: mid.
Qed.

Lemma kindsE npc nr nc na pw rw cw aw cs bs st : kinds (TState npc nr nc na pw rw cw aw cs bs st) =
  [seq Reg i | i <- iota 0 nr] ++ [seq Constant i | i <- iota 0 nc] ++ [seq Aux i | i <- iota 0 na].
Proof. by []. Qed.

Lemma historyP h rs t : history h = Ok (rs, t) -> inv h rs t.
Proof.
rewrite /history; elim/last_ind: h rs t => [|h c IH] rs t; first by case=> <- <-.
rewrite -cats1 foldM_cat => E; have [[rs0 t0] /IH {IH} I /= {}E] := bind_Ok E.
have [[rs1 t1] {}E [E1 E2]] := bind_Ok E; rewrite {rs1}E1 {t1}E2 in E.
have [[o t1] E0 [Ers Et]] := bind_Ok E; rewrite {t1}Et in E0.
case: I => [[Hp Hpc] [Hc Hb] Hst Hsz [He1 He2 He3 Hn Hn2]].
rewrite /inv /constraints_of /boundaries_of /steps_of !pmap_cat map_cat sumn_cat !count_cat.
rewrite -/(constraints_of h) -/(boundaries_of h) -/(steps_of h) -Hc -Hb -Hst -Hn -Hn2 {Hc Hb Hst Hn Hn2}.
move: E0 Hp Hpc Hsz He1 He2 He3 {E}; case: t0 => [[npc nr nc na pw rw cw aw cs bs st] gs].
case: c => [||| c | c g | r i v | n | n] /=.
- case=> Eo <- Hp Hpc Hsz He1 He2 He3; rewrite -Ers -Eo /= !addn0 !cats0 size_rcons Hsz; split=> //.
    by split=> //; rewrite kindsE iotaS_rcons map_rcons; have [] := perm_insert (Reg nr) Hp.
  by split=> //; rewrite addn1.
- case=> Eo <- Hp Hpc Hsz He1 He2 He3; rewrite -Ers -Eo /= !addn0 !cats0; split=> //.
    by split=> //; rewrite kindsE iotaS_rcons map_rcons; have [] := perm_insert (Constant nc) Hp.
  by rewrite empty_rcons; split=> //; rewrite ?addnS ?addSn addn0.
- case=> Eo <- Hp Hpc Hsz He1 He2 He3; rewrite -Ers -Eo /= !addn0 !cats0; split=> //.
    by split=> //; rewrite kindsE iotaS_rcons map_rcons; have [] := perm_insert (Aux na) Hp.
  by rewrite empty_rcons; split=> //; rewrite ?addnS addn0.
- case=> Eo <- Hp Hpc Hsz He1 He2 He3; rewrite -Ers -Eo /= !addn0 !cats0 cats1; by split.
- case=> Eo <- Hp Hpc Hsz He1 He2 He3; rewrite -Ers -Eo /= !addn0 !cats0 cats1; by split.
- case=> Eo <- Hp Hpc Hsz He1 He2 He3; rewrite -Ers -Eo /= !addn0 !cats0 cats1; by split.
- rewrite /ts_step; case: eqP => //= _ [Eo <-] Hp Hpc Hsz He1 He2 He3; rewrite -Ers -Eo /= !addn0 !cats0; by split.
move=> E Hp Hpc Hsz He1 He2 He3; have [t1 /witness_frozen [[[/= A1 A2] [A3 A4] [A5 A6] [A7 A8] [A9 A10]] A11] [Eo Et]] := bind_Ok E.
rewrite -Ers -Eo {t1}Et in A1 A2 A3 A4 A5 A6 A7 A8 A9 A10 A11 *.
rewrite A1 A2 A3 A4 A5 A6 A7 A8 A9 A10 A11 /= !addn0 !cats0 /kinds A2 A3 A4; by split.
Qed.

(** Handles: the registers returned by allocations are pairwise different and
    are the allocated ones; nothing else is allocated, and none is ever lost. *)
Theorem C60_handles h rs t : history h = Ok (rs, t) ->
  [/\ uniq rs, forall r, (r \in rs) = allocated (ts_state t) r & size rs = count is_alloc h].
Proof.
move/historyP => [[Hp Hpc] _ _ _ [_ _ _ _ Hn]]; split.
- by rewrite (perm_uniq Hp) kinds_uniq.
- move=> r; rewrite (perm_mem Hp) kindsP; case: r => i; rewrite ?andbT //= Hpc ltn0; by [].
- by rewrite (perm_size Hp) -Hn /kinds !size_cat !size_map !size_iota addnA.
Qed.

(** Constraints and boundary constraints are recorded in the order of the
    calls; the step counter is the sum of all steps. *)
Theorem C60_recorded h rs t : history h = Ok (rs, t) ->
  [/\ ts_constraints (ts_state t) = constraints_of h, ts_boundary (ts_state t) = boundaries_of h &
      current_step (ts_state t) = steps_of h].
Proof. by move/historyP => [_ [H1 H2] H3 _ _]. Qed.

Lemma filter_empty (cols : seq (seq F)) : empty_columns cols -> [seq c <- cols | size c != 0%N] = [::].
Proof. by elim: cols => //= c cols IH /andP [-> /IH]. Qed.

(** No call writes a column of an auxiliary or constant register.  So a system
    with such a register converts only by accident: if there is exactly one, and a
    value has been written to the spare column behind the ordinary registers.  With
    two or more of them the conversion always panics. *)
Theorem C60_no_auxiliary_columns h rs t : history h = Ok (rs, t) ->
  let s := ts_state t in
  (empty_columns (constant_witness s) /\ empty_columns (aux_witness s)) /\
  (forall w props, into_arp t = Ok (w, props) ->
     [/\ (count is_special h <= (size (nth [::] (reg_witness s) (num_reg s)) != 0%N))%N,
         odflt [::] w = [seq c <- reg_witness s | size c != 0%N] &
         size (odflt [::] w) = count is_alloc h]) /\
  ((1 < count is_special h)%N -> into_arp t = Panic).
Proof.
move=> Hh s; have [[_ Hpc] _ _ Hsz [He1 He2 He3 Hn Hn2]] := historyP Hh; split=> //.
have E : into_arp t = (check! size [seq c <- reg_witness s | size c != 0%N] == count is_alloc h ;; into_arp t).
  case: eqP => // /eqP Hne; apply: C51_needs_witness; rewrite -/s (filter_empty He1) (filter_empty He2) (filter_empty He3) !addn0 add0n.
  by rewrite /total_allocated Hpc add0n Hn2.
have Hcnt : (size [seq c <- reg_witness s | size c != 0%N] <= num_reg s + (size (nth [::] (reg_witness s) (num_reg s)) != 0%N))%N.
  have Hlt : (num_reg s < size (reg_witness s))%N by rewrite Hsz.
  rewrite -{1}(cat_take_drop (num_reg s) (reg_witness s)) filter_cat size_cat leq_add //.
    by rewrite size_filter (leq_trans (count_size _ _)) // size_takel // ltnW.
  by rewrite (drop_nth [::] Hlt) drop_oversize ?Hsz //=; case: (size _ != 0%N).
split; last first.
  move=> H1; rewrite E; case: eqP => // Ec; move: Hcnt; rewrite Ec -Hn2 -addnA leq_add2l Hn => H2.
  by have := leq_trans H1 (leq_trans H2 (leq_b1 _)).
move=> w props Ew; have Ec : size [seq c <- reg_witness s | size c != 0%N] = count is_alloc h.
  by move: E; rewrite Ew; case: eqP.
have Hw : odflt [::] w = [seq c <- reg_witness s | size c != 0%N].
  move: Ew; rewrite /into_arp -/s (filter_empty He1) (filter_empty He2) (filter_empty He3) !cats0 cat0s => Ew.
  by move: Ew; case: ifP => // _ []; case: eqP => [/size0nil ->|_] <-.
split=> //; last by rewrite Hw.
by rewrite -(leq_add2l (num_reg s)) -Hn addnA Hn2 -Ec.
Qed.

(** The full property of a conversion: every allocated register finds its own
    column at one place of the witness, and the reported number of registers is
    the number of columns. *)
Definition own_columns t : Prop := forall w props, into_arp t = Ok (w, props) ->
  odflt [::] w = [seq column_of (ts_state t) r | r <-
     [seq Reg i | i <- iota 0 (num_reg (ts_state t))] ++ [seq Aux i | i <- iota 0 (num_aux (ts_state t))] ++
     [seq Constant i | i <- iota 0 (num_constant (ts_state t))]] /\
  ip_num_registers props = size (odflt [::] w).
Definition C60_statement : Prop := forall h rs t, history h = Ok (rs, t) -> own_columns t.

(** One ordinary and one auxiliary register, whose column is then a copy of
    nothing that was ever written to it. *)
Definition accident : seq call := [:: AllocRegister; AllocAux; CalculateWitness 0].

Theorem C60_refuted : ~ C60_statement.
Proof.
move=> H; have [rs [t [E Ea]]] : exists rs t, history accident = Ok (rs, t) /\
    into_arp t = Ok (Some [:: [:: 1]; [:: 1]], Props 1 1 [::] [::]).
  by do 2 eexists; split; reflexivity.
have [_ /= Hs] := H _ _ _ E _ _ Ea; by [].
Qed.

(** A generator that, once there are [n] ordinary registers, writes to allocated
    registers only. *)
Definition disciplined_generator (n : nat) (g : generator F) : Prop := forall s vs, (n <= num_reg s)%N -> g s = Ok vs ->
  all (fun v : F * register * nat => if v.1.2 is Reg i then (i < num_reg s)%N else true) vs.

(** A disciplined history: such generators only, no constant or auxiliary
    registers, and no witness before there are two registers. *)
Fixpoint disciplined (nregs : nat) (h : seq call) : Prop :=
  match h with
  | [::] => True
  | AllocRegister :: h => disciplined nregs.+1 h
  | (AllocConstant | AllocAux) :: _ => False
  | AddConstraintWithWitness _ g :: h => disciplined_generator nregs g /\ disciplined nregs h
  | CalculateWitness _ :: h => (1 < nregs)%N /\ disciplined nregs h
  | _ :: h => disciplined nregs h
  end.

Definition spare_empty s : Prop := nth [::] (reg_witness s) (num_reg s) = [::].

Lemma write_spare i s v s' : write_value i s v = Ok s' ->
  (if v.1.2 is Reg i then (i < num_reg s)%N else true) -> spare_empty s -> spare_empty s'.
Proof.
move=> E; have [[[_ En] _ _ _ _] _] := write_frozen E; move: E; rewrite /spare_empty En.
case: v => [[x r] d]; rewrite /write_value => E; have [n Er {}E] := bind_Ok E; have [c Hc [<-]] := bind_Ok E.
move: Er => /=; rewrite rw_set; case: r => //= j [->] Hj Hs.
by rewrite nth_set_nth /= gtn_eqF.
Qed.

Lemma writes_spare i vs s s' : foldM (write_value i) s vs = Ok s' ->
  all (fun v : F * register * nat => if v.1.2 is Reg i then (i < num_reg s)%N else true) vs ->
  spare_empty s -> spare_empty s'.
Proof.
elim: vs s => [|v vs IH] s; first by case=> <-.
move=> E /= /andP [Hv Hvs] Hs; have [s1 E1 E2] := bind_Ok E; apply: IH E2 _ _; last exact: write_spare E1 Hv Hs.
by have [[[_ ->] _ _ _ _] _] := write_frozen E1.
Qed.

Lemma witness_spare t n t' : ts_calculate_witness t n = Ok t' -> (1 < num_reg (ts_state t))%N ->
  (forall k, (k < size (ts_generators t))%N -> disciplined_generator (num_reg (ts_state t)) (nth (fun _ => Err) (ts_generators t) k)) ->
  spare_empty (ts_state t) -> spare_empty (ts_state t').
Proof.
rewrite /ts_calculate_witness => E H2 Hg Hs; have [c0 G0 {}E] := bind_Ok E; have [c1 G1 {}E] := bind_Ok E.
have [s E2 [<-]] := bind_Ok E => {E}; rewrite [ts_state _]/=.
set s1 := set_reg_witness _ _ _ in G1 E2; set s2 := set_reg_witness s1 _ _ in E2.
have N1 : num_reg s1 = num_reg (ts_state t) by rewrite /s1; case: (ts_state t).
have N2 : num_reg s2 = num_reg s1 by rewrite /s2; case: (s1).
have S1 : spare_empty s1 by rewrite /spare_empty N1 /s1 rw_set nth_set_nth /= gtn_eqF // ltnW.
have S2 : spare_empty s2 by rewrite /spare_empty N2 N1 /s2 rw_set nth_set_nth /= gtn_eqF // -N1.
rewrite N1 in N2; move: (num_reg (ts_state t)) Hg N2 => nr Hg N2.
elim: (iota 0 n) s2 S2 N2 E2 => [|i l IH] s2 S2 N2 /=; first by case=> <-.
move=> E; have [s3 E3 E4] := bind_Ok E; have [s4 E5 [E6]] := bind_Ok E3.
have N4 : num_reg s4 = nr by have [[[_ ->] _ _ _ _] _] := generators_frozen E5.
apply: IH E4; last by rewrite -E6 -N4; case: (s4).
suff S4 : spare_empty s4 by rewrite -E6 /spare_empty rw_set; case: (s4) S4.
move: Hg E5; elim: (ts_generators t) s2 S2 N2 {E E3} => [|g gs IH] s2 S2 N2 Hg /=; first by case=> <-.
move=> E; have [s5 E7 E8] := bind_Ok E; have [vs Evs Ew] := bind_Ok E7.
apply: IH E8; last by move=> k Hk; apply: (Hg k.+1).
  apply: writes_spare Ew _ S2; apply: (Hg 0%N) => //=; first by rewrite N2.
  by move: Evs; case: (g s2) => // vs' [->].
by have [[[_ ->] _ _ _ _] _] := writes_frozen Ew.
Qed.

Lemma disciplined_mono n m g : (n <= m)%N -> disciplined_generator n g -> disciplined_generator m g.
Proof. by move=> H D s vs Hm; apply: D; apply: leq_trans H Hm. Qed.

Lemma disciplined_rcons n h c : disciplined n (rcons h c) ->
  disciplined n h /\ disciplined (n + count (fun c => if c is AllocRegister then true else false) h) [:: c].
Proof.
elim: h n => [|d h IH] n /=; first by rewrite addn0.
case: d => [||| d | d g | r i v | m | m] //=; try by move/IH; rewrite ?add0n.
- by move/IH; rewrite addnA addn1.
- by move=> [Hg /IH [H1 H2]]; rewrite add0n.
- by move=> [Hg /IH [H1 H2]]; rewrite add0n.
Qed.

Lemma disciplinedP h rs t : history h = Ok (rs, t) -> disciplined 0 h ->
  [/\ spare_empty (ts_state t), count is_special h = 0%N,
      num_reg (ts_state t) = count (fun c => if c is AllocRegister then true else false) h &
      forall k, (k < size (ts_generators t))%N -> disciplined_generator (num_reg (ts_state t)) (nth (fun _ => Err) (ts_generators t) k)].
Proof.
rewrite /history; elim/last_ind: h rs t => [|h c IH] rs t; first by case=> _ <-.
move=> E /disciplined_rcons [Hd Hc]; move: E.
rewrite -cats1 foldM_cat => E; have [[rs0 t0] E1 /= {}E] := bind_Ok E.
have [[rs1 t1] {}E [E2 E3]] := bind_Ok E; rewrite {rs1}E2 {t1}E3 in E.
have [[o t1] E0 [Ers Et]] := bind_Ok E; rewrite {t1}Et in E0.
have [_ _ _ Hsz _] := historyP E1; have [Hs Hsp Hn Hg] := IH _ _ E1 Hd.
rewrite !count_cat Hsp; move: E0 Hs Hn Hg Hc Hsz {E E1 IH}; case: c => [||| c | c g | r i v | n | n].
- case: t0 => [[npc nr nc na pw rw cw aw cs bs st] gs] /= [_ <-] /= Hs Hr Hg _ Hsz; split=> //=;
    [|by rewrite addn1 Hr | by move=> k /Hg; apply: disciplined_mono].
  by rewrite /spare_empty /= nth_rcons Hsz ltnn eqxx.
- by [].
- by [].
- by case: t0 => [[npc nr nc na pw rw cw aw cs bs st] gs] /= [_ <-] /= Hs Hr Hg _ Hsz; split; [exact: Hs | by [] | by rewrite -Hr; apply: esym; exact: addn0 | exact: Hg].
- case: t0 => [[npc nr nc na pw rw cw aw cs bs st] gs] /= [_ <-] /= Hs Hr Hg [Hgg _] Hsz; split=> //=; first by rewrite -Hr; apply: esym; exact: addn0.
  move=> k; rewrite size_rcons ltnS nth_rcons leq_eqVlt => /orP [/eqP ->|Hk]; first by rewrite ltnn eqxx Hr -[count _ _]add0n.
  by rewrite Hk; apply: Hg.
- by case: t0 => [[npc nr nc na pw rw cw aw cs bs st] gs] /= [_ <-] /= Hs Hr Hg _ Hsz; split; [exact: Hs | by [] | by rewrite -Hr; apply: esym; exact: addn0 | exact: Hg].
- case: t0 => [[npc nr nc na pw rw cw aw cs bs st] gs] /=; rewrite /ts_step; case: eqP => //= _ [_ <-] /= Hs Hr Hg _ Hsz.
  by split; [exact: Hs | by [] | by rewrite -Hr; apply: esym; exact: addn0 | exact: Hg].
move=> E Hs Hn Hg [Hnr _] Hsz; have [t1 Ew [_ Et]] := bind_Ok E; rewrite {t1}Et in Ew; rewrite !addn0.
have Hnr0 : (1 < num_reg (ts_state t0))%N by rewrite Hn.
have [[[_ A2] _ _ _ _] _] := witness_frozen Ew.
split=> //; [exact: witness_spare Ew Hnr0 Hg Hs | by rewrite A2 | ].
by rewrite A2; move: Ew; rewrite /ts_calculate_witness => Ew; do 3 (have [? _ {}Ew] := bind_Ok Ew); case: Ew => <-.
Qed.

(** After a disciplined history the conversion succeeds exactly when every
    allocated register has been given a value, and then every register finds its own
    column, in the order of allocation. *)
Theorem C60_columns_partial h rs t : history h = Ok (rs, t) -> disciplined 0 h ->
  own_columns t /\
  (if all (fun r => size (column_of (ts_state t) r) != 0%N) rs
   then exists w, into_arp t = Ok w else into_arp t = Panic).
Proof.
move=> Hh Hd; set s := ts_state t.
have [Hsp Hc0 Hnr _] := disciplinedP Hh Hd; have [[Hp Hpc] _ _ Hsz [He1 He2 He3 Hn Hn2]] := historyP Hh.
rewrite -/s in Hsp Hc0 Hnr Hp Hpc Hsz He1 He2 He3 Hn Hn2.
have /eqP := Hn; rewrite Hc0 addn_eq0 => /andP [/eqP Hnc /eqP Hna].
have Erw : [seq c <- reg_witness s | size c != 0%N] = [seq c <- take (num_reg s) (reg_witness s) | size c != 0%N].
  have Hlt : (num_reg s < size (reg_witness s))%N by rewrite Hsz.
  rewrite -{1}(cat_take_drop (num_reg s) (reg_witness s)) filter_cat (drop_nth [::] Hlt) drop_oversize ?Hsz //.
  by rewrite Hsp /= cats0.
have Est : size (take (num_reg s) (reg_witness s)) = num_reg s by rewrite size_takel // Hsz.
have Etk : take (num_reg s) (reg_witness s) = [seq column_of s (Reg i) | i <- iota 0 (num_reg s)].
  apply: (@eq_from_nth _ [::]) => [|i]; first by rewrite Est size_map size_iota.
  by rewrite Est => Hi; rewrite nth_take // (nth_map 0%N) ?size_iota // nth_iota.
have Eall : all (fun r => size (column_of s r) != 0%N) rs = all (fun c : seq F => size c != 0%N) (take (num_reg s) (reg_witness s)).
  by rewrite (perm_all _ Hp) /kinds Hnc Hna /= !cats0 Etk !all_map.
rewrite Eall; have Ei : into_arp t = if all (fun c : seq F => size c != 0%N) (take (num_reg s) (reg_witness s))
    then Ok (if num_reg s == 0%N then None else Some (take (num_reg s) (reg_witness s)),
             Props (current_step s + 1) (num_reg s)
               [seq arp_remap_constraint (remap_register 0 (num_reg s) (num_reg s)) c | c <- ts_constraints s]
               [seq Boundary (remap_register 0 (num_reg s) (num_reg s) (b_register b)) (b_at_row b) (b_value b) | b <- ts_boundary s])
    else Panic.
  rewrite /into_arp -/s (filter_empty He1) (filter_empty He2) (filter_empty He3) !cats0 cat0s Hpc Hnc Hna !addn0 !add0n Erw.
  rewrite all_count Est size_filter; case: eqP => [Ec|//].
  have /all_filterP Ef : all (fun c : seq F => size c != 0%N) (take (num_reg s) (reg_witness s)) by rewrite all_count Est Ec.
  by rewrite Ec Ef.
split; last by move: Ei; case: ifP => _ -> //; eexists; reflexivity.
move=> w props; rewrite Ei; case: ifP => // _ [<- <-]; rewrite -/s Hnc Hna /= !cats0 -map_comp -Etk.
by case: eqP Est => [->|_] Est; rewrite /= ?take0.
Qed.

(** Which calls fail.  Nothing but a step of zero rows and the computation of the witness does; the latter
    panics without an ordinary register, and otherwise needs generators that return values for columns that
    exist (those of the ordinary registers and the spare one). *)
Definition total_generator (n : nat) (g : generator F) : Prop := forall s, num_reg s = n ->
  size (reg_witness s) = n.+1 ->
  exists2 vs, g s = Ok vs & all (fun v => if v.1.2 is Reg i then (i <= n)%N else false) vs.

Lemma get_some A (l : seq A) i : (i < size l)%N -> exists x, get l i = Ok x.
Proof. by elim: l i => [|y l IH] [|i] //= Hi; [exists y | exact: IH]. Qed.

Lemma writes_total i n vs s : size (reg_witness s) = n.+1 ->
  all (fun v : F * register * nat => if v.1.2 is Reg i then (i <= n)%N else false) vs ->
  exists s', foldM (write_value i) s vs = Ok s'.
Proof.
elim: vs s => [|[[x r] d] vs IH] s Hs /=; first by exists s.
case: r => [r|r|r|r] //= /andP [Hr Hvs]; have [|col Hcol] := @get_some _ (reg_witness s) r; first by rewrite Hs ltnS.
rewrite Hcol /=; apply: IH Hvs; rewrite rw_set size_set_nth Hs; apply/maxn_idPr; by rewrite ltnS.
Qed.

Lemma generators_total i n (gs : seq (generator F)) s : num_reg s = n -> size (reg_witness s) = n.+1 ->
  (forall k, (k < size gs)%N -> total_generator n (nth (fun _ => Err) gs k)) ->
  exists s', foldM (fun s (g : generator F) => let* values := (if g s is Ok vs then Ok vs else Panic) in
                                               foldM (write_value i) s values) s gs = Ok s'.
Proof.
elim: gs s => [|g gs IH] s Hn Hs Hg; first by exists s.
have [vs Eg Hvs] := Hg 0%N isT s Hn Hs; rewrite /= in Eg; have [s1 E1] := writes_total i Hs Hvs; rewrite /= Eg /= E1 /=.
have [[[_ Fn] _ _ _ [_ Fs]] _] := writes_frozen E1.
by apply: IH; [rewrite Fn | rewrite Fs | move=> k; exact: (Hg k.+1)].
Qed.

Lemma witness_total t n : (0 < num_reg (ts_state t))%N -> size (reg_witness (ts_state t)) = (num_reg (ts_state t)).+1 ->
  (forall k, (k < size (ts_generators t))%N -> total_generator (num_reg (ts_state t)) (nth (fun _ => Err) (ts_generators t) k)) ->
  exists t', ts_calculate_witness t n = Ok t'.
Proof.
move=> Hr Hs Hg; rewrite /ts_calculate_witness.
have [|c0 E0] := @get_some _ (reg_witness (ts_state t)) 0; first by rewrite Hs.
rewrite E0 bind_ok; set s1 := set_reg_witness _ _ _.
have F1 : frozen (ts_state t) s1 by apply: frozen_set; rewrite size_set_nth (maxn_idPr (get_lt E0)).
have [[_ N1] _ _ _ [_ W1]] := F1.
have [|c1 E1] := @get_some _ (reg_witness s1) 1; first by rewrite W1 Hs.
rewrite E1 bind_ok; set s2 := set_reg_witness s1 _ _.
have F2 : frozen s1 s2 by apply: frozen_set; rewrite size_set_nth (maxn_idPr (get_lt E1)).
have [[_ N2] _ _ _ [_ W2]] := F2.
have {N1 N2} Hn2 : num_reg s2 = num_reg (ts_state t) by rewrite N2.
have {W1 W2} Hw2 : size (reg_witness s2) = (num_reg (ts_state t)).+1 by rewrite W2 W1.
set f := (fun s i => _); suff [s Es] : exists s, foldM f s2 (iota 0 n) = Ok s by rewrite Es; eexists.
elim: (iota 0 n) (s2) Hn2 Hw2 => [|i l IH] s Hn Hw; first by exists s.
have [s3 E3] := generators_total i Hn Hw Hg; rewrite [foldM _ _ _]/= {1}/f E3 !bind_ok.
have [[[_ Fn] _ _ _ [_ Fs]] _] := generators_frozen E3.
by apply: IH; [rewrite -Hn -Fn; case: (s3) | rewrite rw_set Fs].
Qed.

Lemma history_rcons h c rs t : history h = Ok (rs, t) ->
  history (rcons h c) = let* '(r, t) := run_call t c in Ok (if r is Some r then rcons rs r else rs, t).
Proof. by rewrite /history -cats1 foldM_cat => -> /=; case: (run_call t c) => [[]| |]. Qed.

Theorem C60_fails h rs t c : history h = Ok (rs, t) ->
  match c with
  | Step 0 => history (rcons h c) = Err
  | CalculateWitness n =>
      (num_reg (ts_state t) = 0%N -> history (rcons h c) = Panic) /\
      ((0 < num_reg (ts_state t))%N ->
       (forall k, (k < size (ts_generators t))%N -> total_generator (num_reg (ts_state t)) (nth (fun _ => Err) (ts_generators t) k)) ->
       exists t', history (rcons h c) = Ok (rs, t'))
  | _ => exists r, history (rcons h c) = Ok r
  end.
Proof.
move=> E; rewrite (history_rcons _ E); have [_ _ _ Hs _] := historyP E.
case: c => [| | |c|c g|r i v|[|n]|n] //=; try by eexists.
- by rewrite /allocate_register; case: (ts_state t) => *; eexists.
- by rewrite /allocate_constant_register; case: (ts_state t) => *; eexists.
- by rewrite /allocate_aux_register; case: (ts_state t) => *; eexists.
- by rewrite /ts_step /=; case: (ts_state t) => *; eexists.
split=> [Hn|Hr Hg]; last by have [t' ->] := witness_total n Hr Hs Hg; exists t'.
rewrite Hn in Hs; rewrite /ts_calculate_witness; case: (reg_witness (ts_state t)) Hs => [|c0 [|]] //= _.
by rewrite /set_reg_witness; case: (ts_state t).
Qed.

(** A history fails only because of a step of zero rows or of a witness computation: every other sequence of
    calls succeeds, however long it is and in whatever order. *)
Definition may_fail (c : call) : bool :=
  match c with Step n => n == 0%N | CalculateWitness _ => true | _ => false end.
Theorem C60_succeeds h : ~~ has may_fail h -> exists r, history h = Ok r.
Proof.
elim/last_ind: h => [|h c IH]; first by eexists.
rewrite has_rcons negb_or => /andP [Hc /IH [[rs t] E]]; have := C60_fails c E.
by case: c Hc => // -[].
Qed.

(** The Fibonacci history: two registers, two constraints with generators. *)
Definition fib_history (n : nat) : seq call :=
  [:: AllocRegister; AllocRegister;
      AddConstraintWithWitness (@c_default F) (@fib_generator_a F (Reg 0) (Reg 1));
      AddConstraintWithWitness (@c_default F) (@fib_generator_b F (Reg 0) (Reg 1));
      AddBoundary (Reg 0) 0 (Some 1); CalculateWitness n].
Example C60_ex_disciplined n : disciplined 0 (fib_history n).
Proof.
by split; [|split; [|by []]] => s vs /= H2; rewrite /fib_generator_a /fib_generator_b => E;
  (have [v _ {}E] := bind_Ok E); (try have [v' _ {}E] := bind_Ok E); case: E => <- /=; rewrite ?andbT // ltnW.
Qed.
Example C60_ex :
  if history (fib_history 2) is Ok (rs, t) then
    rs = [:: Reg 0; Reg 1] /\ [seq size (column_of (ts_state t) r) | r <- rs] = [:: 3%N; 3%N]
  else False.
Proof. by vm_compute. Qed.
Example C60_ex_fails : history [:: CalculateWitness 1] = Panic /\ history [:: AllocRegister; Step 0] = Err /\
  total_generator 2 (fun _ => Ok [:: (1, Reg 1, 1%N)]).
Proof. by split; [vm_compute | split; [vm_compute | move=> s _ _; eexists]]. Qed.
Example C60_ex_succeeds : ~~ has may_fail [:: AllocAux; AllocRegister; AddConstraint (@c_default F); Step 3; AllocRegister].
Proof. by []. Qed.
Example C60_ex_two_auxiliary :
  if history [:: AllocRegister; AllocRegister; AllocAux; AllocConstant; CalculateWitness 2] is Ok (rs, t)
  then into_arp t = Panic else False.
Proof. by vm_compute. Qed.
End C60.

Print Assumptions C60_handles.
Print Assumptions C60_recorded.
Print Assumptions C60_no_auxiliary_columns.
Print Assumptions C60_fails.
Print Assumptions C60_succeeds.
Print Assumptions C60_columns_partial.
Print Assumptions C60_refuted.
