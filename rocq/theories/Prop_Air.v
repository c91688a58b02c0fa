(** C33 (constraint builder), C34 (satisfaction check), C46 (Fibonacci AIR),
    C51 (register remapping). *)
From Coq Require Import NArith Lia.
From mathcomp Require Import all_ssreflect all_algebra.
From Verif Require Import M_Base M_Worker M_Field M_Domain M_Fft M_Poly M_Air M_Arp M_TraceSys.
From Verif Require Import SpecAir P_Base P_Air Instances.

Set Implicit Arguments.
Unset Strict Implicit.
Unset Printing Implicit Defensive.
Import GRing.Theory.
Local Open Scope ring_scope.

(** * C33: builder semantics *)
Section C33.
Variable F : fieldType.

(** Programs that build terms and constraints: every constructor is one of the
    public operations (a literal, [from], [*=], [pow], [+=], [-=], ...). *)
Inductive uprog :=
| ULit (coeff : F) (r : register) (s : step_difference F) (power : nat)
| UFrom (r : register)
| UTimes (u : uprog) (c : F)
| UAtStep (u : uprog) (steps : nat)
| UPow (u : uprog) (k : nat).
Inductive pprog :=
| PFrom (c : F) (u : uprog)
| PDefault
| PTimesU (p : pprog) (u : uprog)
| PTimesC (p : pprog) (c : F)
| PTimesP (p q : pprog).
Inductive cprog :=
| CDefault
| CAddP (c : cprog) (p : pprog) | CSubP (c : cprog) (p : pprog)
| CAddU (c : cprog) (u : uprog) | CSubU (c : cprog) (u : uprog)
| CAddC (c : cprog) (x : F) | CSubC (c : cprog) (x : F).

(** Running the program on the model of the code. *)
Fixpoint urun (u : uprog) : outcome (univariate_term F) :=
  match u with
  | ULit c r s p => Ok (UTerm c r s p)
  | UFrom r => Ok (ut_from F r)
  | UTimes u c => let* t := urun u in Ok (ut_mul_assign t c)
  | UAtStep u n => let* t := urun u in Ok (ut_set_step_difference t n)
  | UPow u k => let* t := urun u in ut_pow t k
  end.
Fixpoint prun (p : pprog) : outcome (polyvariate_term F) :=
  match p with
  | PFrom c u => let* t := urun u in Ok (pt_from c t)
  | PDefault => Ok pt_default
  | PTimesU p u => let* q := prun p in let* t := urun u in pt_mul_uni q t
  | PTimesC p c => let* q := prun p in Ok (pt_mul_scalar q c)
  | PTimesP p p' => let* q := prun p in let* q' := prun p' in pt_mul_poly q q'
  end.
Fixpoint crun (c : cprog) : outcome (constraint F) :=
  match c with
  | CDefault => Ok c_default
  | CAddP c p => let* d := crun c in let* q := prun p in Ok (c_add_poly d q)
  | CSubP c p => let* d := crun c in let* q := prun p in Ok (c_sub_poly d q)
  | CAddU c u => let* d := crun c in let* t := urun u in Ok (c_add_uni d t)
  | CSubU c u => let* d := crun c in let* t := urun u in Ok (c_sub_uni d t)
  | CAddC c x => let* d := crun c in Ok (c_add_const d x)
  | CSubC c x => let* d := crun c in Ok (c_sub_const d x)
  end.

(** The arithmetic expression the program is written to denote, and its formal
    degree. *)
Fixpoint uexpr (u : uprog) (e : env F) : F :=
  match u with
  | ULit c r s p => c * e r s ^+ p
  | UFrom r => e r (Steps 0)
  | UTimes u c => uexpr u e * c
  | UAtStep u n => uexpr u (fun r _ => e r (Steps n))
  | UPow u k => uexpr u e ^+ k
  end.
Fixpoint pexpr (p : pprog) (e : env F) : F :=
  match p with
  | PFrom c u => c * uexpr u e
  | PDefault => 1
  | PTimesU p u => pexpr p e * uexpr u e
  | PTimesC p c => pexpr p e * c
  | PTimesP p q => pexpr p e * pexpr q e
  end.
Fixpoint cexpr (c : cprog) (e : env F) : F :=
  match c with
  | CDefault => 0
  | CAddP c p => cexpr c e + pexpr p e
  | CSubP c p => cexpr c e - pexpr p e
  | CAddU c u => cexpr c e + uexpr u e
  | CSubU c u => cexpr c e - uexpr u e
  | CAddC c x => cexpr c e + x
  | CSubC c x => cexpr c e - x
  end.
Fixpoint udegree (u : uprog) : nat :=
  match u with
  | ULit _ _ _ p => p | UFrom _ => 1
  | UTimes u _ | UAtStep u _ => udegree u
  | UPow u k => (udegree u * k)%N end.
Fixpoint pdegree (p : pprog) : nat :=
  match p with
  | PFrom _ u => udegree u | PDefault => 0
  | PTimesU p u => (pdegree p + udegree u)%N
  | PTimesC p _ => pdegree p
  | PTimesP p q => (pdegree p + pdegree q)%N end.
Fixpoint cdegree (c : cprog) : nat :=
  match c with
  | CDefault => 0
  | CAddP c p | CSubP c p => maxn (cdegree c) (pdegree p)
  | CAddU c u | CSubU c u => maxn (cdegree c) (udegree u)
  | CAddC c _ | CSubC c _ => cdegree c end.

(** [pow] is only applied to terms whose coefficient is one. *)
Fixpoint ucoeff (u : uprog) : F :=
  match u with
  | ULit c _ _ _ => c | UFrom _ => 1 | UTimes u c => ucoeff u * c
  | UAtStep u _ | UPow u _ => ucoeff u end.
Fixpoint umonic (u : uprog) : bool :=
  match u with
  | ULit _ _ _ _ | UFrom _ => true
  | UTimes u _ | UAtStep u _ => umonic u
  | UPow u k => umonic u && (ucoeff u == 1) end.
Fixpoint pmonic (p : pprog) : bool :=
  match p with
  | PFrom _ u => umonic u | PDefault => true
  | PTimesU p u => pmonic p && umonic u
  | PTimesC p _ => pmonic p
  | PTimesP p q => pmonic p && pmonic q end.
Fixpoint cmonic (c : cprog) : bool :=
  match c with
  | CDefault => true
  | CAddP c p | CSubP c p => cmonic c && pmonic p
  | CAddU c u | CSubU c u => cmonic c && umonic u
  | CAddC c _ | CSubC c _ => cmonic c end.

(** The full property. *)
Definition C33_statement : Prop := forall (p : cprog) (c : constraint F), crun p = Ok c ->
  (forall e, cval e c = cexpr p e) /\ c_degree c = cdegree p /\ c_degree c = cdeg c.

Lemma u64_mulE a b x : u64_mul a b = Ok x -> x = (a * b)%N.
Proof. by rewrite /u64_mul; case: fits_u64 => // -[<-]. Qed.
Lemma u64_addE a b x : u64_add a b = Ok x -> x = (a + b)%N.
Proof. by rewrite /u64_add; case: fits_u64 => // -[<-]. Qed.

Lemma urun_shape u t : urun u = Ok t -> ut_coeff t = ucoeff u /\ ut_power t = udegree u.
Proof.
elim: u t => [c r s p|r|u IH c|u IH n|u IH k] t /=; try by case=> <-.
- by case: (urun u) IH => //= t' /(_ _ erefl) [<- <-] [<-].
- by case: (urun u) IH => //= t' /(_ _ erefl) [<- <-] [<-].
case: (urun u) IH => //= t' /(_ _ erefl) [<- <-]; rewrite /ut_pow.
by case E: (u64_mul _ _) => [d||] //= [<-] /=; rewrite (u64_mulE E).
Qed.

Lemma urun_val u t e : umonic u -> urun u = Ok t -> uval e t = uexpr u e.
Proof.
elim: u t e => [c r s p|r|u IH c|u IH n|u IH k] t e /=.
- by move=> _ [<-].
- by move=> _ [<-]; rewrite /uval /= mul1r expr1.
- move=> Hm; case E: (urun u) => [t'||] //= [<-].
  by rewrite -(IH t' e) // /uval /= mulrAC.
- move=> Hm; case E: (urun u) => [t'||] //= [<-].
  by rewrite -(IH t' _ Hm).
- case/andP=> Hm /eqP Hc; case E: (urun u) => [t'||] //=.
  rewrite /ut_pow; case Ep: (u64_mul _ _) => [d||] //= [<-].
  rewrite -(IH t' e) // (u64_mulE Ep) /uval /= exprM exprMn.
  by rewrite (urun_shape E).1 Hc expr1n.
Qed.

Lemma pval_cat (e : env F) s s' :
  \prod_(u <- s ++ s') uval e u = (\prod_(u <- s) uval e u) * \prod_(u <- s') uval e u.
Proof. exact: big_cat. Qed.

Lemma uval_with_coeff (e : env F) t : ut_coeff t * uval e (ut_with_coeff t 1) = uval e t.
Proof. by rewrite /uval /= mul1r. Qed.

Lemma prun_val p q e : pmonic p -> prun p = Ok q -> pval e q = pexpr p e.
Proof.
elim: p q => [c u||p IH u|p IH c|p IH p' IH'] q /=.
- move=> Hm; case E: (urun u) => [t||] //= [<-].
  by rewrite /pval /= big_seq1 -mulrA uval_with_coeff (urun_val e Hm E).
- by move=> _ [<-]; rewrite /pval /= big_nil mulr1.
- case/andP=> Hp Hu; case Ep: (prun p) => [q'||] //=; case E: (urun u) => [t||] //=.
  rewrite /pt_mul_uni; case: u64_add => //= d [<-].
  rewrite -(IH q') // -(urun_val e Hu E) /pval /= -cats1 pval_cat big_seq1.
  by rewrite -!mulrA -(uval_with_coeff e t); congr (_ * _); rewrite mulrCA.
- move=> Hp; case Ep: (prun p) => [q'||] //= [<-].
  by rewrite -(IH q') // /pval /= mulrAC.
- case/andP=> Hp Hp'; case Ep: (prun p) => [q1||] //=; case Ep': (prun p') => [q2||] //=.
  rewrite /pt_mul_poly; case: u64_add => //= d [<-].
  rewrite -(IH q1) // -(IH' q2) // /pval /= pval_cat.
  by rewrite -!mulrA; congr (_ * _); rewrite mulrCA.
Qed.

Lemma prun_deg p q : prun p = Ok q ->
  pt_total_degree q = pdegree p /\ (\sum_(u <- pt_terms q) ut_power u)%N = pdegree p.
Proof.
elim: p q => [c u||p IH u|p IH c|p IH p' IH'] q /=.
- case E: (urun u) => [t||] //= [<-] /=.
  by rewrite big_seq1 /= (urun_shape E).2.
- by case=> <- /=; rewrite big_nil.
- case Ep: (prun p) => [q'||] //=; case E: (urun u) => [t||] //=.
  rewrite /pt_mul_uni; case Ea: u64_add => [d||] //= [<-] /=.
  have [H1 H2] := IH _ Ep.
  by rewrite (u64_addE Ea) -cats1 big_cat big_seq1 /= H2 H1 (urun_shape E).2.
- by case Ep: (prun p) => [q'||] //= [<-]; exact: (IH _ Ep).
- case Ep: (prun p) => [q1||] //=; case Ep': (prun p') => [q2||] //=.
  rewrite /pt_mul_poly; case Ea: u64_add => [d||] //= [<-] /=.
  have [H1 H2] := IH _ Ep; have [H3 H4] := IH' _ Ep'.
  by rewrite (u64_addE Ea) big_cat /= H2 H4 H1 H3.
Qed.

Lemma c_push_deg (c : constraint F) t d : c_degree (c_push c t d) = maxn (c_degree c) d.
Proof. by rewrite /maxn /=; case: ltnP. Qed.

Lemma cdeg_push (c : constraint F) t d : cdeg (c_push c t d) = maxn (cdeg c) (tdeg t).
Proof. by rewrite /cdeg /= -cats1 big_cat big_seq1. Qed.

Lemma cval_push (e : env F) c t d : cval e (c_push c t d) = cval e c + tval e t.
Proof. by rewrite /cval /= -cats1 big_cat big_seq1 addrA. Qed.

(** The degree bookkeeping is right for every program. *)
Theorem C33_degree p c : crun p = Ok c -> c_degree c = cdegree p /\ c_degree c = cdeg c.
Proof.
elim: p c => [|p IH q|p IH q|p IH u|p IH u|p IH x|p IH x] c /=.
- by case=> <-; rewrite /cdeg /= big_nil.
- case E: (crun p) => [d||] //=; case Eq: (prun q) => [r||] //= [<-].
  have [H1 H2] := IH _ E; have [H3 H4] := prun_deg Eq.
  by rewrite /c_add_poly cdeg_push c_push_deg /= H4 H3 -H2 H1.
- case E: (crun p) => [d||] //=; case Eq: (prun q) => [r||] //= [<-].
  have [H1 H2] := IH _ E; have [H3 H4] := prun_deg Eq.
  by rewrite /c_sub_poly cdeg_push c_push_deg /= H4 H3 -H2 H1.
- case E: (crun p) => [d||] //=; case Eu: (urun u) => [t||] //= [<-].
  have [H1 H2] := IH _ E.
  by rewrite /c_add_uni cdeg_push c_push_deg /= (urun_shape Eu).2 -H2 H1.
- case E: (crun p) => [d||] //=; case Eu: (urun u) => [t||] //= [<-].
  have [H1 H2] := IH _ E.
  by rewrite /c_sub_uni cdeg_push c_push_deg /= (urun_shape Eu).2 -H2 H1.
- by case E: (crun p) => [d||] //= [<-]; exact: (IH _ E).
- by case E: (crun p) => [d||] //= [<-]; exact: (IH _ E).
Qed.

(** The value is right when [pow] is applied to terms with coefficient one.
    Missing from the full property: [pow] of a term with another coefficient,
    see [C33_refuted]. *)
Theorem C33_builder_partial p c : cmonic p -> crun p = Ok c ->
  (forall e, cval e c = cexpr p e) /\ c_degree c = cdegree p /\ c_degree c = cdeg c.
Proof.
move=> Hm Hc; split; last exact: C33_degree.
move=> e; elim: p c Hm Hc => [|p IH q|p IH q|p IH u|p IH u|p IH x|p IH x] c /=.
- by move=> _ [<-]; rewrite /cval /= big_nil addr0.
- case/andP=> Hp Hq; case E: (crun p) => [d||] //=; case Eq: (prun q) => [r||] //= [<-].
  by rewrite /c_add_poly cval_push /= (IH _ Hp E) (prun_val e Hq Eq).
- case/andP=> Hp Hq; case E: (crun p) => [d||] //=; case Eq: (prun q) => [r||] //= [<-].
  by rewrite /c_sub_poly cval_push /= (IH _ Hp E) -(prun_val e Hq Eq) /pval /= mulNr.
- case/andP=> Hp Hu; case E: (crun p) => [d||] //=; case Eq: (urun u) => [t||] //= [<-].
  by rewrite /c_add_uni cval_push /= (IH _ Hp E) (urun_val e Hu Eq).
- case/andP=> Hp Hu; case E: (crun p) => [d||] //=; case Eq: (urun u) => [t||] //= [<-].
  by rewrite /c_sub_uni cval_push /= (IH _ Hp E) -(urun_val e Hu Eq) /uval /= mulNr.
- by move=> Hp; case E: (crun p) => [d||] //= [<-]; rewrite -(IH _ Hp E) /cval /= addrAC.
- by move=> Hp; case E: (crun p) => [d||] //= [<-]; rewrite -(IH _ Hp E) /cval /= addrAC.
Qed.

(** What [pow] does in general: it raises the register value and keeps the
    coefficient. *)
Theorem C33_pow_keeps_coefficient (t t' : univariate_term F) k e : ut_pow t k = Ok t' ->
  uval e t' = ut_coeff t * (e (ut_register t) (ut_steps t) ^+ ut_power t) ^+ k.
Proof.
rewrite /ut_pow; case E: (u64_mul _ _) => [d||] //= [<-].
by rewrite /uval /= (u64_mulE E) exprM.
Qed.

(** The builders never fail while the degrees fit a [u64]. *)
Fixpoint u_fits (u : uprog) : bool :=
  match u with
  | ULit _ _ _ _ | UFrom _ => true
  | UTimes u _ | UAtStep u _ => u_fits u
  | UPow u k => u_fits u && (N.of_nat (udegree u) * N.of_nat k <? 2 ^ 64)%num end.
Fixpoint p_fits (p : pprog) : bool :=
  match p with
  | PFrom _ u => u_fits u | PDefault => true
  | PTimesU p u => [&& p_fits p, u_fits u & (N.of_nat (pdegree p) + N.of_nat (udegree u) <? 2 ^ 64)%num]
  | PTimesC p _ => p_fits p
  | PTimesP p q => [&& p_fits p, p_fits q & (N.of_nat (pdegree p) + N.of_nat (pdegree q) <? 2 ^ 64)%num] end.
Fixpoint c_fits (c : cprog) : bool :=
  match c with
  | CDefault => true
  | CAddP c p | CSubP c p => c_fits c && p_fits p
  | CAddU c u | CSubU c u => c_fits c && u_fits u
  | CAddC c _ | CSubC c _ => c_fits c end.

Lemma urun_total u : u_fits u -> exists t, urun u = Ok t.
Proof.
elim: u => [c r s p|r|u IH c|u IH n|u IH k] /=; try by eexists.
- by move/IH=> [t ->]; eexists.
- by move/IH=> [t ->]; eexists.
case/andP=> /IH [t Et] Hk; rewrite Et /= /ut_pow /u64_mul /fits_u64 (urun_shape Et).2 Hk /=.
by eexists.
Qed.

Lemma prun_total p : p_fits p -> exists q, prun p = Ok q.
Proof.
elim: p => [c u||p IH u|p IH c|p IH q IH'] /=.
- by move/urun_total => [t ->]; eexists.
- by eexists.
- case/and3P=> /IH [q Eq] /urun_total [t Et] Hk.
  rewrite Eq Et /= /pt_mul_uni /u64_add /fits_u64 (urun_shape Et).2 (prun_deg Eq).1 Hk /=.
  by eexists.
- by move/IH => [q ->]; eexists.
- case/and3P=> /IH [r Er] /IH' [s Es] Hk.
  rewrite Er Es /= /pt_mul_poly /u64_add /fits_u64 (prun_deg Er).1 (prun_deg Es).1 Hk /=.
  by eexists.
Qed.

Theorem C33_total p : c_fits p -> exists c, crun p = Ok c.
Proof.
elim: p => [|p IH q|p IH q|p IH u|p IH u|p IH x|p IH x] /=; try by eexists.
- by case/andP=> /IH [c ->] /prun_total [q' ->]; eexists.
- by case/andP=> /IH [c ->] /prun_total [q' ->]; eexists.
- by case/andP=> /IH [c ->] /urun_total [t ->]; eexists.
- by case/andP=> /IH [c ->] /urun_total [t ->]; eexists.
- by move/IH => [c ->]; eexists.
- by move/IH => [c ->]; eexists.
Qed.

(** (2 x)^2 is built as 2 x^2. *)
Definition bad_pow : cprog := CAddU CDefault (UPow (UTimes (UFrom (Reg 0)) 2%:R) 2).

Theorem C33_refuted : (2%:R : F) != 0 -> ~ C33_statement.
Proof.
move=> H2 /(_ bad_pow); rewrite /bad_pow /= /ut_pow /= => /(_ _ erefl) [H _].
have := H (fun _ _ => 1); rewrite /cval /= big_seq1 /= /uval /= !mul1r expr1n mulr1 !add0r.
rewrite expr2 => E; have := mulfI H2 (etrans (mulr1 _) E) => {E} E.
have : 1 + 1 = 1 + 0 :> F by rewrite addr0 [RHS]E.
by move/addrI/eqP; rewrite oner_eq0.
Qed.
End C33.

(** x_{t+1} - x_t^3 + 5: a program meeting the hypotheses. *)
Definition C33_ex_prog (F : fieldType) : cprog F :=
  CAddC (CSubP (CAddU (CDefault F) (UAtStep (UFrom F (Reg 0)) 1))
        (PTimesU (PFrom 1 (UFrom F (Reg 0))) (UPow (UFrom F (Reg 0)) 2))) 5%:R.
Example C33_ex (F : fieldType) :
  [/\ cmonic (C33_ex_prog F), c_fits (C33_ex_prog F) & cdegree (C33_ex_prog F) = 3%N].
Proof. by rewrite /= eqxx; split. Qed.

(** * C34: is_satisfied is exactly constraint satisfaction *)
Theorem C34_is_satisfied (F : fieldType) (props : instance_properties F) (trace : seq (seq F)) :
  is_satisfied props trace = Ok tt <-> satisfied props trace.
Proof. exact: is_satisfiedP. Qed.

(** On traces that contain all cells the constraints read, the check never
    panics: the answer is an error exactly when some constraint is violated. *)
Definition covered (F : fieldType) (props : instance_properties F) (trace : seq (seq F)) : Prop :=
  let n := size (nth [::] trace 0) in
  [/\ (0 < size trace)%N,
      forall k, (k < size (ip_constraints props))%N ->
        let c := nth c_default (ip_constraints props) k in
        exists start_at span, [/\ c_density c = Dense start_at span, (span <= n)%N &
          forall i, dense_row start_at span n i -> c_in_trace trace i c] &
      forall k, (k < size (ip_boundary_constraints props))%N ->
        let b := nth (Boundary (Reg 0) 0 None) (ip_boundary_constraints props) k in
        exists2 r, b_register b = Reg r &
          (r < size trace)%N && (b_at_row b < size (nth [::] trace r))%N].

Lemma foldM_unit_nopanic A (f : A -> outcome unit) (s : seq A) x0 :
  (forall k, (k < size s)%N -> f (nth x0 s k) <> Panic) -> foldM (fun _ x => f x) tt s <> Panic.
Proof.
elim: s => [|x s IH] //= H; have := H 0%N isT; rewrite /=.
by case: (f x) => [[]||] //= _; apply: IH => k; apply: (H k.+1).
Qed.

Theorem C34_error_iff_violated (F : fieldType) (props : instance_properties F) (trace : seq (seq F)) :
  covered props trace -> (is_satisfied props trace = Err <-> ~ satisfied props trace).
Proof.
case=> Hs Hc Hb; suff Hp : is_satisfied props trace <> Panic.
  rewrite -is_satisfiedP; case: (is_satisfied props trace) Hp => [[]||] // _; by split.
rewrite /is_satisfied (get_nth [::] Hs).
rewrite bind_ok.
have H1 : foldM (fun _ c =>
     let* rows := (if c_density c is Dense a b then dense_rows a b (size (nth [::] trace 0)) else Panic) in
     foldM (fun _ row => let* value := eval_constraint_on_witness trace row c in
         if value != 0 then Err else Ok tt) tt rows) tt (ip_constraints props) <> Panic.
  apply: (@foldM_unit_nopanic _ _ _ c_default) => k /Hc /= [a [b [-> Hbn H]]].
  rewrite /dense_rows /usub Hbn /=.
  apply: (@foldM_unit_nopanic _ _ _ 0%N) => j; rewrite size_iota => Hj.
  rewrite eval_constraintP /=; first by case: ifP.
  apply: H; have /dense_rowsE [_ <-] : dense_rows a b (size (nth [::] trace 0)) =
     Ok (iota a (size (nth [::] trace 0) - b - a)) by rewrite /dense_rows /usub Hbn.
  by apply: mem_nth; rewrite size_iota.
move: H1; case: (foldM _ _ _) => [[] _||] //.
rewrite bind_ok.
apply: (@foldM_unit_nopanic _ _ _ (Boundary (Reg 0) 0 None)) => k /Hb [r -> /andP [H1 H2]].
rewrite /=; case: (b_value _) => [v|] //.
by rewrite (get_nth [::] H1) /= (get_nth 0 H2) /=; case: ifP.
Qed.

(** * C46: the Fibonacci AIR *)

(** The Fibonacci numbers 1, 1, 2, 3, 5, ... *)
Fixpoint fib (n : nat) : nat :=
  match n with 0 => 1 | n'.+1 => if n' is n''.+1 then fib n' + fib n'' else 1 end%N.

Arguments fib : simpl never.

Lemma fibSS n : fib n.+2 = (fib n + fib n.+1)%N.
Proof. by rewrite addnC /fib. Qed.

(** The trace whose row [i] is (F_i, F_{i+1}), for rows 0, ..., n. *)
Definition fib_columns (F : fieldType) (n : nat) : seq (seq F) :=
  [:: [seq (fib i)%:R | i <- iota 0 n.+1]; [seq (fib i.+1)%:R | i <- iota 0 n.+1]].

Section C46.
Variable F : fieldType.
Implicit Types (fb at_step : option nat).

Definition fib_c0 : constraint F :=
  Constr 0 [:: Univariate (UTerm (-1) (Reg 1) (Steps 0) 1); Univariate (UTerm 1 (Reg 0) (Steps 1) 1)]
    1 (Dense 0 1).
Definition fib_c1 : constraint F :=
  Constr 0 [:: Univariate (UTerm (-1) (Reg 0) (Steps 0) 1); Univariate (UTerm (-1) (Reg 1) (Steps 0) 1);
               Univariate (UTerm 1 (Reg 1) (Steps 1) 1)] 1 (Dense 0 1).
Definition fib_bs (fb at_step : option nat) : seq (boundary_constraint F) :=
  if fb is Some b then
    [:: Boundary (Reg 0) 0 (Some 1); Boundary (Reg 1) 0 (Some 1);
        Boundary (Reg 1) (odflt 0%N at_step) (Some b%:R)]
  else [::].
Definition fib_gens : seq (generator F) :=
  [:: fib_generator_a (Reg 0) (Reg 1); fib_generator_b (Reg 0) (Reg 1)].

Lemma fib_traceE fb at_step : (fb == None) || (at_step != None) ->
  fib_trace fb at_step (ts_new F) =
  Ok (TSys (TState 0 2 0 0 [:: [::]] [:: [::]; [::]; [::]] [:: [::]] [:: [::]]
              [:: fib_c0; fib_c1] (fib_bs fb at_step) 0) fib_gens).
Proof. by case: fb => [b|]; case: at_step => [t|]. Qed.

Lemma fib_traceN b : fib_trace (Some b) None (ts_new F) = Panic.
Proof. by []. Qed.

Lemma set_nth_end (T : Type) (x y : T) s n : n = size s -> set_nth x s n y = rcons s y.
Proof. by move->; elim: s => //= z s ->. Qed.

Lemma set_nth_last (T : Type) (x y z : T) s n : n = size s -> set_nth x (rcons s z) n y = rcons s y.
Proof. by move->; elim: s => //= t s ->. Qed.

Lemma grow_column (T : Type) (x y : T) n (s : seq T) : size s = n.+1 ->
  set_nth x (if (size s <= n + 1)%N then resize x (n + 1).+1 s else s) (n + 1) y = rcons s y.
Proof.
move=> Hs; rewrite addn1 Hs leqnn /resize take_oversize ?Hs ?leqnSn //.
by rewrite subSn // subnn cats1 set_nth_last.
Qed.

Definition fib_state fb at_step n (tl : seq (seq F)) : trace_state F :=
  TState 0 2 0 0 [:: [::]] (fib_columns F n ++ tl) [:: [::]] [:: [::]]
    [:: fib_c0; fib_c1] (fib_bs fb at_step) n.

Lemma size_fib_col (f : nat -> F) n : size [seq f i | i <- iota 0 n.+1] = n.+1.
Proof. by rewrite size_map size_iota. Qed.

Lemma rcons_fib_col (f : nat -> F) n : rcons [seq f i | i <- iota 0 n.+1] (f n.+1) = [seq f i | i <- iota 0 n.+2].
Proof. by rewrite -map_rcons -iotaSr. Qed.

Lemma fib_step fb at_step n tl :
  foldM (fun s (g : generator F) =>
          let* values := (if g s is Ok vs then Ok vs else Panic) in
          foldM (write_value n) s values) (fib_state fb at_step n tl) fib_gens =
  Ok (set_reg_witness (fib_state fb at_step n tl) (fib_columns F n.+1 ++ tl) n).
Proof.
rewrite /fib_state /fib_gens /fib_columns.
set ca := [seq _ | i <- iota 0 n.+1]; set cb := [seq _ | i <- iota 0 n.+1].
set ca' := [seq _ | i <- iota 0 n.+2]; set cb' := [seq _ | i <- iota 0 n.+2].
have Ha : size ca = n.+1 by apply: size_fib_col.
have Hb : size cb = n.+1 by apply: size_fib_col.
have Na : nth 0 ca n = (fib n)%:R by rewrite (nth_map 0%N) ?size_iota // nth_iota.
have Nb : nth 0 cb n = (fib n.+1)%:R by rewrite (nth_map 0%N) ?size_iota // nth_iota.
have Ea : rcons ca (fib n.+1)%:R = ca' by apply: (rcons_fib_col (fun i => (fib i)%:R)).
have Eb : rcons cb (fib n.+2)%:R = cb' by apply: (rcons_fib_col (fun i => (fib i.+1)%:R)).
have Na' : nth 0 ca' n = (fib n)%:R by rewrite -Ea nth_rcons Ha ltnSn.
have Ha' : size ca' = n.+2 by rewrite -Ea size_rcons Ha.
clearbody ca cb ca' cb'.
have G1 : get_register (TState 0 2 0 0 [:: [::]] ([:: ca; cb] ++ tl) [:: [::]] [:: [::]]
    [:: fib_c0; fib_c1] (fib_bs fb at_step) n) n (Reg 1) = Ok (fib n.+1)%:R.
  by rewrite /get_register /= Hb ltnn (get_nth 0) ?Hb // Nb.
rewrite [foldM _ _ _]/= {1}/fib_generator_a [current_step _]/= G1 !bind_ok.
rewrite (@grow_column _ _ _ _ _ Ha) Ea [set_reg_witness _ _ _]/=.
have G2 : get_register (TState 0 2 0 0 [:: [::]] ([:: ca'; cb] ++ tl) [:: [::]] [:: [::]]
    [:: fib_c0; fib_c1] (fib_bs fb at_step) n) n (Reg 0) = Ok (fib n)%:R.
  by rewrite /get_register /= Ha' leqNgt ltnS leqnSn (get_nth 0) ?Ha' // Na'.
have G3 : get_register (TState 0 2 0 0 [:: [::]] ([:: ca'; cb] ++ tl) [:: [::]] [:: [::]]
    [:: fib_c0; fib_c1] (fib_bs fb at_step) n) n (Reg 1) = Ok (fib n.+1)%:R.
  by rewrite /get_register /= Hb ltnn (get_nth 0) ?Hb // Nb.
rewrite {1}/fib_generator_b [current_step _]/= G2 G3 !bind_ok.
by rewrite (@grow_column _ _ _ _ _ Hb) -natrD -fibSS Eb.
Qed.

Lemma fib_witnessE fb at_step n : (fb == None) || (at_step != None) ->
  (let* t := fib_trace fb at_step (ts_new F) in ts_calculate_witness t n) =
  Ok (TSys (fib_state fb at_step n [:: [::]]) fib_gens).
Proof.
move=> H; rewrite fib_traceE // bind_ok /ts_calculate_witness /=.
suff -> : foldM (fun s i =>
      let* s := foldM (fun s (g : generator F) =>
          let* values := (if g s is Ok vs then Ok vs else Panic) in
          foldM (write_value i) s values) s fib_gens in
      Ok (set_reg_witness s (reg_witness s) (current_step s).+1))
      (fib_state fb at_step 0 [:: [::]]) (iota 0 n) = Ok (fib_state fb at_step n [:: [::]]) by [].
elim: n => [|n IH] //; rewrite iotaSr foldM_rcons IH bind_ok fib_step bind_ok.
by [].
Qed.

Lemma fib_arpE fb at_step n : (fb == None) || (at_step != None) ->
  (let* t := fib_trace fb at_step (ts_new F) in let* t := ts_calculate_witness t n in into_arp t) =
  Ok (Some (fib_columns F n), Props n.+1 2 [:: fib_c0; fib_c1] (fib_bs fb at_step)).
Proof.
move=> H; have := @fib_witnessE fb at_step n H; rewrite fib_traceE // !bind_ok => ->.
rewrite bind_ok /into_arp /fib_state /= addn1; congr (Ok (_, Props _ _ _ _)).
by rewrite /fib_bs; case: (fb) => [b|] //=.
Qed.

(** Tracing the Fibonacci AIR and generating its witness for [n] steps: the
    witness has the rows (F_i, F_{i+1}) for i = 0, ..., n; the instance has two
    registers and n+1 rows; the witness passes the check exactly when the
    claimed final value is right (in the field) at a row of the trace. *)
Theorem C46_generated_witness fb at_step n : (fb == None) || (at_step != None) ->
  exists props : instance_properties F,
    [/\ (let* t := fib_trace fb at_step (ts_new F) in
         let* t := ts_calculate_witness t n in into_arp t) = Ok (Some (fib_columns F n), props),
        ip_num_rows props = n.+1, ip_num_registers props = 2%N &
        (is_satisfied props (fib_columns F n) = Ok tt <->
         (forall b s, fb = Some b -> at_step = Some s -> (s <= n)%N /\ b%:R = (fib s.+1)%:R :> F))].
Proof.
move=> H; exists (Props n.+1 2 [:: fib_c0; fib_c1] (fib_bs fb at_step)).
rewrite fib_arpE //.
split=> //; rewrite is_satisfiedP.
have Hsz : size (nth [::] (fib_columns F n) 0) = n.+1 by exact: size_fib_col.
have N0 i : (i <= n)%N -> (nth [::] (fib_columns F n) 0)`_i = (fib i)%:R.
  by move=> Hi; rewrite (nth_map 0%N) ?size_iota // nth_iota.
have N1 i : (i <= n)%N -> (nth [::] (fib_columns F n) 1)`_i = (fib i.+1)%:R.
  by move=> Hi; rewrite (nth_map 0%N) ?size_iota // nth_iota.
have S1 : size (nth [::] (fib_columns F n) 1) = n.+1 by exact: size_fib_col.
have Hcols : size (fib_columns F n) = 2%N by [].
set tr := fib_columns F n in Hsz N0 N1 S1 Hcols *; clearbody tr.
split.
- case=> _ _ Hb b s Eb Es; subst fb at_step; have := Hb 2%N isT.
  case=> r /= [<-] /(_ _ erefl) [_ Hs <-].
  by rewrite S1 ltnS in Hs; rewrite Hs N1.
- move=> Hfin; rewrite /satisfied Hcols; split=> //=.
  + have Hdr i : dense_row 0 1 n.+1 i = (i < n)%N by rewrite /dense_row /= addn1.
    case=> [|[|k]] //= _; exists 0%N, 1%N; rewrite Hsz; split=> // i; rewrite Hdr => Hi.
      rewrite /c_in_trace /cval /= /u_in_trace /= Hcols Hsz S1 /= addn0 addn1 !ltnS (ltnW Hi) Hi.
      by rewrite !big_cons big_nil /= /uval /= addn0 addn1 !expr1 N0 // N1 ?(ltnW Hi) // addr0 add0r mulN1r mul1r addNr.
    rewrite /c_in_trace /cval /= /u_in_trace /= Hcols Hsz S1 /= addn0 addn1 !ltnS (ltnW Hi) Hi.
    rewrite !big_cons big_nil /= /uval /= addn0 addn1 !expr1 N0 ?(ltnW Hi) // !N1 ?(ltnW Hi) //.
    by rewrite fibSS natrD addr0 add0r !mulN1r mul1r addrA -opprD addNr.
  + case: fb H Hfin => [b|] //= H Hfin; case: at_step H Hfin => [s|] //= _ /(_ b s erefl erefl) [Hs Eb].
    case=> [|[|[|k]]] //= _.
    * by exists 0%N => // v [<-]; rewrite Hcols Hsz N0.
    * by exists 1%N => // v [<-]; rewrite Hcols S1 N1.
    * by exists 1%N => // v [<-]; rewrite Hcols S1 /= (ltnS s) Hs N1 // Eb.
Qed.

(** Conversely every trace (of any number of rows, however obtained) that
    satisfies the instance has the Fibonacci numbers as its rows, so the
    claimed value is the right one. *)
Theorem C46_satisfying_traces b s n (props : instance_properties F) wit (tr : seq (seq F)) :
  (let* t := fib_trace (Some b) (Some s) (ts_new F) in
   let* t := ts_calculate_witness t n in into_arp t) = Ok (wit, props) ->
  is_satisfied props tr = Ok tt ->
  (forall i, (i < size (nth [::] tr 0))%N ->
     (nth [::] tr 0)`_i = (fib i)%:R /\ (nth [::] tr 1)`_i = (fib i.+1)%:R) /\
  ((s < size (nth [::] tr 0))%N -> b%:R = (fib s.+1)%:R :> F).
Proof.
rewrite fib_arpE // => -[_ <-] /is_satisfiedP [_ Hc Hb].
have [a0 [b0 [[<- <-] _ H0]]] := Hc 0%N isT.
have [a1 [b1 [[<- <-] _ H1]]] := Hc 1%N isT.
have [r0 [<-] /(_ _ erefl) /= [_ _ B0]] := Hb 0%N isT.
have [r1 [<-] /(_ _ erefl) /= [_ _ B1]] := Hb 1%N isT.
have [r2 [<-] /(_ _ erefl) /= [_ _ B2]] := Hb 2%N isT.
have Hall i : (i < size (nth [::] tr 0))%N ->
     (nth [::] tr 0)`_i = (fib i)%:R /\ (nth [::] tr 1)`_i = (fib i.+1)%:R.
  elim: i => [|i IH] Hi; first by rewrite B0 B1.
  have [E0 E1] := IH (ltnW Hi).
  have D : dense_row 0 1 (size (nth [::] tr 0)) i by rewrite /dense_row addn1.
  have [_] := H0 i D; have [_] := H1 i D.
  rewrite /cval !big_cons !big_nil /= /uval /= !expr1 !addn0 !addn1 E0 E1 !addr0 !add0r !mulN1r !mul1r.
  move=> /eqP; rewrite addrA -opprD addrC subr_eq0 => /eqP ->.
  by move=> /eqP; rewrite addrC subr_eq0 => /eqP ->; rewrite fibSS natrD.
split=> // Hs; by rewrite -B2; case: (Hall s Hs).
Qed.
End C46.

(** The 8-row instance used in the repository's tests satisfies the
    hypotheses, over F_257: F_8 = 34. *)
Example C46_ex : is_ok (let* t := fib_trace (Some 34%N) (Some 7%N) (ts_new F257) in
   let* t := ts_calculate_witness t 7 in
   let* '(wit, props) := into_arp t in
   if wit is Some tr then is_satisfied props tr else Err).
Proof. by vm_compute. Qed.

(** The hypothesis of [C34_error_iff_violated] is met by the Fibonacci instance
    with any claimed value, right or wrong. *)
Example C34_ex (F : fieldType) b :
  covered (Props 8 2 [:: fib_c0 F; fib_c1 F] (fib_bs F (Some b) (Some 7%N))) (fib_columns F 7).
Proof.
split=> //.
- by case=> [|[|k]] //= _; exists 0%N, 1%N; split=> // i; rewrite /dense_row addn1 /= ltnS;
     do 7?[case: i => [|i] //].
- by case=> [|[|[|k]]] //= _; [exists 0%N | exists 1%N | exists 1%N].
Qed.

(** The constructors of densities reject exactly the degenerate ones (an empty
    span; an interval of 0, or of 1, which is dense; no rows) and keep their arguments. *)
Theorem C34_densities (start span interval : nat) (rows : seq nat) :
  [/\ dense_new start span = (if (0 < span)%N then Ok (Dense start span) else Panic),
      repeated_new start span interval =
        (if (0 < span)%N && (1 < interval)%N then Ok (Repeated start span interval) else Panic) &
      sparse_new rows = (if rows is _ :: _ then Ok (Sparse rows) else Panic)].
Proof.
split; rewrite /dense_new /repeated_new /sparse_new //; last by case: rows.
by case: interval => [|[|k]]; case: span.
Qed.

(** * C51: register remapping *)
Section C51.
Variable F : fieldType.
Implicit Type s : trace_state F.

(** The registers that the system has allocated. *)
Definition allocated s (r : register) : bool :=
  match r with
  | ProgramCounter i => (i < num_pc s)%N
  | Reg i => (i < num_reg s)%N
  | Constant i => (i < num_constant s)%N
  | Aux i => (i < num_aux s)%N
  end.
Definition total_allocated s : nat := (num_pc s + num_reg s + num_constant s + num_aux s)%N.

(** The column of a register before the conversion. *)
Definition column_of s (r : register) : seq F :=
  match r with
  | ProgramCounter i => nth [::] (pc_witness s) i
  | Reg i => nth [::] (reg_witness s) i
  | Constant i => nth [::] (constant_witness s) i
  | Aux i => nth [::] (aux_witness s) i
  end.

(** The assignment of the trace system at row [i]. *)
Definition system_env s (i : nat) : env F := fun r d =>
  if d is Steps n then (column_of s r)`_(i + n) else 0.

(** Every allocated register has a non-empty column, and there are no other
    non-empty columns (the system starts with one spare empty column of each
    kind). *)
Definition columns_ok (n : nat) (cols : seq (seq F)) : bool :=
  [&& (n <= size cols)%N, all (fun c : seq F => size c != 0%N) (take n cols) &
      all (fun c : seq F => size c == 0%N) (drop n cols)].
Definition has_witness s : bool :=
  [&& columns_ok (num_pc s) (pc_witness s), columns_ok (num_reg s) (reg_witness s),
      columns_ok (num_constant s) (constant_witness s) & columns_ok (num_aux s) (aux_witness s)].

(** All registers of a constraint are allocated. *)
Definition term_regs (t : constraint_term F) : seq register :=
  match t with Univariate u => [:: ut_register u] | Polyvariate p => [seq ut_register u | u <- pt_terms p] end.
Definition constraint_regs (c : constraint F) : seq register := flatten [seq term_regs t | t <- c_terms c].
Definition well_formed s : bool :=
  all (fun c => all (allocated s) (constraint_regs c)) (ts_constraints s) &&
  all (fun b => allocated s (b_register b)) (ts_boundary s).

(** The full property: conversion succeeds, registers are renumbered
    injectively onto 0, ..., total-1, the columns and boundary constraints move
    with them, every constraint keeps its value at every row, and the reported
    number of registers is the number of columns of the witness. *)
Definition C51_renumbered (t : trace_system F) : Prop :=
  let s := ts_state t in
  exists w props (m : register -> nat),
    [/\ into_arp t = Ok (w, props) /\ odflt [::] w = [seq column_of s r | r <- 
          [seq ProgramCounter i | i <- iota 0 (num_pc s)] ++ [seq Reg i | i <- iota 0 (num_reg s)] ++
          [seq Aux i | i <- iota 0 (num_aux s)] ++ [seq Constant i | i <- iota 0 (num_constant s)]],
        forall r r', allocated s r -> allocated s r' -> m r = m r' -> r = r',
        forall r, allocated s r -> (m r < total_allocated s)%N /\
                    nth [::] (odflt [::] w) (m r) = column_of s r,
        (forall k, (k < size (ts_constraints s))%N ->
          let c := nth c_default (ts_constraints s) k in
          let c' := nth c_default (ip_constraints props) k in
          [/\ c_density c' = c_density c, c_degree c' = c_degree c, cdeg c' = cdeg c &
              forall i, cval (row_env (odflt [::] w) i) c' = cval (system_env s i) c]) /\
        size (ip_constraints props) = size (ts_constraints s) &
        ip_boundary_constraints props =
          [seq Boundary (Reg (m (b_register b))) (b_at_row b) (b_value b) | b <- ts_boundary s] /\
        ip_num_rows props = (current_step s).+1].

Definition C51_reports_registers (t : trace_system F) : Prop :=
  forall w props, into_arp t = Ok (w, props) -> ip_num_registers props = size (odflt [::] w).

Definition C51_statement : Prop := forall t : trace_system F,
  has_witness (ts_state t) -> well_formed (ts_state t) -> C51_renumbered t /\ C51_reports_registers t.

Lemma columns_okE n cols : columns_ok n cols ->
  [seq c <- cols | size c != 0%N] = [seq nth [::] cols i | i <- iota 0 n].
Proof.
case/and3P => Hn H1 H2; rewrite -{1}(cat_take_drop n cols) filter_cat.
have /all_filterP -> := H1.
have -> : [seq c <- drop n cols | size c != 0%N] = [::].
  by apply/eqP; rewrite -size_eq0 size_filter -leqn0 leqNgt -has_count -all_predC;
     apply: sub_all H2 => x /=; rewrite negbK.
rewrite cats0; apply: (@eq_from_nth _ [::]).
  by rewrite size_take size_map size_iota; move: Hn; rewrite leq_eqVlt; case/orP=> [/eqP ->|->] //; rewrite ltnn.
move=> i; rewrite size_take => Hi.
have Hin : (i < n)%N by move: Hi; case: (ltnP n (size cols)) => // H Hi; exact: leq_trans Hi H.
by rewrite nth_take // (nth_map 0%N) ?size_iota // nth_iota.
Qed.

Definition order s : seq register :=
  [seq ProgramCounter i | i <- iota 0 (num_pc s)] ++ [seq Reg i | i <- iota 0 (num_reg s)] ++
  [seq Aux i | i <- iota 0 (num_aux s)] ++ [seq Constant i | i <- iota 0 (num_constant s)].

Definition new_number s (r : register) : nat :=
  match r with
  | ProgramCounter i => i
  | Reg i => i + num_pc s
  | Aux i => i + (num_pc s + num_reg s)
  | Constant i => i + (num_pc s + num_reg s + num_aux s) end%N.

Lemma size_order s : size (order s) = total_allocated s.
Proof.
by rewrite /order !size_cat !size_map !size_iota /total_allocated !addnA -!addnA; do 2!congr (_ + _)%N; rewrite addnC.
Qed.

Lemma new_number_lt s r : allocated s r -> (new_number s r < total_allocated s)%N.
Proof.
rewrite /total_allocated; case: r => i /= Hi.
- by rewrite -!addnA ltn_addr.
- by rewrite [(i + _)%N]addnC -!addnA ltn_add2l ltn_addr.
- by rewrite addnC -!addnA !ltn_add2l addnC ltn_add2r.
- by rewrite addnC -!addnA !ltn_add2l ltn_addl.
Qed.

Lemma nth_order s r r0 : allocated s r -> nth r0 (order s) (new_number s r) = r.
Proof.
case: r => i /= Hi; rewrite /order !nth_cat !size_map !size_iota.
- by rewrite Hi (nth_map 0%N) ?size_iota // nth_iota.
- by rewrite ltnNge leq_addl /= addnK Hi (nth_map 0%N) ?size_iota // nth_iota.
- rewrite ltnNge (leq_trans _ (leq_addl _ _)) /=; last by rewrite -addnA leq_addr.
  have -> : (i + (num_pc s + num_reg s + num_aux s) - num_pc s = i + num_aux s + num_reg s)%N.
    rewrite -[(num_pc s + num_reg s + num_aux s)%N]addnA addnCA addKn.
    by rewrite -addnA [(num_aux s + _)%N]addnC.
  rewrite ltnNge leq_addl /= addnK ltnNge leq_addl /= addnK.
  by rewrite (nth_map 0%N) ?size_iota // nth_iota.
- rewrite ltnNge (leq_trans _ (leq_addl _ _)) /=; last by rewrite leq_addr.
  rewrite addnA addnAC addnK ltnNge leq_addl /= addnK Hi.
  by rewrite (nth_map 0%N) ?size_iota // nth_iota.
Qed.

Lemma remapE s r : remap_register (num_pc s) (num_pc s + num_reg s) (num_pc s + num_reg s + num_aux s) r =
  Reg (new_number s r).
Proof. by case: r. Qed.

Lemma into_arpE (t : trace_system F) : has_witness (ts_state t) ->
  let s := ts_state t in
  let w := [seq column_of s r | r <- order s] in
  let f := fun r => Reg (new_number s r) in
  exists2 w', odflt [::] w' = w & into_arp t = Ok (w', Props (current_step s).+1 (num_reg s)
    [seq arp_remap_constraint f c | c <- ts_constraints s]
    [seq Boundary (f (b_register b)) (b_at_row b) (b_value b) | b <- ts_boundary s]).
Proof.
move=> /and4P [H1 H2 H3 H4] s w f; rewrite /into_arp -/s.
rewrite (columns_okE H1) (columns_okE H2) (columns_okE H3) (columns_okE H4).
set ww := _ ++ _; have -> : ww = w.
  by rewrite /ww /w /order !map_cat -!map_comp.
have Hsz : size w = total_allocated s by rewrite size_map size_order.
have -> : (num_pc s + num_reg s + num_aux s + num_constant s)%N = size w.
  by rewrite Hsz /total_allocated addnAC.
rewrite eqxx addn1; exists (if size w == 0%N then None else Some w).
  by case: ifP => // /nilP ->.
congr (Ok (_, Props _ _ _ _)).
- apply: eq_map => c; rewrite /arp_remap_constraint; congr (Constr _ _ _ _).
  apply: eq_map => -[u|p] /=; first by rewrite /arp_remap_univariate remapE.
  congr (Polyvariate (PTerm _ _ _)); apply: eq_map => u.
  by rewrite /arp_remap_univariate remapE.
- by apply: eq_map => b; rewrite remapE.
Qed.

Lemma nth_columns s r : allocated s r ->
  nth [::] [seq column_of s r | r <- order s] (new_number s r) = column_of s r.
Proof.
move=> Hr; rewrite (nth_map (Reg 0)) ?size_order ?new_number_lt //.
by rewrite nth_order.
Qed.

Lemma remap_uval s i (u : univariate_term F) : allocated s (ut_register u) ->
  uval (row_env [seq column_of s r | r <- order s] i)
       (arp_remap_univariate (fun r => Reg (new_number s r)) u) = uval (system_env s i) u.
Proof.
move=> Hr; rewrite /uval /=; congr (_ * _ ^+ _).
by rewrite /system_env; case: (ut_steps u) => // d; rewrite nth_columns.
Qed.

Lemma remap_cval s i c : all (allocated s) (constraint_regs c) ->
  cval (row_env [seq column_of s r | r <- order s] i)
       (arp_remap_constraint (fun r => Reg (new_number s r)) c) = cval (system_env s i) c.
Proof.
rewrite /cval /= /constraint_regs => H; congr (_ + _); rewrite big_map.
elim: (c_terms c) H => [|t ts IH]; first by rewrite !big_nil.
rewrite /= all_cat => /andP [Ht Hts]; rewrite !big_cons IH //; congr (_ + _).
case: t Ht => [u|p] /=; first by rewrite andbT => Hu; rewrite remap_uval.
rewrite /pval /= big_map => Hp; congr (_ * _).
elim: (pt_terms p) Hp => [|u us IHu]; first by rewrite !big_nil.
by case/andP => Hu Hus; rewrite !big_cons IHu // remap_uval.
Qed.

Lemma remap_cdeg f (c : constraint F) : cdeg (arp_remap_constraint f c) = cdeg c.
Proof.
rewrite /cdeg /= big_map; apply: eq_bigr => -[u|p] _ //=.
by rewrite big_map.
Qed.

(** Everything but the reported number of registers holds; that part holds
    exactly when only ordinary registers have been allocated.  Missing from the
    full property: the reported number otherwise, see [C51_refuted]. *)
Theorem C51_remapping_partial (t : trace_system F) :
  has_witness (ts_state t) -> well_formed (ts_state t) ->
  C51_renumbered t /\
  (C51_reports_registers t <->
   [/\ num_pc (ts_state t) = 0%N, num_aux (ts_state t) = 0%N & num_constant (ts_state t) = 0%N]).
Proof.
move=> Hh /andP [Hc Hb]; have [w Hw Ew] := into_arpE Hh.
set s := ts_state t in Hh Hc Hb Hw Ew *; split.
- exists w; eexists; exists (new_number s); split; first by split; [exact: Ew|].
  + move=> r r' Hr Hr' E; rewrite -(@nth_order s r (Reg 0) Hr) E; exact: nth_order.
  + by move=> r Hr; rewrite new_number_lt // Hw nth_columns.
  + rewrite size_map; split=> // k Hk /=; rewrite (nth_map c_default) //.
    split=> //; first exact: remap_cdeg.
    by move=> i; rewrite Hw remap_cval //; apply: (all_nthP _ Hc).
  + by [].
- split.
  + move/(_ _ _ Ew) => /= H; move: H; rewrite Hw size_map size_order /total_allocated => H.
    have : (num_reg s + (num_pc s + num_constant s + num_aux s) = num_reg s + 0)%N.
      by rewrite addn0 [in RHS]H -!addnA addnCA.
    move/addnI/eqP; rewrite !addn_eq0 => /andP [/andP [/eqP -> /eqP ->] /eqP ->]; by split.
  + case=> E1 E2 E3 w' props; rewrite Ew => -[<- <-] /=.
    by rewrite Hw size_map size_order /total_allocated E1 E2 E3 !addn0.
Qed.

(** Without a witness the conversion panics as soon as a register exists. *)
Theorem C51_needs_witness (t : trace_system F) :
  (size [seq c <- pc_witness (ts_state t) | size c != 0%N] +
   size [seq c <- reg_witness (ts_state t) | size c != 0%N] +
   size [seq c <- aux_witness (ts_state t) | size c != 0%N] +
   size [seq c <- constant_witness (ts_state t) | size c != 0%N])%N != total_allocated (ts_state t) ->
  into_arp t = Panic.
Proof.
rewrite /into_arp !size_cat !addnA /total_allocated => H; case: ifP => // /eqP E.
by move: H; rewrite E addnAC eqxx.
Qed.

(** A system with one ordinary register and one auxiliary register. *)
Definition aux_system : trace_system F :=
  TSys (TState 0 1 0 1 [:: [::]] [:: [:: 1; 1]; [::]] [:: [::]] [:: [:: 0; 1]; [::]]
     [:: c_add_uni (c_sub_uni c_default (ut_from F (Reg 0))) (ut_set_step_difference (ut_from F (Reg 0)) 1)]
     [:: Boundary (Aux 0) 1 (Some 1)] 1) [::].

Theorem C51_refuted : ~ C51_statement.
Proof.
move=> /(_ aux_system isT isT) [_ H].
by have := H _ _ erefl.
Qed.

Example C51_ex : has_witness (ts_state aux_system) /\ well_formed (ts_state aux_system).
Proof. by []. Qed.
End C51.

Print Assumptions C33_degree.
Print Assumptions C33_builder_partial.
Print Assumptions C33_pow_keeps_coefficient.
Print Assumptions C33_total.
Print Assumptions C33_refuted.
Print Assumptions C34_densities.
Print Assumptions C34_is_satisfied.
Print Assumptions C34_error_iff_violated.
Print Assumptions C46_generated_witness.
Print Assumptions C46_satisfying_traces.
Print Assumptions C51_remapping_partial.
Print Assumptions C51_needs_witness.
Print Assumptions C51_refuted.
