(** Evaluation of constraints on traces and the satisfaction check. *)
From Coq Require Import NArith.
From mathcomp Require Import all_ssreflect all_algebra.
From Verif Require Import M_Base M_Field M_Air M_Arp SpecAir P_Base.

Set Implicit Arguments.
Unset Strict Implicit.
Unset Printing Implicit Defensive.
Import GRing.Theory.
Local Open Scope ring_scope.

Lemma bind_ok A B (a : A) (f : A -> outcome B) : bind (Ok a) f = f a.
Proof. by []. Qed.

Lemma foldM_unit A (f : A -> outcome unit) (s : seq A) x0 :
  foldM (fun _ x => f x) tt s = Ok tt <-> (forall k, (k < size s)%N -> f (nth x0 s k) = Ok tt).
Proof.
elim: s => [|x s IH] /=; first by split.
split.
  case E: (f x) => [[]||] //= H [|k] //= Hk; exact: (IH.1 H).
by move=> H; rewrite (H 0%N) //=; apply/IH => k Hk; apply: (H k.+1).
Qed.

Lemma foldM_accE A B (f : A -> outcome B) (op : B -> B -> B) (g : A -> B) (ok : pred A) b s :
  (forall a, ok a -> f a = Ok (g a)) -> (forall a, ~~ ok a -> forall x, f a <> Ok x) ->
  (all ok s -> foldM (fun acc a => let* v := f a in Ok (op acc v)) b s
               = Ok (foldl (fun acc a => op acc (g a)) b s)) /\
  (~~ all ok s -> forall x, foldM (fun acc a => let* v := f a in Ok (op acc v)) b s <> Ok x).
Proof.
move=> H1 H2; elim: s b => [|a s IH] b /=; first by split.
case Ha: (ok a) => /=; first by rewrite H1 //=; apply: IH.
split=> // _ x; have := H2 a (negbT Ha); case: (f a) => [v||] //= H.
by case: (H v).
Qed.

Section Eval.
Variable F : fieldType.
Variable trace : seq (seq F).
Variable i : nat.

Lemma eval_uniP u : u_in_trace trace i u ->
  eval_univariate_on_witness trace i u = Ok (uval (row_env trace i) u).
Proof.
case: u => c r st p; rewrite /u_in_trace /eval_univariate_on_witness /uval /=.
case: r => // n; case: st => // d /andP [Hn Hd] /=.
by rewrite (get_nth [::] Hn) /= leqNgt Hd /= (get_nth 0 Hd) /= mulrC.
Qed.

Lemma eval_uniN u : ~~ u_in_trace trace i u ->
  forall x, eval_univariate_on_witness trace i u <> Ok x.
Proof.
case: u => c r st p; rewrite /u_in_trace /eval_univariate_on_witness /=.
case: st => [d|m] //=; case: r => // n /=.
case: (ltnP n (size trace)) => [Hn|Hn _ x]; last by rewrite get_over.
by rewrite (get_nth [::] Hn) /=; rewrite -leqNgt => ->.
Qed.

Lemma foldl_mul (g : univariate_term F -> F) b s :
  foldl (fun acc a => acc * g a) b s = b * \prod_(u <- s) g u.
Proof. by elim: s b => [|a s IH] b /=; rewrite ?big_nil ?mulr1 // IH big_cons mulrA. Qed.

Lemma foldl_add A (g : A -> F) b s :
  foldl (fun acc a => acc + g a) b s = b + \sum_(u <- s) g u.
Proof. by elim: s b => [|a s IH] b /=; rewrite ?big_nil ?addr0 // IH big_cons addrA. Qed.

Lemma eval_termP t : t_in_trace trace i t ->
  eval_term_on_witness trace i t = Ok (tval (row_env trace i) t).
Proof.
case: t => [u|p] /=; first exact: eval_uniP.
have [H _] := foldM_accE (fun x y => x * y) 1 (pt_terms p) eval_uniP eval_uniN.
by move/H => -> /=; rewrite foldl_mul mul1r /pval mulrC.
Qed.

Lemma eval_termN t : ~~ t_in_trace trace i t ->
  forall x, eval_term_on_witness trace i t <> Ok x.
Proof.
case: t => [u|p] /=; first exact: eval_uniN.
have [_ H] := foldM_accE (fun x y => x * y) 1 (pt_terms p) eval_uniP eval_uniN.
by move/H => {}H x; case E: (foldM _ _ _) => [v||] //=; case: (H v).
Qed.

Lemma eval_constraintP c : c_in_trace trace i c ->
  eval_constraint_on_witness trace i c = Ok (cval (row_env trace i) c).
Proof.
have [H _] := foldM_accE (fun x y => x + y) (c_constant_term c) (c_terms c) eval_termP eval_termN.
by move/H; rewrite foldl_add.
Qed.

Lemma eval_constraintN c : ~~ c_in_trace trace i c ->
  forall x, eval_constraint_on_witness trace i c <> Ok x.
Proof.
have [_ H] := foldM_accE (fun x y => x + y) (c_constant_term c) (c_terms c) eval_termP eval_termN.
exact: H.
Qed.
End Eval.

Section Satisfied.
Variable F : fieldType.

Lemma dense_rowsE a b n r : dense_rows a b n = Ok r ->
  (b <= n)%N /\ forall i, (i \in r) = dense_row a b n i.
Proof.
rewrite /dense_rows /usub; case: leqP => //= Hb [<-]; split=> // i.
rewrite mem_iota /dense_row; case: (leqP a i) => //= Hai.
have -> : (i + b < n)%N = (i < n - b)%N by rewrite ltn_subRL addnC.
case: (leqP a (n - b)) => Ha; first by rewrite subnKC.
move: (Ha); rewrite -subn_eq0 => _; have -> : (n - b - a = 0)%N by apply/eqP; rewrite subn_eq0 ltnW.
rewrite addn0 ltnNge Hai /=; apply/esym/negbTE; rewrite -leqNgt; exact: leq_trans (ltnW Ha) Hai.
Qed.

Lemma check_rowP (trace : seq (seq F)) c i :
  (let* value := eval_constraint_on_witness trace i c in if value != 0 then Err else Ok tt) = Ok tt <->
  c_in_trace trace i c /\ cval (row_env trace i) c = 0.
Proof.
case H: (c_in_trace trace i c).
  rewrite eval_constraintP //=; case: eqP => [->|]; first by split.
  by move=> H0; split=> // -[].
split; last by case.
have := @eval_constraintN _ trace i c (negbT H).
by case: (eval_constraint_on_witness _ _ _) => [v||] //= N; case: (N v).
Qed.

Lemma check_constraintP (trace : seq (seq F)) c :
  (let* rows := (if c_density c is Dense a b then dense_rows a b (size (nth [::] trace 0)) else Panic) in
   foldM (fun _ row => let* value := eval_constraint_on_witness trace row c in
                       if value != 0 then Err else Ok tt) tt rows) = Ok tt <->
  constraint_holds trace c.
Proof.
rewrite /constraint_holds; split.
- move=> H0; have [r Hr0 H1] := bind_Ok H0; move: Hr0 H1 {H0}; case Ed: (c_density c) => [a b||] // /dense_rowsE [Hb Hr] /(foldM_unit _ _ 0%N) H.
  exists a, b; split=> // i; rewrite -Hr => /(nthP 0%N) [k Hk <-].
  by apply/check_rowP; apply: H.
- case=> a [b [-> Hb H]]; rewrite /dense_rows /usub Hb /=.
  apply/(foldM_unit _ _ 0%N) => k; rewrite size_iota => Hk; apply/check_rowP/H.
  have /dense_rowsE [_ <-] : dense_rows a b (size (nth [::] trace 0)) =
     Ok (iota a (size (nth [::] trace 0) - b - a)) by rewrite /dense_rows /usub Hb.
  by apply: mem_nth; rewrite size_iota.
Qed.

Lemma check_boundaryP (trace : seq (seq F)) b :
  (let* reg_num := reg_number (b_register b) in
   if b_value b is Some expected then
        let* column := get trace reg_num in
        let* from_witness := get column (b_at_row b) in
        if expected != from_witness then Err else Ok tt
   else Ok tt) = Ok tt <-> boundary_holds trace b.
Proof.
rewrite /boundary_holds; case: (b_register b) => [n|n|n|n] /=; try by split=> // -[].
case: (b_value b) => [v|]; last by split=> // _; exists n.
split.
  move=> H0; have [col Hc H1] := bind_Ok H0; have [x Hx] := bind_Ok H1.
  have [Hn Ec] := get_Ok [::] Hc; rewrite Ec in Hx; have [Hr ->] := get_Ok 0 Hx.
  by case: eqP => // -> _; exists n => // v' [<-].
case=> _ [<-] /(_ v erefl) [Hn Hr E].
by rewrite (get_nth [::] Hn) /= (get_nth 0 Hr) /= E eqxx.
Qed.

Lemma is_satisfiedP props (trace : seq (seq F)) :
  is_satisfied props trace = Ok tt <-> satisfied props trace.
Proof.
rewrite /is_satisfied /satisfied.
case: trace => [|c0 trace]; first by split=> // -[].
rewrite [get _ _]/= [bind (Ok _) _]/=; split.
  move=> H0; have [[] {H0}] := bind_Ok H0; move=> /(foldM_unit _ _ c_default) H1 /(foldM_unit _ _ (Boundary (Reg 0) 0 None)) H2.
  by split=> // k Hk; [apply/check_constraintP; apply: H1 | apply/check_boundaryP; apply: H2].
case=> _ H1 H2.
have -> : foldM (fun _ c =>
     let* rows := (if c_density c is Dense a b then dense_rows a b (size c0) else Panic) in
     foldM (fun _ row => let* value := eval_constraint_on_witness (c0 :: trace) row c in
         if value != 0 then Err else Ok tt) tt rows) tt (ip_constraints props) = Ok tt.
  by apply/(foldM_unit _ _ c_default) => k Hk; apply/check_constraintP; apply: H1.
apply: (iffRL (foldM_unit _ _ (Boundary (Reg 0) 0 None))) => k Hk.
by apply: (iffRL (check_boundaryP (c0 :: trace) _)); apply: H2.
Qed.
End Satisfied.
