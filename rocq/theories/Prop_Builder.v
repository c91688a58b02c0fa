(** C33, exactly: what the builders of constraints compute for every program. *)
From Coq Require Import NArith.
From mathcomp Require Import all_ssreflect all_algebra.
From Verif Require Import M_Base M_Field M_Air M_Arp SpecAir Instances Prop_Air.

Set Implicit Arguments.
Unset Strict Implicit.
Unset Printing Implicit Defensive.
Import GRing.Theory.
Local Open Scope ring_scope.

Section Builder.
Variable F : fieldType.

(** The same product of powers of a register without any coefficient. *)
Fixpoint bare (u : uprog F) : uprog F :=
  match u with
  | ULit _ r s p => ULit 1 r s p
  | UFrom r => UFrom F r
  | UTimes u _ => bare u
  | UAtStep u n => UAtStep (bare u) n
  | UPow u k => UPow (bare u) k
  end.

(** The coefficient of the expression as written. *)
Fixpoint written_coeff (u : uprog F) : F :=
  match u with
  | ULit c _ _ _ => c
  | UFrom _ => 1
  | UTimes u c => written_coeff u * c
  | UAtStep u _ => written_coeff u
  | UPow u k => written_coeff u ^+ k
  end.

Lemma uexpr_bare u e : uexpr u e = written_coeff u * uexpr (bare u) e.
Proof.
elim: u e => [c r s p|r|u IH c|u IH n|u IH k] e /=; rewrite ?mul1r //.
- by rewrite IH mulrAC.
- by rewrite IH exprMn.
Qed.

Lemma bare_one u : uexpr (bare u) (fun _ _ => 1) = 1.
Proof.
by elim: u => [c r s p|r|u IH c|u IH n|u IH k] //=; rewrite ?mul1r ?expr1n // IH expr1n.
Qed.

(** The value of a term that was built: the coefficient in front of a power is
    not raised to the power, whatever it is. *)
Lemma urun_exact u t e : urun u = Ok t -> uval e t = ucoeff u * uexpr (bare u) e.
Proof.
elim: u t e => [c r s p|r|u IH c|u IH n|u IH k] t e /=.
- by case=> <-; rewrite /uval /= mul1r.
- by case=> <-; rewrite /uval /= expr1.
- case E: (urun u) => [t'||] //= [<-].
  by rewrite mulrAC -(IH _ e E) /uval /= mulrAC.
- by case E: (urun u) => [t'||] //= [<-]; rewrite -(IH _ _ E).
- case E: (urun u) => [t'||] //=; rewrite /ut_pow; case Ep: (u64_mul _ _) => [d||] //= [<-].
  rewrite /uval /= (u64_mulE Ep) exprM (urun_shape E).1.
  have [Z|N] := eqVneq (ucoeff u) 0; first by rewrite Z !mul0r.
  congr (_ * _ ^+ _); apply: (mulfI N).
  by rewrite -(IH _ e E) /uval (urun_shape E).1.
Qed.

(** The program that computes with coefficients the way the code does: all
    coefficients of a term are taken out of the powers, unraised. *)
Definition built_u (u : uprog F) : uprog F := UTimes (bare u) (ucoeff u).
Fixpoint built_p (p : pprog F) : pprog F :=
  match p with
  | PFrom c u => PFrom c (built_u u)
  | PDefault => PDefault F
  | PTimesU p u => PTimesU (built_p p) (built_u u)
  | PTimesC p c => PTimesC (built_p p) c
  | PTimesP p q => PTimesP (built_p p) (built_p q)
  end.
Fixpoint built (c : cprog F) : cprog F :=
  match c with
  | CDefault => CDefault F
  | CAddP c p => CAddP (built c) (built_p p)
  | CSubP c p => CSubP (built c) (built_p p)
  | CAddU c u => CAddU (built c) (built_u u)
  | CSubU c u => CSubU (built c) (built_u u)
  | CAddC c x => CAddC (built c) x
  | CSubC c x => CSubC (built c) x
  end.

Lemma urun_built u t e : urun u = Ok t -> uval e t = uexpr (built_u u) e.
Proof. by move=> E; rewrite /= mulrC; apply: urun_exact. Qed.

Lemma prun_built p q e : prun p = Ok q -> pval e q = pexpr (built_p p) e.
Proof.
elim: p q => [c u||p IH u|p IH c|p IH p' IH'] q; rewrite ?[built_p _]/= ?[prun _]/= ?[pexpr _ _]/=.
- case E: (urun u) => [t||] //= [<-].
  by rewrite /pval /= big_seq1 -mulrA uval_with_coeff (urun_built e E).
- by move=> [<-]; rewrite /pval /= big_nil mulr1.
- case Ep: (prun p) => [q'||] //=; case E: (urun u) => [t||] //=.
  rewrite /pt_mul_uni; case: u64_add => //= d [<-].
  rewrite -(IH q') // -[_ * ucoeff u]/(uexpr (built_u u) e) -(urun_built e E) /pval /= -cats1 pval_cat big_seq1.
  by rewrite -!mulrA -(uval_with_coeff e t); congr (_ * _); rewrite mulrCA.
- case Ep: (prun p) => [q'||] //= [<-].
  by rewrite -(IH q') // /pval /= mulrAC.
- case Ep: (prun p) => [q1||] //=; case Ep': (prun p') => [q2||] //=.
  rewrite /pt_mul_poly; case: u64_add => //= d [<-].
  rewrite -(IH q1) // -(IH' q2) // /pval /= pval_cat.
  by rewrite -!mulrA; congr (_ * _); rewrite mulrCA.
Qed.

(** Every program: the value of the constraint is that of the program with the
    coefficients taken out of the powers. *)
Theorem C33_exact p c e : crun p = Ok c -> cval e c = cexpr (built p) e.
Proof.
elim: p c => [|p IH q|p IH q|p IH u|p IH u|p IH x|p IH x] c;
  rewrite ?[built _]/= ?[crun _]/= ?[cexpr _ _]/=.
- by move=> [<-]; rewrite /cval /= big_nil addr0.
- case E: (crun p) => [d||] //=; case Eq: (prun q) => [r||] //= [<-].
  by rewrite /c_add_poly cval_push /= (IH _ E) (prun_built e Eq).
- case E: (crun p) => [d||] //=; case Eq: (prun q) => [r||] //= [<-].
  by rewrite /c_sub_poly cval_push /= (IH _ E) -(prun_built e Eq) /pval /= mulNr.
- case E: (crun p) => [d||] //=; case Eq: (urun u) => [t||] //= [<-].
  by rewrite /c_add_uni cval_push /= (IH _ E) (urun_built e Eq).
- case E: (crun p) => [d||] //=; case Eq: (urun u) => [t||] //= [<-].
  rewrite /c_sub_uni cval_push /= (IH _ E).
  by rewrite -[_ * ucoeff u]/(uexpr (built_u u) e) -(urun_built e Eq) /uval /= mulNr.
- by case E: (crun p) => [d||] //= [<-]; rewrite -(IH _ E) /cval /= addrAC.
- by case E: (crun p) => [d||] //= [<-]; rewrite -(IH _ E) /cval /= addrAC.
Qed.

(** The coefficients of a term as written and as built. *)
Fixpoint written_p (p : pprog F) : F :=
  match p with
  | PFrom c u => c * written_coeff u
  | PDefault => 1
  | PTimesU p u => written_p p * written_coeff u
  | PTimesC p c => written_p p * c
  | PTimesP p q => written_p p * written_p q
  end.
Fixpoint kept_p (p : pprog F) : F :=
  match p with
  | PFrom c u => c * ucoeff u
  | PDefault => 1
  | PTimesU p u => kept_p p * ucoeff u
  | PTimesC p c => kept_p p * c
  | PTimesP p q => kept_p p * kept_p q
  end.

(** The registers of a term. *)
Fixpoint bare_p (p : pprog F) (e : env F) : F :=
  match p with
  | PFrom c u => uexpr (bare u) e
  | PDefault => 1
  | PTimesU p u => bare_p p e * uexpr (bare u) e
  | PTimesC p c => bare_p p e
  | PTimesP p q => bare_p p e * bare_p q e
  end.

Lemma pexpr_bare p e : pexpr p e = written_p p * bare_p p e.
Proof.
elim: p => [c u||p IH u|p IH c|p IH q IH'] /=; rewrite ?IH ?IH' ?(uexpr_bare u) ?mulr1 //.
- exact: mulrA.
- exact: mulrACA.
- exact: mulrAC.
- exact: mulrACA.
Qed.

Lemma pexpr_built p e : pexpr (built_p p) e = kept_p p * bare_p p e.
Proof.
elim: p => [c u||p IH u|p IH c|p IH q IH'] /=; rewrite ?IH ?IH' ?mulr1 //.
- by rewrite mulrA mulrAC.
- by rewrite [_ * ucoeff u]mulrC mulrACA.
- exact: mulrAC.
- exact: mulrACA.
Qed.

Lemma bare_p_one p : bare_p p (fun _ _ => 1) = 1.
Proof. by elim: p => [c u||p IH u|p IH c|p IH q IH'] //=; rewrite ?IH ?IH' ?bare_one ?mulr1. Qed.

(** A term is right for every assignment exactly when the coefficients agree:
    raising them to the powers makes no difference. *)
Theorem C33_univariate_iff u t : urun u = Ok t ->
  (forall e, uval e t = uexpr u e) <-> ucoeff u = written_coeff u.
Proof.
move=> Et; split=> [He | E e].
  by have := He (fun _ _ => 1); rewrite (urun_exact _ Et) (uexpr_bare u) bare_one !mulr1.
by rewrite (urun_exact _ Et) (uexpr_bare u) E.
Qed.

Theorem C33_polyvariate_iff p q : prun p = Ok q ->
  (forall e, pval e q = pexpr p e) <-> kept_p p = written_p p.
Proof.
move=> Eq; split=> [He | E e].
  by have := He (fun _ _ => 1); rewrite (prun_built _ Eq) pexpr_built (pexpr_bare p) bare_p_one !mulr1.
by rewrite (prun_built _ Eq) pexpr_built (pexpr_bare p) E.
Qed.
End Builder.

(** * Concrete cases *)

(** 3 (2x)^2 y is built as 6 x^2 y, not 12 x^2 y; (-x)^3 is built as -x^3. *)
Definition C33_ex_term : pprog F257 :=
  PTimesU (PFrom 3%:R (UPow (UTimes (UFrom _ (Reg 0)) 2%:R) 2)) (UFrom _ (Reg 1)).
Example C33_polyvariate_ex : [/\ exists q, prun C33_ex_term = Ok q,
  kept_p C33_ex_term = 6%:R & written_p C33_ex_term = 12%:R].
Proof.
split; last 2 first.
- by rewrite /C33_ex_term /= mul1r mulr1 -natrM.
- by rewrite /C33_ex_term /= mul1r mulr1 -natrX -natrM.
by apply: prun_total; rewrite /C33_ex_term.
Qed.

Example C33_univariate_ex (F : fieldType) :
  let u := UPow (UTimes (UFrom F (Reg 0)) (-1)) 3 in
  (exists t, urun u = Ok t) /\ ucoeff u = written_coeff u.
Proof.
split; first by apply: urun_total.
by rewrite /= !mul1r exprS sqrrN expr1n mulr1.
Qed.

Print Assumptions C33_exact.
Print Assumptions C33_univariate_iff.
Print Assumptions C33_polyvariate_iff.
