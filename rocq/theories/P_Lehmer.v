(** Primality and primitive roots by Lehmer's test, with certificates: a program of
    squarings and multiplications modulo n, each with its quotient, computes the powers
    that the test needs, and inverses show that they are not one modulo any prime
    factor. *)
From Coq Require Import NArith Lia.
From mathcomp Require Import all_ssreflect all_fingroup all_algebra.
From Verif Require Import P_Lucas.

Set Implicit Arguments.
Unset Strict Implicit.
Unset Printing Implicit Defensive.
Import GRing.Theory.
Local Open Scope ring_scope.

(** The machine: an accumulator and a list of saved values, each with the exponent of
    the base that it belongs to. *)
Inductive instr := Sq of N | Mul of nat & N | Save | Load of nat.

Section Machine.
Variable n : N.

Definition reduce (x q : N) : option N := let m := (n * q)%num in if (m <=? x)%num then Some (x - m)%num else None.

Definition entry (saved : seq (N * N)) (k : nat) : N * N := nth (0, 0)%num saved k.

Fixpoint run (prog : seq instr) (acc : N * N) (saved : seq (N * N)) : option (seq (N * N)) :=
  match prog with
  | [::] => Some saved
  | Sq q :: rest =>
      if reduce (N.square acc.1) q is Some x then run rest (x, 2 * acc.2)%num saved else None
  | Mul k q :: rest =>
      if (k < size saved)%N then
        if reduce (acc.1 * (entry saved k).1) q is Some x then run rest (x, acc.2 + (entry saved k).2)%num saved else None
      else None
  | Save :: rest => run rest acc (rcons saved acc)
  | Load k :: rest => if (k < size saved)%N then run rest (entry saved k) saved else None
  end.

Variable R : comRingType.
Hypothesis Hn : (N.to_nat n)%:R = 0 :> R.
Local Notation "x %:N" := ((N.to_nat x)%:R : R) (at level 2, left associativity, format "x %:N").
Variable a : N.

Definition valid (ve : N * N) : bool := ve.1%:N == a%:N ^+ N.to_nat ve.2.

Lemma reduceP x q y : reduce x q = Some y -> y%:N = x%:N.
Proof.
rewrite /reduce; case: N.leb_spec0 => // Hle [<-].
by rewrite -{2}(N.sub_add (n * q) x) // Nnat.N2Nat.inj_add natrD natN_mul Hn mul0r addr0.
Qed.

Lemma valid_nth saved k : all valid saved -> (k < size saved)%N -> valid (entry saved k).
Proof. by move=> Hs Hk; apply: (allP Hs); rewrite mem_nth. Qed.

Lemma runP prog acc saved out : valid acc -> all valid saved -> run prog acc saved = Some out -> all valid out.
Proof.
elim: prog acc saved => [|i prog IH] acc saved Ha Hs /=; first by case=> <-.
case: i => [q|k q||k].
- case E: (reduce _ _) => [x|] //; apply: IH Hs; rewrite /valid -[fst _]/x -[snd _]/(2 * acc.2)%num.
  rewrite (reduceP E) N.square_spec natN_mul (eqP Ha) Nnat.N2Nat.inj_mul -exprD; apply/eqP; congr (_ ^+ _).
  by rewrite addnn -mul2n.
- case: ifP => // Hk; case E: (reduce _ _) => [x|] //; have Hv := valid_nth Hs Hk; apply: IH Hs; rewrite /valid /=.
  by rewrite (reduceP E) natN_mul (eqP Ha) (eqP Hv) Nnat.N2Nat.inj_add -exprD.
- by apply: IH => //; rewrite all_rcons Ha.
- by case: ifP => // Hk; apply: IH => //; exact: valid_nth.
Qed.
End Machine.

(** Factors with multiplicities. *)
Definition prod_of (qs : seq (N * nat)) : N := foldr (fun q => N.mul (N.pow q.1 (N.of_nat q.2))) 1%num qs.

Lemma prime_in_prod_of (qs : seq (N * nat)) (q : nat) : all (fun x => prime (N.to_nat x.1)) qs ->
  prime q -> (q %| N.to_nat (prod_of qs))%N -> N.of_nat q \in map fst qs.
Proof.
elim: qs => [|x qs IH] /=; first by move=> _ Hq; rewrite dvdn1 => /eqP E; rewrite E in Hq.
case/andP=> Hx Hqs Hq; rewrite Nnat.N2Nat.inj_mul => H; rewrite in_cons.
have : (q %| N.to_nat (x.1 ^ N.of_nat x.2)%num * N.to_nat (prod_of qs))%N by [].
rewrite Euclid_dvdM // => /orP [|/(IH Hqs Hq) ->]; last by rewrite orbT.
elim: (x.2) => [|m IHm].
  by rewrite /= dvdn1 => /eqP E; rewrite E in Hq.
rewrite Nnat.Nat2N.inj_succ N.pow_succ_r' Nnat.N2Nat.inj_mul => H'.
have : (q %| N.to_nat x.1 * N.to_nat (x.1 ^ N.of_nat m)%num)%N by [].
rewrite Euclid_dvdM // => /orP [|/IHm //].
by rewrite dvdn_prime2 // => /eqP ->; rewrite Nnat.N2Nat.id eqxx.
Qed.

(** The saved value [i] is the power (n-1)/q for the factor [i], with an inverse of
    itself minus one; the last one is the power n-1. *)
Definition factor_ok (n : N) (x : (N * N) * (N * nat) * (N * N)) : bool :=
  let: ((v, e), (q, _), (inv, quot)) := x in
  (e * q =? n - 1)%num && (inv * v =? 1 + inv + quot * n)%num.

Definition lehmer (n a : N) (qs : seq (N * nat)) (prog : seq instr) (invs : seq (N * N)) : bool :=
  [&& (2 <? n)%num, (prod_of qs =? n - 1)%num, size invs == size qs &
   if run n prog (a, 1)%num [:: (a, 1)%num] is Some out then
     let out := drop (size out - (size qs).+1) out in
     [&& size out == (size qs).+1, all (factor_ok n) (zip (zip out qs) invs) &
         entry out (size qs) == (1, n - 1)%num]
   else false].
Section Lehmer.
Variables (n a : N) (qs : seq (N * nat)) (prog : seq instr) (invs : seq (N * N)).
Hypothesis Hqs : all (fun x => prime (N.to_nat x.1)) qs.
Hypothesis Hcheck : lehmer n a qs prog invs.
Let p := N.to_nat n.

Let Hp2 : (2 < p)%N.
Proof. by case/and4P: Hcheck => /N.ltb_spec0 Hn _ _ _; apply/ltP; rewrite /p; lia. Qed.
Let Epred : p.-1 = N.to_nat (n - 1).
Proof. by rewrite /p Nnat.N2Nat.inj_sub -subn1. Qed.

(** In every field where n is zero, a has order n-1. *)
Lemma lehmer_order (F : fieldType) : p%:R = 0 :> F -> p.-1.-primitive_root ((N.to_nat a)%:R : F).
Proof.
move=> Hn0; set x : F := (N.to_nat a)%:R.
case/and4P: Hcheck => _ /N.eqb_spec Hprod /eqP Hsi; case Erun: (run _ _ _ _) => [out|] //.
have Hva : valid F a (a, 1%num) by rewrite /valid /= expr1.
have Hout := runP Hn0 Hva (_ : all (valid F a) [:: (a, 1%num)]) Erun.
have {}Hout := Hout (introT andP (conj Hva isT)).
set o := drop _ _ => /and3P [/eqP Hso Hfac /eqP Hlast].
have Ho : all (valid F a) o by move: Hout; rewrite -(cat_take_drop (size out - (size qs).+1) out) all_cat => /andP [].
have Hp0 : (0 < p.-1)%N by rewrite -ltnS prednK // ltnW // ltnW.
have Hx1 : x ^+ p.-1 = 1.
  have := valid_nth Ho (_ : size qs < size o)%N; rewrite Hso ltnSn => /(_ isT).
  by rewrite Hlast /valid /= -Epred -/x => /eqP <-.
have Hxq q : prime q -> (q %| p.-1)%N -> x ^+ (p.-1 %/ q) != 1.
  move=> Hq Hqd; have : N.of_nat q \in map fst qs.
    by apply: prime_in_prod_of => //; rewrite Hprod -Epred.
  case/(nthP 0%num) => i; rewrite size_map => Hi; rewrite (nth_map (0%num, 0%N)) // => Eq.
  have Hi1 : (i < size o)%N by rewrite Hso ltnS ltnW.
  have Hz : (i < size (zip (zip o qs) invs))%N by rewrite !size_zip Hso Hsi (minn_idPr (leqnSn _)) minnn.
  have := all_nthP ((0, 0), (0, 0%N), (0, 0))%num Hfac i Hz; have := valid_nth Ho Hi1.
  rewrite nth_zip_cond Hz nth_zip_cond.
  have -> : (i < size (zip o qs))%N by rewrite size_zip Hso (minn_idPr (leqnSn _)).
  rewrite -[nth (0, 0)%num o i]/(entry o i); case: (entry o i) => v e.
  rewrite -[nth _ qs i]/(nth (0%num, 0%N) qs i); case: (nth _ qs i) Eq => q' m' /= ->; case: (nth _ invs i) => inv quot.
  rewrite /valid /= -/x => /eqP Hv /andP [/N.eqb_spec He /N.eqb_spec Hinv].
  have Ee : (p.-1 %/ q)%N = N.to_nat e.
    by rewrite Epred -He Nnat.N2Nat.inj_mul Nnat.Nat2N.id mulnK // prime_gt0.
  rewrite Ee -Hv; apply/eqP => Hv1.
  have : (N.to_nat (inv * v))%:R = (N.to_nat (1 + inv + quot * n))%:R :> F by rewrite Hinv.
  rewrite natN_mul Hv1 mulr1 !Nnat.N2Nat.inj_add plusE natrD natN_mul Hn0 mulr0 addr0 => /eqP.
  by rewrite natrD eq_sym addrC -subr_eq0 addrAC subrr add0r oner_eq0.
have [d Hd Hdd] := prim_order_exists Hp0 Hx1.
suff -> : p.-1 = d by [].
apply/esym; apply: max_order => // q Hq Hqd; apply: contraNN (Hxq q Hq Hqd).
by rewrite (prim_order_dvd Hd).
Qed.

Theorem lehmer_prime : prime p.
Proof.
set l := pdiv p.
have Hp1 : (1 < p)%N by exact: ltnW.
have Hl : prime l by apply: pdiv_prime.
have Hlp : (l %| p)%N by apply: pdiv_dvd.
have Hn0 : p%:R = 0 :> 'F_l by apply/eqP; rewrite -(dvdn_charf (char_Fp Hl)).
have Hd := lehmer_order Hn0; set x := (N.to_nat a)%:R in Hd.
have Hx1 := prim_expr_order Hd.
have Hp0 : (0 < p.-1)%N by rewrite -ltnS prednK // ltnW // ltnW.
have Hx0 : x != 0.
  apply/eqP => E; have : (1 : 'F_l) != 0 by exact: oner_neq0.
  by rewrite -Hx1 E expr0n eqn0Ngt Hp0 eqxx.
have Hl1 : x ^+ l.-1 = 1.
  have E : x ^+ l = x by rewrite /x -natrX -(Fp_nat_mod Hl) (fermat_little _ Hl) Fp_nat_mod.
  have : x * x ^+ l.-1 = x * 1 by rewrite -exprS prednK ?prime_gt0 // E mulr1.
  by move/(mulfI Hx0).
have : (p.-1 %| l.-1)%N by rewrite (prim_order_dvd Hd) Hl1.
move/dvdn_leq => Hle.
have Hl2 : (0 < l.-1)%N by rewrite -ltnS prednK ?prime_gt1 // prime_gt0.
have Hpl : (p <= l)%N by rewrite -(prednK (ltnW Hp1)) -(prednK (prime_gt0 Hl)) ltnS Hle.
have -> : p = l by apply/eqP; rewrite eqn_leq Hpl dvdn_leq // ltnW.
exact: Hl.
Qed.
End Lehmer.
