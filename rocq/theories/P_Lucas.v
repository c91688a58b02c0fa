(** Lucas primality test, with binary arithmetic, used to exhibit a concrete
    64-bit prime field. *)
From Coq Require Import NArith PArith Arith Lia.
From mathcomp Require Import all_ssreflect all_fingroup all_algebra.

Set Implicit Arguments.
Unset Strict Implicit.
Unset Printing Implicit Defensive.
Import GRing.Theory.
Local Open Scope ring_scope.

Fixpoint powmod (m a : N) (e : positive) : N :=
  match e with
  | xH => N.modulo a m
  | xO e' => let b := powmod m a e' in N.modulo (b * b) m
  | xI e' => let b := powmod m a e' in N.modulo (a * N.modulo (b * b) m) m
  end.

Section Transfer.
Variables (R : ringType) (m : N).
Hypothesis Hm : (N.to_nat m)%:R = 0 :> R.
Local Notation "x %:N" := ((N.to_nat x)%:R : R) (at level 2, left associativity, format "x %:N").

Lemma natN_mul (x y : N) : (x * y)%num%:N = x%:N * y%:N.
Proof. by rewrite Nnat.N2Nat.inj_mul -natrM. Qed.

Lemma natN_mod (x : N) : (N.modulo x m)%:N = x%:N.
Proof.
rewrite {2}(N.div_mod' x m) Nnat.N2Nat.inj_add natrD [X in X + _]natN_mul Hm mul0r add0r //.
Qed.

Lemma powmodP a e : (powmod m a e)%:N = a%:N ^+ (Pos.to_nat e).
Proof.
elim: e => [e IH|e IH|] /=; rewrite natN_mod ?natN_mul ?natN_mod ?natN_mul ?IH.
- by rewrite Pos2Nat.inj_xI exprS (_ : Nat.mul 2 _ = Pos.to_nat e * 2)%N ?exprM ?expr2 // mulnC.
- by rewrite Pos2Nat.inj_xO (_ : Nat.mul 2 _ = Pos.to_nat e * 2)%N ?exprM ?expr2 // mulnC.
- by rewrite expr1.
Qed.
End Transfer.

Lemma prime_in_prod (qs : seq N) (q : nat) : all (fun x => prime (N.to_nat x)) qs ->
  prime q -> (q %| N.to_nat (foldr N.mul 1%num qs))%N -> N.of_nat q \in qs.
Proof.
elim: qs => [|x qs IH] /=; first by move=> _ Hq; rewrite dvdn1 => /eqP E; rewrite E in Hq.
case/andP=> Hx Hqs Hq; rewrite Nnat.N2Nat.inj_mul => H; rewrite in_cons.
have : (q %| N.to_nat x * N.to_nat (foldr N.mul 1%num qs))%N by [].
rewrite Euclid_dvdM // => /orP [|/(IH Hqs Hq) ->]; last by rewrite orbT.
by rewrite dvdn_prime2 // => /eqP ->; rewrite Nnat.N2Nat.id eqxx.
Qed.

Lemma max_order d m : (0 < m)%N -> (d %| m)%N ->
  (forall q, prime q -> q %| m -> ~~ (d %| m %/ q))%N -> d = m.
Proof.
move=> Hm Hd Hq; case: (eqVneq (m %/ d)%N 1%N) => [E|E]; first by rewrite -(divnK Hd) E mul1n.
have Hp : prime (pdiv (m %/ d)).
  apply: pdiv_prime; rewrite ltn_neqAle eq_sym E /= divn_gt0 ?(dvdn_gt0 Hm Hd) //; exact: dvdn_leq.
have Hdv := pdiv_dvd (m %/ d); set q := pdiv _ in Hp Hdv.
have Hqm : (q %| m)%N by rewrite -(divnK Hd); apply: dvdn_mulr.
case/negP: (Hq q Hp Hqm); apply/dvdnP; exists (m %/ d %/ q)%N.
by apply/eqP; rewrite eq_sym eqn_div // ?prime_gt0 // mulnAC divnK // divnK.
Qed.

Definition to_pos (n : N) : positive := if n is Npos p then p else xH.

(** The check: [a]^(n-1) = 1 and gcd(a^((n-1)/q) - 1, n) = 1 for all q. *)
Definition lucas_check (n a : N) (qs : seq N) : bool :=
  (foldr N.mul 1%num qs =? n - 1)%num && (2 <? n)%num &&
  (powmod n a (to_pos (n - 1)) =? 1)%num &&
  all (fun q => (1 <? q)%num && (N.gcd (powmod n a (to_pos ((n - 1) / q)) + (n - 1)) n =? 1)%num) qs.

Lemma dvdN (a b : N) : (N.to_nat a %| N.to_nat b)%N -> N.divide a b.
Proof.
case/dvdnP=> k E; exists (N.of_nat k); apply: Nnat.N2Nat.inj.
by rewrite E Nnat.N2Nat.inj_mul Nnat.Nat2N.id.
Qed.

Lemma lucasP n a qs : all (fun x => prime (N.to_nat x)) qs -> lucas_check n a qs -> prime (N.to_nat n).
Proof.
move=> Hqs /andP [/andP [/andP [/N.eqb_spec Hprod /N.ltb_spec0 Hn] /N.eqb_spec H1] Hall].
set p := N.to_nat n; set l := pdiv p.
have Hp1 : (1 < p)%N by apply/ltP; rewrite /p; lia.
have Hl : prime l by apply: pdiv_prime.
have Hlp : (l %| p)%N by apply: pdiv_dvd.
have Hn0 : p%:R = 0 :> 'F_l.
  by apply/eqP; rewrite -(dvdn_charf (char_Fp Hl)).
have Epred : p.-1 = N.to_nat (n - 1) by rewrite /p Nnat.N2Nat.inj_sub -subn1.
have Hp0 : (0 < p.-1)%N by rewrite -ltnS prednK // ltnW.
set x : 'F_l := (N.to_nat a)%:R.
have Pto m : (0 < m)%num -> Pos.to_nat (to_pos m) = N.to_nat m by case: m => // m; lia.
have Hx1 : x ^+ p.-1 = 1.
  rewrite Epred -Pto; last by lia.
  by rewrite -(powmodP Hn0) H1.
have Hxq q : prime q -> (q %| p.-1)%N -> x ^+ (p.-1 %/ q) != 1.
  move=> Hq Hqd; have Hin : N.of_nat q \in qs.
    by apply: prime_in_prod => //; rewrite Hprod -Epred.
  move/allP: Hall => /(_ _ Hin) /andP [/N.ltb_spec0 Hq1 /N.eqb_spec Hg].
  have Eq : (p.-1 %/ q)%N = N.to_nat ((n - 1) / N.of_nat q).
    have := divnK Hqd; rewrite {2}Epred => E.
    have E' : (n - 1 = N.of_nat (p.-1 %/ q) * N.of_nat q)%num.
      by apply: Nnat.N2Nat.inj; rewrite -E Nnat.N2Nat.inj_mul !Nnat.Nat2N.id.
    by rewrite E' N.div_mul ?Nnat.Nat2N.id //; lia.
  apply/eqP => Ex; move: Hg; set e := ((n - 1) / N.of_nat q)%num in Eq *.
  have He : (0 < e)%num.
    suff : (0 < N.to_nat e)%coq_nat by lia.
    by apply/ltP; rewrite -Eq divn_gt0 ?prime_gt0 // dvdn_leq.
  rewrite Eq -(Pto _ He) -(powmodP Hn0) in Ex.
  set r := powmod _ _ _ in Ex *.
  have Hdiv : (l %| N.to_nat (r + (n - 1)))%N.
    rewrite (dvdn_charf (char_Fp Hl)) Nnat.N2Nat.inj_add natrD Ex -Epred.
    by rewrite -[1]/(1%:R) -natrD add1n prednK ?Hn0 // ltnW.
  move=> Hg; have : N.divide (N.of_nat l) 1%num.
    rewrite -Hg; apply: N.gcd_greatest; apply: dvdN; rewrite Nnat.Nat2N.id //.
  move/N.divide_1_r => E1; have El : l = 1%N by lia.
  by rewrite El in Hl.
have [d Hd Hdd] := prim_order_exists Hp0 Hx1.
have Ed : d = p.-1.
  apply: max_order => // q Hq Hqd; apply: contraNN (Hxq q Hq Hqd).
  by rewrite (prim_order_dvd Hd).
have Hx0 : x != 0.
  apply/eqP => E; have : (1 : 'F_l) != 0 by exact: oner_neq0.
  by rewrite -Hx1 E expr0n eqn0Ngt Hp0 eqxx.
have Hl1 : x ^+ l.-1 = 1.
  have E : x ^+ l = x by rewrite /x -natrX -(Fp_nat_mod Hl) (fermat_little _ Hl) Fp_nat_mod.
  have : x * x ^+ l.-1 = x * 1 by rewrite -exprS prednK ?prime_gt0 // E mulr1.
  by move/(mulfI Hx0).
have : (d %| l.-1)%N by rewrite (prim_order_dvd Hd) Hl1.
rewrite Ed => /dvdn_leq Hle.
have Hl2 : (0 < l.-1)%N by rewrite -ltnS prednK ?prime_gt1 // prime_gt0.
have : (p <= l)%N.
  by rewrite -(prednK (ltnW Hp1)) -(prednK (prime_gt0 Hl)) ltnS Hle.
move=> Hpl; have -> : p = l by apply/eqP; rewrite eqn_leq Hpl dvdn_leq // ltnW.
exact: Hl.
Qed.

(** 2^64 - 2^32 + 1 is prime. *)
Definition goldilocks : N := 18446744069414584321.

Lemma goldilocks_prime : prime (N.to_nat goldilocks).
Proof.
apply: (@lucasP goldilocks 7 ([:: 3; 5; 17; 257; 65537] ++ nseq 32 2)%num); last by vm_compute.
rewrite all_cat; apply/andP; split; last by rewrite all_nseq.
by vm_compute.
Qed.
