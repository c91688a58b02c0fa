(** Counting the byte strings that are mapped to a given number. *)
From Coq Require Import NArith Lia.
From mathcomp Require Import all_ssreflect all_algebra.
From Verif Require Import M_Base M_Field M_Bytes SpecHash P_Bytes.

Set Implicit Arguments.
Unset Strict Implicit.
Unset Printing Implicit Defensive.
Local Open Scope nat_scope.

Lemma be_value_cat s1 s2 :
  be_value (s1 ++ s2) = (be_value s1 * 256 ^ N.of_nat (size s2) + be_value s2)%num.
Proof. by rewrite {1}/be_value foldl_cat be_value_acc. Qed.

Lemma be_value_cons b s :
  be_value (b :: s) = (N.of_nat b * 256 ^ N.of_nat (size s) + be_value s)%num.
Proof. by rewrite -be_value_acc. Qed.

Lemma be_value_inj s1 s2 : size s1 = size s2 -> be_value s1 = be_value s2 -> s1 = s2.
Proof.
elim: s1 s2 => [|a s1 IH] [|b s2] //= [Hs]; rewrite !be_value_cons -Hs => E.
have B1 := be_value_bound s1; have := be_value_bound s2; rewrite -Hs => B2.
set D := (256 ^ N.of_nat (size s1))%num in E B1 B2.
have Ea : N.of_nat a = N.of_nat b by nia.
have Ev : be_value s1 = be_value s2 by rewrite Ea in E; lia.
by rewrite (IH _ Hs Ev); congr (_ :: _); apply: val_inj; apply: Nat2N.inj.
Qed.

Lemma to_nat_pow (a : N) (n : nat) : N.to_nat (a ^ N.of_nat n) = (N.to_nat a) ^ n.
Proof.
elim: n => [|n IH]; first by [].
by rewrite Nat2N.inj_succ N.pow_succ_r' N2Nat.inj_mul IH expnS.
Qed.

Lemma nval_bound n (t : n.-tuple byte) : N.to_nat (be_value t) < 256 ^ n.
Proof.
have := be_value_bound t; rewrite size_tuple => Hb.
have -> : 256 ^ n = N.to_nat (256 ^ N.of_nat n) by rewrite to_nat_pow.
by apply/ltP; lia.
Qed.

(** The number read from [n] bytes. *)
Definition nval n (t : n.-tuple byte) : 'I_(256 ^ n) := Ordinal (nval_bound t).

Lemma nval_bij n : bijective (@nval n).
Proof.
apply: inj_card_bij; last by rewrite card_tuple !card_ord.
move=> t u /(congr1 val) /= /N2Nat.inj E; apply: val_inj.
by apply: be_value_inj => //; rewrite !size_tuple.
Qed.

Section Digits.
Variables (M K D a : nat).
Hypothesis Ha : a < K.

Lemma digit_bound (i : 'I_M) (j : 'I_D) : (i * K + a) * D + j < M * K * D.
Proof.
have Hi : i * K + a < M * K.
  by apply: leq_trans (_ : i.+1 * K <= _); [rewrite mulSn addnC ltn_add2r | rewrite leq_mul2r ltn_ord orbT].
apply: leq_trans (_ : (i * K + a).+1 * D <= _); last by rewrite leq_mul2r Hi orbT.
by rewrite mulSn addnC ltn_add2r.
Qed.

Let h (p : 'I_M * 'I_D) : 'I_(M * K * D) := Ordinal (digit_bound p.1 p.2).

Lemma card_digit : #|[set v : 'I_(M * K * D) | (v %/ D) %% K == a]| = M * D.
Proof.
have hinj : injective h.
  move=> [i j] [i' j'] /(congr1 val) /= E.
  have Hj := ltn_ord j; have Hj' := ltn_ord j'.
  have D0 : 0 < D by apply: leq_ltn_trans Hj.
  have E1 : i * K + a = i' * K + a.
    by have := congr1 (divn^~ D) E; rewrite /= !divnMDl // !divn_small // !addn0.
  have E2 : j = j' :> nat by move/eqP: E; rewrite E1 eqn_add2l => /eqP.
  have K0 : 0 < K by apply: leq_ltn_trans Ha.
  have E3 : i = i' :> nat by move/eqP: E1; rewrite eqn_add2r eqn_pmul2r // => /eqP.
  by congr (_, _); apply: val_inj.
rewrite -[M in RHS]card_ord -[D in RHS]card_ord -card_prod -cardsT -(card_imset _ hinj).
congr #|pred_of_set _|; apply/setP => v; rewrite inE; apply/eqP/imsetP => [E|[[i j] _ ->]] /=; last first.
  have D0 : 0 < D by apply: leq_ltn_trans (ltn_ord j).
  by rewrite divnMDl // (divn_small (ltn_ord j)) addn0 modnMDl modn_small.
have Hv := ltn_ord v.
have D0 : 0 < D by rewrite lt0n; apply/eqP => E0; have := leq_ltn_trans (leq0n _) Hv; rewrite E0 muln0.
have Hj : v %% D < D by rewrite ltn_mod.
have Hi : v %/ D %/ K < M by rewrite ltn_divLR ?(leq_ltn_trans _ Ha) // ltn_divLR.
exists (Ordinal Hi, Ordinal Hj) => //; apply: val_inj => /=.
by rewrite -E -divn_eq -divn_eq.
Qed.
End Digits.

Lemma card_nval n (p : pred nat) :
  #|[set t : n.-tuple byte | p (N.to_nat (be_value t))]| = #|[set v : 'I_(256 ^ n) | p v]|.
Proof.
rewrite -(on_card_preimset (onW_bij _ (nval_bij n))).
by congr #|pred_of_set _|; apply/setP => t; rewrite !inE.
Qed.

(** Strings of [n] bytes whose first [m] bytes, read as a number, are [a] modulo 2^k. *)
Lemma card_take n m k a : m <= n -> k <= 8 * m -> a < 2 ^ k ->
  #|[set t : n.-tuple byte | N.to_nat (be_value (take m t)) %% 2 ^ k == a]| = 2 ^ (8 * n - k).
Proof.
move=> Hm Hk Ha.
have E256 j : 256 ^ j = 2 ^ (8 * j) by rewrite expnM.
have E t : N.to_nat (be_value (take m (t : n.-tuple byte))) = N.to_nat (be_value t) %/ 256 ^ (n - m).
  rewrite -[in RHS](cat_take_drop m t) be_value_cat N2Nat.inj_add N2Nat.inj_mul to_nat_pow.
  rewrite -[N.to_nat 256]/256 size_drop size_tuple plusE multE.
  rewrite divnMDl ?expn_gt0 // divn_small ?addn0 //.
  have := be_value_bound (drop m t); rewrite size_drop size_tuple => Hb.
  have -> : 256 ^ (n - m) = N.to_nat (256 ^ N.of_nat (n - m)) by rewrite to_nat_pow.
  by apply/ltP; lia.
pose p v := (v %/ 256 ^ (n - m)) %% 2 ^ k == a.
have -> : [set t : n.-tuple byte | N.to_nat (be_value (take m t)) %% 2 ^ k == a] =
  [set t : n.-tuple byte | p (N.to_nat (be_value t))] by apply/setP => t; rewrite !inE /p E.
rewrite card_nval /p.
have EN : 256 ^ n = 2 ^ (8 * m - k) * 2 ^ k * 256 ^ (n - m).
  by rewrite -expnD subnK // -E256 -expnD subnKC.
rewrite EN card_digit // E256 -expnD mulnBr; congr (2 ^ _).
by rewrite addnC addnBA // subnK // leq_mul2l.
Qed.

(** Strings of [n] bytes whose last [m] bytes, read as a number, are [a] modulo 2^k. *)
Lemma card_drop n m k a : m <= n -> k <= 8 * m -> a < 2 ^ k ->
  #|[set t : n.-tuple byte | N.to_nat (be_value (drop (n - m) t)) %% 2 ^ k == a]| = 2 ^ (8 * n - k).
Proof.
move=> Hm Hk Ha; rewrite -(@card_take n n k a) //; last by apply: leq_trans Hk _; rewrite leq_mul2l.
congr #|pred_of_set _|; apply/setP => t; rewrite !inE take_oversize ?size_tuple //.
rewrite -[in RHS](cat_take_drop (n - m) t) be_value_cat N2Nat.inj_add N2Nat.inj_mul to_nat_pow.
rewrite -[N.to_nat 256]/256 size_drop size_tuple subKn // plusE multE.
have -> : 256 ^ m = 2 ^ (8 * m - k) * 2 ^ k by rewrite -expnD subnK // expnM.
by rewrite mulnA modnMDl.
Qed.

Section Field.
Variables (F : fieldType) (fp : ff_params F).
Hypotheses (Hc : ff_constants fp).

(** The number of bits of the digest that are kept. *)
Lemma shaved_mod (d : digest) k : (k = 64 * N.of_nat (ff_limbs fp).-1 + (64 - shave_bits fp mod 64))%num ->
  shaved fp d = (be_value (take (8 * ff_limbs fp) d) mod 2 ^ k)%num.
Proof.
move=> ->; rewrite /shaved; have := shave_lt fp; move: (shave_bits fp mod 64)%num => s Hs.
rewrite mask_ones // N.land_ones.
set low := (64 * _)%num; set r := be_value _.
rewrite N.pow_add_r N.mod_mul_r; try exact: N.pow_nonzero.
by rewrite N.shiftr_div_pow2; lia.
Qed.
End Field.
