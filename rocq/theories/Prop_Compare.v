(** Property C71: comparisons and keys. *)
From Coq Require Import NArith Lia.
From mathcomp Require Import all_ssreflect all_algebra.
From Verif Require Import M_Base M_Worker M_Field M_Bytes M_Merkle M_Air M_Ali M_Fp2 M_Compare.
From Verif Require Import SpecHash P_Base P_Bytes P_Merkle Instances Prop_Hash.

Set Implicit Arguments.
Unset Strict Implicit.
Unset Printing Implicit Defensive.

Section Order.
Variables (F : fieldType) (fp : ff_params F).
Hypothesis Hrep : ff_repr_ok fp.
Implicit Types a b c : fq2 F.

Let repr_inj : injective (ff_repr fp).
Proof. by case: Hrep => [[H _] _ _ _ _] x y E; have := H x; rewrite E H => -[]. Qed.

(** The order of the extension field is the lexicographic order of the canonical integers, the
    coefficient of u first. *)
Theorem C71_order_lexicographic a b :
  (fq2_cmp fp a b = Lt <->
     (ff_repr fp (c1 a) < ff_repr fp (c1 b))%num \/
     (c1 a = c1 b /\ (ff_repr fp (c0 a) < ff_repr fp (c0 b))%num)) /\
  (fq2_cmp fp a b = Eq <-> a = b) /\
  fq2_cmp fp b a = CompOpp (fq2_cmp fp a b).
Proof.
rewrite /fq2_cmp /fq_cmp; split; [|split].
- case: N.compare_spec => [E|E|E].
  + rewrite (repr_inj E); rewrite N.compare_lt_iff; split=> [H|[/N.lt_irrefl|[]]//]; by right.
  + by split=> // _; left.
  + by split=> // -[|[E' _]]; [lia | rewrite E' in E; lia].
- case: a b => a0 a1 [b0 b1] /=; case: N.compare_spec => [E|E|E].
  + by rewrite (repr_inj E) N.compare_eq_iff; split=> [/repr_inj ->|[->]].
  + by split=> // -[_ E']; rewrite E' in E; lia.
  + by split=> // -[_ E']; rewrite E' in E; lia.
rewrite N.compare_antisym; case: (_ ?= _)%num => //=; exact: N.compare_antisym.
Qed.

(** It is a total order. *)
Theorem C71_order_total a b c :
  [\/ fq2_cmp fp a b = Lt, a = b | fq2_cmp fp b a = Lt] /\
  (fq2_cmp fp a b = Lt -> fq2_cmp fp b c = Lt -> fq2_cmp fp a c = Lt) /\ fq2_cmp fp a a <> Lt.
Proof.
have [_ [Ee Ec]] := C71_order_lexicographic a b; split; last split.
- by case E: (fq2_cmp fp a b); [constructor 2; apply/Ee | constructor 1 | constructor 3; rewrite Ec E].
- move=> /(proj1 (C71_order_lexicographic a b)) H1 /(proj1 (C71_order_lexicographic b c)) H2.
  apply/(proj1 (C71_order_lexicographic a c)).
  case: H1 H2 => [H1|[-> H1]] [H2|[E2 H2]]; first by left; lia.
  + by left; rewrite -E2.
  + by left.
  by right; split=> //; lia.
by have [_ [[_ E] _]] := C71_order_lexicographic a a; rewrite (E erefl).
Qed.
End Order.

Section Oracles.
Variables (F : fieldType) (fp : ff_params F) (H : hash_fun).
Hypothesis Hrep : ff_repr_ok fp.

(** Two oracles compare equal exactly if they were built from the same vector, on whatever numbers of
    CPUs, or two of the byte strings hashed for them collide. *)
Theorem C71_oracles w1 w2 leafs1 leafs2 t1 t2 :
  (0 < w1)%N -> (0 < w2)%N -> tree_create fp H w1 leafs1 = Ok t1 -> tree_create fp H w2 leafs2 = Ok t2 ->
  exists b, [/\ iop_eq t1 t2 = Ok b, leafs1 = leafs2 -> b = true &
    b = true -> leafs1 = leafs2 \/ collision_among H (tree_inputs fp H leafs1 ++ tree_inputs fp H leafs2)].
Proof.
move=> Hw1 Hw2 H1 H2.
have root w leafs t : (0 < w)%N -> tree_create fp H w leafs = Ok t ->
    exists r, get_root t = Ok r /\ forall w', (0 < w')%N -> tree_create fp H w' leafs = Ok t.
  move=> Hw Ht; case: (boolP (is_pow2 (size leafs))) => [/is_pow2P [L E]|Hn]; last by rewrite tree_create_bad in Ht.
  have HL : (0 < L)%N by case: L E Ht => // E; case: leafs E => [|x [|]].
  have [t' [r [Ht' Hr _]]] := C19_merkle_complete fp H Hw HL E.
  exists r; split; first by move: Ht; rewrite Ht' => -[<-].
  by move=> w' Hw'; rewrite -Ht !(tree_createP fp H _ E).
have [r1 [R1 E1]] := root _ _ _ Hw1 H1; have [r2 [R2 _]] := root _ _ _ Hw2 H2.
exists (r1 == r2); split; first by rewrite /iop_eq R1 R2.
  by move=> El; move: (E1 w2 Hw2) R1; rewrite El H2 => -[<-]; rewrite R2 => -[->]; rewrite eqxx.
by move/eqP => Er; apply: (C21_root_binds_vector Hrep Hw1 Hw2 H1 H2 R1); rewrite Er.
Qed.

(** Keys of the maps of the prover: two different keys never feed the same bytes to the hasher,
    although [StepDifference] writes no tag, as long as all numbers fit the machine word and the field
    has at least one limb. *)
Definition small (n : nat) : Prop := (N.of_nat n < 2 ^ 64)%num.
Definition small_key (d : evaluation_data F) : Prop :=
  let: (m, power, len) := d in
  [/\ small (register_code m.1).2, (if m.2 is Steps n then small n else True), small power & small len].
Local Opaque le_bytes.

Theorem C71_keys_distinct d d' : (0 < ff_limbs fp)%N -> small_key d -> small_key d' ->
  feed_evaluation_data fp d = feed_evaluation_data fp d' -> d = d'.
Proof.
case: d d' => [[[r s] p] l] [[[r' s'] p'] l'] Hl /= [Hr Hs Hp Hll] [Hr' Hs' Hp' Hll'].
have word x y : small x -> small y -> feed_word x = feed_word y -> x = y.
  by move=> Hx Hy /le_bytes_inj E; apply: Nnat.Nat2N.inj; apply: E.
have sw x : size (feed_word x) = 8 by rewrite size_le_bytes.
have sr x : size (feed_register x) = 16 by rewrite /feed_register; case: (register_code x) => d i; rewrite size_cat !sw.
have split8 (u v : bytes) x y : size u = size v -> u ++ x = v ++ y -> u = v /\ x = y.
  by move=> E /eqP; rewrite eqseq_cat // => /andP [/eqP -> /eqP ->].
rewrite /feed_mask /= -!catA => /split8 [|Er]; first by rewrite !sr.
move=> E.
have Es : feed_steps fp s ++ (feed_word p ++ feed_word l) = feed_steps fp s' ++ (feed_word p' ++ feed_word l') by [].
have Ez : size (feed_steps fp s) = size (feed_steps fp s').
  by apply/eqP; move/(congr1 size)/eqP: Es; rewrite !size_cat !sw eqn_add2r.
have [{}Es] := split8 _ _ _ _ Ez Es; case/split8=> [|/(word _ _ Hp Hp') -> /(word _ _ Hll Hll') ->]; first by rewrite !sw.
have -> : r = r'.
  have code_small x : small (register_code x).1 by case: x.
  apply: (can_inj register_codeK); move: (code_small r) (code_small r') Hr Hr' Er; rewrite /feed_register.
  case: (register_code r) => d i; case: (register_code r') => d' i' Hd Hd' Hi Hi' Er'.
  have [|Ed Ei] := split8 _ _ _ _ _ Er'; first by rewrite !sw.
  by have := word _ _ Hd Hd' Ed; have := word _ _ Hi Hi' Ei => /= -> ->.
suff -> : s = s' by [].
clear E; case: s s' Hs Hs' Ez Es => [n|m] [n'|m'] /= Hs Hs' Ez Es.
- by rewrite (word _ _ Hs Hs' Es).
- by move: Ez; rewrite size_cat !sw size_le_bytes; case: (ff_limbs fp) Hl => // k _; rewrite mulnS.
- by move: Ez; rewrite size_cat !sw size_le_bytes; case: (ff_limbs fp) Hl => // k _; rewrite mulnS.
case/split8: Es => // _ /le_bytes_inj E'; case: Hrep => [_ raw_inj raw_small _ _].
have pw : (256 ^ N.of_nat (8 * ff_limbs fp) = 2 ^ (64 * N.of_nat (ff_limbs fp)))%num.
  by rewrite -[256%num]/(2 ^ 8)%num -N.pow_mul_r; congr (_ ^ _)%num; rewrite -multE Nnat.Nat2N.inj_mul; lia.
by rewrite (raw_inj m m') //; apply: E'; rewrite pw.
Qed.
End Oracles.

(** 256 + u < 3 + 2u < 4 + 2u. *)
Example C71_ex_order :
  let q a b := Fq2 (a%:R : F257)%R (b%:R)%R in
  [/\ ff_repr_ok f257, fq2_cmp f257 (q 256 1) (q 3 2) = Lt, fq2_cmp f257 (q 3 2) (q 4 2) = Lt &
     fq2_cmp f257 (q 260 2) (q 3 259) = Eq].
Proof. by split; [exact: f257_repr_ok | vm_compute | vm_compute | vm_compute]. Qed.

Example C71_ex_oracles :
  match tree_create f257 toy_hash 3 ex_leafs, tree_create f257 toy_hash 2 ex_leafs,
        tree_create f257 toy_hash 2 (rev ex_leafs) with
  | Ok t1, Ok t2, Ok t3 => (iop_eq t1 t2, iop_eq t1 t3) = (Ok true, Ok false)
  | _, _, _ => False
  end.
Proof. by vm_compute. Qed.

Example C71_ex_keys :
  let d1 : evaluation_data F257 := (Reg 0, Steps 1, 2, 8) in
  let d2 : evaluation_data F257 := (Reg 0, Mask (1%:R : F257)%R, 2, 8) in
  [/\ (0 < ff_limbs f257)%N, small_key d1, small_key d2 &
     feed_evaluation_data f257 d1 <> feed_evaluation_data f257 d2].
Proof.
have Hl : (0 < ff_limbs f257)%N by [].
split=> // E; by have := C71_keys_distinct f257_repr_ok Hl _ _ E; case.
Qed.

Print Assumptions C71_order_lexicographic.
Print Assumptions C71_order_total.
Print Assumptions C71_oracles.
Print Assumptions C71_keys_distinct.
