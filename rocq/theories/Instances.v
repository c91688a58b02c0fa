(** A concrete field for the examples: integers modulo 257 with generator 3,
    the test field of src/lib.rs (2^8 divides 256).  It is built on binary
    numbers, so that the examples can be computed by the kernel and by coqchk. *)
From Coq Require Import NArith Arith Lia.
From mathcomp Require Import all_ssreflect all_algebra.
From Verif Require Import M_Base M_Field P_Fft.

Set Implicit Arguments.
Unset Strict Implicit.
Unset Printing Implicit Defensive.
Import GRing.Theory.
Local Open Scope ring_scope.

(** * Integers modulo 257 *)
Record z257 := Z257 { zv : N; _ : (zv <? 257)%num }.
Canonical z257_subType := Eval hnf in [subType for zv].

Definition z257_nat (x : z257) : nat := N.to_nat (zv x).

Lemma mk_proof n : (n mod 257 <? 257)%num.
Proof. by apply/N.ltb_lt; apply: N.mod_lt. Qed.
Definition mk257 (n : N) : z257 := Z257 (mk_proof n).

Definition z_add (x y : z257) := mk257 (zv x + zv y).
Definition z_opp (x : z257) := mk257 (257 - zv x).
Definition z_mul (x y : z257) := mk257 (zv x * zv y).
(** x^255 *)
Definition z_inv (x : z257) :=
  let p1 := x in
  let p3 := z_mul (z_mul p1 p1) x in
  let p7 := z_mul (z_mul p3 p3) x in
  let p15 := z_mul (z_mul p7 p7) x in
  let p31 := z_mul (z_mul p15 p15) x in
  let p63 := z_mul (z_mul p31 p31) x in
  let p127 := z_mul (z_mul p63 p63) x in
  z_mul (z_mul p127 p127) x.

Definition z_in (x : z257) : 'F_257 := (z257_nat x)%:R.
Definition z_out (x : 'F_257) : z257 := mk257 (N.of_nat x).

Lemma modnN n : N.to_nat (n mod 257) = (N.to_nat n %% 257)%N.
Proof.
have E := N.div_mod n 257 ltac:(done).
have L := N.mod_lt n 257 ltac:(done).
have E' : N.to_nat n = (N.to_nat (n / 257) * 257 + N.to_nat (n mod 257))%N.
  by rewrite {1}E Nnat.N2Nat.inj_add Nnat.N2Nat.inj_mul mulnC plusE multE.
by rewrite E' modnMDl modn_small //; apply/ltP; move: L; lia.
Qed.

Lemma z_lt x : (z257_nat x < 257)%N.
Proof. by case: x => n Hn; rewrite /z257_nat /=; apply/ltP; move/N.ltb_lt: Hn; lia. Qed.

Lemma z_inE x : nat_of_ord (z_in x) = z257_nat x.
Proof. by rewrite /z_in val_Fp_nat // modn_small // z_lt. Qed.

Lemma z257_nat_inj : injective z257_nat.
Proof. by move=> x y /Nnat.N2Nat.inj E; apply: val_inj. Qed.

Lemma z_in_inj : injective z_in.
Proof. by move=> x y E; apply: z257_nat_inj; rewrite -!z_inE E. Qed.

Lemma z_inK : cancel z_in z_out.
Proof.
move=> x; apply: z257_nat_inj; rewrite /z_out /z257_nat /= modnN Nnat.Nat2N.id z_inE.
by rewrite modn_small // z_lt.
Qed.

Lemma z_mkE n : z_in (mk257 n) = (N.to_nat n)%:R.
Proof. by apply: ord_inj; rewrite z_inE val_Fp_nat // -modnN. Qed.

Lemma z_addE x y : z_in (z_add x y) = z_in x + z_in y.
Proof. by rewrite z_mkE Nnat.N2Nat.inj_add plusE natrD. Qed.
Lemma z_mulE x y : z_in (z_mul x y) = z_in x * z_in y.
Proof. by rewrite z_mkE Nnat.N2Nat.inj_mul multE natrM. Qed.
Lemma z_oppE x : z_in (z_opp x) = - z_in x.
Proof.
rewrite z_mkE Nnat.N2Nat.inj_sub minusE natrB; last by apply: ltnW; apply: z_lt.
have -> : (N.to_nat 257)%:R = 0 :> 'F_257 by apply: ord_inj; rewrite val_Fp_nat //; vm_compute.
by rewrite sub0r.
Qed.
Lemma z_0E : z_in (mk257 0) = 0. Proof. by rewrite z_mkE. Qed.
Lemma z_1E : z_in (mk257 1) = 1. Proof. by rewrite z_mkE. Qed.

Definition z257_eqMixin := Eval hnf in [eqMixin of z257 by <:].
Canonical z257_eqType := Eval hnf in EqType z257 z257_eqMixin.
Definition z257_choiceMixin := CanChoiceMixin z_inK.
Canonical z257_choiceType := Eval hnf in ChoiceType z257 z257_choiceMixin.

Fact z_addA : associative z_add.
Proof. by move=> x y z; apply: z_in_inj; rewrite !z_addE addrA. Qed.
Fact z_addC : commutative z_add.
Proof. by move=> x y; apply: z_in_inj; rewrite !z_addE addrC. Qed.
Fact z_add0 : left_id (mk257 0) z_add.
Proof. by move=> x; apply: z_in_inj; rewrite z_addE z_0E add0r. Qed.
Fact z_addN : left_inverse (mk257 0) z_opp z_add.
Proof. by move=> x; apply: z_in_inj; rewrite z_addE z_oppE z_0E addNr. Qed.
Definition z257_zmodMixin := ZmodMixin z_addA z_addC z_add0 z_addN.
Canonical z257_zmodType := Eval hnf in ZmodType z257 z257_zmodMixin.

Fact z_mulA : associative z_mul.
Proof. by move=> x y z; apply: z_in_inj; rewrite !z_mulE mulrA. Qed.
Fact z_mulC : commutative z_mul.
Proof. by move=> x y; apply: z_in_inj; rewrite !z_mulE mulrC. Qed.
Fact z_mul1 : left_id (mk257 1) z_mul.
Proof. by move=> x; apply: z_in_inj; rewrite z_mulE z_1E mul1r. Qed.
Fact z_mulD : left_distributive z_mul z_add.
Proof. by move=> x y z; apply: z_in_inj; rewrite !(z_mulE, z_addE) mulrDl. Qed.
Fact z_1neq0 : mk257 1 != 0 :> z257.
Proof. by apply/eqP => /(congr1 zv). Qed.
Definition z257_ringMixin := ComRingMixin z_mulA z_mulC z_mul1 z_mulD z_1neq0.
Canonical z257_ringType := Eval hnf in RingType z257 z257_ringMixin.
Canonical z257_comRingType := Eval hnf in ComRingType z257 z_mulC.

Fact z_mulV : forall x : z257, x != 0 -> z_mul (z_inv x) x = 1.
Proof.
move=> x Hx; have : all (fun n => (n == 0%N) || (zv (z_mul (z_inv (mk257 (N.of_nat n))) (mk257 (N.of_nat n))) =? 1)%num) (iota 0 257).
  by vm_compute.
move/allP/(_ (z257_nat x)); rewrite mem_iota z_lt => /(_ isT).
have -> : mk257 (N.of_nat (z257_nat x)) = x.
  by apply: z257_nat_inj; rewrite {1}/z257_nat /= modnN Nnat.Nat2N.id modn_small // z_lt.
case/orP => [/eqP E|/N.eqb_eq E]; last by apply: val_inj; rewrite [LHS]E.
by case/eqP: Hx; apply: z257_nat_inj; rewrite E.
Qed.
Fact z_inv0 : z_inv (0 : z257) = 0.
Proof. by apply: val_inj; vm_compute. Qed.
Definition z257_unitMixin := FieldUnitMixin z_mulV z_inv0.
Canonical z257_unitRingType := Eval hnf in UnitRingType z257 z257_unitMixin.
Canonical z257_comUnitRingType := Eval hnf in [comUnitRingType of z257].
Fact z257_field_axiom : GRing.Field.mixin_of z257_unitRingType. Proof. exact. Qed.
Canonical z257_idomainType := Eval hnf in IdomainType z257 (FieldIdomainMixin z257_field_axiom).
Canonical z257_fieldType := Eval hnf in FieldType z257 z257_field_axiom.

Notation F257 := z257_fieldType.

Lemma z_in_nat n : z_in (n%:R : F257) = n%:R.
Proof. by elim: n => [|n IH]; rewrite ?z_0E // !mulrS z_addE IH z_1E. Qed.

(** src/lib.rs:35-38: modulus 257, generator 3; one limb; the Montgomery
    radix 2^64 is 1 modulo 257, so the raw form is the value itself. *)
Definition f257 : ff_params F257 :=
  @FFParams F257 8 3%:R 3%:R 9%num 8%num 1 257%num (fun x => zv x) (fun x => zv x).

(** Canonical representatives, for printing. *)
Definition nats (s : seq F257) : seq nat := map z257_nat s.

Lemma prim_pow2 (F : fieldType) (x : F) k : (2%:R : F) != 0 -> x ^+ (2 ^ k) = -1 ->
  (2 ^ k.+1).-primitive_root x.
Proof.
move=> H2 Hx.
have Hn : x ^+ (2 ^ k.+1) = 1 by rewrite expnS mulnC exprM Hx sqrrN expr1n.
case: (prim_order_exists _ Hn); first by rewrite expn_gt0.
move=> m Hm Hd; case/(dvdn_pfactor _ _ (isT : prime 2)): Hd => j Hj Em.
suff -> : k.+1 = j by rewrite -Em.
apply/eqP; rewrite eqn_leq Hj andbT leqNgt; apply/negP => Hlt.
have : x ^+ (2 ^ k) = 1.
  by apply/eqP; rewrite -(prim_order_dvd Hm) Em dvdn_exp2l.
rewrite Hx => E; case/eqP: H2; by rewrite mulr2n -{1}E addNr.
Qed.

Lemma f257_ok : ff_ok f257.
Proof.
split.
- by apply: (@prim_pow2 _ _ 7); [apply/eqP => /(congr1 zv); vm_compute | apply: val_inj; vm_compute].
- by apply/eqP => /(congr1 zv); vm_compute.
- by apply/eqP => /(congr1 zv); vm_compute.
Qed.

(** A prime field with the canonical integer as representation. *)
Section PrimeField.
Variables (p : nat) (Hp : prime p).
Variables (S : nat) (rou gen : 'F_p) (limbs : nat).

Definition prime_params : ff_params [fieldType of 'F_p] :=
  @FFParams [fieldType of 'F_p] S rou gen (N.size (N.of_nat p)) (N.size (N.of_nat p) - 1)%num limbs
    (N.of_nat p) (fun x => N.of_nat x) (fun x => N.of_nat x).

Lemma prime_repr_ok : (N.of_nat p < 2 ^ (64 * N.of_nat limbs))%num -> (0 < limbs <= 4)%N ->
  ff_repr_ok prime_params.
Proof.
have Hlt (x : 'F_p) : (N.of_nat x < N.of_nat p)%num.
  have /ltP : (x < p)%N by rewrite -{2}(Fp_cast Hp) ltn_ord.
  by move: (nat_of_ord x) => y; lia.
move=> Hm Hl; split=> //=.
- split=> [x|r x]; rewrite /from_repr /=.
    by rewrite (_ : (_ <? _)%num = true) ?Nnat.Nat2N.id ?natr_Zp //; apply/N.ltb_lt.
  case: N.ltb_spec => // Hr [<-].
  have /ltP Hr' : (N.to_nat r < p)%coq_nat.
    by lia.
  by rewrite val_Fp_nat // modn_small // Nnat.N2Nat.id.
- by move=> x y /Nnat.Nat2N.inj /val_inj.
- by move=> x; apply: N.lt_trans (Hlt x) Hm.
Qed.
End PrimeField.

Lemma f257_repr_ok : ff_repr_ok f257.
Proof.
split=> //=.
- split=> [x|r x]; rewrite /from_repr /=.
    have -> : (zv x <? 257)%num by case: x.
    by congr Some; apply: z_in_inj; rewrite z_in_nat.
  case: N.ltb_spec => // Hr [<-]; apply: Nnat.N2Nat.inj.
  rewrite -/(z257_nat _) -z_inE z_in_nat val_Fp_nat // modn_small //; apply/ltP.
  by lia.
- by move=> x y; apply: val_inj.
- by case=> n Hn /=; move/N.ltb_lt: Hn; lia.
Qed.
