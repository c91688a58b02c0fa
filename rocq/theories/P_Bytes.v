(** Facts about byte encodings and the hash-to-field map. *)
From Coq Require Import NArith Lia.
From mathcomp Require Import all_ssreflect all_algebra.
From Verif Require Import M_Base M_Field M_Bytes SpecHash.

Set Implicit Arguments.
Unset Strict Implicit.
Unset Printing Implicit Defensive.

Lemma to_byteE x : N.of_nat (to_byte x) = N.modulo x 256.
Proof.
have Hb : (N.modulo x 256 < 256)%num by apply: N.mod_lt.
rewrite /to_byte /= modn_small ?N2Nat.id //.
by apply/ltP; lia.
Qed.

Lemma le_bytes_inj n x y : (x < 256 ^ N.of_nat n)%num -> (y < 256 ^ N.of_nat n)%num ->
  le_bytes n x = le_bytes n y -> x = y.
Proof.
elim: n x y => [|n IH] x y; first by move=> /= Hx Hy _; lia.
rewrite Nat2N.inj_succ N.pow_succ_r' => Hx Hy /= [Hb Hr].
have E : N.div x 256 = N.div y 256.
  by apply: IH => //; apply: N.div_lt_upper_bound; lia.
have Em : N.modulo x 256 = N.modulo y 256.
  by rewrite -!to_byteE /= Hb.
by rewrite (N.div_mod x 256) // (N.div_mod y 256) // E Em.
Qed.

Lemma be_value_acc a s : foldl (fun (acc : N) (b : byte) => (acc * 256 + N.of_nat b)%num) a s =
  (a * 256 ^ N.of_nat (size s) + be_value s)%num.
Proof.
elim: s a => [|b s IH] a; first by rewrite /be_value /=; lia.
have Es : N.of_nat (size (b :: s)) = N.succ (N.of_nat (size s)) by rewrite -Nat2N.inj_succ.
have Eb : be_value (b :: s) = (N.of_nat b * 256 ^ N.of_nat (size s) + be_value s)%num.
  by rewrite -IH.
rewrite Es N.pow_succ_r' [LHS]/= IH Eb; lia.
Qed.

Lemma be_value_bound s : (be_value s < 256 ^ N.of_nat (size s))%num.
Proof.
elim: s => [|b s IH]; first by [].
have Es : N.of_nat (size (b :: s)) = N.succ (N.of_nat (size s)) by rewrite -Nat2N.inj_succ.
rewrite Es N.pow_succ_r'; have -> : be_value (b :: s) = (N.of_nat b * 256 ^ N.of_nat (size s) + be_value s)%num.
  by rewrite -be_value_acc.
have Hb : (N.of_nat b < 256)%num by have /ltP := ltn_ord b; lia.
by nia.
Qed.

Section Field.
Variables (F : fieldType) (fp : ff_params F).

Lemma shave_lt : (shave_bits fp mod 64 < 64)%num.
Proof. exact: N.mod_lt. Qed.

(** The integer handed to [from_repr]. *)
Definition shaved (value : digest) : N :=
  let repr := be_value (take (8 * ff_limbs fp) value) in
  let low_bits := (64 * N.of_nat (ff_limbs fp).-1)%num in
  (N.land (N.shiftr repr low_bits) (N.shiftr (2 ^ 64 - 1) (shave_bits fp mod 64)) * 2 ^ low_bits
   + repr mod 2 ^ low_bits)%num.

Lemma bytes_to_fieldE value : bytes_to_field fp value = unwrap (from_repr fp (shaved value)).
Proof. by []. Qed.

Lemma mask_ones s : (s < 64)%num -> N.shiftr (2 ^ 64 - 1) s = N.ones (64 - s).
Proof.
move=> Hs; have -> : (2 ^ 64 - 1 = N.ones 64)%num by [].
rewrite N.shiftr_div_pow2 N.ones_div_pow2 //; lia.
Qed.

Lemma shaved_bound value :
  (shaved value < 2 ^ (64 * N.of_nat (ff_limbs fp).-1 + (64 - shave_bits fp mod 64)))%num.
Proof.
rewrite /shaved; have := shave_lt; move: (shave_bits fp mod 64)%num => s Hs.
rewrite mask_ones // N.land_ones.
set low := (64 * _)%num; set r := be_value _.
have H1 : ((N.shiftr r low) mod 2 ^ (64 - s) < 2 ^ (64 - s))%num.
  by apply: N.mod_lt; apply: N.pow_nonzero.
have H2 : (r mod 2 ^ low < 2 ^ low)%num by apply: N.mod_lt; apply: N.pow_nonzero.
rewrite N.pow_add_r; nia.
Qed.
End Field.

(** The all-ones digest. *)
Definition ones_digest : digest := nseq_tuple 32 (to_byte 255).

Lemma be_value_ones k : be_value (nseq k (to_byte 255)) = (256 ^ N.of_nat k - 1)%num.
Proof.
elim: k => [|k IH]; first by [].
have Es : N.of_nat k.+1 = N.succ (N.of_nat k) by rewrite -Nat2N.inj_succ.
rewrite Es N.pow_succ_r'.
have -> : be_value (nseq k.+1 (to_byte 255)) =
   (N.of_nat (to_byte 255) * 256 ^ N.of_nat (size (nseq k (to_byte 255))) + be_value (nseq k (to_byte 255)))%num.
  by rewrite -be_value_acc.
rewrite to_byteE size_nseq IH.
have : (256 ^ N.of_nat k <> 0)%num by apply: N.pow_nonzero.
rewrite -[(255 mod 256)%num]/255%num; lia.
Qed.

Lemma size_bits (m : N) : (2 < m)%num -> (m < 2 ^ N.size m)%num /\ (2 ^ (N.size m - 1) <= m)%num.
Proof.
move=> Hm; split; first exact: N.size_gt.
have := N.size_le m; have Hs : (0 < N.size m)%num by case: m Hm => // p _ /=.
rewrite {1}(_ : N.size m = N.succ (N.size m - 1)); last by lia.
rewrite N.pow_succ_r'; rewrite N.succ_double_spec; lia.
Qed.

Section Constants.
Variables (F : fieldType) (fp : ff_params F).
Hypothesis Hc : ff_constants fp.

Lemma limbs_le4 : ff_limbs fp = (N.to_nat (ff_num_bits fp / 64)).+1 /\ (ff_limbs fp <= 4)%N.
Proof.
case: Hc => Hm E1 E2 E3 H256; split=> //; rewrite E3 ltnS; apply/leP.
have : (ff_num_bits fp / 64 < 4)%num by apply: N.div_lt_upper_bound.
lia.
Qed.

Lemma ones_sub k : (N.ones k = 2 ^ k - 1)%num.
Proof. by rewrite N.ones_equiv N.sub_1_r. Qed.

Lemma shaved_ones : (shaved fp ones_digest =
  2 ^ (64 * N.of_nat (ff_limbs fp).-1 + (64 - shave_bits fp mod 64)) - 1)%num.
Proof.
have [E3 Hl] := limbs_le4.
have Ht : take (8 * ff_limbs fp) ones_digest = nseq (8 * ff_limbs fp) (to_byte 255).
  by rewrite /= -[X in take _ X]/(nseq 32 (to_byte 255)) take_nseq // -[32]/(8 * 4)%N leq_mul2l.
rewrite /shaved Ht be_value_ones; have := shave_lt fp; move: (shave_bits fp mod 64)%num => s Hs.
rewrite mask_ones // N.land_ones; set low := (64 * _)%num.
have -> : (256 ^ N.of_nat (8 * ff_limbs fp) - 1 = N.ones (low + 64))%num.
  rewrite ones_sub -[256%num]/(2 ^ 8)%num -N.pow_mul_r; congr (2 ^ _ - 1)%num.
  rewrite /low E3; move: (N.to_nat _) => m.
  rewrite -[m.+1.-1]/m (_ : 8 * m.+1 = Nat.mul 8 (Datatypes.S m))%N // Nat2N.inj_mul Nat2N.inj_succ; lia.
rewrite N.shiftr_div_pow2 N.ones_div_pow2; last by lia.
rewrite [X in (_ + X)%num]N.ones_mod_pow2; last by lia.
rewrite (_ : low + 64 - low = 64)%num; last by lia.
rewrite N.ones_mod_pow2; last by lia.
rewrite !ones_sub N.pow_add_r.
have H1 : (2 ^ low <> 0)%num by apply: N.pow_nonzero.
have H2 : (2 ^ (64 - s) <> 0)%num by apply: N.pow_nonzero.
nia.
Qed.

(** The number of bits kept. *)
Lemma kept_bits :
  (64 * N.of_nat (ff_limbs fp).-1 + (64 - shave_bits fp mod 64) =
   if ff_num_bits fp mod 64 <? 2 then 64 * (ff_num_bits fp / 64) + 63 + (ff_num_bits fp mod 64)
   else ff_capacity fp)%num.
Proof.
case: Hc => Hm E1 E2 E3 H256; rewrite E3 -pred_Sn N2Nat.id /shave_bits E2.
have Hs : (0 < ff_num_bits fp)%num by rewrite E1; case: (ff_modulus fp) Hm.
have := N.div_mod' (ff_num_bits fp) 64; have Hb : (ff_num_bits fp mod 64 < 64)%num by apply: N.mod_lt.
move: Hb; move: (ff_num_bits fp / 64)%num (ff_num_bits fp mod 64)%num => a b Hb En.
case: N.ltb_spec => Hb2.
  have [Eb|Eb] : b = 0%num \/ b = 1%num by lia.
    have <- : (1 = (256 - (ff_num_bits fp - 1)) mod 64)%num by apply: (@N.mod_unique _ _ (4 - a)%num); lia.
    by lia.
  have <- : (0 = (256 - (ff_num_bits fp - 1)) mod 64)%num by apply: (@N.mod_unique _ _ (4 - a)%num); lia.
  by lia.
have <- : (65 - b = (256 - (ff_num_bits fp - 1)) mod 64)%num by apply: (@N.mod_unique _ _ (3 - a)%num); lia.
by lia.
Qed.

(** The digest is mapped into the field for every digest, exactly when NUM_BITS
    is neither 0 nor 1 modulo 64. *)
Lemma bytes_to_field_ok d : (2 <= ff_num_bits fp mod 64)%num -> ff_repr_ok fp ->
  exists2 x, bytes_to_field fp d = Ok x & (ff_repr fp x < 2 ^ ff_capacity fp)%num.
Proof.
move=> Hb Hr; case: Hc => Hm E1 E2 E3 H256.
have := shaved_bound fp d; rewrite kept_bits; case: N.ltb_spec => [|_]; first by lia.
rewrite bytes_to_fieldE; set r := shaved fp d => Hlt.
have [_ Hcap] := size_bits Hm; rewrite -E1 -E2 in Hcap.
have Hrm : (r <? ff_modulus fp)%num by apply/N.ltb_lt; lia.
have Hf : from_repr fp r = Some (N.to_nat r)%:R%R by rewrite /from_repr Hrm.
rewrite Hf /=; eexists; first by [].
by case: Hr => -[_ Hr] _ _ _ _; rewrite (Hr _ _ Hf).
Qed.

Lemma bytes_to_field_panics : (ff_num_bits fp mod 64 < 2)%num -> bytes_to_field fp ones_digest = Panic.
Proof.
move=> Hb; case: Hc => Hm E1 E2 E3 H256.
rewrite bytes_to_fieldE shaved_ones kept_bits; case: N.ltb_spec => [_|]; last by lia.
rewrite /from_repr; case: N.ltb_spec => // Hlt; exfalso.
have [Hsz _] := size_bits Hm; rewrite -E1 in Hsz.
have : (2 ^ N.succ (ff_num_bits fp) <= 2 ^ (64 * (ff_num_bits fp / 64) + 63 + ff_num_bits fp mod 64))%num.
  by apply: N.pow_le_mono_r => //; have := N.div_mod' (ff_num_bits fp) 64; lia.
rewrite N.pow_succ_r'; have : (2 ^ ff_num_bits fp <> 0)%num by apply: N.pow_nonzero.
lia.
Qed.
End Constants.
