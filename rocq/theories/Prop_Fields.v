(** * C66: the fields that the crate declares are the fields that the proof system needs *)
From Coq Require Import NArith Lia.
From mathcomp Require Import all_ssreflect all_algebra.
From Verif Require Import M_Base M_Field M_Bytes SpecHash SpecField Instances Fr251 Fr255 P_Declared Prop_Hash.

Set Implicit Arguments.
Unset Strict Implicit.
Unset Printing Implicit Defensive.
Import GRing.Theory.
Local Open Scope ring_scope.

(** The three declarations, with the moduli and the generators as they are written in
    src/lib.rs:36-37, src/experiments/mod.rs:19-20 and src/bn256.rs:5-6: the moduli are prime, the
    generators generate the multiplicative groups, and the derived constants are the right ones. *)
Theorem C66_fields :
  [/\ declared 257 3 f257,
      declared 3618502788666131213697322783095070105623107215331596699973092056135872020481 3 f251 &
      declared 52435875175126190479447740508185965837690552500527637822603658699938581184513 7 f255].
Proof. split; [exact: f257_declared | exact: f251_declared | exact: f255_declared]. Qed.

Section Any.
Variables (p g : N) (F : fieldType) (fp : ff_params F).
Hypothesis HD : declared p g fp.
Let q := N.to_nat p.

(** In a declared field the root of unity has order exactly 2^S, so a domain of 2^k points exists
    for every k <= S; and no element has order 2^(S+1), so larger domains do not exist. *)
Theorem C66_roots :
  [/\ ff_ok fp,
      forall k, (k <= ff_S fp)%N -> exists w : F, (2 ^ k).-primitive_root w &
      forall k, (ff_S fp < k)%N -> forall w : F, ~~ (2 ^ k).-primitive_root w].
Proof.
have Hok := declared_ok HD; have [Hrou Hg0 _] := Hok.
split; [exact: Hok | |].
  move=> k Hk; exists (ff_rou fp ^+ (2 ^ (ff_S fp - k))).
  have := dvdn_prim_root Hrou (dvdn_exp2l 2 Hk).
  by rewrite -expnB.
move=> k Hk w; apply/negP => Hw.
have Hw0 : w != 0.
  apply/eqP => E; have := prim_expr_order Hw; rewrite E expr0n.
  by case: (2 ^ k)%N (prim_order_gt0 Hw) => //= n _ /esym/eqP; rewrite oner_eq0.
have [j Ej] := declared_powers HD Hw0.
have [t [Et Ot _]] := declared_root HD.
have Eq : q.-1 = (2 ^ ff_S fp * N.to_nat t)%N.
  have -> : q.-1 = N.to_nat (p - 1) by rewrite /q; lia.
  by rewrite Et to_natM to_natX Nnat.Nat2N.id.
have Otn : odd (N.to_nat t).
  by have [m ->] := (N.odd_spec t).1 Ot; rewrite to_natD to_natM oddD oddM.
have Hq : w ^+ q.-1 == 1.
  by rewrite Ej -exprM mulnC exprM (prim_expr_order (declared_prim HD)) expr1n.
move: Hq; rewrite -(prim_order_dvd Hw) Eq => Hd.
have : (2 ^ (ff_S fp).+1 %| 2 ^ ff_S fp * N.to_nat t)%N by apply: dvdn_trans Hd; exact: dvdn_exp2l.
by rewrite expnSr dvdn_pmul2l ?expn_gt0 // dvdn2 Otn.
Qed.

(** The coset on which low degree extensions are evaluated, generator * domain, is a different
    set from the domain, unless the domain is the whole multiplicative group. *)
Theorem C66_coset k : (k <= ff_S fp)%N ->
  (ff_gen fp ^+ (2 ^ k) == 1) = (p == 2 ^ N.of_nat k + 1)%num.
Proof.
move=> Hk; have [t [Et Ot _]] := declared_root HD.
have Hp1 := prime_gt1 (declared_prime HD).
have Hq : (0 < q.-1)%N by rewrite -ltnS prednK // (ltn_trans _ Hp1).
have Eq : q.-1 = (2 ^ ff_S fp * N.to_nat t)%N.
  have -> : q.-1 = N.to_nat (p - 1) by rewrite /q; lia.
  by rewrite Et to_natM to_natX Nnat.Nat2N.id.
rewrite -(prim_order_dvd (declared_prim HD)).
have Et0 : (0 < N.to_nat t)%N by move: Hq; rewrite Eq muln_gt0 => /andP [].
transitivity (q.-1 == 2 ^ k)%N; last first.
  have E2 : N.to_nat (2 ^ N.of_nat k) = (2 ^ k)%N by rewrite to_natX Nnat.Nat2N.id.
  apply/eqP/eqP => [E|E]; last by rewrite /q E to_natD E2 addn1.
  by apply: Nnat.N2Nat.inj; rewrite to_natD E2 -E addn1 prednK // (ltn_trans _ Hp1).
apply/idP/eqP => [Hd|->//].
apply/eqP; rewrite eqn_leq dvdn_leq ?expn_gt0 //= Eq.
by rewrite -[X in (X <= _)%N]muln1 leq_mul // leq_exp2l.
Qed.

(** Two integers give the same element exactly when they are congruent modulo p. *)
Theorem C66_arithmetic (n m : N) :
  ((N.to_nat n)%:R == (N.to_nat m)%:R :> F) = (n mod p == m mod p)%num.
Proof.
have Hr := declared_repr HD; have Hz := declared_char HD.
have Hp0 : p <> 0%num by move=> E; move: (declared_prime HD); rewrite E.
apply/eqP/eqP => [E|E]; first by rewrite -!Hr E.
have H c : (N.to_nat c)%:R = (N.to_nat (c mod p))%:R :> F.
  by rewrite {1}(N.div_mod c p Hp0) to_natD to_natM natrD natrM Hz mul0r add0r.
by rewrite H E -H.
Qed.
End Any.

(** Every digest is turned into a challenge, in each of the three fields. *)
Theorem C66_challenges (d : digest) :
  [/\ exists x, bytes_to_field f257 d = Ok x, exists x, bytes_to_field f251 d = Ok x &
      exists x, bytes_to_field f255 d = Ok x].
Proof.
have [D257 D251 D255] := C66_fields.
split.
- have Hb : (2 <= ff_num_bits f257 mod 64)%num by rewrite -[ff_num_bits _]/9%num; apply/N.leb_le.
  by have [x Hx _] := C23_hash_to_field_partial d f257_repr_ok (declared_constants D257) Hb; exists x.
- have Hb : (2 <= ff_num_bits f251 mod 64)%num by rewrite -[ff_num_bits _]/252%num; apply/N.leb_le.
  by have [x Hx _] := C23_hash_to_field_partial d f251_repr_ok (declared_constants D251) Hb; exists x.
- have Hb : (2 <= ff_num_bits f255 mod 64)%num by rewrite -[ff_num_bits _]/255%num; apply/N.leb_le.
  by have [x Hx _] := C23_hash_to_field_partial d f255_repr_ok (declared_constants D255) Hb; exists x.
Qed.

(** The largest domains: 2^8, 2^192 and 2^32 points. *)
Example C66_ex : ff_S f257 = 8%N /\ ff_S f251 = 192%N /\ ff_S f255 = 32%N.
Proof. by []. Qed.
Example C66_ex_roots : exists w : F255, (2 ^ 32).-primitive_root w.
Proof. have [_ H _] := C66_roots f255_declared; exact: (H 32%N). Qed.
Example C66_ex_none : forall w : F255, ~~ (2 ^ 33).-primitive_root w.
Proof. have [_ _ H] := C66_roots f255_declared; exact: (H 33%N). Qed.
(** In the toy field the coset of the largest domain is the domain itself; in the large fields the
    two are always different. *)
Example C66_ex_toy : (ff_gen f257 ^+ (2 ^ 8) == 1) /\ (ff_gen f257 ^+ (2 ^ 7) != 1).
Proof.
by rewrite (C66_coset (k := 8) f257_declared (leqnn _)) (C66_coset (k := 7) f257_declared isT); vm_compute.
Qed.
Example C66_ex_coset k : (k <= 32)%N -> ff_gen f255 ^+ (2 ^ k) != 1.
Proof.
move=> Hk; rewrite (C66_coset f255_declared Hk); apply/eqP => E.
have : (2 ^ N.of_nat k <= 2 ^ 32)%num.
  by apply: N.pow_le_mono_r => //; move/leP: Hk; lia.
have -> : (2 ^ N.of_nat k = P255 - 1)%num by rewrite E N.add_sub.
by move=> /N.leb_le; vm_compute.
Qed.

Print Assumptions C66_fields.
Print Assumptions C66_roots.
Print Assumptions C66_coset.
Print Assumptions C66_arithmetic.
Print Assumptions C66_challenges.
