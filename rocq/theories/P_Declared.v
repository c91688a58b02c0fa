(** Proofs about declared fields: a generator of the multiplicative group gives roots of unity of
    the right order, and a Lehmer certificate gives a generator. *)
From Coq Require Import NArith Lia.
From mathcomp Require Import all_ssreflect all_algebra.
From Verif Require Import M_Base M_Field M_Bytes SpecHash SpecField Fr251 P_Lucas P_Lehmer.

Set Implicit Arguments.
Unset Strict Implicit.
Unset Printing Implicit Defensive.
Import GRing.Theory.
Local Open Scope ring_scope.

(** * Residues *)
Section Residues.
Variables (p : nat) (F : fieldType).
Hypothesis Hp : prime p.
Hypothesis Hchar : p%:R = 0 :> F.
Hypothesis Honto : forall x : F, exists n, x = n%:R.

Lemma res_mod n : (n %% p)%:R = n%:R :> F.
Proof. by rewrite {2}(divn_eq n p) natrD natrM Hchar mulr0 add0r. Qed.

Lemma res_char : p \in [char F].
Proof. by rewrite inE Hp Hchar eqxx. Qed.

Definition units : seq F := [seq n%:R | n <- iota 1 p.-1].

Lemma mem_units (x : F) : (x \in units) = (x != 0).
Proof.
have Hp0 := prime_gt0 Hp; have Hp1 := prime_gt1 Hp.
apply/mapP/idP => [[n]|Hx].
  rewrite mem_iota add1n prednK // => /andP [H0 Hn] ->.
  by rewrite -(dvdn_charf res_char) gtnNdvd.
have [n E] := Honto x; exists (n %% p)%N; last by rewrite res_mod.
rewrite mem_iota add1n prednK // ltn_mod Hp0 andbT lt0n; apply: contra Hx => /eqP En.
by rewrite E -res_mod En.
Qed.

Lemma prim_all (g x : F) : p.-1.-primitive_root g -> x != 0 -> exists k, x = g ^+ k.
Proof.
move=> Hg Hx.
have Hg0 : g != 0.
  apply/eqP => E0; have := prim_expr_order Hg; rewrite E0 expr0n.
  by case: (p.-1) (prim_order_gt0 Hg) => //= n _ /esym/eqP; rewrite oner_eq0.
have Hu : uniq [seq g ^+ k | k <- iota 0 p.-1].
  rewrite map_inj_in_uniq ?iota_uniq // => i j; rewrite !mem_iota add0n /= => Hi Hj /eqP.
  by rewrite (eq_prim_root_expr Hg) !modn_small // => /eqP.
have Hs : {subset [seq g ^+ k | k <- iota 0 p.-1] <= units}.
  by move=> y /mapP [k _ ->]; rewrite mem_units expf_neq0.
have [] := uniq_min_size Hu Hs; first by rewrite !size_map !size_iota.
move=> _ /(_ x); rewrite mem_units Hx => /mapP [k _ ->]; by exists k.
Qed.

Lemma all_prim (g : F) : g != 0 -> (forall x, x != 0 -> exists k, x = g ^+ k) -> p.-1.-primitive_root g.
Proof.
move=> Hg0 Hall; have Hp1 := prime_gt1 Hp.
have Hbig m : (0 < m)%N -> g ^+ m = 1 -> (p.-1 <= m)%N.
  move=> H0 Hm.
  have Hs : {subset units <= [seq g ^+ k | k <- iota 0 m]}.
    move=> y; rewrite mem_units => /Hall [k ->]; apply/mapP; exists (k %% m)%N.
      by rewrite mem_iota add0n ltn_mod.
    by rewrite expr_mod.
  have Hu : uniq units.
    rewrite map_inj_in_uniq ?iota_uniq // => i j; rewrite !mem_iota add1n prednK ?(ltnW Hp1) //.
    move=> /andP [_ Hi] /andP [_ Hj] E.
    wlog Hij : i j Hi Hj E / (i <= j)%N.
      by move=> W; case/orP: (leq_total i j) => H; [exact: W | apply/esym; exact: W].
    apply/eqP; rewrite eqn_leq Hij -subn_eq0 /= -(modn_small (_ : j - i < p)%N); last first.
      exact: leq_ltn_trans (leq_subr _ _) Hj.
    by rewrite -[_ == 0%N]/(_ %| _)%N (dvdn_charf res_char) natrB // E subrr.
  by have := uniq_leq_size Hu Hs; rewrite !size_map !size_iota.
have [m H0 [Hm Hmp]] : exists2 m, (0 < m)%N & g ^+ m = 1 /\ (m <= p.-1)%N.
  have Hn : ~~ uniq [seq g ^+ k | k <- iota 0 p].
    apply/negP => Hu.
    have Hs : {subset [seq g ^+ k | k <- iota 0 p] <= units}.
      by move=> y /mapP [k _ ->]; rewrite mem_units expf_neq0.
    have := uniq_leq_size Hu Hs; rewrite !size_map !size_iota; move: Hp1; by clear; case: p => // n _; rewrite ltnn.
  have [i [j [Hij Hj E]]] : exists i j, [/\ (i < j)%N, (j < p)%N & g ^+ i = g ^+ j].
    case/(uniqPn 0): Hn => i [j [Hij]]; rewrite size_map size_iota => Hj.
    rewrite !(nth_map 0%N) ?size_iota ?(ltn_trans Hij) // !nth_iota ?(ltn_trans Hij) // !add0n => E.
    by exists i, j.
  exists (j - i)%N; first by rewrite subn_gt0.
  split; last by rewrite -ltnS prednK ?(ltnW Hp1) //; exact: leq_ltn_trans (leq_subr _ _) Hj.
  apply: (@mulfI _ (g ^+ i)); first by rewrite expf_neq0.
  by rewrite -exprD subnKC ?(ltnW Hij) // mulr1.
have [d Hd Hdm] := prim_order_exists H0 Hm.
have -> : p.-1 = d; last by [].
apply/eqP; rewrite eqn_leq Hbig ?(prim_order_gt0 Hd) ?(prim_expr_order Hd) //=.
exact: leq_trans (dvdn_leq H0 Hdm) Hmp.
Qed.
End Residues.

(** * The hypotheses on the field parameters *)
Section Declared.
Variables (p g : N) (F : fieldType) (fp : ff_params F).
Hypothesis HD : declared p g fp.
Let q := N.to_nat p.

Lemma declared_char : q%:R = 0 :> F.
Proof.
have Hr := declared_repr HD.
have [n En] := declared_onto HD (-1 : F).
have : ((N.to_nat n).+1)%:R == 0 :> F by rewrite mulrS -En subrr.
case/(natf0_char (ltn0Sn _)) => l /andP [Hl /eqP El].
have Hp0 : p <> 0%num by move=> E; move: (declared_prime HD); rewrite E.
have : ff_repr fp (N.to_nat (N.of_nat l))%:R = ff_repr fp (N.to_nat 0)%:R by rewrite Nnat.Nat2N.id El.
rewrite !Hr N.mod_0_l // => Em.
have [k Ek] := (N.mod_divide (N.of_nat l) p Hp0).1 Em.
have Eq : l = (N.to_nat k * q)%N by rewrite -to_natM -Ek Nnat.Nat2N.id.
have Hd : (q %| l)%N by rewrite Eq dvdn_mull.
by move: Hd; rewrite dvdn_prime2 // ?(declared_prime HD) // => /eqP ->.
Qed.

Lemma declared_nat (x : F) : exists n, x = n%:R.
Proof. by have [n ->] := declared_onto HD x; exists (N.to_nat n). Qed.

Lemma declared_gen_neq0 : ff_gen fp != 0.
Proof.
apply/eqP => E0.
have Hp := declared_prime HD.
have Hlt : (2 < q)%N by have [H _ _ _ _] := declared_constants HD; move: H; rewrite (declared_modulus HD) => H; apply/ltP; rewrite /q; lia.
have N2 : (2%:R : F) != 0.
  by rewrite -(dvdn_charf (res_char Hp declared_char)) gtnNdvd.
have [k] := declared_powers HD N2; rewrite E0 expr0n; case: k => [|k] /= E.
  by have := oner_eq0 F; rewrite -(addrK 1 1) -{1}[1 + 1]/(2%:R) E subrr eqxx.
by case/eqP: N2.
Qed.

Lemma declared_prim : q.-1.-primitive_root (ff_gen fp).
Proof.
apply: all_prim; [exact: declared_prime HD | exact: declared_char | exact: declared_nat | exact: declared_gen_neq0 | exact: declared_powers HD].
Qed.

Lemma declared_ok : ff_ok fp.
Proof.
have Hp := declared_prime HD.
have Hlt : (2 < q)%N by have [H _ _ _ _] := declared_constants HD; move: H; rewrite (declared_modulus HD) => H; apply/ltP; rewrite /q; lia.
split; [| exact: declared_gen_neq0 | by rewrite -(dvdn_charf (res_char Hp declared_char)) gtnNdvd].
have [t [Et Ot ->]] := declared_root HD.
have Eq : q.-1 = (2 ^ ff_S fp * N.to_nat t)%N.
  have -> : q.-1 = N.to_nat (p - 1) by rewrite /q; lia.
  by rewrite Et to_natM to_natX Nnat.Nat2N.id.
have H := declared_prim; rewrite Eq in H.
have := dvdn_prim_root H (dvdn_mulr _ (dvdnn _)).
by rewrite mulKn // expn_gt0.
Qed.
End Declared.

(** * From a certificate to a declared field *)
Section Certified.
Variables (P a : N) (qs : seq (N * nat)) (prog : seq instr) (invs : seq (N * N)).
Hypothesis Hqs : all (fun x => prime (N.to_nat x.1)) qs.
Hypothesis Hcheck : lehmer P a qs prog invs.
Variables (F : fieldType) (fp : ff_params F) (t : N).
Hypothesis Hm : ff_modulus fp = P.
Hypothesis Honto : forall x : F, exists n : N, x = (N.to_nat n)%:R.
Hypothesis Hr : forall n : N, ff_repr fp (N.to_nat n)%:R = (n mod P)%num.
Hypothesis Hz : (N.to_nat P)%:R = 0 :> F.
Hypothesis Hg : ff_gen fp = (N.to_nat a)%:R.
Hypothesis Ht : (P - 1 =? 2 ^ N.of_nat (ff_S fp) * t)%num && N.odd t.
Hypothesis Hrou : ff_rou fp = ff_gen fp ^+ N.to_nat t.
Hypothesis Hc : ff_constants fp.

Lemma certified : declared P a fp.
Proof.
have Hp := lehmer_prime Hqs Hcheck.
case/andP: Ht => /N.eqb_spec Et Ot.
split; [exact: Hp | exact: Hm | exact: Honto | exact: Hr | exact: Hg | | by exists t | exact: Hc].
move=> x Hx; apply: (prim_all Hp Hz _ _ Hx) => [y|].
  by have [n ->] := Honto y; exists (N.to_nat n).
by rewrite Hg; apply: (lehmer_order Hqs Hcheck).
Qed.
End Certified.

(** The residues modulo a prime. *)
Section Fp.
Variables (p : nat) (P : N).
Hypothesis Hp : prime p.
Hypothesis EP : p = N.to_nat P.

Lemma Fp_onto (x : 'F_p) : exists n : N, x = (N.to_nat n)%:R.
Proof. by exists (N.of_nat x); rewrite Nnat.Nat2N.id natr_Zp. Qed.

Lemma Fp_zero : (N.to_nat P)%:R = 0 :> 'F_p.
Proof. by rewrite -EP; exact: charf0 (char_Fp Hp). Qed.

Lemma Fp_residue (n : N) : N.of_nat ((N.to_nat n)%:R : 'F_p) = (n mod P)%num.
Proof.
have P0 : P <> 0%num by move=> E; move: Hp; rewrite EP E.
rewrite val_Fp_nat // EP; apply: Nnat.N2Nat.inj; rewrite Nnat.Nat2N.id.
rewrite {1}(N.div_mod n P P0) to_natD to_natM mulnC modnMDl modn_small //.
by apply/ltP; have := N.mod_lt n P P0; lia.
Qed.
End Fp.
