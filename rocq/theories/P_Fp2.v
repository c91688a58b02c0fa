(** Proofs about the quadratic extension (M_Fp2). *)
From Coq Require Import NArith PArith Pnat.
From mathcomp Require Import all_ssreflect all_algebra.
From Verif Require Import M_Base M_Field M_Fp2.

Set Implicit Arguments.
Unset Strict Implicit.
Unset Printing Implicit Defensive.
Import GRing.Theory.
Local Open Scope ring_scope.

(** * Specification: the ring F[u]/(u^2 - beta) *)
Section Spec.
Variables (F : fieldType) (beta : F).

(** The element c0 + c1*u as a polynomial; the product in the ring is the
    product of polynomials modulo X^2 - beta. *)
Definition elt2 (a : fq2 F) : {poly F} := (c0 a)%:P + c1 a *: 'X.
Definition modulus2 : {poly F} := 'X^2 - beta%:P.
End Spec.

(** * The ring structure *)
Section Structure.
Variable F : fieldType.

Definition fq2_pair (a : fq2 F) := (c0 a, c1 a).
Definition pair_fq2 (p : F * F) := Fq2 p.1 p.2.
Lemma fq2_pairK : cancel fq2_pair pair_fq2. Proof. by case. Qed.
End Structure.

(** The extension by a root of [beta]. *)
Definition ext (F : fieldType) (beta : F) := fq2 F.

Section Ring.
Variables (F : fieldType) (beta : F).
Local Notation T := (ext beta).
Implicit Types a b c : T.

Definition ext_eqMixin := CanEqMixin (@fq2_pairK F).
Canonical ext_eqType := EqType T ext_eqMixin.
Definition ext_choiceMixin := CanChoiceMixin (@fq2_pairK F).
Canonical ext_choiceType := ChoiceType T ext_choiceMixin.

Definition eadd a b : T := Fq2 (c0 a + c0 b) (c1 a + c1 b).
Definition eopp a : T := Fq2 (- c0 a) (- c1 a).
Definition emul a b : T := Fq2 (c0 a * c0 b + c1 a * c1 b * beta) (c0 a * c1 b + c1 a * c0 b).

Lemma eaddA : associative eadd. Proof. by move=> a b c; rewrite /eadd /= !addrA. Qed.
Lemma eaddC : commutative eadd. Proof. by move=> a b; rewrite /eadd addrC [c1 a + _]addrC. Qed.
Lemma eadd0 : left_id (Fq2 0 0 : T) eadd. Proof. by case=> a0 a1; rewrite /eadd /= !add0r. Qed.
Lemma eaddN : left_inverse (Fq2 0 0 : T) eopp eadd. Proof. by move=> a; rewrite /eadd /= !addNr. Qed.

Definition ext_zmodMixin := ZmodMixin eaddA eaddC eadd0 eaddN.
Canonical ext_zmodType := ZmodType T ext_zmodMixin.

Lemma size_modulus2 : size (modulus2 beta) = 3%N.
Proof. by rewrite /modulus2 size_addl ?size_polyXn // size_opp (leq_ltn_trans (size_polyC_leq1 _)). Qed.

Lemma size_elt2 a : (size (elt2 a) < size (modulus2 beta))%N.
Proof.
rewrite size_modulus2 ltnS; apply: leq_trans (size_add _ _) _; rewrite geq_max.
rewrite (leq_trans (size_polyC_leq1 _)) //=.
by apply: leq_trans (size_scale_leq _ _) _; rewrite size_polyX.
Qed.

Lemma elt2_mod a : elt2 a %% modulus2 beta = elt2 a.
Proof. by rewrite modp_small // size_elt2. Qed.

Lemma elt2_inj : injective (@elt2 F).
Proof.
move=> [a0 a1] [b0 b1] E; have C i := congr1 (fun p : {poly F} => p`_i) E.
have := C 0%N; have := C 1%N.
by rewrite /elt2 /= !coefD !coefC !coefZ !coefX /= !mulr0 !mulr1 !addr0 !add0r => -> ->.
Qed.

Lemma quad_mul2 (R : comRingType) (A0 A1 B0 B1 x y : R) :
  (A0 + A1 * x) * (B0 + B1 * x) = A1 * B1 * (x ^+ 2 - y) + (A0 * B0 + A1 * B1 * y + (A0 * B1 + A1 * B0) * x).
Proof.
rewrite 2!mulrDl !mulrDr mulrN [A0 * B0 + A1 * B1 * _]addrC -!addrA addKr.
rewrite [RHS]addrCA; congr (_ + _); rewrite [RHS]addrC -!addrA expr2 !mulrA.
by congr (_ + (_ + _)); [rewrite mulrAC | rewrite [A1 * x * B1]mulrAC].
Qed.

Lemma elt2_mul a b : (elt2 a * elt2 b) %% modulus2 beta = elt2 (emul a b).
Proof.
case: a b => [a0 a1] [b0 b1] /=.
have -> : elt2 (Fq2 a0 a1) * elt2 (Fq2 b0 b1) =
   (a1 * b1)%:P * modulus2 beta + elt2 (emul (Fq2 a0 a1) (Fq2 b0 b1)).
  by rewrite /elt2 /modulus2 /= -!mul_polyC (quad_mul2 _ _ _ _ _ beta%:P) !(polyCD, polyCM, polyCN).
by rewrite modp_addl_mul_small // size_elt2.
Qed.

Lemma emulC : commutative emul.
Proof. by move=> a b; apply: elt2_inj; rewrite -!elt2_mul mulrC. Qed.
Lemma emulA : associative emul.
Proof.
move=> a b c; apply: elt2_inj.
by rewrite -[LHS]elt2_mul -elt2_mul modp_mul -[RHS]elt2_mul -elt2_mul [in RHS]mulrC modp_mul mulrA mulrC mulrA.
Qed.
Lemma emul1 : left_id (Fq2 1 0 : T) emul.
Proof. by case=> a0 a1; rewrite /emul /= !mul1r !mul0r !addr0. Qed.
Lemma emulDl : left_distributive emul eadd.
Proof.
move=> a b c; apply: elt2_inj; rewrite -elt2_mul.
have D x y : elt2 (eadd x y) = elt2 x + elt2 y.
  by rewrite /elt2 /= polyCD scalerDl addrACA.
by rewrite !D mulrDl modpD !elt2_mul.
Qed.
Lemma enonzero1 : (Fq2 1 0 : T) != Fq2 0 0.
Proof. by apply/eqP => -[] /eqP; rewrite oner_eq0. Qed.

Definition ext_comRingMixin := ComRingMixin emulA emulC emul1 emulDl enonzero1.
Canonical ext_ringType := RingType T ext_comRingMixin.
Canonical ext_comRingType := ComRingType T emulC.

Lemma elt2M a b : (elt2 a * elt2 b) %% modulus2 beta = elt2 (a * b). Proof. exact: elt2_mul. Qed.

(** The base field in the extension, the root, the conjugation and the norm. *)
Definition inj (x : F) : T := Fq2 x 0.
Definition conj a : T := Fq2 (c0 a) (- c1 a).
Definition enorm a : F := c0 a ^+ 2 - beta * c1 a ^+ 2.

Lemma inj_is_rmorphism : rmorphism inj.
Proof.
split=> [x y|]; first by congr Fq2; rewrite /= oppr0 addr0.
by split=> // x y; congr Fq2; rewrite /= !(mul0r, mulr0, addr0).
Qed.
Canonical inj_additive := Additive inj_is_rmorphism.
Canonical inj_rmorphism := RMorphism inj_is_rmorphism.

Lemma injP (x y : F) : inj x = inj y -> x = y. Proof. by case. Qed.

Lemma mul_conj a : a * conj a = inj (enorm a).
Proof.
congr Fq2; rewrite /= ?mulrN ?mulNr.
  by rewrite /enorm !expr2 [beta * _]mulrC.
by rewrite [c1 a * _]mulrC addNr.
Qed.

Lemma conjE a : conj a = inj (c0 a) - inj (c1 a) * Fq2 0 1.
Proof. by congr Fq2; rewrite /= !(mul0r, mulr0, addr0, mulr1, add0r, subr0, oppr0). Qed.

Lemma eltE a : a = inj (c0 a) + inj (c1 a) * Fq2 0 1 :> T.
Proof. by case: a => a0 a1; congr Fq2; rewrite /= !(mul0r, mulr0, addr0, mulr1, add0r). Qed.

Lemma u_squared : (Fq2 0 1 : T) ^+ 2 = inj beta.
Proof. by rewrite expr2; congr Fq2; rewrite /= !(mul0r, mul1r, mulr0, addr0, add0r). Qed.
End Ring.

(** * The operations of the model *)
Section Ops.
Variables (F : fieldType) (k : fq2_consts F).
Local Notation beta := (non_residue k).
Local Notation T := (ext beta).
Implicit Types a b : T.

Lemma fq2_addE a b : fq2_add a b = a + b :> T. Proof. by []. Qed.
Lemma fq2_negateE a : fq2_negate a = - a :> T. Proof. by []. Qed.
Lemma fq2_subE a b : fq2_sub a b = a - b :> T. Proof. by []. Qed.
Lemma fq2_doubleE a : fq2_double a = a + a :> T. Proof. by []. Qed.
Lemma fq2_oneE : fq2_one F = 1 :> T. Proof. by []. Qed.
Lemma fq2_zeroE : fq2_zero F = 0 :> T. Proof. by []. Qed.

Lemma fq2_eqP a b : reflect (a = b) (fq2_eq a b).
Proof.
case: a b => [a0 a1] [b0 b1]; rewrite /fq2_eq /=; apply: (iffP andP) => [[/eqP -> /eqP ->] //|[-> ->]].
by rewrite !eqxx.
Qed.

Lemma fq2_is_zeroP a : reflect (a = 0) (fq2_is_zero a).
Proof.
case: a => a0 a1; rewrite /fq2_is_zero /=; apply: (iffP andP) => [[/eqP -> /eqP ->] //|[-> ->]].
by rewrite !eqxx.
Qed.

Lemma fq2_mulE a b : fq2_mul k a b = a * b :> T.
Proof.
case: a b => [a0 a1] [b0 b1]; congr Fq2; rewrite /=.
by rewrite mulrDl !mulrDr [a0 * b0 + _]addrC addrA addrK [a1 * b0 + _ + _]addrAC addrK addrC.
Qed.

Lemma fq2_squareE a : fq2_square k a = a ^+ 2 :> T.
Proof.
rewrite expr2 -fq2_mulE; case: a => [a0 a1]; congr Fq2; rewrite /=.
  rewrite mulrBr !mulrBl opprB [a1 * a0]mulrC !mulrA -!addrA; congr (_ + _).
  by rewrite addrCA [a0 * a1 + _]addrC addKr addNr addr0.
by rewrite mulrDl !mulrDr [a0 * a0 + _]addrC addrA addrK [a1 * a0 + _ + _]addrAC addrK [a1 * a0]mulrC.
Qed.

Lemma bits_pow (x : T) e :
  foldl (fun st bit =>
           let: (res, found_one) := st in
           let '(res, found_one) := if found_one then (fq2_square k res, true) else (res, bit) in
           let res := if bit then fq2_mul k res x else res in
           (res, found_one)) (fq2_one F, false) (pos_bits e) = (x ^+ Pos.to_nat e : T, true).
Proof.
elim: e => [e IH|e IH|] /=.
- rewrite foldl_rcons IH /= fq2_squareE fq2_mulE -exprM -exprSr mulnC.
  by rewrite Pos2Nat.inj_xI.
- rewrite foldl_rcons IH /= fq2_squareE -exprM mulnC.
  by rewrite Pos2Nat.inj_xO.
- by rewrite fq2_mulE fq2_oneE mul1r.
Qed.

Lemma fq2_powE a e : fq2_pow k a e = a ^+ N.to_nat e :> T.
Proof. by case: e => [|e] //; rewrite /fq2_pow /bits bits_pow. Qed.

Lemma fq2_mul_by_0E a x : fq2_mul_by_0 a x = a * inj beta x :> T.
Proof. by case: a => a0 a1; congr Fq2; rewrite /= !(mulr0, mul0r, addr0, add0r). Qed.

Lemma fq2_mul_by_1E a x : fq2_mul_by_1 k a x = a * Fq2 0 x :> T.
Proof.
case: a => a0 a1; congr Fq2; rewrite /= !(mulr0, mul0r, addr0, add0r) //.
by rewrite mulrDl [_ + a0 * x]addrC addrK.
Qed.

Lemma enorm_eq0 a : (forall x : F, x ^+ 2 != beta) -> (enorm a == 0) = (a == 0).
Proof.
case: a => a0 a1 Hb; rewrite /enorm /= subr_eq0; apply/idP/idP; last first.
  by case/eqP => -> ->; rewrite !expr0n mulr0.
have [->|Ha1] := eqVneq a1 0; first by rewrite expr0n mulr0 sqrf_eq0 => /eqP ->.
move/eqP => E; case/eqP: (Hb (a0 / a1)); rewrite expr_div_n E mulfK //.
by rewrite sqrf_eq0.
Qed.

Lemma fq2_inverseP a : (forall x : F, x ^+ 2 != beta) ->
  if fq2_inverse k a is Some b then a * b = 1 :> T else a = 0.
Proof.
move=> Hb; rewrite /fq2_inverse; case: fq2_is_zeroP => [-> //|/eqP Ha].
have En : c0 a ^+ 2 - c1 a ^+ 2 * beta = enorm a by rewrite /enorm mulrC.
rewrite En /inverse enorm_eq0 // (negbTE Ha).
have Hn : enorm a != 0 by rewrite enorm_eq0.
have -> : Fq2 (c0 a * (enorm a)^-1) (- (c1 a * (enorm a)^-1)) = conj a * inj beta (enorm a)^-1 :> T.
  by congr Fq2; rewrite /= !(mulr0, mul0r, addr0, add0r) // mulNr.
by rewrite mulrA mul_conj -rmorphM mulfV.
Qed.
End Ops.

(** * Powers *)
Section Frobenius.
Variables (F : fieldType) (beta : F) (p : nat).
Local Notation T := (ext beta).
Implicit Types a b : T.
Hypothesis charF : p \in [char F].
Hypothesis fermat : forall x : F, x ^+ p = x.
Hypothesis p_odd : odd p.
Hypothesis euler : beta ^+ p.-1./2 = -1.

Lemma charT : p \in [char T].
Proof.
have [Hp H0] := andP charF; apply/andP; split=> //.
by rewrite -(rmorph_nat (inj_rmorphism beta)) (eqP H0) rmorph0.
Qed.

Lemma p_half : p = (p.-1./2).*2.+1.
Proof.
have Hp : (0 < p)%N by rewrite odd_gt0.
by rewrite -{1}(prednK Hp) -{1}(odd_double_half p.-1) -subn1 oddB // p_odd.
Qed.

Lemma frobenius a : a ^+ p = conj a.
Proof.
have D (x y : T) : (x + y) ^+ p = x ^+ p + y ^+ p by rewrite -!(Frobenius_autE charT) rmorphD.
have I x : inj beta x ^+ p = inj beta x by rewrite -rmorphX fermat.
rewrite {1}(eltE a) D exprMn !I conjE; congr (_ + _).
by rewrite {1}p_half exprSr -mul2n exprM u_squared -rmorphX euler rmorphN1 mulN1r mulrN.
Qed.

Lemma pow_p1 a : a ^+ p.+1 = inj beta (enorm a).
Proof. by rewrite exprS frobenius mul_conj. Qed.

Lemma in_base a : conj a = a -> (2%:R : F) != 0 -> c1 a = 0.
Proof.
move/(congr1 (@c1 F)) => /= /eqP E H2; move: E.
rewrite eq_sym -subr_eq0 opprK -mulr2n -mulr_natl mulf_eq0.
by rewrite (negbTE H2) => /eqP.
Qed.

Lemma two_ne0 : (2%:R : F) != 0.
Proof.
rewrite -(dvdn_charf charF); apply/negP => /(dvdn_leq (isT : 0 < 2)%N).
have [Hp _] := andP charF; rewrite leq_eqVlt ltnS => /orP[/eqP E|/(leq_trans (prime_gt1 Hp)) //].
by move: p_odd; rewrite E.
Qed.

Lemma one_neqN1 : (-1 : F) != 1.
Proof. by rewrite -subr_eq0 -opprD oppr_eq0 -mulr2n two_ne0. Qed.

Lemma p_pred : p.-1 = (p.-1./2).*2. Proof. by rewrite {1}p_half. Qed.

Lemma pow_p_pred (x : F) : x != 0 -> x ^+ p.-1 = 1.
Proof. by move=> Hx; apply: (mulfI Hx); rewrite mulr1 -exprS prednK ?odd_gt0 // fermat. Qed.

(** Euler's criterion. *)
Lemma euler_square (x : F) : x ^+ p.-1./2 = 1 -> exists y : F, y ^+ 2 = x.
Proof.
set m := p.-1./2 => Hx.
have Hm : (0 < m)%N.
  rewrite lt0n; apply/eqP => E; have [Hp _] := andP charF.
  by move: (prime_gt1 Hp); rewrite p_half -/m E.
pose sqs := [seq (i.+1%:R : F) ^+ 2 | i <- iota 0 m].
case: (boolP (x \in sqs)) => [/mapP[i _ ->]|Hn]; first by exists i.+1%:R.
have Hsmall i : (0 < i < p)%N -> (i%:R : F) != 0.
  by case/andP=> H0 Hi; rewrite -(dvdn_charf charF) gtnNdvd.
have U : uniq (x :: sqs).
  rewrite /= Hn map_inj_in_uniq ?iota_uniq // => i j; rewrite !mem_iota /= !add0n => Hi Hj /eqP.
  rewrite eqf_sqr => /orP[|]; last first.
    rewrite -subr_eq0 opprK -natrD; move/negPn/negP; case; apply: Hsmall; rewrite p_half -/m.
    by rewrite ltnS -addnn leq_add.
  wlog Hij : i j Hi Hj / (i <= j)%N.
    by case/orP: (leq_total i j) => H W E; [exact: W | apply/esym; apply: W => //; rewrite eq_sym].
  rewrite -subr_eq0 -opprB oppr_eq0 -natrB ?ltnS // subSS => E.
  apply/eqP; rewrite eqn_leq Hij /= -subn_eq0; apply/negPn/negP; rewrite -lt0n => H0.
  move/negPn/negP: E; case; apply: Hsmall; rewrite H0 /= p_half -/m.
  by apply: leq_ltn_trans (leq_subr _ _) _; rewrite -addnn (leq_trans Hj) // leqW // leq_addr.
have R : all (root ('X^m - 1)) (x :: sqs).
  apply/allP => y; rewrite inE => /orP[/eqP ->|/mapP[i]]; first by rewrite rootE !hornerE hornerXn Hx subrr.
  rewrite mem_iota add0n /= => Hi ->; rewrite rootE !hornerE hornerXn -exprM mul2n -p_pred pow_p_pred ?subrr //.
  by apply: Hsmall; rewrite p_half -/m /= ltnS -addnn (leq_trans Hi) // leq_addr.
have Hs : size ('X^m - 1 : {poly F}) = m.+1.
  by rewrite size_addl ?size_polyXn // size_opp size_poly1 ltnS.
have := max_poly_roots _ R U; rewrite Hs /= size_map size_iota ltnn => H.
have H0 : ('X^m - 1 : {poly F}) != 0 by rewrite -size_poly_gt0 Hs.
by have := H H0.
Qed.

Lemma beta_non_residue (x : F) : x ^+ 2 != beta.
Proof.
apply/eqP => E; move: euler; rewrite -E -exprM mul2n -p_pred.
have [->|Hx] := eqVneq x 0; last by rewrite pow_p_pred // => /eqP; rewrite eq_sym (negbTE one_neqN1).
rewrite expr0n; case: eqP => _ /eqP; first by rewrite eq_sym (negbTE one_neqN1).
by rewrite eq_sym oppr_eq0 oner_eq0.
Qed.

Lemma enormM a b : enorm (a * b) = enorm a * enorm b.
Proof.
by apply: (@injP _ beta); rewrite rmorphM /= -!pow_p1 // exprMn.
Qed.

Lemma enormX a n : enorm (a ^+ n) = enorm a ^+ n.
Proof.
elim: n => [|n IH]; last by rewrite !exprS enormM IH.
by rewrite !expr0 /enorm /= expr0n expr1n mulr0 subr0.
Qed.
End Frobenius.

(** * The square root *)
Section Sqrt.
Variables (F : fieldType) (k : fq2_consts F) (p : nat).
Local Notation beta := (non_residue k).
Local Notation T := (ext beta).
Implicit Types a b : T.
Hypothesis charF : p \in [char F].
Hypothesis fermat : forall x : F, x ^+ p = x.
Hypothesis p_mod4 : (p %% 4 = 1)%N.
Hypothesis euler : beta ^+ p.-1./2 = -1.
Hypothesis Hchar : N.to_nat (q_char k) = p.
Hypothesis Hfour : N.to_nat (q_minus_one_by_four k) = (p.-1 %/ 4)%N.
Hypothesis Hminus : minus_one_fp2 k = Fq2 (-1) 0.
Hypothesis Hf1 : c1 (f_precomputed k) = 0.
Hypothesis He0 : c0 (e_precomputed k) = 0.
Hypothesis Hef : c0 (f_precomputed k) * (c1 (e_precomputed k) ^+ 2 * beta) = 1.
Hypothesis Hsqrt : forall x : F, if q_sqrt k x is Some y then y ^+ 2 = x else forall y, y ^+ 2 != x.

Let m := p.-1./2.
Let h := (p.-1 %/ 4)%N.

Lemma p_oddP : odd p.
Proof. by rewrite (divn_eq p 4) p_mod4 oddD oddM andbF. Qed.

Lemma mE : m = h.*2.
Proof.
rewrite /m /h; move: (divn_eq p 4); rewrite p_mod4 addn1 => ->; rewrite /= mulnK //.
by rewrite -[4%N]/(2 * 2)%N mulnA !muln2 doubleK.
Qed.

Lemma pE : p = h.*2.*2.+1.
Proof. by rewrite (p_half p_oddP) -/m mE. Qed.

Lemma fq2_sqrtP a :
  exists2 r, fq2_sqrt k a = Ok r &
    if r is Some x then (x : T) ^+ 2 = a else forall x : T, x ^+ 2 != a.
Proof.
have Podd := p_oddP; have N1 := one_neqN1 charF Podd; have H2 := two_ne0 charF Podd.
have nonres := beta_non_residue charF fermat Podd euler.
have frob := frobenius charF fermat Podd euler.
rewrite /fq2_sqrt; case: fq2_is_zeroP => [->|/eqP Ha].
  by exists (Some (fq2_zero F)) => //; rewrite fq2_zeroE expr0n.
rewrite !fq2_powE Hchar Hfour -/h Hminus.
set b : T := a ^+ h; rewrite !fq2_squareE !fq2_mulE.
set n := enorm a; set nb := enorm b.
have Hn0 : n != 0 by rewrite enorm_eq0.
have Enb : nb = n ^+ h by rewrite /nb /b (enormX charF fermat Podd euler).
have Enb4 : nb ^+ 2 ^+ 2 = 1.
  have -> : nb ^+ 2 ^+ 2 = n ^+ p.-1 by rewrite Enb -!exprM [in RHS]pE /= -!muln2 mulnA.
  exact: pow_p_pred.
have Ebqb : b ^+ p * b = inj beta nb by rewrite frob mulrC mul_conj.
have Ea0 : (b ^+ p * b) ^+ 2 = inj beta (nb ^+ 2) by rewrite Ebqb -rmorphX.
have Es2 : (b ^+ 2 * a) ^+ 2 = inj beta n.
  rewrite -/n -(pow_p1 charF fermat Podd euler) /b -exprM muln2 -exprSr -exprM muln2.
  by congr (a ^+ _); rewrite pE doubleS.
rewrite Ea0; case: fq2_eqP => [/injP E|/eqP Hm1].
  exists None => // x; apply/eqP => Ex.
  have : n ^+ m = -1 by rewrite -E Enb -exprM muln2 -mE.
  rewrite /n -Ex (enormX charF fermat Podd euler) -exprM mul2n -(p_pred Podd) pow_p_pred //.
    by move/eqP; rewrite eq_sym (negbTE N1).
  by rewrite enorm_eq0 //; apply: contraNneq Ha => Ex0; rewrite -Ex Ex0 expr0n.
have Enb2 : nb ^+ 2 = 1.
  move/eqP: Enb4; rewrite sqrf_eq1 => /orP[/eqP //|/eqP E].
  by case/eqP: Hm1; rewrite E.
have Es : conj (b ^+ 2 * a) = b ^+ 2 * a.
  rewrite -frob {1}pE -mE exprSr -mul2n exprM Es2 -rmorphX.
  by rewrite mE -muln2 exprM -Enb Enb2 rmorph1 mul1r.
have Ec1 := in_base Es H2; set s := b ^+ 2 * a in Es2 Es Ec1 *.
have Es0 : s = inj beta (c0 s) by rewrite {1}(eltE s) Ec1 rmorph0 mul0r addr0.
have Ey : c0 s ^+ m = nb.
  by apply: (@injP _ beta); rewrite rmorphX /= -Es0 mE -mul2n exprM Es2 -rmorphX Enb.
have bU : b ^+ 2 * (b ^+ p) ^+ 2 = 1 by rewrite -exprMn mulrC Ebqb -rmorphX Enb2 rmorph1.
case: fq2_eqP => [E1|/eqP Hne].
  have Nb1 : nb = 1 by apply: (@injP _ beta); rewrite -Ebqb E1 fq2_oneE rmorph1.
  rewrite Ec1 eqxx; have := Hsqrt (c0 s).
  have [z Ez] := euler_square charF fermat Podd (etrans Ey Nb1).
  case: (q_sqrt k _) => [y Ey2|/(_ z)]; last by rewrite Ez eqxx.
  exists (Some (fq2_mul_by_0 (b ^+ p) y)) => //; rewrite fq2_mul_by_0E exprMn -rmorphX Ey2 /= -Es0 /s.
  by rewrite mulrA [_ * b ^+ 2]mulrC bU mul1r.
have NbN1 : nb = -1.
  move/eqP: Enb2; rewrite sqrf_eq1 => /orP[/eqP E|/eqP //].
  by case/eqP: Hne; rewrite Ebqb E rmorph1.
rewrite Hf1 eqxx fq2_mul_by_0E; set f0 := c0 (f_precomputed k); set e1 := c1 (e_precomputed k).
have -> : s * inj beta f0 = inj beta (c0 s * f0) by rewrite {1}Es0 -rmorphM.
have Ef : f0 ^+ m = -1.
  have He1 : e1 != 0 by apply: contraTneq (oner_neq0 F) => E; rewrite -Hef -/e1 E expr0n mul0r mulr0 eqxx.
  have : (f0 * (e1 ^+ 2 * beta)) ^+ m = 1 ^+ m by rewrite Hef.
  rewrite exprMn [(e1 ^+ 2 * _) ^+ m]exprMn expr1n -exprM mul2n -(p_pred Podd).
  rewrite pow_p_pred // mul1r euler mulrN1 => /eqP; rewrite eqr_oppLR => /eqP ->.
  by [].
have [z Ez] : exists z, z ^+ 2 = c0 s * f0.
  by apply: (euler_square charF fermat Podd); rewrite exprMn -/m Ey Ef NbN1 mulrN1 opprK.
rewrite /= eqxx He0 eqxx; have := Hsqrt (c0 s * f0).
case: (q_sqrt k _) => [y Ey2|/(_ z)]; last by rewrite Ez eqxx.
eexists; first by [].
have Eu : (Fq2 0 e1 : T) ^+ 2 = inj beta (e1 ^+ 2 * beta).
  have -> : Fq2 0 e1 = inj beta e1 * Fq2 0 1 :> T by congr Fq2; rewrite /= !(mul0r, mulr0, addr0, mulr1, add0r).
  by rewrite exprMn u_squared -!rmorphX -rmorphM.
rewrite fq2_mul_by_1E fq2_mul_by_0E !exprMn Eu -rmorphX Ey2 -mulrA -rmorphM -mulrA Hef mulr1 /= -Es0 /s.
by rewrite mulrA [_ * b ^+ 2]mulrC bU mul1r.
Qed.
End Sqrt.
