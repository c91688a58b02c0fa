(** Property C49: the quadratic extension field. *)
From Coq Require Import NArith.
From mathcomp Require Import all_ssreflect all_algebra.
From Verif Require Import M_Base M_Field M_Fp2 P_Fp2 Instances Fr251.

Set Implicit Arguments.
Unset Strict Implicit.
Unset Printing Implicit Defensive.
Import GRing.Theory.
Local Open Scope ring_scope.

(** The specification is [elt2] and [modulus2] of P_Fp2.v: c0 + c1*u is the
    polynomial c0 + c1*X modulo X^2 - beta. *)
Section C49.
Variables (F : fieldType) (k : fq2_consts F).
Local Notation beta := (non_residue k).
Implicit Types (a b : fq2 F) (x : F).

(** * Ring operations *)
Theorem C49_ring a b :
  [/\ elt2 (fq2_zero F) = 0, elt2 (fq2_one F) = 1,
      elt2 (fq2_add a b) = elt2 a + elt2 b,
      elt2 (fq2_sub a b) = elt2 a - elt2 b &
      elt2 (fq2_negate a) = - elt2 a] /\
  [/\ elt2 (fq2_double a) = elt2 a + elt2 a,
      elt2 (fq2_mul k a b) = elt2 a * elt2 b %% modulus2 beta,
      elt2 (fq2_square k a) = elt2 a ^+ 2 %% modulus2 beta &
      forall e, elt2 (fq2_pow k a e) = elt2 a ^+ N.to_nat e %% modulus2 beta].
Proof.
have M (c d : ext beta) : elt2 (c * d) = elt2 c * elt2 d %% modulus2 beta by rewrite elt2M.
have D (c d : fq2 F) : elt2 (fq2_add c d) = elt2 c + elt2 d.
  by rewrite /elt2 /= polyCD scalerDl addrACA.
have O (c : fq2 F) : elt2 (fq2_negate c) = - elt2 c.
  by rewrite /elt2 /= polyCN scaleNr opprD.
split; split=> //.
- by rewrite /elt2 /= polyC0 scale0r addr0.
- by rewrite /elt2 /= scale0r addr0.
- by rewrite -O -D.
- by rewrite -D.
- by rewrite (fq2_mulE (k := k)) M.
- by rewrite (fq2_squareE (k := k)) expr2 M expr2.
move=> e; rewrite (fq2_powE (k := k)); elim: (N.to_nat e) => [|n IH].
  by rewrite !expr0 -[1 in RHS](_ : elt2 (Fq2 1 0) = 1) ?elt2_mod // /elt2 /= scale0r addr0.
by rewrite !exprS M IH modp_mul.
Qed.

(** Distinct pairs are distinct elements, and equality is decided. *)
Theorem C49_eq a b : (fq2_eq a b <-> a = b) /\ (elt2 a = elt2 b <-> a = b) /\ (fq2_is_zero a <-> elt2 a = 0).
Proof.
split; first by split=> [/(fq2_eqP (k := k))|/(fq2_eqP (k := k))].
split; first by split=> [/elt2_inj|->].
split=> [/(fq2_is_zeroP (k := k)) ->|E].
  by rewrite /elt2 /= polyC0 scale0r addr0.
apply/(fq2_is_zeroP (k := k)); apply: elt2_inj; rewrite E.
by rewrite /elt2 /= polyC0 scale0r addr0.
Qed.

(** The sparse products are the products with x and with x*u. *)
Theorem C49_sparse a x :
  elt2 (fq2_mul_by_0 a x) = elt2 a * x%:P %% modulus2 beta /\
  elt2 (fq2_mul_by_1 k a x) = elt2 a * (x *: 'X) %% modulus2 beta.
Proof.
rewrite (fq2_mul_by_0E (k := k)) (fq2_mul_by_1E (k := k)) -!elt2M.
by rewrite /elt2 /= scale0r addr0 add0r.
Qed.

(** * Inverse *)
(** Every element but zero has an inverse, and it is returned. *)
Theorem C49_inverse a : (forall x, x ^+ 2 != beta) ->
  (a = fq2_zero F -> fq2_inverse k a = None) /\
  (a <> fq2_zero F -> exists2 b, fq2_inverse k a = Some b & elt2 a * elt2 b %% modulus2 beta = 1).
Proof.
move=> Hb; split=> [-> |Ha]; first by rewrite /fq2_inverse /fq2_is_zero /= eqxx.
have := fq2_inverseP a Hb; case: (fq2_inverse k a) => [b E|//]; exists b => //.
by rewrite elt2M E /elt2 /= scale0r addr0.
Qed.

(** * Norm *)
(** The norm of c0 + c1*u is the product with the conjugate, c0^2 - beta*c1^2. *)
Definition is_norm a x : Prop :=
  x%:P = elt2 a * ((c0 a)%:P - c1 a *: 'X) %% modulus2 beta.

Lemma is_normE a x : is_norm a x <-> x = c0 a ^+ 2 - beta * c1 a ^+ 2.
Proof.
have E : (c0 a)%:P - c1 a *: 'X = elt2 (conj (a : ext beta)) by rewrite /elt2 /= scaleNr.
have I y : y%:P = elt2 (inj beta y) by rewrite /elt2 /= scale0r addr0.
by rewrite /is_norm E elt2M mul_conj I; split=> [/elt2_inj [->]|->].
Qed.

(** The claim "norm returns the norm and is multiplicative" ... *)
Definition C49_norm_statement : Prop :=
  (forall a, is_norm a (fq2_norm k a)) /\
  (forall a b, fq2_norm k (fq2_mul k a b) = fq2_norm k a * fq2_norm k b).

(** ... is false for every field of odd characteristic, because of a wrong sign:
    what is returned is the norm only for the elements of the base field. *)
Theorem C49_norm_partial a : (2%:R : F) != 0 -> beta != 0 ->
  (is_norm a (fq2_norm k a) <-> c1 a = 0).
Proof.
move=> H2 Hb; rewrite is_normE /fq2_norm mulrC addrC; split=> [/addrI/eqP|->].
  rewrite -subr_eq0 opprK -mulr2n -mulr_natl mulf_eq0 (negbTE H2) /= mulf_eq0 (negbTE Hb) /=.
  by rewrite sqrf_eq0 => /eqP.
by rewrite expr0n !mulr0 oppr0.
Qed.

Theorem C49_norm_refuted : (2%:R : F) != 0 -> beta != 0 ->
  ~ is_norm (Fq2 0 1) (fq2_norm k (Fq2 0 1)) /\
  ~ (forall a b, fq2_norm k (fq2_mul k a b) = fq2_norm k a * fq2_norm k b).
Proof.
move=> H2 Hb; split; first by move/(C49_norm_partial _ H2 Hb) => /eqP; rewrite oner_eq0.
move/(_ (Fq2 1 1) (Fq2 1 1)); rewrite (fq2_mulE (k := k)) /fq2_norm /= !mul1r !expr1n !mul1r -expr2.
move/eqP; rewrite -[X in _ == X]addr0 [beta + 1]addrC addrC (inj_eq (addrI _)).
by rewrite -[1 + 1]/(2%:R : F) mulf_eq0 (negbTE Hb) orbF expf_eq0 (negbTE H2) andbF.
Qed.

(** * Square root *)
(** F is the prime field of p elements. *)
Definition prime_field (p : nat) : Prop :=
  p \in [char F] /\ forall x, exists n : nat, x = n%:R.

(** What the constants have to satisfy: beta is not a square, the exponents are
    right, f is in the base field, e is in base field times u, and f*e^2 = 1;
    the square root in the base field is trusted (ff derive macro). *)
Definition fq2_consts_ok (p : nat) : Prop :=
  [/\ prime_field p /\ (p %% 4 = 1)%N,
      forall x, x ^+ 2 != beta,
      N.to_nat (q_char k) = p /\ (4 * N.to_nat (q_minus_one_by_four k) + 1 = p)%N,
      [/\ minus_one_fp2 k = Fq2 (-1) 0, c1 (f_precomputed k) = 0, c0 (e_precomputed k) = 0 &
          elt2 (f_precomputed k) * elt2 (e_precomputed k) ^+ 2 %% modulus2 beta = 1] &
      forall x, if q_sqrt k x is Some y then y ^+ 2 = x else forall y, y ^+ 2 != x].

Lemma prime_field_fermat p : prime_field p -> forall x, x ^+ p = x.
Proof.
case=> charF H x; have [n ->] := H x.
by rewrite -(Frobenius_autE charF) Frobenius_aut_nat.
Qed.

(** [sqrt] does not panic, returns a square root of every square and [None] for
    every other element. *)
Theorem C49_sqrt p a : fq2_consts_ok p ->
  (exists2 x : fq2 F, fq2_sqrt k a = Ok (Some x) & elt2 x ^+ 2 %% modulus2 beta = elt2 a) \/
  (fq2_sqrt k a = Ok None /\ forall x : fq2 F, elt2 x ^+ 2 %% modulus2 beta <> elt2 a).
Proof.
case=> [[Hpf H4] Hnr [Hq Hf] [Hm Hf1 He0 Hef] Hs].
have fermat := prime_field_fermat Hpf; have [charF _] := Hpf.
have Podd := p_oddP H4.
have Hb0 : beta != 0 by apply: contra (Hnr 0) => /eqP ->; rewrite expr0n.
have euler : beta ^+ p.-1./2 = -1.
  have : beta ^+ p.-1./2 ^+ 2 == 1 by rewrite -exprM muln2 -(p_pred Podd) pow_p_pred.
  rewrite sqrf_eq1 => /orP[/eqP E|/eqP //].
  by have [y Ey] := euler_square charF fermat Podd E; case/eqP: (Hnr y).
have Hfour : N.to_nat (q_minus_one_by_four k) = (p.-1 %/ 4)%N by rewrite -Hf addn1 /= mulKn.
have Hef' : c0 (f_precomputed k) * (c1 (e_precomputed k) ^+ 2 * beta) = 1.
  move: Hef; rewrite -modp_mul expr2 elt2M elt2M.
  case: (f_precomputed k) (e_precomputed k) Hf1 He0 => [f0 f1] [e0 e1] /= -> ->.
  rewrite -[1 in X in X -> _](_ : elt2 (Fq2 1 0) = 1); last by rewrite /elt2 /= scale0r addr0.
  by move/elt2_inj => [] + _; rewrite !(mul0r, addr0, add0r) -expr2.
have [r Er H] := fq2_sqrtP charF fermat H4 euler Hq Hfour Hm Hf1 He0 Hef' Hs a.
have S (x : ext beta) : elt2 x ^+ 2 %% modulus2 beta = elt2 (x ^+ 2) by rewrite expr2 elt2M -expr2.
case: r Er H => [x|] Er H; [left; exists x => //|right; split=> // x].
  by rewrite S H.
by rewrite S => /elt2_inj E; case/eqP: (H x).
Qed.

(** * Legendre symbol *)
(** The claim: an element is reported as a quadratic residue exactly when it is a
    nonzero square. *)
Definition C49_legendre_statement : Prop := forall p a, fq2_consts_ok p -> a <> fq2_zero F ->
  fq2_legendre k a = QuadraticResidue <-> exists x : fq2 F, elt2 x ^+ 2 %% modulus2 beta = elt2 a.
End C49.

(** * The constants of the code *)
(** src/experiments/square_root_calculator/fp2.rs:10-91 are arrays of 64-bit limbs,
    least significant first; field elements are in Montgomery form, x * 2^256. *)
Fixpoint limbs (l : seq N) : N := if l is x :: l then (x + 2 ^ 64 * limbs l)%num else 0%num.
Definition of_raw (l : seq N) : F251 := (N.to_nat (limbs l))%:R / 2%:R ^+ 256.

Definition code_consts (fq_sqrt : F251 -> option F251) : fq2_consts F251 := {|
  non_residue := of_raw [:: 0xffffffffffffffa1; 0xffffffffffffffff; 0xffffffffffffffff; 0x07fffffffffff9b0]%num;
  q_minus_one_by_four := limbs [:: 0x0; 0x0; 0x4000000000000000; 0x200000000000004]%num;
  e_precomputed := Fq2 (of_raw [:: 0; 0; 0; 0]%num)
    (of_raw [:: 0xb11079dbfdb6981f; 0x701bb8e5e5b53751; 0x6fe88e46d707bcab; 0x02365bb6d67e6298]%num);
  f_precomputed := Fq2
    (of_raw [:: 0xffffffffffffff41; 0xffffffffffffffff; 0xffffffffffffffff; 0x07fffffffffff350]%num)
    (of_raw [:: 0; 0; 0; 0]%num);
  minus_one_fp2 := Fq2 (of_raw [:: 0x20; 0; 0; 0x220]%num) (of_raw [:: 0; 0; 0; 0]%num);
  q_char := P251;
  q_sqrt := fq_sqrt |}.

Lemma of_rawE l (n : N) : ((limbs l mod P251) =? ((n * 2 ^ 256) mod P251))%num ->
  of_raw l = (N.to_nat n)%:R.
Proof.
move/F251_eq => E; rewrite /of_raw E to_natM to_natX natrM natrX mulfK //.
by rewrite expf_neq0 //; exact: F251_small.
Qed.

Lemma to_nat_p : N.to_nat P251 = p251. Proof. by rewrite p251E. Qed.

Lemma p251_four : (4 * N.to_nat (limbs [:: 0x0; 0x0; 0x4000000000000000; 0x200000000000004]%num) + 1 = p251)%N.
Proof.
have E : P251 = (4 * limbs [:: 0x0; 0x0; 0x4000000000000000; 0x200000000000004]%num + 1)%num by vm_compute.
by rewrite p251E E to_natD to_natM.
Qed.

Lemma p251_pred : p251.-1 = N.to_nat (P251 - 1).
Proof. by rewrite p251E -subn1 (N2Nat.inj_sub P251 1) minusE. Qed.

Lemma p251_half : p251.-1./2 = N.to_nat ((2 ^ 59 + 17) * 2 ^ 191).
Proof.
have E : (P251 - 1)%num = (2 * ((2 ^ 59 + 17) * 2 ^ 191))%num by vm_compute.
by rewrite p251_pred E (to_natM 2) mul2n doubleK.
Qed.

Lemma p251_minus_one : (p251.-1)%:R = -1 :> F251.
Proof. by rewrite -subn1 natrB ?prime_gt0 ?p251_prime // (charf0 (char_Fp p251_prime)) sub0r. Qed.

Lemma F251_prime_field : prime_field F251 p251.
Proof.
split=> [|x]; first exact: char_Fp p251_prime.
by exists (nat_of_ord (x : 'F_p251)); rewrite natr_Zp.
Qed.

Lemma p251_mod4 : (p251 %% 4 = 1)%N.
Proof. by rewrite -p251_four mulnC modnMDl. Qed.

Lemma three_non_residue (x : F251) : x ^+ 2 != 3%:R.
Proof.
have [charF _] := F251_prime_field.
apply: (beta_non_residue charF (prime_field_fermat F251_prime_field) (p_oddP p251_mod4)).
by rewrite p251_half; exact: three_euler.
Qed.

Lemma raw_zero : of_raw [:: 0; 0; 0; 0]%num = 0.
Proof. exact: (@of_rawE _ 0). Qed.
Lemma raw_non_residue :
  of_raw [:: 0xffffffffffffffa1; 0xffffffffffffffff; 0xffffffffffffffff; 0x07fffffffffff9b0]%num = (N.to_nat 3)%:R.
Proof. by apply: of_rawE; vm_compute. Qed.
Lemma raw_minus_one : of_raw [:: 0x20; 0; 0; 0x220]%num = -1.
Proof. by rewrite -p251_minus_one p251_pred; apply: of_rawE; vm_compute. Qed.
Lemma raw_f :
  of_raw [:: 0xffffffffffffff41; 0xffffffffffffffff; 0xffffffffffffffff; 0x07fffffffffff350]%num = (N.to_nat 6)%:R.
Proof. by apply: of_rawE; vm_compute. Qed.
Definition e251 : N := 2599127771280771111494737816600757520908996875452096623836955028922386980563.
Lemma raw_e :
  of_raw [:: 0xb11079dbfdb6981f; 0x701bb8e5e5b53751; 0x6fe88e46d707bcab; 0x02365bb6d67e6298]%num = (N.to_nat e251)%:R.
Proof. by apply: of_rawE; vm_compute. Qed.
Lemma e251_ok : (N.to_nat 6)%:R * ((N.to_nat e251)%:R * (N.to_nat e251)%:R * (N.to_nat 3)%:R) = 1 :> F251.
Proof.
have G (a b c d : N) : (N.to_nat (a * (b * c * d)))%:R =
    (N.to_nat a)%:R * ((N.to_nat b)%:R * (N.to_nat c)%:R * (N.to_nat d)%:R) :> F251.
  by rewrite !to_natM !natrM.
have H1 : (N.to_nat 1)%:R = 1 :> F251 by [].
refine (etrans (esym (G 6%num e251 e251 3%num)) (etrans (@F251_eq _ 1%num _) H1)).
by vm_compute.
Qed.

(** * The constants of the code are right *)
(** The general statement of the next theorem; [of_raw] values are made opaque. *)
Lemma consts_ok_of (b f0 e1 : F251) fq_sqrt q4 pc :
  N.to_nat pc = p251 -> b = 3%:R -> f0 * (e1 * e1 * b) = 1 -> (4 * N.to_nat q4 + 1 = p251)%N ->
  (forall x, if fq_sqrt x is Some y then y ^+ 2 = x else forall y, y ^+ 2 != x) ->
  fq2_consts_ok (Fq2Consts b q4 (Fq2 0 e1) (Fq2 f0 0) (Fq2 (-1) 0) pc fq_sqrt) p251.
Proof.
move=> Hc Eb Ef Hq Hs; split=> //=.
- by split; [exact: F251_prime_field | exact: p251_mod4].
- by rewrite Eb; exact: three_non_residue.
split=> //; rewrite -modp_mul expr2 elt2M elt2M.
suff -> : (Fq2 f0 0 : ext b) * ((Fq2 0 e1 : ext b) * (Fq2 0 e1 : ext b)) = 1 by rewrite /elt2 /= scale0r addr0.
by rewrite /GRing.mul /= /emul /= !(mul0r, mulr0, addr0, add0r) Ef.
Qed.

Theorem C49_code_consts fq_sqrt :
  (forall x, if fq_sqrt x is Some y then y ^+ 2 = x else forall y, y ^+ 2 != x) ->
  fq2_consts_ok (code_consts fq_sqrt) p251.
Proof.
move=> Hs; rewrite /code_consts raw_zero raw_non_residue raw_minus_one raw_f raw_e.
apply: consts_ok_of; [exact: to_nat_p | exact: erefl | exact: e251_ok | exact: p251_four | exact: Hs].
Qed.

(** The square root of the code, with its constants, over its field. *)
Theorem C49_sqrt_code fq_sqrt (a : fq2 F251) :
  (forall x, if fq_sqrt x is Some y then y ^+ 2 = x else forall y, y ^+ 2 != x) ->
  let k := code_consts fq_sqrt in
  (exists2 x : fq2 F251, fq2_sqrt k a = Ok (Some x) & elt2 x ^+ 2 %% modulus2 (non_residue k) = elt2 a) \/
  (fq2_sqrt k a = Ok None /\ forall x : fq2 F251, elt2 x ^+ 2 %% modulus2 (non_residue k) <> elt2 a).
Proof. by move=> Hs k; apply: C49_sqrt; exact: C49_code_consts. Qed.

(** * The field of 257 elements *)
Definition all257 : seq F257 := [seq mk257 (N.of_nat n) | n <- iota 0 257].
Definition sqrt257 (x : F257) : option F257 := ohead [seq y <- all257 | y ^+ 2 == x].
Definition k257 : fq2_consts F257 :=
  Fq2Consts (mk257 3) 64 (Fq2 0 (mk257 10)) (Fq2 (mk257 6) 0) (Fq2 (mk257 256) 0) 257 sqrt257.

Lemma mem_all257 (x : F257) : x \in all257.
Proof.
apply/mapP; exists (z257_nat x); first by rewrite mem_iota z_lt.
by apply: z257_nat_inj; rewrite {2}/z257_nat /= modnN Nnat.Nat2N.id modn_small // z_lt.
Qed.

Lemma sqrt257P (x : F257) : if sqrt257 x is Some y then y ^+ 2 = x else forall y, y ^+ 2 != x.
Proof.
rewrite /sqrt257; case E : [seq y <- all257 | _] => [|y s] /=.
  by move=> y; apply/negP => Hy; have := mem_filter (fun y => y ^+ 2 == x) y all257; rewrite E Hy mem_all257.
have : y \in [seq y <- all257 | y ^+ 2 == x] by rewrite E mem_head.
by rewrite mem_filter => /andP[/eqP].
Qed.

Lemma non_residue257 : all (fun y : F257 => ~~ (zv (y * y)%R =? 3)%num) all257.
Proof. by vm_compute. Qed.

Lemma nat257 (x : F257) : x = (z257_nat x)%:R.
Proof. by apply: z_in_inj; rewrite z_in_nat. Qed.

Example C49_ex_consts : fq2_consts_ok k257 257.
Proof.
split.
- split=> //; split; last by move=> x; exists (z257_nat x); exact: nat257.
  by apply/andP; split=> //; apply/eqP; apply: val_inj; vm_compute.
- move=> x; apply/eqP => E; move/allP: non_residue257 => /(_ _ (mem_all257 x)).
  by rewrite -expr2 E.
- by [].
- split=> //.
  rewrite -modp_mul expr2 elt2M elt2M; set m := (_ * _ : ext _).
  have -> : m = Fq2 1 0 by apply: (can_inj (@fq2_pairK F257)); apply/eqP; vm_compute.
  by rewrite /elt2 /= scale0r addr0.
- exact: sqrt257P.
Qed.

(** A square and its root; an element that is not a square. *)
Definition show (r : outcome (option (fq2 F257))) : option (option (nat * nat)) :=
  if r is Ok x then Some (omap (fun x => (z257_nat (c0 x), z257_nat (c1 x))) x) else None.
Example C49_ex_sqrt :
  show (fq2_sqrt k257 (fq2_square k257 (Fq2 (mk257 5) (mk257 7)))) = Some (Some (252, 250))%N /\
  show (fq2_sqrt k257 (Fq2 (mk257 1) (mk257 4))) = Some None.
Proof. by vm_compute. Qed.

(** * The Legendre symbol is wrong *)
(** 1 + 4u is not a square, but reported as a residue; the wrong norm is 49. *)
Theorem C49_legendre_refuted : ~ C49_legendre_statement k257.
Proof.
move=> H0; have H := H0 257%N (Fq2 (mk257 1) (mk257 4)) C49_ex_consts.
have Ha : Fq2 (mk257 1) (mk257 4) <> fq2_zero F257 by move/(congr1 (fun a => z257_nat (c0 a))); vm_compute.
have L : fq2_legendre k257 (Fq2 (mk257 1) (mk257 4)) = QuadraticResidue by vm_compute.
have [x Ex] : exists x : fq2 F257, elt2 x ^+ 2 %% modulus2 (non_residue k257) = elt2 (Fq2 (mk257 1) (mk257 4)).
  by apply/(H Ha).
have E : show (fq2_sqrt k257 (Fq2 (mk257 1) (mk257 4))) = Some None by case: C49_ex_sqrt.
case: (C49_sqrt (Fq2 (mk257 1) (mk257 4)) C49_ex_consts) => [[y Ey _]|[_ /(_ x)]].
  by move: E; rewrite Ey.
by apply.
Qed.

(** ... and so is the norm of the test field. *)
Example C49_ex_norm : (2%:R : F257) != 0 /\ non_residue k257 != 0 /\
  z257_nat (fq2_norm k257 (fq2_square k257 (Fq2 1 1))) <> z257_nat (fq2_norm k257 (Fq2 1 1) ^+ 2).
Proof. by vm_compute. Qed.

Print Assumptions C49_ring.
Print Assumptions C49_eq.
Print Assumptions C49_sparse.
Print Assumptions C49_inverse.
Print Assumptions C49_norm_partial.
Print Assumptions C49_norm_refuted.
Print Assumptions C49_sqrt.
Print Assumptions C49_code_consts.
Print Assumptions C49_sqrt_code.
Print Assumptions C49_legendre_refuted.
