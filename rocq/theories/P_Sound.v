(** Rational combinations of polynomials with random coefficients: if the
    combination agrees with a polynomial for two values of one coefficient, then
    the corresponding divisor divides. *)
From mathcomp Require Import all_ssreflect all_algebra.
From Verif Require Import SpecAir SpecStark SpecSound.

Set Implicit Arguments.
Unset Strict Implicit.
Unset Printing Implicit Defensive.
Import GRing.Theory.
Local Open Scope ring_scope.

Lemma big_zip_nth (R : zmodType) A B (s : seq A) (t : seq B) x0 y0 (f : A * B -> R) : size s = size t ->
  \sum_(p <- zip s t) f p = \sum_(i < size s) f (nth x0 s i, nth y0 t i).
Proof.
move=> Hs; rewrite (big_nth (x0, y0)) size_zip -Hs minnn big_mkord.
by apply: eq_bigr => i _; rewrite nth_zip.
Qed.

Section Sound.
Variable F : fieldType.
Implicit Types (g p : {poly F}).

(** Polynomials that agree at many points. *)
Lemma agree_eq (p q : {poly F}) (zs : seq F) B : (size p <= B)%N -> (size q <= B)%N -> uniq zs -> (B <= size zs)%N ->
  (forall z, z \in zs -> p.[z] = q.[z]) -> p = q.
Proof.
move=> Hp Hq Hu HB He; apply/eqP; rewrite -subr_eq0; apply/eqP.
apply: (@roots_geq_poly_eq0 _ _ zs) => //.
  by apply/allP => z Hz; rewrite rootE hornerD hornerN He // subrr.
apply: leq_trans HB; apply: leq_trans (size_add _ _) _.
by rewrite size_opp geq_max Hp Hq.
Qed.

(** An item: numerator, divisor, cofactor of the divisor in [Z], and the
    declared degree. *)
Record item := Item { it_num : {poly F}; it_div : {poly F}; it_cof : {poly F}; it_deg : nat }.
Definition item0 := Item 0 1 0 0.

Section Comb.
Variables (Z : {poly F}) (D : nat) (items : seq item).
Hypothesis Hsplit : forall i, (i < size items)%N ->
  it_div (nth item0 items i) * it_cof (nth item0 items i) = Z.

Definition comb_at (chs : seq (F * F)) (z : F) : F :=
  \sum_(x <- zip items chs) (it_num x.1).[z] * (weight D (it_deg x.1) x.2).[z] * (it_div x.1).[z]^-1.

Definition comb_poly (chs : seq (F * F)) : {poly F} :=
  \sum_(i < size items) it_num (nth item0 items i) * weight D (it_deg (nth item0 items i)) (nth (0, 0) chs i) *
     it_cof (nth item0 items i).

Lemma comb_cleared chs z : size chs = size items -> Z.[z] != 0 -> Z.[z] * comb_at chs z = (comb_poly chs).[z].
Proof.
move=> Hs Hz; rewrite /comb_at (@big_zip_nth _ _ _ _ _ item0 (0, 0)) // mulr_sumr horner_sum.
apply: eq_bigr => i _; rewrite /= !hornerM -{1}(Hsplit (ltn_ord i)) hornerM.
have Hd : (it_div (nth item0 items i)).[z] != 0.
  by apply: contraNneq Hz => E; rewrite -(Hsplit (ltn_ord i)) hornerM E mul0r.
move: Hd; move: (it_div _).[z] (it_num _).[z] (weight _ _ _).[z] (it_cof _).[z] => a b c e Hd.
have -> : a * e * (b * c / a) = e * (a * (b * c / a)) by rewrite [RHS]mulrA [e * a]mulrC.
by rewrite [a * _]mulrCA mulfV // mulr1 mulrC.
Qed.

Definition agrees (N B : nat) (chs : seq (F * F)) : Prop :=
  exists (g : {poly F}) (zs : seq F), [/\ (size g <= N)%N, uniq zs, (B <= size zs)%N &
    forall z, z \in zs -> Z.[z] != 0 /\ comb_at chs z = g.[z]].

Lemma agrees_comb N B chs : size chs = size items -> (N + (size Z).-1 <= B)%N ->
  (forall i, (i < size items)%N -> (size (it_num (nth item0 items i) *
     weight D (it_deg (nth item0 items i)) (nth (0, 0) chs i) * it_cof (nth item0 items i))%R <= B)%N) ->
  agrees N B chs -> exists g, g * Z = comb_poly chs.
Proof.
move=> Hs HB Hi [g [zs [Hg Hu Hz He]]]; exists g; apply: (agree_eq (B := B) _ _ Hu Hz).
- case: (eqVneq g 0) => [->|g0]; first by rewrite mul0r size_poly0.
  case: (eqVneq Z 0) => [->|Z0]; first by rewrite mulr0 size_poly0.
  rewrite size_mul //; apply: leq_trans HB.
  by rewrite -{1}(prednK (_ : 0 < size Z)%N) ?size_poly_gt0 // addnS leq_add2r.
- rewrite /comb_poly; apply: (big_ind (fun p => size p <= B)%N) => [|p q Hp Hq|i _]; first by rewrite size_poly0.
    by apply: leq_trans (size_add _ _) _; rewrite geq_max Hp Hq.
  exact: Hi.
move=> z /He [Hz0 Ez]; by rewrite -comb_cleared // Ez hornerM mulrC.
Qed.

Lemma weight_alpha deg a a' b : weight D deg (a, b) - weight D deg (a', b) = (a - a') *: 'X^(D - deg) :> {poly F}.
Proof.
rewrite /weight /=; case: eqP => [->|_]; first by rewrite -polyCB expr0 -mul_polyC mulr1.
by rewrite opprD addrACA subrr addr0 -scalerBl.
Qed.

(** The divisor of an item divides its numerator, up to a power of [X], if the
    combination is a polynomial for two values of the coefficient. *)
Lemma two_alphas (chs : seq (F * F)) j a a' g g' : (j < size items)%N -> size chs = size items -> Z != 0 -> a != a' ->
  g * Z = comb_poly (with_alpha chs j a) -> g' * Z = comb_poly (with_alpha chs j a') ->
  it_div (nth item0 items j) %| 'X^(D - it_deg (nth item0 items j)) * it_num (nth item0 items j).
Proof.
move=> Hj Hs HZ Ha E E'.
have : (g - g') * Z = comb_poly (with_alpha chs j a) - comb_poly (with_alpha chs j a').
  by rewrite mulrBl E E'.
rewrite /comb_poly -sumrB (bigD1 (Ordinal Hj)) //= big1 ?addr0; last first.
  move=> i Hi; rewrite -mulrBl -mulrBr !nth_set_nth /= (_ : (i == j :> nat) = false) ?subrr ?mulr0 ?mul0r //.
  exact: negbTE.
rewrite -mulrBl -mulrBr !nth_set_nth /= !eqxx weight_alpha -(Hsplit Hj) !mulrA.
set it := nth _ _ _; have Hc : it_cof it != 0 by apply: contraNneq HZ => E0; rewrite -(Hsplit Hj) -/it E0 mulr0.
move/(mulIf Hc) => Eq.
rewrite -(dvdpZr _ _ (_ : a - a' != 0)) ?subr_eq0 // -mul_polyC mulrA mul_polyC mulrC -Eq.
exact: dvdp_mull.
Qed.
End Comb.
End Sound.
