(** Properties C47 and C48: the VDF instances. *)
From mathcomp Require Import all_ssreflect all_algebra.
From Verif Require Import M_Base M_Field M_Air M_Arp M_Vdf SpecAir P_Base P_Air Instances.

Set Implicit Arguments.
Unset Strict Implicit.
Unset Printing Implicit Defensive.
Import GRing.Theory.
Local Open Scope ring_scope.

(** * Specification: the ring F[u]/(u^2 + 1) *)
Section Spec.
Variable F : fieldType.

(** The element c0 + c1*u is represented by the polynomial c0 + c1*X; two
    polynomials are the same element when they are congruent modulo X^2 + 1. *)
Definition elt (c : F * F) : {poly F} := c.1%:P + c.2 *: 'X.
Definition modulus : {poly F} := 'X^2 + 1.
Definition is_power (start : F * F) (e : nat) (c : F * F) : Prop :=
  elt c = elt start ^+ e %% modulus.
End Spec.

Section Vdf.
Variable F : fieldType.
Implicit Types (a b c : F * F) (s : F * F).

Lemma size_modulus : size (modulus F) = 3%N.
Proof. by rewrite /modulus size_addl ?size_polyXn // size_poly1. Qed.

Lemma size_elt a : (size (elt a) < size (modulus F))%N.
Proof.
rewrite size_modulus ltnS; apply: leq_trans (size_add _ _) _; rewrite geq_max.
rewrite (leq_trans (size_polyC_leq1 _)) //=.
by apply: leq_trans (size_scale_leq _ _) _; rewrite size_polyX.
Qed.

Lemma elt_mod a : elt a %% modulus F = elt a.
Proof. by rewrite modp_small // size_elt. Qed.

Lemma elt_inj : injective (@elt F).
Proof.
move=> [a0 a1] [b0 b1] E; have C i := congr1 (fun p : {poly F} => p`_i) E.
have := C 0%N; have := C 1%N.
by rewrite /elt /= !coefD !coefC !coefZ !coefX /= !mulr0 !mulr1 !addr0 !add0r => -> ->.
Qed.

Lemma quad_mul (R : comRingType) (A0 A1 B0 B1 x : R) :
  (A0 + A1 * x) * (B0 + B1 * x) = A1 * B1 * (x ^+ 2 + 1) + (A0 * B0 - A1 * B1 + (A0 * B1 + A1 * B0) * x).
Proof.
rewrite 2!mulrDl !mulrDr mulr1 [A0 * B0 - _]addrC -!addrA addNKr.
rewrite [RHS]addrCA; congr (_ + _); rewrite [RHS]addrC -!addrA expr2 !mulrA.
by congr (_ + (_ + _)); [rewrite mulrAC | rewrite [A1 * x * B1]mulrAC].
Qed.

Lemma elt_mul a b : (elt a * elt b) %% modulus F = elt (ext_mul a b (- 1)).
Proof.
case: a b => [a0 a1] [b0 b1] /=.
have -> : elt (a0, a1) * elt (b0, b1) =
   (a1 * b1)%:P * modulus F + elt (a0 * b0 + a1 * b1 * - 1, a0 * b1 + a1 * b0).
  by rewrite /elt /modulus /= -!mul_polyC quad_mul mulrN1 !(polyCD, polyCM, polyCN).
by rewrite modp_addl_mul_small // size_elt.
Qed.

Lemma ext_squareE a r : ext_square a r = ext_mul a a r.
Proof. by case: a => a0 a1; rewrite /ext_square /ext_mul /= !expr2 [a1 * a0]mulrC. Qed.

Lemma is_power_inj s e a b : is_power s e a -> is_power s e b -> a = b.
Proof. by rewrite /is_power => <- H; apply: elt_inj. Qed.

Lemma is_power1 s : is_power s 1 s.
Proof. by rewrite /is_power expr1 elt_mod. Qed.

Lemma is_power_mul s e f a b : is_power s e a -> is_power s f b ->
  is_power s (e + f) (ext_mul a b (- 1)).
Proof. by rewrite /is_power -elt_mul => -> ->; rewrite modp_mul mulrC modp_mul mulrC exprD. Qed.

(** * The witnesses *)
(** Row [i] of the squaring chain and of the cubing chain. *)
Definition sq_row s i := iter i (fun v => ext_square v (- 1)) s.
Definition cube a := ext_mul (ext_square a (- 1)) a (- 1).
Definition cu_row s i := iter i cube s.

Lemma sq_row_power s i : is_power s (2 ^ i) (sq_row s i).
Proof.
elim: i => [|i IH]; first exact: is_power1.
by rewrite /sq_row iterS -/(sq_row s i) ext_squareE expnS mul2n -addnn; apply: is_power_mul.
Qed.

Lemma cu_row_power s i : is_power s (3 ^ i) (cu_row s i).
Proof.
elim: i => [|i IH]; first exact: is_power1.
rewrite /cu_row iterS -/(cu_row s i) /cube expnS mulSn mul2n -addnn addnC ext_squareE.
by do 2?apply: is_power_mul.
Qed.

(** A vector filled from the left. *)
Definition filled (f : nat -> F) (n k : nat) : seq F := mkseq (fun i => if (i <= k)%N then f i else 0) n.+1.

Lemma filled0 f n : set_nth 0 (nseq (n + 1) 0) 0 (f 0%N) = filled f n 0.
Proof.
apply: (@eq_from_nth _ 0); rewrite size_set_nth size_nseq addn1 ?size_mkseq (maxn_idPr _) //.
by move=> i Hi; rewrite nth_mkseq //; case: i Hi => [|i] Hi //=; rewrite nth_nseq if_same.
Qed.

Lemma filledS f n k : (k < n)%N -> set_nth 0 (filled f n k) k.+1 (f k.+1) = filled f n k.+1.
Proof.
move=> Hk; apply: (@eq_from_nth _ 0); rewrite size_set_nth ?size_mkseq (maxn_idPr _) //.
move=> i Hi; rewrite nth_set_nth !nth_mkseq //= [(i <= k.+1)%N]leq_eqVlt ltnS.
by case: eqP => [->|] //= _; rewrite nth_mkseq.
Qed.

Lemma filled_all (f : nat -> F) n : filled f n n = mkseq f n.+1.
Proof.
apply: (@eq_from_nth _ 0); rewrite size_mkseq ?size_mkseq // => i Hi.
by rewrite !nth_mkseq // -ltnS Hi.
Qed.

Lemma last_mkseq (f : nat -> F) n : last 0 (mkseq f n.+1) = f n.
Proof. by rewrite -nth_last size_mkseq nth_mkseq. Qed.

Lemma vdf_loop (s0 s1 : F) n k : (k <= n)%N ->
  let f0 i := (sq_row (s0, s1) i).1 in let f1 i := (sq_row (s0, s1) i).2 in
  foldl (fun st i =>
             let: (v, c0_witness, c1_witness) := st in
             let tmp := ext_square v (- 1) in
             (tmp, set_nth 0 c0_witness i.+1 tmp.1, set_nth 0 c1_witness i.+1 tmp.2))
        ((s0, s1), filled f0 n 0, filled f1 n 0) (iota 0 k) =
  (sq_row (s0, s1) k, filled f0 n k, filled f1 n k).
Proof.
move=> Hk f0 f1; elim: k Hk => [|k IH] Hk //.
by rewrite -(filledS f0 Hk) -(filledS f1 Hk) -[in LHS]addn1 iotaD foldl_cat IH ?(ltnW Hk).
Qed.

Definition sq_columns s n : seq (seq F) :=
  [:: mkseq (fun i => (sq_row s i).1) n.+1; mkseq (fun i => (sq_row s i).2) n.+1].

(** The constraints c0' - c0^2 + c1^2 and c1' - 2*c0*c1. *)
Definition sq_c0 : constraint F :=
  Constr 0 [:: Univariate (UTerm (- 1) (Reg 0) (Steps 0) 2); Univariate (UTerm (- (1 * - 1)) (Reg 1) (Steps 0) 2);
               Univariate (UTerm 1 (Reg 0) (Steps 1) 1)] 2 (Dense 0 1).
Definition sq_c1 : constraint F :=
  Constr 0 [:: Polyvariate (PTerm (- (1 * (1 + 1) * 1 * 1)) [:: UTerm 1 (Reg 0) (Steps 0) 1; UTerm 1 (Reg 1) (Steps 0) 1] 2);
               Univariate (UTerm 1 (Reg 1) (Steps 1) 1)] 2 (Dense 0 1).

Definition ends s n (last_row : F * F) : seq (boundary_constraint F) :=
  [:: Boundary (Reg 0) 0 (Some s.1); Boundary (Reg 1) 0 (Some s.2);
      Boundary (Reg 0) n (Some last_row.1); Boundary (Reg 1) n (Some last_row.2)].

Lemma vdf_arpE s n : vdf_into_arp s.1 s.2 n =
  Ok (Some (sq_columns s n), Props n.+1 2 [:: sq_c0; sq_c1] (ends s n (sq_row s n))).
Proof.
case: s => s0 s1; rewrite /vdf_into_arp /ut_pow /pt_mul_uni /= /u64_mul /u64_add /fits_u64 /=.
rewrite (filled0 (fun i => (sq_row (s0, s1) i).1)) (filled0 (fun i => (sq_row (s0, s1) i).2)).
rewrite vdf_loop // !filled_all /vdf_boundary !last_mkseq addn1.
by [].
Qed.

(** Row [i] of two columns. *)
Definition row2 (tr : seq (seq F)) (i : nat) : F * F := ((nth [::] tr 0)`_i, (nth [::] tr 1)`_i).

Lemma dense01 n i : dense_row 0 1 n i = (i.+1 < n)%N.
Proof. by rewrite /dense_row /= addn1. Qed.

(** Values of the constraints on a row: they say that the next row is the square. *)
Lemma sq_cvalP tr i :
  cval (row_env tr i) sq_c0 = 0 /\ cval (row_env tr i) sq_c1 = 0 <->
  row2 tr i.+1 = ext_square (row2 tr i) (- 1).
Proof.
rewrite /cval !big_cons !big_nil /= /uval /pval /= !big_cons big_nil /= /uval /= !addn0 !addn1 !expr1.
rewrite /row2 /ext_square /=; set x0 := (nth [::] tr 0)`_i; set x1 := (nth [::] tr 1)`_i.
set y0 := (nth [::] tr 0)`_i.+1; set y1 := (nth [::] tr 1)`_i.+1.
rewrite !(add0r, addr0, mul1r, mulr1) opprK mul1r mulrN1 mulN1r mulNr mulrDl mul1r.
split=> [[H0 H1]|[-> ->]]; last by rewrite [_ ^+ 2 + (_ - _)]addrC subrK !addNr.
congr (_, _).
- by move/eqP: H0; rewrite addrC subr_eq0 => /eqP <-; rewrite addrC addKr.
- by move/eqP: H1; rewrite addrC subr_eq0 => /eqP.
Qed.

(** C47: the instance has n+1 rows and two registers; its witness has the powers
    start^(2^i) as rows and passes the check. *)
Theorem C47_witness s n :
  exists props c0s c1s,
    [/\ vdf_into_arp s.1 s.2 n = Ok (Some [:: c0s; c1s], props),
        ip_num_rows props = n.+1 /\ ip_num_registers props = 2%N,
        size c0s = n.+1 /\ size c1s = n.+1,
        forall i, (i <= n)%N -> is_power s (2 ^ i) (c0s`_i, c1s`_i) &
        is_satisfied props [:: c0s; c1s] = Ok tt].
Proof.
rewrite vdf_arpE; do 3 eexists; split; [by []|by []| by rewrite !size_mkseq | |].
  by move=> i Hi; rewrite !nth_mkseq // -surjective_pairing; exact: sq_row_power.
apply/is_satisfiedP; rewrite -/(sq_columns s n).
have S0 : size (nth [::] (sq_columns s n) 0) = n.+1 by rewrite size_mkseq.
have S1 : size (nth [::] (sq_columns s n) 1) = n.+1 by rewrite size_mkseq.
have R i : (i <= n)%N -> row2 (sq_columns s n) i = sq_row s i.
  by move=> Hi; rewrite /row2 !nth_mkseq //; case: (sq_row s i).
have Hcols : size (sq_columns s n) = 2%N by [].
set tr := sq_columns s n in S0 S1 R Hcols *; clearbody tr.
rewrite /satisfied Hcols; split=> //=.
- have H i : dense_row 0 1 n.+1 i -> cval (row_env tr i) sq_c0 = 0 /\ cval (row_env tr i) sq_c1 = 0.
    by rewrite dense01 ltnS => Hi; apply/sq_cvalP; rewrite !R // ltnW.
  case=> [|[|k]] //= _; exists 0%N, 1%N; rewrite S0; split=> // i Hi; have [H0 H1] := H i Hi; split=> //;
    move: Hi; rewrite dense01 ltnS => Hi;
    by rewrite /c_in_trace /= /u_in_trace /= Hcols S0 S1 /= !addn0 addn1 !ltnS (ltnW Hi) Hi.
- have B0 i (Hi : (i <= n)%N) : (nth [::] tr 0)`_i = (sq_row s i).1 by rewrite -R.
  have B1 i (Hi : (i <= n)%N) : (nth [::] tr 1)`_i = (sq_row s i).2 by rewrite -R.
  case=> [|[|[|[|k]]]] //= _; [exists 0%N|exists 1%N|exists 0%N|exists 1%N] => // v [<-].
  + by rewrite Hcols S0 B0.
  + by rewrite Hcols S1 B1.
  + by rewrite Hcols S0 B0 // ltnSn.
  + by rewrite Hcols S1 B1 // ltnSn.
Qed.

(** Conversely: every trace, with any number of rows and however obtained, that
    passes the check has these powers in all of its rows, so in particular the
    last row is start^(2^n). *)
Theorem C47_satisfying_traces s n props wit (tr : seq (seq F)) :
  vdf_into_arp s.1 s.2 n = Ok (wit, props) -> is_satisfied props tr = Ok tt ->
  (n < size (nth [::] tr 0))%N /\
  forall i, (i < size (nth [::] tr 0))%N -> is_power s (2 ^ i) (row2 tr i).
Proof.
rewrite vdf_arpE => -[_ <-] /is_satisfiedP [_ Hc Hb].
have [a0 [b0 [[<- <-] _ H0]]] := Hc 0%N isT.
have [a1 [b1 [[<- <-] _ H1]]] := Hc 1%N isT.
have [r0 [<-] /(_ _ erefl) /= [_ _ B0]] := Hb 0%N isT.
have [r1 [<-] /(_ _ erefl) /= [_ _ B1]] := Hb 1%N isT.
have [r2 [<-] /(_ _ erefl) /= [_ Hn _]] := Hb 2%N isT.
split=> // i Hi; suff -> : row2 tr i = sq_row s i by exact: sq_row_power.
elim: i Hi => [|i IH] Hi; first by rewrite /row2 B0 B1; case: (s).
have D : dense_row 0 1 (size (nth [::] tr 0)) i by rewrite dense01.
rewrite /sq_row iterS -/(sq_row s i) -IH ?(ltnW Hi) //.
by apply/sq_cvalP; have [_ ->] := H0 i D; have [_ ->] := H1 i D.
Qed.

(** * The cubic instance *)

Lemma cubic_loop (s0 s1 : F) n k : (k <= n)%N ->
  let r i := cu_row (s0, s1) i in let q i := ext_square (r i) (- 1) in
  foldl (fun st i =>
             let: (v, v_squared, c0w, c1w, c0sw, c1sw) := st in
             let cubed := ext_mul v_squared v (- 1) in
             let tmp := ext_square cubed (- 1) in
             (cubed, tmp, set_nth 0 c0w i.+1 cubed.1, set_nth 0 c1w i.+1 cubed.2,
              set_nth 0 c0sw i.+1 tmp.1, set_nth 0 c1sw i.+1 tmp.2))
        ((s0, s1), ext_square (s0, s1) (- 1),
         filled (fun i => (r i).1) n 0, filled (fun i => (r i).2) n 0,
         filled (fun i => (q i).1) n 0, filled (fun i => (q i).2) n 0) (iota 0 k) =
  (r k, q k, filled (fun i => (r i).1) n k, filled (fun i => (r i).2) n k,
   filled (fun i => (q i).1) n k, filled (fun i => (q i).2) n k).
Proof.
move=> Hk r q; elim: k Hk => [|k IH] Hk //.
rewrite -(filledS (fun i => (r i).1) Hk) -(filledS (fun i => (r i).2) Hk).
rewrite -(filledS (fun i => (q i).1) Hk) -(filledS (fun i => (q i).2) Hk).
by rewrite -[in LHS]addn1 iotaD foldl_cat IH ?(ltnW Hk).
Qed.

Definition cu_columns s n : seq (seq F) :=
  [:: mkseq (fun i => (cu_row s i).1) n.+1; mkseq (fun i => (cu_row s i).2) n.+1;
      mkseq (fun i => (ext_square (cu_row s i) (- 1)).1) n.+1;
      mkseq (fun i => (ext_square (cu_row s i) (- 1)).2) n.+1].

(** The constraints q0 - c0^2 + c1^2, q1 - 2*c0*c1, c0' - c0*q0 + c1*q1 and c1' - c0*q1 - c1*q0. *)
Definition cu_c0 : constraint F :=
  Constr 0 [:: Univariate (UTerm (- 1) (Reg 0) (Steps 0) 2); Univariate (UTerm (- - 1) (Reg 1) (Steps 0) 2);
               Univariate (UTerm 1 (Reg 2) (Steps 0) 1)] 2 (Dense 0 1).
Definition cu_c1 : constraint F :=
  Constr 0 [:: Polyvariate (PTerm (- (1 + 1)) [:: UTerm 1 (Reg 0) (Steps 0) 1; UTerm 1 (Reg 1) (Steps 0) 1] 2);
               Univariate (UTerm 1 (Reg 3) (Steps 0) 1)] 2 (Dense 0 1).
Definition cu_c2 : constraint F :=
  Constr 0 [:: Polyvariate (PTerm (- 1) [:: UTerm 1 (Reg 0) (Steps 0) 1; UTerm 1 (Reg 2) (Steps 0) 1] 2);
               Polyvariate (PTerm (- - 1) [:: UTerm 1 (Reg 1) (Steps 0) 1; UTerm 1 (Reg 3) (Steps 0) 1] 2);
               Univariate (UTerm 1 (Reg 0) (Steps 1) 1)] 2 (Dense 0 1).
Definition cu_c3 : constraint F :=
  Constr 0 [:: Polyvariate (PTerm (- 1) [:: UTerm 1 (Reg 0) (Steps 0) 1; UTerm 1 (Reg 3) (Steps 0) 1] 2);
               Polyvariate (PTerm (- 1) [:: UTerm 1 (Reg 1) (Steps 0) 1; UTerm 1 (Reg 2) (Steps 0) 1] 2);
               Univariate (UTerm 1 (Reg 1) (Steps 1) 1)] 2 (Dense 0 1).

Lemma cubic_arpE s n : cubic_vdf_into_arp s.1 s.2 n =
  Ok (Some (cu_columns s n), Props n.+1 4 [:: cu_c0; cu_c1; cu_c2; cu_c3] (ends s n (cu_row s n))).
Proof.
case: s => s0 s1; rewrite /cubic_vdf_into_arp.
rewrite (filled0 (fun i => (cu_row (s0, s1) i).1)) (filled0 (fun i => (cu_row (s0, s1) i).2)).
rewrite (filled0 (fun i => (ext_square (cu_row (s0, s1) i) (- 1)).1)).
rewrite (filled0 (fun i => (ext_square (cu_row (s0, s1) i) (- 1)).2)).
rewrite cubic_loop // !filled_all /vdf_boundary !last_mkseq addn1.
by [].
Qed.

(** The last two columns of row [i]. *)
Definition row2' (tr : seq (seq F)) (i : nat) : F * F := ((nth [::] tr 2)`_i, (nth [::] tr 3)`_i).

Lemma shift_eq0 (a b c : F) : - a + (b + c) = 0 <-> c = a - b.
Proof.
split=> [/eqP|->]; last by rewrite [b + _]addrC subrK addNr.
by rewrite addrC subr_eq0 => /eqP <-; rewrite addrC addKr.
Qed.

Lemma shift_eq0' (a c : F) : - a + c = 0 <-> c = a.
Proof. by split=> [/eqP|->]; [rewrite addrC subr_eq0 => /eqP | rewrite addNr]. Qed.

Lemma cu_cvalP tr i :
  [/\ cval (row_env tr i) cu_c0 = 0, cval (row_env tr i) cu_c1 = 0,
      cval (row_env tr i) cu_c2 = 0 & cval (row_env tr i) cu_c3 = 0] <->
  row2' tr i = ext_square (row2 tr i) (- 1) /\ row2 tr i.+1 = ext_mul (row2' tr i) (row2 tr i) (- 1).
Proof.
rewrite /cval !big_cons !big_nil /= /uval /pval /= !big_cons big_nil /= /uval /= !addn0 !addn1 !expr1.
rewrite /row2 /row2' /ext_square /ext_mul /=; set x0 := (nth [::] tr 0)`_i; set x1 := (nth [::] tr 1)`_i.
set y0 := (nth [::] tr 0)`_i.+1; set y1 := (nth [::] tr 1)`_i.+1.
set q0 := (nth [::] tr 2)`_i; set q1 := (nth [::] tr 3)`_i.
rewrite !(add0r, addr0, mul1r, mulr1) !(mul1r, opprK, mulN1r, mulrN1) mulNr mulrDl mul1r.
have E3 : - (x0 * q1) + (- (x1 * q0) + y1) = 0 <-> y1 = q0 * x1 + q1 * x0.
  by rewrite addrA -opprD shift_eq0' addrC [q0 * _]mulrC [q1 * _]mulrC.
rewrite [q0 * x0]mulrC [q1 * x1]mulrC; split=> [[H0 H1 H2 H3] | [[H0 H1] [H2 H3]]].
  by split; congr (_, _); [apply/shift_eq0 | apply/shift_eq0' | apply/shift_eq0 | apply/E3].
by split; [apply/shift_eq0 | apply/shift_eq0' | apply/shift_eq0 | apply/E3].
Qed.

(** C48: the instance has n+1 rows and four registers; the first two columns of
    its witness have the powers start^(3^i) as rows, the other two the squares
    of these, and it passes the check. *)
Theorem C48_witness s n :
  exists props c0s c1s q0s q1s,
    [/\ cubic_vdf_into_arp s.1 s.2 n = Ok (Some [:: c0s; c1s; q0s; q1s], props),
        ip_num_rows props = n.+1 /\ ip_num_registers props = 4%N,
        [/\ size c0s = n.+1, size c1s = n.+1, size q0s = n.+1 & size q1s = n.+1],
        forall i, (i <= n)%N -> is_power s (3 ^ i) (c0s`_i, c1s`_i) /\
                                is_power s (2 * 3 ^ i) (q0s`_i, q1s`_i) &
        is_satisfied props [:: c0s; c1s; q0s; q1s] = Ok tt].
Proof.
rewrite cubic_arpE; do 5 eexists; split; [by []|by []| by rewrite !size_mkseq | |].
  move=> i Hi; rewrite !nth_mkseq // -!surjective_pairing; have H := cu_row_power s i; split=> //.
  by rewrite mul2n -addnn ext_squareE; apply: is_power_mul.
apply/is_satisfiedP; rewrite -/(cu_columns s n).
have S0 : size (nth [::] (cu_columns s n) 0) = n.+1 by rewrite size_mkseq.
have S1 : size (nth [::] (cu_columns s n) 1) = n.+1 by rewrite size_mkseq.
have S2 : size (nth [::] (cu_columns s n) 2) = n.+1 by rewrite size_mkseq.
have S3 : size (nth [::] (cu_columns s n) 3) = n.+1 by rewrite size_mkseq.
have R i : (i <= n)%N -> row2 (cu_columns s n) i = cu_row s i.
  by move=> Hi; rewrite /row2 !nth_mkseq //; case: (cu_row s i).
have R' i : (i <= n)%N -> row2' (cu_columns s n) i = ext_square (cu_row s i) (- 1).
  by move=> Hi; rewrite /row2' !nth_mkseq //; case: (ext_square _ _).
have Hcols : size (cu_columns s n) = 4%N by [].
set tr := cu_columns s n in S0 S1 S2 S3 R R' Hcols *; clearbody tr.
rewrite /satisfied Hcols; split=> //=.
- have H i : dense_row 0 1 n.+1 i -> 
      [/\ cval (row_env tr i) cu_c0 = 0, cval (row_env tr i) cu_c1 = 0,
          cval (row_env tr i) cu_c2 = 0 & cval (row_env tr i) cu_c3 = 0].
    by rewrite dense01 ltnS => Hi; apply/cu_cvalP; rewrite R' ?(ltnW Hi) // !R // ltnW.
  case=> [|[|[|[|k]]]] //= _; exists 0%N, 1%N; rewrite S0; split=> // i Hi; have [H0 H1 H2 H3] := H i Hi; split=> //;
    move: Hi; rewrite dense01 ltnS => Hi;
    by rewrite /c_in_trace /= /u_in_trace /= Hcols ?S0 ?S1 ?S2 ?S3 /= !addn0 ?addn1 !ltnS ?(ltnW Hi) ?Hi.
- have B0 i (Hi : (i <= n)%N) : (nth [::] tr 0)`_i = (cu_row s i).1 by rewrite -R.
  have B1 i (Hi : (i <= n)%N) : (nth [::] tr 1)`_i = (cu_row s i).2 by rewrite -R.
  case=> [|[|[|[|k]]]] //= _; [exists 0%N|exists 1%N|exists 0%N|exists 1%N] => // v [<-].
  + by rewrite Hcols S0 B0.
  + by rewrite Hcols S1 B1.
  + by rewrite Hcols S0 B0 // ltnSn.
  + by rewrite Hcols S1 B1 // ltnSn.
Qed.

(** Conversely, in every trace that passes the check the rows of the first two
    columns are these powers.  The last two columns are the squares in every row
    but the last. *)
Theorem C48_satisfying_traces_partial s n props wit (tr : seq (seq F)) :
  cubic_vdf_into_arp s.1 s.2 n = Ok (wit, props) -> is_satisfied props tr = Ok tt ->
  let rows := size (nth [::] tr 0) in
  [/\ (n < rows)%N,
      forall i, (i < rows)%N -> is_power s (3 ^ i) (row2 tr i) &
      forall i, (i.+1 < rows)%N -> is_power s (2 * 3 ^ i) (row2' tr i)].
Proof.
rewrite cubic_arpE => -[_ <-] /is_satisfiedP [_ Hc Hb] rows.
have [a0 [b0 [[<- <-] _ H0]]] := Hc 0%N isT.
have [a1 [b1 [[<- <-] _ H1]]] := Hc 1%N isT.
have [a2 [b2 [[<- <-] _ H2]]] := Hc 2%N isT.
have [a3 [b3 [[<- <-] _ H3]]] := Hc 3%N isT.
have [r0 [<-] /(_ _ erefl) /= [_ _ B0]] := Hb 0%N isT.
have [r1 [<-] /(_ _ erefl) /= [_ _ B1]] := Hb 1%N isT.
have [r2 [<-] /(_ _ erefl) /= [_ Hn _]] := Hb 2%N isT.
have step i : (i.+1 < rows)%N ->
    row2' tr i = ext_square (row2 tr i) (- 1) /\ row2 tr i.+1 = ext_mul (row2' tr i) (row2 tr i) (- 1).
  move=> Hi; have D : dense_row 0 1 rows i by rewrite dense01.
  apply/cu_cvalP; have [_ ->] := H0 i D; have [_ ->] := H1 i D.
  by have [_ ->] := H2 i D; have [_ ->] := H3 i D.
have R i : (i < rows)%N -> row2 tr i = cu_row s i.
  elim: i => [|i IH] Hi; first by rewrite /row2 B0 B1; case: (s).
  by have [E ->] := step i Hi; rewrite /cu_row iterS -/(cu_row s i) -IH ?(ltnW Hi) // E.
split=> // i Hi; first by rewrite R //; exact: cu_row_power.
have [-> _] := step i Hi; rewrite (R _ (ltnW Hi)) mul2n -addnn ext_squareE.
by apply: is_power_mul; exact: cu_row_power.
Qed.

(** The full converse claim, refuted: "satisfying witnesses have exactly these
    values", also in the squaring columns. *)
Definition C48_statement : Prop :=
  forall s n props wit (tr : seq (seq F)),
    cubic_vdf_into_arp s.1 s.2 n = Ok (wit, props) -> is_satisfied props tr = Ok tt ->
    forall i, (i < size (nth [::] tr 0))%N ->
      is_power s (3 ^ i) (row2 tr i) /\ is_power s (2 * 3 ^ i) (row2' tr i).

(** Whatever is written in the last row of the squaring columns, the check passes. *)
Theorem C48_last_row_free s n (x y : F) :
  exists props c0s c1s q0s q1s,
    cubic_vdf_into_arp s.1 s.2 n = Ok (Some [:: c0s; c1s; q0s; q1s], props) /\
    is_satisfied props [:: c0s; c1s; set_nth 0 q0s n x; set_nth 0 q1s n y] = Ok tt.
Proof.
have [props [c0s [c1s [q0s [q1s [E _ [Z0 Z1 Z2 Z3] _ /is_satisfiedP [_ Hc Hb]]]]]]] := C48_witness s n.
exists props, c0s, c1s, q0s, q1s; split=> //; apply/is_satisfiedP.
move: E Hc Hb; rewrite cubic_arpE => -[_ _ _ _ <-] /= Hc Hb; split=> //=.
- have agree i : (i < n)%N -> row2' [:: c0s; c1s; set_nth 0 q0s n x; set_nth 0 q1s n y] i =
                             row2' [:: c0s; c1s; q0s; q1s] i.
    by move=> Hi; rewrite /row2' /= !nth_set_nth /= (ltn_eqF Hi).
  have T0 : size (set_nth 0 q0s n x) = n.+1 by rewrite size_set_nth Z2 maxnn.
  have T1 : size (set_nth 0 q1s n y) = n.+1 by rewrite size_set_nth Z3 maxnn.
  have H i : dense_row 0 1 n.+1 i ->
      let e := row_env [:: c0s; c1s; set_nth 0 q0s n x; set_nth 0 q1s n y] i in
      [/\ cval e cu_c0 = 0, cval e cu_c1 = 0, cval e cu_c2 = 0 & cval e cu_c3 = 0].
    move=> D; apply/cu_cvalP; rewrite agree; last by move: D; rewrite dense01 ltnS.
    apply/(cu_cvalP [:: c0s; c1s; q0s; q1s] i).
    have [a0 [b0 [[<- <-] _ H0]]] := Hc 0%N isT.
    have [a1 [b1 [[<- <-] _ H1]]] := Hc 1%N isT.
    have [a2 [b2 [[<- <-] _ H2]]] := Hc 2%N isT.
    have [a3 [b3 [[<- <-] _ H3]]] := Hc 3%N isT.
    move: H0 H1 H2 H3; rewrite /= Z0 => H0 H1 H2 H3.
    have [_ ->] := H0 i D; have [_ ->] := H1 i D.
    by have [_ ->] := H2 i D; have [_ ->] := H3 i D.
  case=> [|[|[|[|k]]]] //= _; exists 0%N, 1%N; rewrite [size _]Z0; split=> // i Hi; have [H0 H1 H2 H3] := H i Hi; split=> //;
    move: Hi; rewrite dense01 ltnS => Hi;
    by rewrite /c_in_trace /= /u_in_trace /= ?Z0 ?Z1 ?T0 ?T1 /= !addn0 ?addn1 !ltnS ?(ltnW Hi) ?Hi.
- case=> [|[|[|[|k]]]] //= Hk.
  + by have [r0 H1 H2] := Hb 0%N isT; exists 0%N => //; move: H1 H2 => /= [<-].
  + by have [r0 H1 H2] := Hb 1%N isT; exists 1%N => //; move: H1 H2 => /= [<-].
  + by have [r0 H1 H2] := Hb 2%N isT; exists 0%N => //; move: H1 H2 => /= [<-].
  + by have [r0 H1 H2] := Hb 3%N isT; exists 1%N => //; move: H1 H2 => /= [<-].
Qed.

Theorem C48_refuted : ~ C48_statement.
Proof.
move=> H; have one_ne : (1 : F) != 0 by rewrite oner_neq0.
have [props [c0s [c1s [q0s [q1s [E Hs]]]]]] := C48_last_row_free (0, 0) 0 1 1.
have := H _ _ _ _ _ E Hs 0%N.
have [p' [d0 [d1 [r0 [r1 [E' _ [Z0 _ _ _] Hp _]]]]]] := C48_witness (0, 0) 0.
move: E; rewrite E' => -[<- <- <- <- _]; rewrite Z0 => /(_ isT) [_ H2].
have [_ H2'] := Hp 0%N (leqnn _).
have := is_power_inj H2 H2'; rewrite /row2' /= !nth_set_nth /=.
have E0 : is_power (0, 0) (2 * 3 ^ 0) ((0, 0) : F * F).
  have H1 := is_power1 (0, 0); have := is_power_mul H1 H1.
  by rewrite /ext_mul !mul0r addr0.
by move: (is_power_inj H2' E0) => [-> _] [] /eqP; rewrite (negbTE one_ne).
Qed.
End Vdf.

(** * Examples over F_257: u^2 = -1 has the root 16 there, but nothing above
    needs -1 to be a non-residue. *)

(** (3 + 5u)^2 = -16 + 30u, and so on: three squarings. *)
Example C47_ex :
  (if vdf_into_arp (3 : F257) (5 : F257) 3 is Ok (Some tr, props)
   then (map nats tr, is_ok (is_satisfied props tr)) else ([::], false)) =
  ([:: [:: 3; 241; 127; 197]; [:: 5; 30; 68; 53]], true)%N.
Proof. by vm_compute. Qed.

(** A wrong intermediate value is rejected. *)
Example C47_ex_wrong :
  (if vdf_into_arp (3 : F257) (5 : F257) 3 is Ok (Some [:: c0s; c1s], props)
   then is_ok (is_satisfied props [:: set_nth 0 c0s 2 7; c1s]) else true) = false.
Proof. by vm_compute. Qed.

(** (3 + 5u)^3 = -198 + 10u: two cubings. *)
Example C48_ex :
  (if cubic_vdf_into_arp (3 : F257) (5 : F257) 2 is Ok (Some tr, props)
   then (map nats tr, is_ok (is_satisfied props tr)) else ([::], false)) =
  ([:: [:: 3; 59; 69]; [:: 5; 10; 116]; [:: 241; 40; 43]; [:: 30; 152; 74]], true)%N.
Proof. by vm_compute. Qed.

Print Assumptions C47_witness.
Print Assumptions C47_satisfying_traces.
Print Assumptions C48_witness.
Print Assumptions C48_satisfying_traces_partial.
Print Assumptions C48_last_row_free.
Print Assumptions C48_refuted.
