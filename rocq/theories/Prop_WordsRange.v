(** C77: the rows where a dense constraint is enforced, in debug and release builds. *)
From Coq Require Import NArith.
From mathcomp Require Import all_ssreflect all_algebra.
From Verif Require Import M_Base M_Worker M_Field M_Domain M_Fft M_Poly M_Bytes M_Transcript M_Air M_Arp M_Ali M_Verifier.
From Verif Require Import M_Words M_WordsRange.
From Verif Require Import Spec SpecAir SpecStark P_Base P_Fft P_Domain P_Poly P_Lde P_PolyOps P_Air P_Arp P_Vals P_Maps P_Ali.
From Verif Require Import Instances Prop_Hash Prop_Ali.

Set Implicit Arguments.
Unset Strict Implicit.
Unset Printing Implicit Defensive.
Import GRing.Theory.
Local Open Scope ring_scope.
Local Opaque expn.

Section Range.
Variables (F : fieldType) (fp : ff_params F).
Hypothesis Hok : ff_ok fp.
Notation gen := (ff_gen fp).
Notation S := (ff_S fp).

(** * Debug builds are the model *)
Theorem C77_debug (x : F) (col ev : domain F) (s sp n : nat) (w : worker) (props : instance_properties F) witness :
  [/\ w_inverse_divisor_at Debug x col s sp n = inverse_divisor_at x col s sp n,
      w_inverse_divisor_in_coset fp Debug col ev s sp n w = inverse_divisor_in_coset fp col ev s sp n w &
      w_is_satisfied Debug props witness = is_satisfied props witness].
Proof. by []. Qed.

(** In a release build nothing changes for a range inside of the trace. *)
Theorem C77_release_fits (x : F) (col ev : domain F) (s sp n : nat) (w : worker) :
  (s + sp <= n)%N -> (n <= d_size col)%N ->
  w_inverse_divisor_at Release x col s sp n = inverse_divisor_at x col s sp n /\
  w_inverse_divisor_in_coset fp Release col ev s sp n w = inverse_divisor_in_coset fp col ev s sp n w.
Proof.
move=> H Hn; have Hsp : (sp <= n)%N by apply: leq_trans H; rewrite leq_addl.
have Hsn : (s <= n)%N by apply: leq_trans H; rewrite leq_addr.
have W a b : (b <= a)%N -> wsub Release 64 a b = usub a b by rewrite /wsub /usub => ->.
have U a b : (b <= a)%N -> usub a b = Ok (a - b)%N by rewrite /usub => ->.
have Ed : w_dense_divisor_degree Release (d_size col) s sp n = dense_divisor_degree (d_size col) s sp n.
  rewrite /w_dense_divisor_degree /dense_divisor_degree W ?(leq_trans Hsn) // U ?(leq_trans Hsn) // !bind_ok.
  rewrite W // U // !bind_ok W ?U ?leq_sub2l // !bind_ok W //.
  have -> : (d_size col - s - (d_size col - n) = n - s)%N by rewrite subnAC subKn.
  by rewrite leq_subRL.
have Er g : w_dense_roots Release g (d_size col) s sp n = dense_roots g (d_size col) s sp n.
  by rewrite /w_dense_roots /dense_roots W.
by rewrite /w_inverse_divisor_at /w_inverse_divisor_in_coset Ed Er.
Qed.

(** * The value *)

(** The row after the last one where a release build enforces the constraint, if the domain goes that far. *)
Definition release_limit (sp n : nat) : nat := if (sp <= n)%N then (n - sp)%N else (n + 2 ^ 64 - sp)%N.

Lemma wsub_release a b : wsub Release 64 a b = Ok (if (b <= a)%N then (a - b)%N else (a + 2 ^ 64 - b)%N).
Proof. by rewrite /wsub; case: (b <= a)%N. Qed.

Lemma w_rootsE (g : F) size s sp n : w_dense_roots Release g size s sp n =
  Ok [seq g ^+ i | i <- iota 0 s ++ iota (release_limit sp n) (size - release_limit sp n)].
Proof.
rewrite /w_dense_roots wsub_release bind_ok -/(release_limit sp n) !geometricE map_cat; congr (Ok (_ ++ _)).
  by apply: eq_map => i; rewrite mul1r.
move: (release_limit sp n) => l; have -> m : iota l m = [seq (l + i)%N | i <- iota 0 m] by rewrite -iotaDl addn0.
by rewrite -map_comp; apply: eq_map => i /=; rewrite exprD.
Qed.

Lemma w_degreeE size s sp n : exists d, w_dense_divisor_degree Release size s sp n = Ok d.
Proof. rewrite /w_dense_divisor_degree; do 4!rewrite ?wsub_release ?bind_ok; eexists; reflexivity. Qed.

(** The rows of a domain of [size] points that are not enforced. *)
Definition free_rows (size s sp n : nat) := iota 0 s ++ iota (release_limit sp n) (size - release_limit sp n).

Theorem C77_release_value (x : F) (col : domain F) (s sp n : nat) :
  if x ^+ d_size col == 1 then w_inverse_divisor_at Release x col s sp n = Err
  else exists deg, w_inverse_divisor_at Release x col s sp n =
    Ok ((\prod_(i <- free_rows (d_size col) s sp n) (x - d_gen col ^+ i)) / (x ^+ d_size col - 1), deg).
Proof.
rewrite /w_inverse_divisor_at; have [deg ->] := w_degreeE (d_size col) s sp n; rewrite bind_ok /inverse subr_eq0.
case: eqP => // _; exists deg; rewrite [ok_or _]/= bind_ok w_rootsE bind_ok foldl_roots big_map -/(free_rows _ _ _ _).
by rewrite mulrC.
Qed.

(** Division by the divisor is possible exactly for polynomials that vanish at the enforced rows. *)
Theorem C77_enforced (N : nat) (g : F) (s sp n : nat) (C : {poly F}) : N.-primitive_root g ->
  ('X^N - 1 %| C * \prod_(i <- free_rows N s sp n) ('X - (g ^+ i)%:P)) <->
  (forall i, (i < N)%N -> (s <= i < release_limit sp n)%N -> C.[g ^+ i] = 0).
Proof.
move=> Hg; have HN := prim_order_gt0 Hg; rewrite /free_rows; set l := release_limit sp n.
have Hr i : (i < N)%N -> root (\prod_(i <- iota 0 s ++ iota l (N - l)) ('X - (g ^+ i)%:P)) (g ^+ i) -> ~~ (s <= i < l)%N.
  move=> Hi; rewrite rootE horner_prod prodf_seq_eq0 => /hasP [j Hj /=].
  rewrite hornerXsubC subr_eq0; move: Hj; rewrite mem_cat !mem_iota add0n /= => Hj.
  move=> /eqP E; apply/negP => /andP [Hsi Hil].
  case/orP: Hj => [Hj|/andP [Hlj Hj]].
    have HjN : (j < N)%N by apply: leq_trans (leq_trans Hj Hsi) (ltnW Hi).
    move/eqP: E; rewrite (eq_prim_root_expr Hg) !modn_small // => /eqP E.
    by move: Hj; rewrite -E ltnNge Hsi.
  have HjN : (j < N)%N.
    by case: (leqP l N) Hj => [HlN|/ltnW HNl]; [rewrite subnKC | move/eqP: HNl => ->; rewrite addn0 ltnNge Hlj].
  by move/eqP: E; rewrite (eq_prim_root_expr Hg) !modn_small // => /eqP E; move: Hil; rewrite E ltnNge Hlj.
split=> [/dvdpP [Q E] i Hi Hsl|H].
  have : (C * \prod_(i <- iota 0 s ++ iota l (N - l)) ('X - (g ^+ i)%:P)).[g ^+ i] == 0.
    by rewrite E hornerM !hornerE hornerXn exprAC (prim_expr_order Hg) expr1n subrr mulr0.
  rewrite hornerM mulf_eq0 => /orP [/eqP //|Hz]; have := Hr i Hi Hz; by rewrite Hsl.
rewrite -(factor_Xn_sub_1 Hg) /index_iota subn0 -(big_map (fun i => g ^+ i) xpredT (fun x => 'X - x%:P)).
apply: uniq_roots_dvdp.
  apply/allP => x /mapP [i]; rewrite mem_iota add0n /= => Hi ->; rewrite rootM.
  case Hsl: (s <= i < l)%N; first by rewrite rootE (H i Hi Hsl) eqxx.
  apply/orP; right; rewrite rootE horner_prod prodf_seq_eq0; apply/hasP; exists i; last by rewrite /= hornerXsubC subrr.
  rewrite mem_cat !mem_iota add0n /=; move: Hsl; case: (leqP s i) => //= Hsi /negbT; rewrite -leqNgt => Hl.
  by rewrite Hl subnKC // (leq_trans Hl (ltnW Hi)).
rewrite uniq_rootsE map_inj_in_uniq ?iota_uniq // => i j; rewrite !mem_iota !add0n /= => Hi Hj /eqP.
by rewrite (eq_prim_root_expr Hg) !modn_small // => /eqP.
Qed.

(** The same three cases in words: a range inside of the trace is enforced as it should be; a range that starts
    after its end is not enforced at all; with a span above the number of rows all rows from the start on are
    enforced, also the ones after the trace. *)
Theorem C77_release_rows (N s sp n i : nat) : (n <= N)%N -> (i < N)%N -> (N <= 2 ^ 63)%N -> (sp <= 2 ^ 63)%N ->
  (s <= i < release_limit sp n)%N = if (sp <= n)%N then (s <= i)%N && (i + sp < n)%N else (s <= i)%N.
Proof.
move=> Hn Hi HN Hsp; rewrite /release_limit; case: ifP => H; first by rewrite ltn_subRL addnC.
have G h : (sp <= h -> h <= n + (h + h) - sp)%N.
  move=> Hh; have E : (sp + h <= n + (h + h))%N by rewrite (leq_trans _ (leq_addl _ _)) // leq_add2r.
  by rewrite leq_subRL // (leq_trans _ E) // leq_addr.
have -> : (2 ^ 64 = 2 ^ 63 + 2 ^ 63)%N by rewrite (expnS 2 63) mul2n addnn.
have -> : (i < n + (2 ^ 63 + 2 ^ 63) - sp)%N = true by exact (leq_trans (leq_trans Hi HN) (G _ Hsp)).
exact (andbT _).
Qed.

(** * The prover has the same values *)
Lemma w_cosetE K k s sp n w : (0 < w)%N -> (k <= S)%N -> (K <= S)%N ->
  exists deg, w_inverse_divisor_in_coset fp Release (dom fp k) (dom fp K) s sp n w =
    if all (fun x => x ^+ (2 ^ k) - 1 != 0) (points fp K gen) then
      Ok (vf fp K gen (fun x => (\prod_(i <- free_rows (2 ^ k) s sp n) (x - dom_gen fp k ^+ i)) / (x ^+ (2 ^ k) - 1)), deg)
    else Err.
Proof.
move=> Hw Hk HK; rewrite /w_inverse_divisor_in_coset /=; have [deg ->] := w_degreeE (2 ^ k) s sp n; exists deg.
rewrite bind_ok w_rootsE bind_ok (vf_zero Hok gen) // bind_ok.
have E f g : with_coeffs Values (vf fp K gen f) (par_chunks w (fun i chunk c =>
     mapacc (fun x v => (x * dom_gen fp K, g x v)) (dom_gen fp K ^+ (i * chunk) * gen) c)
     (p_coeffs (vf fp K gen f))) = vf fp K gen (fun x => g x (f x)).
  rewrite par_coset ?size_map ?size_iota //.
  rewrite -[LHS]/(std fp Values K _) /vf; congr (std _ _ _ _).
  by elim: (points _ _ _) => //= x s' ->.
rewrite (E _ (fun x _ => x ^+ (2 ^ k) - 1)) vf_inv //; case: ifP => // Hall.
rewrite bind_ok E; congr (Ok (_, _)); apply: vf_ext => x Hx.
by rewrite foldl_roots big_map -/(free_rows _ _ _ _) mulrC.
Qed.

Theorem C77_prover_verifier_agree (w : worker) (m m' : nat) (col ev : domain F) (s sp n : nat) :
  (0 < w)%N -> domain_new fp m = Ok col -> domain_new fp m' = Ok ev ->
  let x j := gen * d_gen ev ^+ j in
  forall p deg, w_inverse_divisor_in_coset fp Release col ev s sp n w = Ok (p, deg) ->
    size (p_coeffs p) = d_size ev /\
    forall j, (j < d_size ev)%N -> exists deg', w_inverse_divisor_at Release (x j) col s sp n = Ok ((p_coeffs p)`_j, deg').
Proof.
move=> Hw /domain_new_dom [k Hk ->] /domain_new_dom [K HK ->] x p deg /=.
have [dg ->] := w_cosetE s sp n Hw Hk HK; case: ifP => // Hall [<- _].
split; first by rewrite /= size_map size_points.
move=> j Hj; have := C77_release_value (x j) (dom fp k) s sp n.
have Hp : (points fp K gen)`_j = x j by rewrite nth_mkseq.
rewrite -subr_eq0 -Hp (negbTE (allP Hall _ _)) ?mem_nth ?size_points //= => -[deg' E].
by exists deg'; rewrite (nth_map 0) ?size_points.
Qed.

(** * The check of a witness *)

(** A term that reads a cell. *)
Definition reads (t : constraint_term F) := if t is Polyvariate p then (0 < size (pt_terms p))%N else true.

Lemma foldM_part A B (f : B -> A -> outcome B) b s1 x s2 r : foldM f b (s1 ++ x :: s2) = Ok r ->
  exists a a', f a x = Ok a'.
Proof.
rewrite foldM_cat; case: (foldM f b s1) => [a| |] //=; case E: (f a x) => [a'| |] // _.
by exists a, a'.
Qed.

Lemma read_outside (witness : seq (seq F)) (n row : nat) u v : all (fun col => size col == n) witness -> (n <= row)%N ->
  eval_univariate_on_witness witness row u <> Ok v.
Proof.
move=> Hall Hr; rewrite /eval_univariate_on_witness; case: (ut_steps u) => [d|m] //=.
case: (reg_number _) => [r| |] //=; case E: (get witness r) => [col| |] //=.
have [Hr2 ->] := get_Ok [::] E; move/all_nthP: Hall => /(_ [::] r Hr2) /eqP ->.
by rewrite (leq_trans Hr (leq_addr _ _)).
Qed.

Lemma eval_outside (witness : seq (seq F)) (n row : nat) c v : all (fun col => size col == n) witness -> (n <= row)%N ->
  has reads (c_terms c) -> eval_constraint_on_witness witness row c <> Ok v.
Proof.
move=> Hall Hr; rewrite /eval_constraint_on_witness; elim: (c_terms c) (c_constant_term c) => //= t ts IH x.
move=> /orP [Ht|Hh]; last by case: (eval_term_on_witness _ _ _) => //= y; exact: IH.
have E y : eval_term_on_witness witness row t <> Ok y; last by case E': (eval_term_on_witness _ _ _) => [y| |] //; case: (E y).
case: t Ht => [u|p] /=; first by move=> _; exact: read_outside Hall Hr.
case: (pt_terms p) => //= u us _.
by case E': (eval_univariate_on_witness witness row u) => [z| |] //; case: (read_outside Hall Hr E').
Qed.

(** A release build never calls a witness satisfying if there is a constraint with a span above the number of
    rows, whatever the witness is. *)
Theorem C77_checker (props : instance_properties F) (witness : seq (seq F)) cs c cs' (n s sp : nat) :
  (0 < size witness)%N -> all (fun col => size col == n) witness ->
  ip_constraints props = cs ++ c :: cs' -> c_density c = Dense s sp -> has reads (c_terms c) ->
  (n < sp)%N -> (sp <= 2 ^ 63)%N -> (s < 2 ^ 63)%N -> w_is_satisfied Release props witness <> Ok tt.
Proof.
move=> Hs Hall Ecs Hc Hh Hsp Hsp2 Hs2; rewrite /w_is_satisfied (get_nth [::] Hs) bind_ok Ecs.
have -> : size (nth [::] witness 0) = n by move/all_nthP: Hall => /(_ [::] 0%N Hs) /eqP.
case E: (foldM _ tt (cs ++ c :: cs')) => [[]| |] //; have [[] [[] {E}]] := foldM_part E.
rewrite Hc /w_dense_rows wsub_release bind_ok leqNgt Hsp [~~ true]/=.
set l := (n + 2 ^ 64 - sp)%N.
have Hl : (maxn s n < l)%N.
  have -> : l = (n + (2 ^ 63 + 2 ^ 63 - sp))%N.
    rewrite /l (_ : 2 ^ 64 = 2 ^ 63 + 2 ^ 63)%N; last by rewrite (expnS 2 63) mul2n addnn.
    exact (esym (addnBA n (leq_trans Hsp2 (leq_addr _ _)))).
  have G h : (sp <= h -> h <= h + h - sp)%N.
    by move=> Hh2; rewrite leq_subRL ?leq_add2r // (leq_trans Hh2) // leq_addr.
  rewrite gtn_max; apply/andP; split.
    exact (leq_trans (leq_trans Hs2 (G _ Hsp2)) (leq_addl _ _)).
  rewrite -[X in (X < _)%N]addn0 ltn_add2l; exact (leq_trans (leq_trans (leq_ltn_trans (leq0n _) Hs2) (leqnn _)) (G _ Hsp2)).
move: l Hl => l Hl; have Hsl : (s <= maxn s n)%N by exact: leq_maxl.
have -> : iota s (l - s) = iota s (maxn s n - s) ++ maxn s n :: iota (maxn s n).+1 (l - (maxn s n).+1).
  rewrite -[X in _ ++ X]/(iota (maxn s n) (l - (maxn s n).+1).+1) subnSK // -{2}(subnKC Hsl) -iotaD.
  by rewrite addnC addnBA // subnK // ltnW.
rewrite bind_ok => Er; have [u [u']] := foldM_part Er; case E: (eval_constraint_on_witness _ _ _) => [v| |] //.
by case: (eval_outside Hall (leq_maxr s n) Hh E).
Qed.

(** It starts with the rows at the beginning of the range: where the first constraint has a span above the
    number of rows and fails at the first row of its range, a release build returns the error for an unsatisfied
    constraint and a debug build panics. *)
Theorem C77_checker_builds (props : instance_properties F) (witness : seq (seq F)) c cs (s sp : nat) (v : F) :
  (0 < size witness)%N -> ip_constraints props = c :: cs -> c_density c = Dense s sp ->
  (size (nth [::] witness 0) < sp)%N -> (sp <= 2 ^ 63)%N -> (s < 2 ^ 63)%N ->
  eval_constraint_on_witness witness s c = Ok v -> v != 0 ->
  w_is_satisfied Release props witness = Err /\ w_is_satisfied Debug props witness = Panic.
Proof.
move=> Hs Ecs Hc Hsp Hsp2 Hs2 Ev Hv; rewrite /w_is_satisfied (get_nth [::] Hs) !bind_ok Ecs.
move: (size (nth [::] witness 0)) Hsp => n Hsp; rewrite ![foldM _ tt (c :: cs)]/= Hc /w_dense_rows.
split; last by rewrite /wsub leqNgt Hsp.
rewrite wsub_release bind_ok leqNgt Hsp [~~ true]/=.
set l := (n + 2 ^ 64 - sp)%N.
have Hl : (s < l)%N.
  have -> : l = (n + (2 ^ 63 + 2 ^ 63 - sp))%N.
    rewrite /l (_ : 2 ^ 64 = 2 ^ 63 + 2 ^ 63)%N; last by rewrite (expnS 2 63) mul2n addnn.
    exact (esym (addnBA n (leq_trans Hsp2 (leq_addr _ _)))).
  have G h : (sp <= h -> h <= h + h - sp)%N.
    by move=> Hh2; rewrite leq_subRL ?leq_add2r // (leq_trans Hh2) // leq_addr.
  exact (leq_trans (leq_trans Hs2 (G _ Hsp2)) (leq_addl _ _)).
move: l Hl => l Hl; rewrite -(subnSK Hl) bind_ok [foldM _ _ (iota _ _)]/= Ev bind_ok Hv.
by [].
Qed.

(** The property: the rows outside of which a polynomial may take any value are those outside of the range. *)
Definition C77_statement := forall pr (N s sp n : nat) (g : F) (roots : seq F) (C : {poly F}),
  N.-primitive_root g -> (n <= N)%N -> (N <= 2 ^ 63)%N -> (s <= 2 ^ 63)%N -> (sp <= 2 ^ 63)%N ->
  w_dense_roots pr g N s sp n = Ok roots ->
  ('X^N - 1 %| C * \prod_(r <- roots) ('X - r%:P)) <->
  (forall i, (s <= i)%N -> (i + sp < n)%N -> C.[g ^+ i] = 0).

(** It holds in debug builds, and in release builds for spans up to the number of rows. *)
Theorem C77_rows_partial pr (N s sp n : nat) (g : F) (roots : seq F) (C : {poly F}) :
  N.-primitive_root g -> (n <= N)%N -> pr = Debug \/ (sp <= n)%N ->
  w_dense_roots pr g N s sp n = Ok roots ->
  ('X^N - 1 %| C * \prod_(r <- roots) ('X - r%:P)) <->
  (forall i, (s <= i)%N -> (i + sp < n)%N -> C.[g ^+ i] = 0).
Proof.
move=> Hg Hn Hp E; have Hsp : (sp <= n)%N.
  by case: Hp E => [->|//]; rewrite /w_dense_roots /wsub; case: (sp <= n)%N.
have : w_dense_roots Release g N s sp n = Ok roots.
  by move: E; rewrite /w_dense_roots /wsub Hsp.
rewrite w_rootsE => -[<-]; rewrite big_map -/(free_rows N s sp n) (C77_enforced _ _ _ _ Hg) /release_limit Hsp.
split=> H i.
  by move=> Hs Hi; apply: H; rewrite ?Hs ?ltn_subRL 1?addnC // (leq_trans _ Hn) // (leq_ltn_trans _ Hi) // leq_addr.
by move=> _ /andP [Hs]; rewrite ltn_subRL addnC => Hi; exact: H.
Qed.
End Range.

(** A span above the number of rows: 4 rows and span 5.  The range is empty, so every polynomial should be
    admitted, but the constant 1 is not. *)
Theorem C77_refuted : ~ C77_statement F257.
Proof.
move=> St; have Hg : (2 ^ 2).-primitive_root (dom_gen f257 2) by apply: (dom_gen_prim f257_ok).
have H4 : (2 ^ 2 <= 2 ^ 63)%N by exact (etrans (@leq_exp2l 2 2 63 isT) isT).
have H5 : (5 <= 2 ^ 63)%N by exact (leq_trans (isT : 5 <= 8)%N (etrans (@leq_exp2l 2 3 63 isT) isT)).
have := St Release (2 ^ 2)%N 0%N 5%N 4%N (dom_gen f257 2) _ 1%R Hg (leqnn _) H4 (leq0n _) H5 (w_rootsE _ _ _ _ _).
case=> _ St2.
have Hv i : (0 <= i)%N -> (i + 5 < 4)%N -> (1 : {poly F257}).[dom_gen f257 2 ^+ i] = 0 by rewrite addnC.
have := St2 Hv; rewrite big_map -/(free_rows _ _ _ _) (C77_enforced _ _ _ _ Hg) => /(_ 0%N isT).
rewrite (@C77_release_rows (2 ^ 2) 0 5 4 0 (leqnn _) isT H4 H5) => /(_ isT) /eqP.
by rewrite hornerC oner_eq0.
Qed.

(** On four rows: span 1 leaves out the last row in both builds; span 5 is an error of the program in a debug
    build, and enforces all four rows in a release build. *)
Example C77_ex : let g := dom_gen f257 2 in
  [/\ w_dense_roots Debug g 4 0 1 4 = Ok [:: g ^+ 3], w_dense_roots Release g 4 0 1 4 = Ok [:: g ^+ 3],
      w_dense_roots Debug g 4 0 5 4 = Panic & w_dense_roots Release g 4 0 5 4 = Ok [::]].
Proof.
move=> g; split; [| |by []|].
- reflexivity.
- reflexivity.
rewrite w_rootsE; suff -> : (4 - release_limit 5 4 = 0)%N by [].
have H4 : (4 <= 2 ^ 63)%N by exact (etrans (@leq_exp2l 2 2 63 isT) isT).
have H5 : (5 <= 2 ^ 63)%N by exact (leq_trans (isT : 5 <= 8)%N (etrans (@leq_exp2l 2 3 63 isT) isT)).
have := @C77_release_rows 4 0 5 4 3 (leqnn _) isT H4 H5; rewrite [RHS]/= => /andP [_ Hl]; exact/eqP.
Qed.

(** The hypotheses of [C77_checker] hold for the squaring program with span 5 and any witness of four rows. *)
Example C77_ex_checker (x : F257) :
  w_is_satisfied Release (sq_props [:: (0, 5)]%N x) (sq_trace x) <> Ok tt.
Proof.
have H5 : (5 <= 2 ^ 63)%N by exact (leq_trans (isT : 5 <= 8)%N (etrans (@leq_exp2l 2 3 63 isT) isT)).
exact (@C77_checker _ (sq_props [:: (0, 5)]%N x) (sq_trace x) [::] _ [::] 4 0 5 isT isT erefl erefl isT isT H5
  (leq_trans (isT : 0 < 5)%N H5)).
Qed.

(** The squaring program with span 5 on a trace that is not squared in its first step. *)
Definition bad_trace : seq (seq F257) := [:: [:: 3; 3; 3; 3]].
Lemma bad_trace_value : exists2 v : F257, eval_constraint_on_witness bad_trace 0 (sq_constraint 0 5) = Ok v & v != 0.
Proof.
have : if eval_constraint_on_witness bad_trace 0 (sq_constraint 0 5) is Ok v then v != 0 else false by vm_compute.
by case: (eval_constraint_on_witness _ _ _) => [v| |] // Hv; exists v.
Qed.
Example C77_ex_checker_builds (x : F257) :
  w_is_satisfied Release (sq_props [:: (0, 5)]%N x) bad_trace = Err /\
  w_is_satisfied Debug (sq_props [:: (0, 5)]%N x) bad_trace = Panic.
Proof.
have H5 : (5 <= 2 ^ 63)%N by exact (leq_trans (isT : 5 <= 8)%N (etrans (@leq_exp2l 2 3 63 isT) isT)).
have [v Ev Hv] := bad_trace_value.
exact (@C77_checker_builds _ (sq_props [:: (0, 5)]%N x) bad_trace (sq_constraint 0 5) [::] 0 5 v isT erefl erefl isT H5
  (leq_trans (isT : 0 < 5)%N H5) Ev Hv).
Qed.

Print Assumptions C77_debug.
Print Assumptions C77_release_fits.
Print Assumptions C77_release_value.
Print Assumptions C77_enforced.
Print Assumptions C77_release_rows.
Print Assumptions C77_prover_verifier_agree.
Print Assumptions C77_checker.
Print Assumptions C77_checker_builds.
Print Assumptions C77_rows_partial.
Print Assumptions C77_refuted.
Print Assumptions C77_ex.
Print Assumptions C77_ex_checker.
Print Assumptions C77_ex_checker_builds.
