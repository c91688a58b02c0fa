(** Property C58: soundness of FRI folding over several rounds, and of the FRI
    verifier with one check per position. *)
From Coq Require Import NArith.
From mathcomp Require Import all_ssreflect all_algebra.
From Verif Require Import M_Base M_Worker M_Field M_Domain M_Fft M_Poly M_Bytes M_Transcript M_Merkle M_Fri.
From Verif Require Import M_Challenge Spec SpecPoly SpecHash SpecFri SpecSound P_Base P_Fft P_Domain P_Poly P_Lde P_PolyOps P_Wf P_Bytes P_Merkle P_Fri P_SoundFri.
From Verif Require Import Instances Prop_Hash Prop_Fri Fr251.

Set Implicit Arguments.
Unset Strict Implicit.
Unset Printing Implicit Defensive.
Import GRing.Theory.
Local Open Scope ring_scope.

Section Tree.
Variable F : fieldType.
Hypothesis H2 : (2%:R : F) != 0.

Lemma prim_sqr (g : F) K : (2 ^ K.+1).-primitive_root g -> (2 ^ K).-primitive_root (g ^+ 2).
Proof. by move=> Hg; have := dvdn_prim_root Hg (dvdn_exp2l 2 (leqnSn K)); rewrite expnS mulnK ?expn_gt0. Qed.

(** If folding [R] times with two challenges per round always ends near a
    polynomial of degree below [m], the vector is near one of degree below 2^R m.
    The positions are those with [P], which is about the position modulo 2^(K-R). *)
Theorem C58_tree (P : pred nat) (K R : nat) (g : F) (v : seq F) (m e : nat) :
  size v = (2 ^ K)%N -> (R <= K)%N -> (2 ^ K).-primitive_root g -> (forall i, P i = P (i %% 2 ^ (K - R))%N) ->
  fold_tree P R g v m e -> close_to P g v (2 ^ R * m) (4 ^ R * e).
Proof.
elim: R K g v => [|R IH] [|K] g v Hs HR Hg HP //=; try by rewrite !mul1n.
case=> b [b' [Hb T T']].
have Hn : size v = (2 * 2 ^ K)%N by rewrite Hs expnS.
have Hf c : size (fold_vec c g v) = (2 ^ K)%N by rewrite size_fold_vec Hn mulKn.
have -> : (4 ^ R.+1 * e = 2 * (4 ^ R * e + 4 ^ R * e))%N.
  by rewrite addnn -[(_ * e).*2%N]mul2n !mulnA expnS.
rewrite expnS -mulnA; apply: (@close_back F H2 P g b b' v (2 ^ K) (2 ^ R * m) (4 ^ R * e) (4 ^ R * e) Hn) => //.
- move=> i _; rewrite HP [RHS]HP modn_dvdm // subSS; apply: dvdn_exp2l; exact: leq_subr.
- by rewrite -expnS.
- by apply: (IH K) => //; apply: prim_sqr.
by apply: (IH K) => //; apply: prim_sqr.
Qed.
End Tree.

Section Count.
Variable F : finFieldType.
Hypothesis H2 : (2%:R : F) != 0.

(** A vector that is not near a polynomial of degree below 2^R m is folded to one
    near a polynomial of degree below [m] by at most R |F|^(R-1) of the |F|^R lists of
    challenges. *)
Theorem C58_count (P : pred nat) (K R : nat) (g : F) (v : seq F) (m e : nat) :
  size v = (2 ^ K)%N -> (R <= K)%N -> (2 ^ K).-primitive_root g -> (forall i, P i = P (i %% 2 ^ (K - R))%N) ->
  ~ close_to P g v (2 ^ R * m) (4 ^ R * e) ->
  forall A : {set R.-tuple F},
    (forall cs, cs \in A -> close_to P (g ^+ (2 ^ R)) (fold_vecs cs g v) m e) ->
    (#|A| <= R * #|F| ^ R.-1)%N.
Proof.
elim: R K g v => [|R IH] [|K] g v Hs HR Hg HP // Hfar A HA.
- rewrite leqn0 cards_eq0; apply/eqP/setP => cs; rewrite inE; apply/negP => /HA.
  by rewrite tuple0 /= expr1 -[m]mul1n -[e]mul1n.
- rewrite leqn0 cards_eq0; apply/eqP/setP => cs; rewrite inE; apply/negP => /HA.
  by rewrite tuple0 /= expr1 -[m]mul1n -[e]mul1n.
have Hn : size v = (2 * 2 ^ K)%N by rewrite Hs expnS.
have Hf c : size (fold_vec c g v) = (2 ^ K)%N by rewrite size_fold_vec Hn mulKn.
pose Ab (b : F) := [set cs : R.-tuple F | [tuple of b :: cs] \in A].
have EA : #|A| = (\sum_(b : F) #|Ab b|)%N.
  rewrite -sum1_card (partition_big (fun cs : R.+1.-tuple F => thead cs) predT) //=.
  apply: eq_bigr => b _; rewrite -sum1_card.
  rewrite (reindex_onto (fun cs : R.-tuple F => [tuple of b :: cs]) (fun cs => [tuple of behead cs])).
    apply: eq_bigl => cs; rewrite !inE theadE eqxx andbT andbC; case: eqP => //= Hc.
    by case: Hc; apply: val_inj.
  by move=> cs /andP [_ /eqP <-]; rewrite [RHS]tuple_eta; apply: val_inj.
pose M := (R * #|F| ^ R.-1)%N.
have Hbig b : (M < #|Ab b|)%N -> ~ ~ close_to P (g ^+ 2) (fold_vec b g v) (2 ^ R * m) (4 ^ R * e).
  move=> Hb Hc; move: Hb; rewrite ltnNge; apply/negP/negPn.
  apply: (IH K (g ^+ 2) (fold_vec b g v)) => //; first exact: prim_sqr.
  move=> cs; rewrite inE => /HA /=; by rewrite -exprM -expnS.
have Hone b b' : (M < #|Ab b|)%N -> (M < #|Ab b'|)%N -> b = b'.
  move=> Hb Hb'; apply/eqP; apply/negPn/negP => Hne.
  apply: (Hbig b Hb) => C; apply: (Hbig b' Hb') => C'; apply: Hfar.
  have -> : (4 ^ R.+1 * e = 2 * (4 ^ R * e + 4 ^ R * e))%N by rewrite addnn -[(_ * e).*2%N]mul2n !mulnA expnS.
  rewrite expnS -mulnA; apply: (@close_back F H2 P g b b' v (2 ^ K) (2 ^ R * m) (4 ^ R * e) (4 ^ R * e) Hn) => //.
  - move=> i _; rewrite HP [RHS]HP modn_dvdm // subSS; apply: dvdn_exp2l; exact: leq_subr.
  - by rewrite -expnS.
have HM : (#|F| * M <= R * #|F| ^ R)%N by rewrite /M mulnCA; case: (R) => // r; rewrite /= -expnS.
have HcR : #|{: R.-tuple F}| = (#|F| ^ R)%N by rewrite card_tuple.
rewrite EA /=; case: (pickP (fun b => M < #|Ab b|)%N) => [b0 Hb0|Hno].
  rewrite (bigD1 b0) //= mulSn; apply: leq_add; first by rewrite -HcR max_card.
  apply: leq_trans HM; rewrite -sum_nat_const [X in (_ <= X)%N](bigD1 b0) //=.
  apply: leq_trans (leq_addl _ _); apply: leq_sum => b Hb.
  by rewrite leqNgt; apply/negP => /(Hone _ _ Hb0) E; rewrite E eqxx in Hb.
apply: leq_trans (_ : R * #|F| ^ R <= _)%N; last by rewrite mulSn leq_addl.
apply: leq_trans HM; rewrite -sum_nat_const; apply: leq_sum => b _.
by rewrite leqNgt Hno.
Qed.
End Count.

(** Whether a vector is near a polynomial can be decided. *)
Definition close_tob (F : finFieldType) (P : pred nat) (g : F) (v : seq F) (m e : nat) : bool :=
  [exists t : m.-tuple F, (count (fun i => P i && (v`_i != (Poly t).[g ^+ i])%R) (iota 0 (size v)) <= e)%N].

Lemma close_toP (F : finFieldType) (P : pred nat) (g : F) (v : seq F) (m e : nat) :
  reflect (close_to P g v m e) (close_tob P g v m e).
Proof.
apply: (iffP existsP) => [[t Ht]|[f [bad [Hf Hb Hv]]]].
  exists (Poly t), [seq i <- iota 0 (size v) | P i && (v`_i != (Poly t).[g ^+ i])].
  split; [by apply: leq_trans (size_Poly t) _; rewrite size_tuple | by rewrite size_filter |].
  by move=> i Hi HPi; rewrite mem_filter mem_iota HPi Hi /= andbT negbK => /eqP.
have Hs : size (mkseq (fun i => f`_i) m) == m by rewrite size_mkseq.
exists (Tuple Hs).
have -> : Poly (Tuple Hs) = f.
  apply/polyP => i; rewrite coef_Poly /=; case: (ltnP i m) => Hi; first by rewrite nth_mkseq.
  by rewrite nth_default ?size_mkseq // nth_default // (leq_trans Hf).
rewrite -size_filter; apply: leq_trans Hb; apply: uniq_leq_size; first by rewrite filter_uniq ?iota_uniq.
move=> i; rewrite mem_filter mem_iota /= add0n => /andP [/andP [HP Hne] Hi].
by apply/negPn/negP => /(Hv i Hi HP) /eqP; rewrite (negbTE Hne).
Qed.

Section Verifier.
Variables (F : finFieldType) (fp : ff_params F) (H : hash_fun).
Hypothesis Hok : ff_ok fp.
Hypothesis Hrep : ff_repr_ok fp.

(** The proof with openings [qs] has one pair of openings per root and is accepted
    at [idx] against the oracle value [y].  (The number of openings is not checked by
    the code, see C31.) *)
Definition passes roots finals (d out lde : nat) (qs : seq (query F)) (idx : nat) (y : F) : bool :=
  (size qs == 2 * size roots)%N &&
  (if verify_proof fp H (FriProof qs roots finals d out lde) idx y is Ok b then b else false).

(** If the odd positions of [v] are not near a polynomial of degree below 2^R m, all
    but R |F|^(R-1) lists of challenges make the verifier reject at more than [e]
    positions, whatever later roots are sent, with any final polynomial of degree
    below [m] and any openings, or two of the hashed strings collide. *)
Theorem C58_fri_soundness (K R : nat) (v : seq F) (m e : nat) :
  (0 < R < K)%N -> (K <= ff_S fp)%N -> size v = (2 ^ K)%N ->
  ~ close_to odd (dom_gen fp K) v (2 ^ R * m) (4 ^ R * e) ->
  exists2 B : {set R.-tuple F}, (#|B| <= R * #|F| ^ R.-1)%N &
  forall d out lde roots finals (vs : nat -> seq F) (prf : nat -> seq (query F)) (cs : R.-tuple F),
    size roots = R -> domain_new fp (d * lde) = Ok (Domain (2 ^ K) K (dom_gen fp K)) ->
    vs 0%N = v ->
    (forall j, (j < R)%N -> size (vs j) = (2 ^ (K - j))%N /\ exists w t,
       [/\ (0 < w)%N, tree_create fp H w (vs j) = Ok t & get_root t = Ok (nth zero_digest roots j)]) ->
    (forall j, (j < R)%N -> encode_root_into_challenge fp (nth zero_digest roots j) = Ok cs`_j) ->
    cs \notin B -> (size finals <= m)%N ->
    collision_among H (trees_inputs fp H (mkseq vs R) ++ queries_inputs fp H (flatten (mkseq prf (2 ^ K)))) \/
    (e < count (fun idx => odd idx && ~~ passes roots finals d out lde (prf idx) idx v`_idx%R) (iota 0 (2 ^ K)))%N.
Proof.
move=> HR HK Hs Hfar; have /andP [HR0 HRK] := HR.
have H2 : (2%:R : F) != 0 by case: Hok.
pose g := dom_gen fp K.
pose B := [set cs : R.-tuple F | close_tob odd (g ^+ (2 ^ R)) (fold_vecs cs g v) m e].
have Hodd n i : (0 < n)%N -> odd i = odd (i %% 2 ^ n).
  by case: n => // n _; rewrite {1}(divn_eq i (2 ^ n.+1)) oddD oddM oddX andbF.
exists B.
  apply: (C58_count H2 Hs (ltnW HRK) (dom_gen_prim Hok HK) _ Hfar) => [i|cs]; last by rewrite inE => /close_toP.
  by apply: Hodd; rewrite subn_gt0.
move=> d out lde roots finals vs prf cs Hroots Hd Ev Hvs Hch HcB Hfin.
case: (leqP _ e) => [Hrej|]; [left | by right].
set pr := fun idx => _ in Hrej; pose rej := [seq idx <- iota 0 (2 ^ K) | pr idx].
subst R.
have Hacc idx : odd idx -> (idx < 2 ^ K)%N -> idx \notin rej -> size (prf idx) = (2 * size roots)%N /\
   verify_proof fp H (FriProof (prf idx) roots finals d out lde) idx (vs 0%N)`_idx = Ok true.
  move=> Ho Hi; rewrite mem_filter mem_iota Hi /= andbT /pr Ho /= negbK Ev => /andP [/eqP -> ].
  by case: (verify_proof _ _ _ _ _) => [[]| |].
case: (fold_chain Hok Hrep Hd HR Hvs (size_tuple cs) Hch Hacc) => // Hf.
case/negP: HcB; rewrite inE; apply/close_toP.
exists (poly_of finals), [seq (idx %% 2 ^ (K - size roots))%N | idx <- rej]; split.
- by rewrite /poly_of; apply: leq_trans (size_poly _ _) _.
- by rewrite size_map size_filter.
have Hsf : size (fold_vecs cs g v) = (2 ^ (K - size roots))%N.
  by apply: size_fold_vecs; rewrite size_tuple subnKC // ltnW.
move=> i; rewrite Hsf => Hi Ho Hb; rewrite -Ev; apply: Hf => // idx Hx Ei.
by apply: contra Hb => Hr; apply/mapP; exists idx.
Qed.
End Verifier.

(** Vectors that are not near: values of a polynomial of the next degree. *)
Lemma far_vector (F : fieldType) (g : F) (K n e : nat) (f : {poly F}) :
  (0 < K)%N -> (2 ^ K).-primitive_root g -> size f = n.+1 -> (n + e < 2 ^ K.-1)%N ->
  ~ close_to odd g (mkseq (fun i => f.[g ^+ i]) (2 ^ K)) n e.
Proof.
move=> HK Hg Hf Hn [p [bad [Hp Hb Hv]]].
pose os := [seq i <- iota 0 (2 ^ K) | odd i && (i \notin bad)].
have Hos i : i \in os -> [/\ (i < 2 ^ K)%N, odd i & i \notin bad].
  by rewrite mem_filter mem_iota /= add0n => /andP [/andP [-> ->] ->].
have q0 : f - p != 0.
  by apply/eqP => /eqP; rewrite subr_eq0 => /eqP E; rewrite -E Hf ltnn in Hp.
pose rs := [seq g ^+ i | i <- os].
have Hroots : all (root (f - p)) rs.
  apply/allP => x /mapP [i /Hos [Hi Ho Hbi] ->]; rewrite /root hornerD hornerN subr_eq0.
  by have := Hv i; rewrite size_mkseq nth_mkseq // => ->.
have Hu : uniq rs.
  rewrite map_inj_in_uniq ?filter_uniq ?iota_uniq // => i j /Hos [Hi _ _] /Hos [Hj _ _] /eqP.
  by rewrite (eq_prim_root_expr Hg) !modn_small // => /eqP.
have := max_poly_roots q0 Hroots Hu; rewrite size_map ltnNge => /negP; apply.
have Hsz : (size (f - p)%R <= n.+1)%N by apply: leq_trans (size_add _ _) _; rewrite size_opp geq_max Hf leqnn ltnW.
apply: (leq_trans Hsz).
have Hodds : size [seq i <- iota 0 (2 ^ K) | odd i] = (2 ^ K.-1)%N.
  case: K HK {Hg Hn Hv os Hos rs Hroots Hu} => // K _; rewrite /= expnS.
  elim: (2 ^ K)%N => // s IH; rewrite mulnS addnC iotaD filter_cat size_cat IH /= add0n.
  by rewrite mul2n odd_double /= addn1.
have : (size [seq i <- iota 0 (2 ^ K) | odd i] <= size os + size bad)%N.
  rewrite -size_cat; apply: uniq_leq_size; first by rewrite filter_uniq ?iota_uniq.
  move=> i; rewrite mem_filter => /andP [Ho Hi]; rewrite mem_cat mem_filter Ho Hi /= andbT.
  by case: (i \in bad); rewrite ?orbT.
rewrite Hodds => Hle; move: (leq_trans Hn Hle) => H1.
by rewrite -(ltn_add2r e); apply: (leq_trans H1); rewrite leq_add2l.
Qed.

(** Over the field of the examples of the repository (a 252 bit prime): the values of
    X^8 on 64 points are not near a polynomial of degree below 8, even if 16 positions
    are ignored, so that the verifier with two rounds rejects at more than one position
    unless the two challenges are in a set of at most 2 |F| of the |F|^2 pairs. *)
Definition ex_far : seq F251 := mkseq (fun i => ('X^8 : {poly F251}).[dom_gen f251 6 ^+ i]) (2 ^ 6).

Example C58_ex : size ex_far = (2 ^ 6)%N /\ ~ close_to odd (dom_gen f251 6) ex_far (2 ^ 2 * 2) (4 ^ 2 * 1).
Proof.
split; first exact: size_mkseq.
apply: far_vector; [by [] | exact: (dom_gen_prim f251_ok) | exact: size_polyXn | by []].
Qed.

Definition C58_ex_instance (H : hash_fun) :=
  @C58_fri_soundness [finFieldType of 'F_p251] f251 H f251_ok f251_repr_ok 6 2 ex_far 2 1
    isT isT (proj1 C58_ex) (proj2 C58_ex).

Print Assumptions C58_tree.
Print Assumptions C58_count.
Print Assumptions C58_fri_soundness.
