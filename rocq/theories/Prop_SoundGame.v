(** Property C62: soundness of the checks of the verifier when the challenges are
    drawn after the messages that they follow. *)
From Coq Require Import NArith.
From mathcomp Require Import all_ssreflect all_algebra.
From Verif Require Import M_Base M_Worker M_Field M_Domain M_Fft M_Poly M_Bytes M_Transcript M_Merkle M_Fri.
From Verif Require Import M_Challenge M_Air M_Arp M_Ali M_Verifier M_Prover.
From Verif Require Import Spec SpecPoly SpecHash SpecFri SpecAir SpecStark SpecSound P_Base P_Fft P_Domain P_Poly P_Lde P_PolyOps P_Wf P_Bytes P_Merkle P_Fri P_Air P_Arp.
From Verif Require Import P_Vals P_Maps P_Ali P_AliG P_Comp P_Honest P_Gz P_Deep P_Stark P_Sound P_SoundDeep P_Few.
From Verif Require Import Instances Prop_Hash Prop_Fri Prop_Air Prop_Arp Prop_Ali Prop_Sound Prop_SoundDeep Prop_SoundIop.
From Verif Require Import Prop_SoundFri Prop_FriProx Prop_Verify.

Set Implicit Arguments.
Unset Strict Implicit.
Unset Printing Implicit Defensive.
Import GRing.Theory.
Local Open Scope ring_scope.

Lemma nn_all N (Q : nat -> Prop) : (forall j, (j < N)%N -> ~ ~ Q j) -> ~ ~ forall j, (j < N)%N -> Q j.
Proof.
elim: N => [|N IH] HQ Hno; first by apply: Hno.
apply: IH => [j Hj|Hall]; first by apply: HQ; apply: ltnW.
apply: (HQ N (ltnSn N)) => HN; apply: Hno => j; rewrite ltnS leq_eqVlt => /orP [/eqP ->|]; [exact: HN | exact: Hall].
Qed.

Lemma few_map (A B : eqType) (f : A -> B) b (P : A -> Prop) (Q : B -> Prop) :
  (forall x y, P x -> P y -> f x = f y -> x = y) -> (forall x, P x -> Q (f x)) -> few b Q -> few b P.
Proof.
move=> Hf HPQ HQ s Hu Hs; rewrite -(size_map f); apply: HQ => [|y /mapP [x /Hs Hx ->]]; last exact: HPQ.
by rewrite map_inj_in_uniq // => x y /Hs Hx /Hs Hy; apply: Hf.
Qed.

Section Rounds.
Variable F : finFieldType.

(** Lists of [N] pairs of which no two differ in the first element of pair [j] only. *)
Lemma few_alpha N j (P : seq (F * F) -> Prop) : (j < N)%N ->
  (forall s a a', size s = N -> P (with_alpha s j a) -> P (with_alpha s j a') -> a = a') ->
  few (#|F| ^ (2 * N).-1) (fun s => size s = N /\ P s).
Proof.
move=> Hj HP.
have -> : (#|F| ^ (2 * N).-1 = #|[finType of F * F]| ^ N.-1 * #|F|)%N.
  by case: N Hj {HP} => // N _; rewrite card_prod mulnn -expnM mulnS /= -expnSr.
apply: (@few_map _ _ (fun s => (without j s, (nth (0, 0) s j).2)) _ _ (fun p => size p.1 = N.-1 /\ True)).
- move=> x y [Hx Px] [Hy Py] [Exy E2].
  have Hjx : (j < size x)%N by rewrite Hx.
  have Ex : x = with_alpha x j (nth (0, 0) x j).1.
    by rewrite /with_alpha -surjective_pairing set_nthE Hjx -drop_nth // cat_take_drop.
  have Ey : y = with_alpha x j (nth (0, 0) y j).1.
    by rewrite /with_alpha E2 -surjective_pairing; apply: without_eq => //; rewrite Hx Hy.
  by rewrite Ex Ey; congr with_alpha; apply: (HP x) => //; rewrite -?Ex -?Ey.
- by move=> x [Hx _]; rewrite size_without Hx.
apply: (@few_pair _ _ _ _ (fun s => size s = N.-1) (fun _ _ => True)); first exact: (@few_lists _ (0, 0)).
by move=> x _; apply: (@few_inj _ _ id).
Qed.
End Rounds.

Section C62.
Variables (F : finFieldType) (fp : ff_params F).
Hypothesis Hok : ff_ok fp.

(** The simulated values of h1 are those of a polynomial of degree below [n] at all
    but [e] of the positions [I]. *)
Definition near_h1 (v : verifier F) (FD : domain F) (I : seq nat) (e n : nat) (f : nat -> seq F)
    (vals : seq F) (z : F) (alphas : seq F) : Prop :=
  exists2 h : {poly F}, (size h <= n)%N & almost I e (fun i => simulate_h1 v alphas i FD (f i) vals z = Ok h.[d_gen FD ^+ i]).

(** The same of h2. *)
Definition near_h2 (GD : domain F) (I : seq nat) (e N : nat) (g : nat -> F) (z y : F) : Prop :=
  exists2 h : {poly F}, (size h <= N)%N & almost I e (fun i => simulate_h2 i GD (g i) z y = Ok h.[d_gen GD ^+ i]).

(** The columns [f] are near the columns of a satisfying trace: polynomials of degree at
    most [n] that take the values of the trace on the trace domain agree with the
    columns that the verifier reads at all but [e] of the positions [I]. *)
Definition near_satisfying (props : instance_properties F) (v : verifier F) (FD : domain F) (I : seq nat) (e : nat)
    (f : nat -> seq F) : Prop :=
  let n := ip_num_rows props in let R := ip_num_registers props in
  exists (trace : seq (seq F)) (ps : seq {poly F}), [/\ satisfied props trace,
    size ps = R /\ size trace = R,
    forall r, (r < R)%N -> (size (nth 0 ps r)%R <= n.+1)%N /\
      nth [::] trace r = [seq (nth 0 ps r).[d_gen (v_column_domain v) ^+ i] | i <- iota 0 n] &
    forall r m, (Reg r, m) \in v_all_masks v ->
      almost I e (fun i => nth 0 (f i) r = (nth 0 ps r).[d_gen FD ^+ i])].

Section Setup.
Variables (lde : nat) (props props' : instance_properties F) (v : verifier F).
Variables (sf sg : nat) (FD GD : domain F) (If Ig : seq nat) (ef eg : nat) (f : nat -> seq F).
Let n := ip_num_rows props.
Let D := \max_(c <- ip_constraints props) c_degree c.
Let R := ip_num_registers props.
Let M := size (v_all_masks v).
Let N := (size (ip_constraints props) + size (ip_boundary_constraints props))%N.

(** Round 1.  If the committed columns are not near a satisfying trace, all but a
    fraction 1/|F| of the challenges for the constraints leave the prover without an
    oracle that is accepted at more than (D+1)n points. *)
Theorem C62_constraint_challenges :
  supported_but_density props -> ranges_fit props -> reads_fit props (nseq R (nseq n 0)) -> (0 < R)%N ->
  from_instance fp props = Ok props' -> verifier_new fp props lde = Ok v ->
  domain_new fp sf = Ok FD -> domain_new fp sg = Ok GD ->
  uniq If && all (fun i => i < d_size FD)%N If -> uniq Ig && all (fun i => i < d_size GD)%N Ig ->
  (n.+1 + 2 * ef + 2 * ef <= size If)%N -> ((D * n).+1 + eg + eg <= size Ig)%N ->
  ~ near_satisfying props v FD If (2 * ef) f ->
  few (#|F| ^ (2 * N).-1) (fun c : seq (F * F) * seq (F * F) =>
    [/\ size c.1 = size (ip_constraints props), size c.2 = size (ip_boundary_constraints props) &
        accepted props v FD GD If Ig ef eg f c.1 c.2]).
Proof.
move=> Hsup Hfit Hreads HR Hinst Hv HFD HGD HIf HIg Hef Heg Hno.
pose nc := size (ip_constraints props).
pose P (L : seq (F * F)) := accepted props v FD GD If Ig ef eg f (take nc L) (drop nc L).
apply: (@few_map _ _ (fun c => c.1 ++ c.2) _ _ (fun L => size L = N /\ P L)).
- move=> [c b] [c' b'] [/= Hc Hb _] [/= Hc' Hb' _] /eqP; rewrite eqseq_cat ?Hc //.
  by case/andP=> /eqP -> /eqP ->.
- by move=> [c b] [/= Hc Hb Ha]; rewrite /P -/nc take_size_cat // drop_size_cat // size_cat Hc Hb.
move=> s Hu Hs; apply: contraT => Hn; suff : False by [].
have Htwo j : (j < N)%N -> ~ ~ exists L a a', [/\ size L = N, a != a', P (with_alpha L j a) & P (with_alpha L j a')].
  move=> Hj Hnex; move/negP: Hn; apply; apply: (few_alpha Hj) Hs => // L a a' HL Ha Ha'.
  by apply/eqP; apply: contraT => Hne; case: Hnex; exists L, a, a'.
apply: (nn_all Htwo) => {}Htwo; apply: Hno.
have Hsw (L : seq (F * F)) j a : (j < size L)%N -> size (with_alpha L j a) = size L.
  by move=> Hj; rewrite size_set_nth (maxn_idPr _).
have Hsplit (L : seq (F * F)) : size L = N -> size (take nc L) = nc /\ size (drop nc L) = size (ip_boundary_constraints props).
  by move=> HL; rewrite size_takel ?HL ?leq_addr // size_drop HL /N addKn.
apply: (C59_iop_soundness Hok Hsup Hfit Hreads HR Hinst Hv HFD HGD HIf HIg Hef Heg) => j Hj.
- have [|L [a [a' [HL Hne Ha Ha']]]] := Htwo j; first by rewrite (leq_trans Hj) // leq_addr.
  have [H1 H2] := Hsplit L HL; exists (take nc L), (drop nc L), a, a'; split=> //.
  + move: Ha; rewrite /P -{1 2}(cat_take_drop nc L) -with_alphaL ?H1 //.
    by rewrite take_size_cat ?drop_size_cat // Hsw ?H1.
  + move: Ha'; rewrite /P -{1 2}(cat_take_drop nc L) -with_alphaL ?H1 //.
    by rewrite take_size_cat ?drop_size_cat // Hsw ?H1.
have [|L [a [a' [HL Hne Ha Ha']]]] := Htwo (nc + j)%N; first by rewrite ltn_add2l.
have [H1 H2] := Hsplit L HL.
have EL b : with_alpha L (nc + j) b = take nc L ++ with_alpha (drop nc L) j b.
  by rewrite with_alphaR ?H2 // H1 cat_take_drop.
exists (take nc L), (drop nc L), a, a'; split=> //.
- by move: Ha; rewrite /P EL take_size_cat ?drop_size_cat.
- by move: Ha'; rewrite /P EL take_size_cat ?drop_size_cat.
Qed.

(** Round 2.  Otherwise, whatever oracle the prover sends, all but (D+2)n points lie
    outside of the trace domain and leave the prover without openings that are accepted
    for all coefficients. *)
Theorem C62_points (chs bchs : seq (F * F)) (g : nat -> F) : (0 < n)%N ->
  ~ accepted props v FD GD If Ig ef eg f chs bchs ->
  few (D.+2 * n) (fun z => z ^+ n = 1 \/ accepted_at v FD GD If Ig ef eg n (D * n) f g chs bchs z).
Proof.
move=> Hn Hno; pose Q z := z ^+ n != 1 /\ accepted_at v FD GD If Ig ef eg n (D * n) f g chs bchs z.
rewrite mulSn; apply: (@few_or _ _ _ (fun z : F => z ^+ n = 1) Q).
- move=> s Hu Hs; have := @max_poly_roots F ('X^n - 1) s; rewrite size_Xn_sub_1 // ltnS; apply=> //.
    by rewrite -size_poly_gt0 size_Xn_sub_1.
  by apply/allP => z /Hs Hz; rewrite rootE !hornerE hornerXn Hz subrr.
- move=> s Hu Hs; rewrite leqNgt; apply: contraT; rewrite negbK => Hlt; case: Hno; exists g, s; split=> //.
  by rewrite addn1.
- move=> z [Hz|Ha] Hne; first by apply: Hne; left.
  by case: (boolP (z ^+ n == 1)) => [/eqP Hz|Hz]; apply: Hne; [left | right].
Qed.

(** Round 3.  Otherwise, whatever openings the prover claims, if the simulated h2 is
    near a polynomial of degree below D n, then for all but a fraction 1/|F| of the
    DEEP coefficients the simulated h1 is not near a polynomial of degree below n. *)
Theorem C62_masks (chs bchs : seq (F * F)) (g : nat -> F) (z : F) (vals : seq F) (y : F) :
  ~ accepted_at v FD GD If Ig ef eg n (D * n) f g chs bchs z ->
  size vals = M -> calculate_g_at_z v chs bchs vals z = Ok y -> near_h2 GD Ig eg (D * n) g z y ->
  few (#|F| ^ M %/ #|F|) (fun alphas => size alphas = M /\ near_h1 v FD If ef n f vals z alphas).
Proof.
move=> Hno Hvals Hy [h2 Hh2 H2] s Hu Hs; apply: contraT => Hn; suff : False by [].
have Htwo j : (j < M)%N -> ~ ~ exists L a a', [/\ size L = M, a != a', near_h1 v FD If ef n f vals z (set_nth 0 L j a) &
   near_h1 v FD If ef n f vals z (set_nth 0 L j a')].
  move=> Hj Hnex; move/negP: Hn; apply.
  have -> : (#|F| ^ M %/ #|F| = #|F| ^ M.-1)%N.
    by rewrite -[in LHS](prednK (leq_ltn_trans (leq0n j) Hj)) expnSr mulnK //; apply/card_gt0P; exists 0.
  apply: (few_coordinate (a0 := 0 : F) Hj) Hs => // L a a' HL Ha Ha'.
  by apply/eqP; apply: contraT => Hne; case: Hnex; exists L, a, a'.
apply: (nn_all Htwo) => {}Htwo; apply: Hno; exists vals, y; split=> //; last by exists h2.
move=> j Hj; have [L [a [a' [HL Hne [h Hh Ha] [h' Hh' Ha']]]]] := Htwo j Hj.
by exists L, a, a', h, h'.
Qed.
End Setup.
End C62.

(** [verify] draws the challenges and then checks the proof. *)
Lemma verifyE (F : fieldType) (fp : ff_params F) (H : hash_fun) (v : verifier F) (pf : instance_proof F) :
  verify fp H v pf = let* '(chs, f_lde_domain, g_lde_domain) := draw_challenges fp H v pf in
                     check_proof fp H v pf chs f_lde_domain g_lde_domain.
Proof. by []. Qed.

Section Game.
Variables (F : finFieldType) (fp : ff_params F) (H : hash_fun).
Hypothesis Hok : ff_ok fp.
Hypothesis Hrep : ff_repr_ok fp.

(** The challenges of the constraints and of the boundary constraints, then the point
    [z], then the coefficients of the masks. *)
Definition coins := (seq (F * F) * seq (F * F) * F * seq F)%type.

(** What is sent before the query phase of one FRI proof. *)
Record fri_messages := FriMessages {
  fm_layers : seq (seq F);      (* the vectors behind the roots *)
  fm_roots : seq digest;
  fm_finals : seq F;
  fm_degree : nat;
  fm_output : nat;
  fm_lde : nat }.

(** A prover sends messages that depend on the challenges before them; the openings
    depend on the two positions as well. *)
Record strategy := Strategy {
  st_columns : seq (seq F);
  st_f_roots : seq digest;
  st_comp : seq (F * F) * seq (F * F) -> seq F;
  st_g_root : seq (F * F) * seq (F * F) -> digest;
  st_claims : seq (F * F) * seq (F * F) * F -> seq F;
  st_fri1 : coins -> fri_messages;
  st_fri2 : coins -> fri_messages;
  st_f_queries : coins -> nat -> nat -> seq (query F);
  st_g_query : coins -> nat -> nat -> query F;
  st_queries1 : coins -> nat -> nat -> seq (query F);
  st_queries2 : coins -> nat -> nat -> seq (query F) }.

(** The proof that the verifier receives. *)
Definition game_fri (m : fri_messages) (qs : seq (query F)) : fri_proof F :=
  FriProof qs (fm_roots m) (fm_finals m) (fm_degree m) (fm_output m) (fm_lde m).
Definition game_proof (S : strategy) (c : coins) (i1 i2 : nat) : instance_proof F :=
  Proof (st_claims S c.1) (st_f_roots S) (st_g_root S c.1.1) (st_f_queries S c i1 i2) (st_g_query S c i1 i2)
    (fm_roots (st_fri1 S c)) (fm_roots (st_fri2 S c))
    (game_fri (st_fri1 S c) (st_queries1 S c i1 i2)) (game_fri (st_fri2 S c) (st_queries2 S c i1 i2)).

Definition game_accepts (v : verifier F) (FD GD : domain F) (S : strategy) (c : coins) (i1 i2 : nat) : bool :=
  if check_proof fp H v (game_proof S c i1 i2) (Challenges c.1.1.1 c.1.1.2 c.1.2 c.2 i1 i2) FD GD is Ok b then b
  else false.

Definition commits_to (v : seq F) (root : digest) : Prop :=
  exists w t, [/\ (0 < w)%N, tree_create fp H w v = Ok t & get_root t = Ok root].

(** FRI messages of the right shape for a polynomial of degree below [N] over a domain
    of 2^K elements: the layers are halved, R rounds leave at most N/2^R
    coefficients.  None of this but the roots is checked by the code (C31). *)
Definition fri_shaped (K N : nat) (m : fri_messages) : Prop :=
  let R := size (fm_roots m) in
  [/\ (0 < R < K)%N, (2 ^ R %| N)%N, (fm_degree m * fm_lde m = 2 ^ K)%N, (size (fm_finals m) <= N %/ 2 ^ R)%N &
      forall j, (j < R)%N -> size (nth [::] (fm_layers m) j) = (2 ^ (K - j))%N /\
        commits_to (nth [::] (fm_layers m) j) (nth zero_digest (fm_roots m) j)].

(** A challenge that the code derives from a root is bad for the layer (C61). *)
Definition fri_unlucky (K N E : nat) (m : fri_messages) : Prop :=
  let R := size (fm_roots m) in
  exists j b, [/\ (j < R)%N, encode_root_into_challenge fp (nth zero_digest (fm_roots m) j) = Ok b &
    bad_layer fp K R (N %/ 2 ^ R) E j (nth [::] (fm_layers m) j) b].

Definition shaped (v : verifier F) (K1 K2 n N : nat) (S : strategy) : Prop :=
  [/\ size (st_columns S) = ip_num_registers (v_instance v) /\ size (st_f_roots S) = ip_num_registers (v_instance v),
      forall r, (r < size (st_columns S))%N -> size (nth [::] (st_columns S) r) = (2 ^ K1)%N /\
        commits_to (nth [::] (st_columns S) r) (nth zero_digest (st_f_roots S) r),
      forall d, size (st_comp S d) = (2 ^ K2)%N /\ commits_to (st_comp S d) (st_g_root S d),
      forall d, size (st_claims S d) = size (v_all_masks v) &
      forall c, [/\ fri_shaped K1 n (st_fri1 S c), fri_shaped K2 N (st_fri2 S c) &
        forall i1 i2, size (st_queries1 S c i1 i2) = (2 * size (fm_roots (st_fri1 S c)))%N /\
                      size (st_queries2 S c i1 i2) = (2 * size (fm_roots (st_fri2 S c)))%N]].

(** The strings that are hashed to make the roots and to check the openings. *)
Definition proof_queries (p : instance_proof F) : seq (query F) :=
  pr_f_queries p ++ pr_g_query p :: fpr_queries (pr_fri_h1 p) ++ fpr_queries (pr_fri_h2 p).
Definition game_inputs (K1 K2 : nat) (S : strategy) (c : coins) : seq bytes :=
  trees_inputs fp H (st_columns S ++ st_comp S c.1.1 :: mkseq (nth [::] (fm_layers (st_fri1 S c))) (size (fm_roots (st_fri1 S c)))
                                                   ++ mkseq (nth [::] (fm_layers (st_fri2 S c))) (size (fm_roots (st_fri2 S c)))) ++
  queries_inputs fp H (flatten (mkseq (fun i1 => flatten (mkseq (fun i2 =>
    proof_queries (game_proof S c i1 i2)) (2 ^ K2))) (2 ^ K1))).

(** The odd positions of a domain of 2^K elements, from which the code draws. *)
Definition odds (K : nat) : seq nat := [seq i <- iota 0 (2 ^ K) | odd i].

(** The positions for h1 (for h2) at which the prover fails whatever the other
    position is. *)
Definition rejects1 (v : verifier F) (K1 K2 : nat) (S : strategy) (c : coins) (i1 : nat) : bool :=
  ~~ has (game_accepts v (dom fp K1) (dom fp K2) S c i1) (odds K2).
Definition rejects2 (v : verifier F) (K1 K2 : nat) (S : strategy) (c : coins) (i2 : nat) : bool :=
  ~~ has (fun i1 => game_accepts v (dom fp K1) (dom fp K2) S c i1 i2) (odds K1).

(** The prover gets away: no two hashed strings collide, no challenge of a FRI layer is
    bad, and the verifier rejects at no more than [E1] positions for h1 and no more
    than [E2] positions for h2. *)
Definition gets_away (v : verifier F) (K1 K2 n N E1 E2 : nat) (S : strategy) (c : coins) : Prop :=
  [/\ ~ collision_among H (game_inputs K1 K2 S c),
      ~ fri_unlucky K1 n E1 (st_fri1 S c), ~ fri_unlucky K2 N E2 (st_fri2 S c),
      (count (rejects1 v K1 K2 S c) (odds K1) <= E1)%N & (count (rejects2 v K1 K2 S c) (odds K2) <= E2)%N].

Lemma check_inv v pf ch FD GD : check_proof fp H v pf ch FD GD = Ok true ->
  [/\ size (pr_f_queries pf) = ip_num_registers (v_instance v), size (pr_f_queries pf) = size (pr_f_iop_roots pf),
      check_f_queries fp H pf (ch_index_h1 ch),
      verify_query fp H (pr_g_query pf) (pr_g_iop_root pf) && (q_index (pr_g_query pf) == ch_index_h2 ch) &
      exists h1 y h2, [/\ simulate_h1 v (ch_masks ch) (ch_index_h1 ch) FD [seq q_value q | q <- pr_f_queries pf]
                       (pr_f_at_z_m pf) (ch_z ch) = Ok h1,
        calculate_g_at_z v (ch_constraints ch) (ch_boundary ch) (pr_f_at_z_m pf) (ch_z ch) = Ok y,
        simulate_h2 (ch_index_h2 ch) GD (q_value (pr_g_query pf)) (ch_z ch) y = Ok h2,
        verify_proof fp H (pr_fri_h1 pf) (ch_index_h1 ch) h1 = Ok true &
        verify_proof fp H (pr_fri_h2 pf) (ch_index_h2 ch) h2 = Ok true]].
Proof.
rewrite /check_proof; case: eqP => //= E1; case: eqP => //= E2; case: (check_f_queries _ _ _ _) => //=.
case E3: (simulate_h1 _ _ _ _ _ _ _) => [h1| |] //=; case E4: (calculate_g_at_z _ _ _ _ _) => [y| |] //=.
case: (verify_query _ _ _ _) => //=; case: eqP => //= E5; case E6: (simulate_h2 _ _ _ _ _) => [h2| |] //=.
by case E7: (verify_proof _ _ _ _ _) => [[]| |] //= E8; split=> //; exists h1, y, h2.
Qed.
Section Round4.
Variables (v : verifier F) (K1 K2 n N E1 E2 : nat) (S : strategy) (c : coins).
Hypothesis Hdec : forall d, exists x, encode_root_into_challenge fp d = Ok x.
Hypothesis HK1 : domain_new fp (2 ^ K1) = Ok (dom fp K1).
Hypothesis HK2 : domain_new fp (2 ^ K2) = Ok (dom fp K2).
Hypothesis HS : shaped v K1 K2 n N S.
Hypothesis Hnc : ~ collision_among H (game_inputs K1 K2 S c).

Let f i := [seq col`_i | col <- st_columns S].
Let g i := (st_comp S c.1.1)`_i.
Let acc := game_accepts v (dom fp K1) (dom fp K2) S c.

Lemma proof_sub i1 i2 : (i1 < 2 ^ K1)%N -> (i2 < 2 ^ K2)%N ->
  {subset queries_inputs fp H (proof_queries (game_proof S c i1 i2)) <= game_inputs K1 K2 S c}.
Proof.
move=> H1 H2 y Hy; rewrite mem_cat; apply/orP; right.
apply: (queries_flatten (prf := fun i1 => flatten (mkseq (fun i2 => proof_queries (game_proof S c i1 i2)) (2 ^ K2))) H1).
exact: (queries_flatten (prf := fun i2 => proof_queries (game_proof S c i1 i2)) H2).
Qed.

Lemma queries_cat (a b : seq (query F)) : queries_inputs fp H (a ++ b) = queries_inputs fp H a ++ queries_inputs fp H b.
Proof. by rewrite /queries_inputs map_cat flatten_cat. Qed.

Lemma trees_cat (a b : seq (seq F)) : trees_inputs fp H (a ++ b) = trees_inputs fp H a ++ trees_inputs fp H b.
Proof. by rewrite /trees_inputs map_cat flatten_cat. Qed.

Lemma queries_all (prf : nat -> seq (query F)) k (xs : seq bytes) :
  (forall i, (i < k)%N -> {subset queries_inputs fp H (prf i) <= xs}) ->
  {subset queries_inputs fp H (flatten (mkseq prf k)) <= xs}.
Proof.
elim: k => [|k IH] Hall y; first by [].
rewrite mkseqSr -cats1 flatten_cat /= cats0 queries_cat mem_cat => /orP [|]; last exact: Hall.
by apply: IH => i Hi; apply: Hall; apply: ltnW.
Qed.

Lemma odds_lt K i : i \in odds K -> (i < 2 ^ K)%N /\ odd i.
Proof. by rewrite mem_filter mem_iota add0n => /andP [-> /andP [_ ->]]. Qed.

Lemma column_values i1 i2 : (i1 < 2 ^ K1)%N -> (i2 < 2 ^ K2)%N -> acc i1 i2 ->
  [seq q_value q | q <- st_f_queries S c i1 i2] = f i1.
Proof.
move=> H1 H2; rewrite /acc /game_accepts; case E: (check_proof _ _ _ _ _ _ _) => [[]| |] // _.
have [Hs Hs' Hq _ _] := check_inv E; have [[Hc Hr] Hcols _ _ _] := HS.
rewrite /= in Hs Hs' Hq.
apply: (@eq_from_nth _ 0) => [|r]; rewrite !size_map Hs // => Hlt; rewrite -Hc in Hlt.
pose q0 : query F := Query 0 0 [::].
have Hlt' : (r < size (st_f_queries S c i1 i2))%N by rewrite Hs -Hc.
rewrite (nth_map q0) // (nth_map [::]) //.
have [Hsz [w [t [Hw Ht Hroot]]]] := Hcols r Hlt.
have /andP [Hv /eqP Hidx] : verify_query fp H (nth q0 (st_f_queries S c i1 i2) r) (nth zero_digest (st_f_roots S) r) &&
    (q_index (nth q0 (st_f_queries S c i1 i2) r) == i1).
  have Hz : (r < size (zip (st_f_queries S c i1 i2) (st_f_roots S)))%N by rewrite size_zip Hs Hr minnn -Hc.
  by have := all_nthP (q0, zero_digest) Hq r Hz; rewrite nth_zip ?Hs'.
case: (C21_opening_of_vector Hrep Hw Ht Hroot Hv) => [[_ ->]|Hcol].
  by rewrite Hidx Hsz modn_small.
case: Hnc; apply: collision_sub Hcol => y; rewrite mem_cat => /orP [Hy|Hy].
  rewrite mem_cat trees_cat mem_cat; apply/orP; left; apply/orP; left.
  by apply/flattenP; exists (tree_inputs fp H (nth [::] (st_columns S) r)) => //; apply: map_f; apply: mem_nth.
apply: (proof_sub H1 H2); rewrite queries_cat mem_cat; apply/orP; left.
exact: (queries_sub (q0 := q0) Hlt' Hy).
Qed.

Lemma comp_value i1 i2 : (i1 < 2 ^ K1)%N -> (i2 < 2 ^ K2)%N -> acc i1 i2 -> q_value (st_g_query S c i1 i2) = g i2.
Proof.
move=> H1 H2; rewrite /acc /game_accepts; case E: (check_proof _ _ _ _ _ _ _) => [[]| |] // _.
have [_ _ _ /andP [Hv /eqP Hidx] _] := check_inv E; have [_ _ /(_ c.1.1) [Hsz [w [t [Hw Ht Hroot]]]] _ _] := HS.
rewrite /= in Hv Hidx.
case: (C21_opening_of_vector Hrep Hw Ht Hroot Hv) => [[_ ->]|Hcol].
  by rewrite Hidx Hsz modn_small.
case: Hnc; apply: collision_sub Hcol => y; rewrite mem_cat => /orP [Hy|Hy].
  by rewrite mem_cat trees_cat mem_cat /trees_inputs /= mem_cat Hy !orbT.
apply: (proof_sub H1 H2); rewrite queries_cat mem_cat; apply/orP; right.
rewrite -cat1s queries_cat mem_cat; apply/orP; left.
exact: (queries_sub (qs := [:: st_g_query S c i1 i2]) (q0 := st_g_query S c i1 i2) (isT : (0 < 1)%N) Hy).
Qed.

Lemma fri_near K M E m (prf : nat -> seq (query F)) (sim : nat -> outcome F) (rej : pred nat) :
  domain_new fp (2 ^ K) = Ok (dom fp K) -> fri_shaped K M m -> ~ fri_unlucky K M E m ->
  {subset trees_inputs fp H (mkseq (nth [::] (fm_layers m)) (size (fm_roots m))) ++
          queries_inputs fp H (flatten (mkseq prf (2 ^ K))) <= game_inputs K1 K2 S c} ->
  (forall i, (i < 2 ^ K)%N -> odd i -> ~~ rej i -> size (prf i) = (2 * size (fm_roots m))%N /\
     exists2 y, sim i = Ok y & verify_proof fp H (game_fri m (prf i)) i y = Ok true) ->
  (count rej (odds K) <= E)%N ->
  exists2 h : {poly F}, (size h <= M)%N & almost (odds K) E (fun i => sim i = Ok h.[d_gen (dom fp K) ^+ i]).
Proof.
move=> HK [HR Hdiv Hd Hfin Hlay] Hlucky Hsub Hacc Hrej.
pose bs := mkseq (fun j => if encode_root_into_challenge fp (nth zero_digest (fm_roots m) j) is Ok b then b else 0) (size (fm_roots m)).
have Hbs j : (j < size (fm_roots m))%N -> encode_root_into_challenge fp (nth zero_digest (fm_roots m) j) = Ok bs`_j.
  by move=> Hj; rewrite nth_mkseq //; have [x ->] := Hdec (nth zero_digest (fm_roots m) j).
have Hbad j : (j < size (fm_roots m))%N ->
    ~ bad_layer fp K (size (fm_roots m)) (M %/ 2 ^ size (fm_roots m)) E j (nth [::] (fm_layers m) j) bs`_j.
  by move=> Hj Hb; apply: Hlucky; exists j, bs`_j; split=> //; apply: Hbs.
rewrite -Hd in HK.
pose y i := if sim i is Ok y then y else 0.
have Hpass i : (i < 2 ^ K)%N -> odd i -> ~~ rej i ->
    passes fp H (fm_roots m) (fm_finals m) (fm_degree m) (fm_output m) (fm_lde m) (prf i) i (y i).
  by move=> H1 H2 H3; have [Hs [x Ex Ev]] := Hacc i H1 H2 H3; rewrite /passes Hs eqxx /y Ex; move: Ev; rewrite /game_fri => ->.
case: (@C61_fri_soundness F fp H Hok Hrep K (fm_degree m) (fm_output m) (fm_lde m) (fm_roots m) (fm_finals m)
         (nth [::] (fm_layers m)) prf y bs (M %/ 2 ^ size (fm_roots m)) E HR HK Hlay Hbs Hbad Hfin).
- by move=> Hc; case: Hnc; apply: collision_sub Hc.
- rewrite ltnNge => /negP []; apply: leq_trans Hrej; rewrite count_filter -!size_filter.
  apply: uniq_leq_size; first by rewrite filter_uniq ?iota_uniq.
  move=> i; rewrite !mem_filter => /andP [/andP [Ho Hn] Hi]; rewrite Hi andbT /= Ho andbT.
  apply: contraT => Hr; move/negP: Hn; case; rewrite Ho /=; apply: Hpass => //.
  by move: Hi; rewrite mem_iota.
case=> C HC EC; exists C; first by rewrite mulnC divnK in HC.
exists [seq i <- odds K | rej i]; first by rewrite size_filter.
move=> i Hi; rewrite mem_filter Hi andbT => Hr; have [Hlt Ho] := odds_lt Hi.
have [_ [x Ex _]] := Hacc i Hlt Ho Hr.
have := EC i Hlt; rewrite Ho (Hpass i Hlt Ho Hr) => /(_ isT); rewrite /y Ex => ->.
by [].
Qed.

Lemma round4 : gets_away v K1 K2 n N E1 E2 S c -> (E1 < size (odds K1))%N ->
  near_h1 v (dom fp K1) (odds K1) E1 n f (st_claims S c.1) c.1.2 c.2 /\
  exists2 y, calculate_g_at_z v c.1.1.1 c.1.1.2 (st_claims S c.1) c.1.2 = Ok y &
             near_h2 (dom fp K2) (odds K2) E2 N g c.1.2 y.
Proof.
move=> [_ Hu1 Hu2 Hr1 Hr2] HE; have [_ _ _ _ /(_ c) [Hf1 Hf2 Hqs]] := HS.
pose sel2 i1 := nth 0%N (odds K2) (find (acc i1) (odds K2)).
pose sel1 i2 := nth 0%N (odds K1) (find (acc^~ i2) (odds K1)).
have Hsel2 i1 : (sel2 i1 < 2 ^ K2)%N.
  rewrite /sel2; case: (ltnP (find (acc i1) (odds K2)) (size (odds K2))) => Hi; last by rewrite nth_default // expn_gt0.
  by have [] := odds_lt (mem_nth 0%N Hi).
have Hsel1 i2 : (sel1 i2 < 2 ^ K1)%N.
  rewrite /sel1; case: (ltnP (find (acc^~ i2) (odds K1)) (size (odds K1))) => Hi; last by rewrite nth_default // expn_gt0.
  by have [] := odds_lt (mem_nth 0%N Hi).
have Hacc2 i1 : ~~ rejects1 v K1 K2 S c i1 -> acc i1 (sel2 i1).
  by rewrite negbK => Hh; exact: (nth_find 0%N Hh).
have Hacc1 i2 : ~~ rejects2 v K1 K2 S c i2 -> acc (sel1 i2) i2.
  by rewrite negbK => Hh; exact: (nth_find 0%N Hh).
have Hinv i1 i2 : (i1 < 2 ^ K1)%N -> (i2 < 2 ^ K2)%N -> acc i1 i2 -> exists h1 y h2,
   [/\ simulate_h1 v c.2 i1 (dom fp K1) (f i1) (st_claims S c.1) c.1.2 = Ok h1,
       calculate_g_at_z v c.1.1.1 c.1.1.2 (st_claims S c.1) c.1.2 = Ok y,
       simulate_h2 i2 (dom fp K2) (g i2) c.1.2 y = Ok h2,
       verify_proof fp H (game_fri (st_fri1 S c) (st_queries1 S c i1 i2)) i1 h1 = Ok true &
       verify_proof fp H (game_fri (st_fri2 S c) (st_queries2 S c i1 i2)) i2 h2 = Ok true].
  move=> H1 H2 Ha; have Ec := column_values H1 H2 Ha; have Eg := comp_value H1 H2 Ha.
  move: Ha; rewrite /acc /game_accepts; case E: (check_proof _ _ _ _ _ _ _) => [[]| |] // _.
  have [_ _ _ _ [h1 [y [h2 [e1 e2 e3 e4 e5]]]]] := check_inv E.
  by exists h1, y, h2; rewrite -Ec -Eg.
have [i0 Hi0 Hn0] : exists2 i0, i0 \in odds K1 & ~~ rejects1 v K1 K2 S c i0.
  apply/hasP; rewrite has_predC all_count; apply: contraL HE => /eqP <-; rewrite -leqNgt.
  exact: Hr1.
have [Hi0lt _] := odds_lt Hi0.
have [_ [y [_ [_ Ey _ _ _]]]] := Hinv i0 (sel2 i0) Hi0lt (Hsel2 i0) (Hacc2 i0 Hn0).
have Hsub1 : {subset trees_inputs fp H (mkseq (nth [::] (fm_layers (st_fri1 S c))) (size (fm_roots (st_fri1 S c)))) ++
    queries_inputs fp H (flatten (mkseq (fun i1 => st_queries1 S c i1 (sel2 i1)) (2 ^ K1))) <= game_inputs K1 K2 S c}.
  move=> x; rewrite mem_cat => /orP [Hx|].
    rewrite mem_cat trees_cat mem_cat /trees_inputs /= mem_cat; apply/orP; left; apply/orP; right; apply/orP; right.
    by rewrite map_cat flatten_cat mem_cat; apply/orP; left.
  apply: queries_all => i Hi z Hz; apply: (proof_sub Hi (Hsel2 i)).
  rewrite queries_cat mem_cat; apply/orP; right; rewrite -cat1s queries_cat mem_cat; apply/orP; right.
  by rewrite queries_cat mem_cat; apply/orP; left.
have Hsub2 : {subset trees_inputs fp H (mkseq (nth [::] (fm_layers (st_fri2 S c))) (size (fm_roots (st_fri2 S c)))) ++
    queries_inputs fp H (flatten (mkseq (fun i2 => st_queries2 S c (sel1 i2) i2) (2 ^ K2))) <= game_inputs K1 K2 S c}.
  move=> x; rewrite mem_cat => /orP [Hx|].
    rewrite mem_cat trees_cat mem_cat /trees_inputs /= mem_cat; apply/orP; left; apply/orP; right; apply/orP; right.
    by rewrite map_cat flatten_cat mem_cat; apply/orP; right.
  apply: queries_all => i Hi z Hz; apply: (proof_sub (Hsel1 i) Hi).
  rewrite queries_cat mem_cat; apply/orP; right; rewrite -cat1s queries_cat mem_cat; apply/orP; right.
  by rewrite queries_cat mem_cat; apply/orP; right.
split.
- apply: (fri_near HK1 Hf1 Hu1 Hsub1 _ Hr1) => i Hi Ho Hn.
  have [h1 [_ [_ [e1 _ _ e4 _]]]] := Hinv i (sel2 i) Hi (Hsel2 i) (Hacc2 i Hn).
  by split; [have [] := Hqs i (sel2 i) | exists h1].
exists y => //; apply: (fri_near HK2 Hf2 Hu2 Hsub2 _ Hr2) => i Hi Ho Hn.
have [_ [y' [h2 [_ e2 e3 _ e5]]]] := Hinv (sel1 i) i (Hsel1 i) Hi (Hacc1 i Hn).
have Eyy : y' = y by move: e2; rewrite Ey => -[].
by split; [have [] := Hqs (sel1 i) i | exists h2; rewrite -?Eyy].
Qed.
End Round4.

Lemma few_cond (A : eqType) b (C : Prop) (Q : A -> Prop) : (C -> few b Q) -> few b (fun x => C /\ Q x).
Proof.
move=> HC [|x s] // Hu Hs; have [Hc _] := Hs x (mem_head _ _).
by apply: (HC Hc) => // y /Hs [].
Qed.

Lemma few_finite (A : finType) : few #|A| (fun _ : A => True).
Proof. exact: (@few_inj _ _ id). Qed.

Lemma few_pairs nc nb : few (#|F| ^ (2 * (nc + nb))) (fun c : seq (F * F) * seq (F * F) => size c.1 = nc /\ size c.2 = nb).
Proof.
have -> : (#|F| ^ (2 * (nc + nb)) = #|[finType of F * F]| ^ nc * #|[finType of F * F]| ^ nb)%N.
  by rewrite -expnD card_prod mulnn -expnM.
by apply: (@few_pair _ _ _ _ (fun s => size s = nc) (fun _ s => size s = nb)) => [|x _]; apply: (few_lists (0, 0)).
Qed.

(** All rounds together.  The committed columns are not near the columns of a
    satisfying trace.  Then of the |F|^(2N + M + 1) lists of challenges no more than
    |F|^(2N + M) ((D+2)n + 2) let the prover get away: with all others two hashed strings
    collide, or the challenge of a FRI layer is bad, or the verifier rejects at more than
    [E1] of the positions for h1 or at more than [E2] of the positions for h2. *)
Theorem C62_soundness lde props props' v K1 K2 E1 E2 (S : strategy) :
  let n := ip_num_rows props in let D := \max_(c <- ip_constraints props) c_degree c in
  let R := ip_num_registers props in let M := size (v_all_masks v) in
  let N := (size (ip_constraints props) + size (ip_boundary_constraints props))%N in
  supported_but_density props -> ranges_fit props -> reads_fit props (nseq R (nseq n 0)) -> (0 < R)%N ->
  from_instance fp props = Ok props' -> verifier_new fp props lde = Ok v ->
  (forall d, exists x, encode_root_into_challenge fp d = Ok x) ->
  (n * lde = 2 ^ K1)%N -> (D * n * lde = 2 ^ K2)%N -> (0 < K1 <= ff_S fp)%N -> (0 < K2 <= ff_S fp)%N ->
  (n.+1 + 4 * E1 <= 2 ^ K1.-1)%N -> ((D * n).+1 + 2 * E2 <= 2 ^ K2.-1)%N ->
  shaped v K1 K2 n (D * n) S ->
  ~ near_satisfying props v (dom fp K1) (odds K1) (2 * E1) (fun i => [seq col`_i | col <- st_columns S]) ->
  few (#|F| ^ (2 * N + M) * (D.+2 * n + 2)) (fun c : coins =>
    [/\ size c.1.1.1 = size (ip_constraints props), size c.1.1.2 = size (ip_boundary_constraints props),
        size c.2 = M & gets_away v K1 K2 n (D * n) E1 E2 S c]).
Proof.
move=> n D R M N Hsup Hfit Hreads HR Hinst Hv Hdec HK1 HK2 /andP [HK1p HK1S] /andP [HK2p HK2S] HE1 HE2 HS Hno.
have HFD : domain_new fp (2 ^ K1) = Ok (dom fp K1) by rewrite domain_newE ?up_expnK // ltnNge HK1S.
have HGD : domain_new fp (2 ^ K2) = Ok (dom fp K2) by rewrite domain_newE ?up_expnK // ltnNge HK2S.
have Hodds K : (0 < K)%N -> size (odds K) = (2 ^ K.-1)%N by case: K => // K _; rewrite size_filter count_odd.
have Hu K s : d_size (dom fp K) = (2 ^ K)%N -> s = odds K -> uniq s && all (fun i => i < d_size (dom fp K))%N s.
  by move=> -> ->; rewrite filter_uniq ?iota_uniq //; apply/allP => i /odds_lt [].
have HIf := Hu K1 (odds K1) erefl erefl; have HIg := Hu K2 (odds K2) erefl erefl.
pose f i := [seq col`_i | col <- st_columns S].
pose g (cb : seq (F * F) * seq (F * F)) i := (st_comp S cb)`_i.
have Hef : (n.+1 + 2 * E1 + 2 * E1 <= size (odds K1))%N by rewrite Hodds // -addnA -mulnDl.
have Heg : ((D * n).+1 + E2 + E2 <= size (odds K2))%N by rewrite Hodds // -addnA addnn -mul2n.
have n0 : (0 < n)%N.
  rewrite lt0n; apply/eqP => n0; move: HK1; rewrite n0 mul0n => /esym /eqP.
  by rewrite expn_eq0.
have Hlt1 : (E1 < size (odds K1))%N.
  by rewrite Hodds //; apply: leq_trans HE1; rewrite addSn ltnS (leq_trans _ (leq_addl _ _)) // leq_pmull.
have N0 : (0 < N)%N.
  have /and5P [_ _ /is_pow2P [d Hd] _ _] := Hsup; rewrite /N.
  by case: (ip_constraints props) Hd => //; rewrite big_nil => /eqP; rewrite eq_sym expn_eq0.
pose F0 : (0 < #|F|)%N := introT card_gt0P (ex_intro _ (0 : F) isT).
pose sizes (cb : seq (F * F) * seq (F * F)) := size cb.1 = size (ip_constraints props) /\
  size cb.2 = size (ip_boundary_constraints props).
pose A1 cb := accepted props v (dom fp K1) (dom fp K2) (odds K1) (odds K2) E1 E2 f cb.1 cb.2.
pose A2 (x : seq (F * F) * seq (F * F) * F) :=
  accepted_at v (dom fp K1) (dom fp K2) (odds K1) (odds K2) E1 E2 n (D * n) f (g x.1) x.1.1 x.1.2 x.2.
pose A3 (x : seq (F * F) * seq (F * F) * F) := exists2 y, calculate_g_at_z v x.1.1 x.1.2 (st_claims S x) x.2 = Ok y &
  near_h2 (dom fp K2) (odds K2) E2 (D * n) (g x.1) x.2 y.
pose A4 (c : coins) := near_h1 v (dom fp K1) (odds K1) E1 n f (st_claims S c.1) c.1.2 c.2.
pose P1 (c : coins) := (((sizes c.1.1 /\ A1 c.1.1) /\ True) /\ size c.2 = M)%type.
pose P2 (c : coins) := ((sizes c.1.1 /\ ~ A1 c.1.1 /\ (c.1.2 ^+ n = 1 \/ A2 c.1)) /\ size c.2 = M)%type.
pose P3 (c : coins) := ((sizes c.1.1 /\ True) /\ (~ A2 c.1 /\ A3 c.1) /\ size c.2 = M /\ A4 c)%type.
have few1 : few (#|F| ^ (2 * N).-1 * #|F| * #|F| ^ M) P1.
  apply: (@few_pair _ _ _ _ (fun x => (sizes x.1 /\ A1 x.1) /\ True) (fun _ s => size s = M)) => [|x _]; last exact: (few_lists (0 : F)).
  apply: (@few_pair _ _ _ _ (fun cb => sizes cb /\ A1 cb) (fun _ _ => True)) => [|x _]; last exact: few_finite.
  apply: few_sub (C62_constraint_challenges Hok Hsup Hfit Hreads HR Hinst Hv HFD HGD HIf HIg Hef Heg Hno).
  by case=> a b [[H1 H2] H3]; split.
have few2 : few (#|F| ^ (2 * N) * (D.+2 * n) * #|F| ^ M) P2.
  apply: (@few_pair _ _ _ _ (fun x => sizes x.1 /\ ~ A1 x.1 /\ (x.2 ^+ n = 1 \/ A2 x)) (fun _ s => size s = M)) => [|x _]; last exact: (few_lists (0 : F)).
  apply: (@few_pair _ _ _ _ sizes (fun cb z => ~ A1 cb /\ (z ^+ n = 1 \/ A2 (cb, z)))) => [|cb _]; first exact: few_pairs.
  by apply: few_cond => HnA; apply: (C62_points (g := g cb) n0 HnA).
have few3 : few (#|F| ^ (2 * N) * #|F| * (#|F| ^ M %/ #|F|)) P3.
  apply: (@few_pair _ _ _ _ (fun x => sizes x.1 /\ True) (fun x s => (~ A2 x /\ A3 x) /\ size s = M /\ A4 (x, s))) => [|x _].
    by apply: (@few_pair _ _ _ _ sizes (fun _ _ => True)) => [|cb _]; [exact: few_pairs | exact: few_finite].
  apply: few_cond => -[HnA [y Ey Hy]]; apply: C62_masks HnA _ Ey Hy.
  by have [_ _ _ Hcl _] := HS; apply: Hcl.
have Hsum : (#|F| ^ (2 * N).-1 * #|F| * #|F| ^ M + (#|F| ^ (2 * N) * (D.+2 * n) * #|F| ^ M +
    #|F| ^ (2 * N) * #|F| * (#|F| ^ M %/ #|F|)) <= #|F| ^ (2 * N + M) * (D.+2 * n + 2))%N.
  rewrite -expnSr prednK ?muln_gt0 // -expnD mulnDr muln2 -addnn addnCA mulnAC -expnD leq_add2l leq_add2l.
  by rewrite -mulnA (mulnC #|F|) expnD leq_mul2l leq_trunc_div orbT.
apply: (few_le Hsum).
have few23 : few (#|F| ^ (2 * N) * (D.+2 * n) * #|F| ^ M + #|F| ^ (2 * N) * #|F| * (#|F| ^ M %/ #|F|)) (fun c => P2 c \/ P3 c).
  by apply: few_or few2 few3 _ => c Hc Hn'; apply: Hn'.
apply: (few_or few1 few23) => c [Hs1 Hs2 Hs3 Haway] Hn'.
have [H4 H3] := round4 Hdec HFD HGD HS (let: And5 a _ _ _ _ := Haway in a) Haway Hlt1.
have nn (X : Prop) : ~ ~ (X \/ ~ X) by move=> Hx; apply: (Hx); right=> x; apply: Hx; left.
apply: (nn (A1 c.1.1)) => -[HA1|HnA1]; first by apply: Hn'; left.
apply: (nn (A2 c.1)) => -[HA2|HnA2]; first by apply: Hn'; right; left; split=> //; split=> //; split=> //; right.
by apply: Hn'; right; right.
Qed.
End Game.

(** The hypotheses can be met: for every instance there are strategies of the right
    shape, for example the one that commits to zeros everywhere. *)
Section Zeros.
Variables (F : finFieldType) (fp : ff_params F) (H : hash_fun).
Let zq : query F := Query 0 0 [::].
Definition zero_fri (K R : nat) : fri_messages F :=
  FriMessages (mkseq (fun j => nseq (2 ^ (K - j)) 0) R) (mkseq (fun j => vroot fp H (K - j) (nseq (2 ^ (K - j)) 0)) R)
    [::] (2 ^ K) 1 1.
Definition zero_strategy (regs masks K1 R1 K2 R2 : nat) : strategy F :=
  Strategy (nseq regs (nseq (2 ^ K1) 0)) (nseq regs (vroot fp H K1 (nseq (2 ^ K1) 0)))
    (fun _ => nseq (2 ^ K2) 0) (fun _ => vroot fp H K2 (nseq (2 ^ K2) 0)) (fun _ => nseq masks 0)
    (fun _ => zero_fri K1 R1) (fun _ => zero_fri K2 R2)
    (fun _ _ _ => nseq regs zq) (fun _ _ _ => zq)
    (fun _ _ _ => nseq (2 * R1) zq) (fun _ _ _ => nseq (2 * R2) zq).

Lemma zero_commits K : (0 < K)%N -> commits_to fp H (nseq (2 ^ K) 0) (vroot fp H K (nseq (2 ^ K) 0)).
Proof.
move=> HK; exists 1%N, (vtree fp H K (nseq (2 ^ K) 0)); split=> //; first by apply: tree_createP; rewrite ?size_nseq.
by rewrite /get_root pref_root // size_map size_nseq.
Qed.

Lemma zero_shaped v K1 R1 K2 R2 n N : (0 < R1 < K1)%N -> (0 < R2 < K2)%N -> (2 ^ R1 %| n)%N -> (2 ^ R2 %| N)%N ->
  shaped fp H v K1 K2 n N (zero_strategy (ip_num_registers (v_instance v)) (size (v_all_masks v)) K1 R1 K2 R2).
Proof.
have Hf K R M : (0 < R < K)%N -> (2 ^ R %| M)%N -> fri_shaped fp H K M (zero_fri K R).
  move=> /andP [HR HRK] Hd; split; rewrite /= ?size_mkseq ?muln1 ?HR // => j Hj.
  rewrite !nth_mkseq // size_nseq; split=> //; apply: zero_commits; rewrite subn_gt0 (ltn_trans Hj) //.
move=> H1 H2 D1 D2; have HK1 : (0 < K1)%N by case/andP: H1 => /ltn_trans; apply.
have HK2 : (0 < K2)%N by case/andP: H2 => /ltn_trans; apply.
split=> /=.
- by rewrite !size_nseq.
- by move=> r; rewrite size_nseq => Hr; rewrite !nth_nseq Hr size_nseq; split=> //; apply: zero_commits.
- by move=> _; rewrite size_nseq; split=> //; apply: zero_commits.
- by move=> _; rewrite size_nseq.
by move=> _; split; [exact: Hf | exact: Hf | move=> _ _; rewrite !size_nseq !size_mkseq].
Qed.
End Zeros.

(** The field of 257 elements as a finite field. *)
Definition z257_countMixin := CanCountMixin z_inK.
Canonical z257_countType := Eval hnf in CountType z257 z257_countMixin.
Definition z257_finMixin := CanFinMixin z_inK.
Canonical z257_finType := Eval hnf in FinType z257 z257_finMixin.
Definition Fin257 : finFieldType := Eval hnf in [finFieldType of z257].

(** All hypotheses hold for an instance that no trace satisfies, LDE factor 16, six
    wrong positions of 32 for h1 and 27 of 64 for h2.  The bound on the fraction of the
    challenges is 18/257. *)
Lemma C62_ex : exists props' v (S : strategy Fin257),
  [/\ [/\ supported_but_density contradiction, ranges_fit contradiction,
          reads_fit contradiction (nseq 1 (nseq 4 0)), from_instance f257 contradiction = Ok props' &
          verifier_new f257 contradiction 16 = Ok v],
      [/\ (4 * 16 = 2 ^ 6)%N, (2 * 4 * 16 = 2 ^ 7)%N, (5 + 4 * 6 <= 2 ^ 5)%N & (9 + 2 * 27 <= 2 ^ 6)%N],
      shaped (F := Fin257) f257 toy_hash v 6 7 4 (2 * 4) S,
      ~ near_satisfying (F := Fin257) contradiction v (dom f257 6) (odds 6) (2 * 6) (fun i => [seq col`_i | col <- st_columns S]) &
      few (#|Fin257| ^ (2 * 3 + size (v_all_masks v)) * 18) (fun c : coins Fin257 =>
        [/\ size c.1.1.1 = 1%N, size c.1.1.2 = 2%N, size c.2 = size (v_all_masks v) &
            gets_away (F := Fin257) f257 toy_hash v 6 7 4 (2 * 4) 6 27 S c])].
Proof.
have Hb : is_ok (from_instance f257 contradiction) && is_ok (verifier_new f257 contradiction 16) by vm_compute.
case E1: (from_instance _ _) Hb => [props'| |] //; case E2: (verifier_new _ _ _) => [v| |] // _.
have Hr : ip_num_registers (v_instance v) = 1%N.
  have : (if verifier_new f257 contradiction 16 is Ok u then ip_num_registers (v_instance u) == 1 else false)%N by vm_compute.
  by rewrite E2 => /eqP.
pose S := zero_strategy (F := Fin257) f257 toy_hash (ip_num_registers (v_instance v)) (size (v_all_masks v)) 6 2 7 2.
have HS : shaped (F := Fin257) f257 toy_hash v 6 7 4 (2 * 4) S by apply: zero_shaped.
have Hno : ~ near_satisfying (F := Fin257) contradiction v (dom f257 6) (odds 6) (2 * 6) (fun i => [seq col`_i | col <- st_columns S]).
  by case=> trace [ps [Hs _ _ _]]; exact: (contradiction_unsat Hs).
have Hreads : reads_fit contradiction (nseq 1 (nseq 4 0)) by vm_compute.
have HD : \max_(c <- ip_constraints contradiction) c_degree c = 2%N by rewrite big_cons big_nil.
exists props', v, S; split; [split | by split | exact: HS | exact: Hno |].
- exact: contradiction_supported.
- exact: contradiction_fits.
- exact: Hreads.
- by [].

- by [].
have := @C62_soundness Fin257 f257 toy_hash f257_ok f257_repr_ok 16 contradiction props' v 6 7 6 27 S
  contradiction_supported contradiction_fits Hreads isT E1 E2 Hdec257.
by rewrite HD; apply.
Qed.

Print Assumptions C62_constraint_challenges.
Print Assumptions C62_points.
Print Assumptions C62_masks.
Print Assumptions C62_soundness.
Print Assumptions C62_ex.
