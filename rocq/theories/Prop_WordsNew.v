(** C76: the constructor of the verifier and its own sizes with machine integers. *)
From Coq Require Import NArith Lia.
From mathcomp Require Import all_ssreflect all_algebra.
From Verif Require Import Spec SpecAir SpecStark M_Base M_Worker M_Field M_Domain M_Fft M_Poly M_Bytes M_Transcript M_Merkle M_Fri.
From Verif Require Import M_Challenge M_Air M_Arp M_Ali M_Prover M_Verifier M_Words M_WordsFri M_WordsNew.
From Verif Require Import P_Base P_Fft P_Domain P_Air P_Arp P_Maps P_Honest P_Stark P_Words P_WordsFri.
From Verif Require Import Instances Prop_Hash Prop_Ali Prop_Verify Prop_Sound Prop_Stark Prop_Words.

Set Implicit Arguments.
Unset Strict Implicit.
Unset Printing Implicit Defensive.
Import GRing.Theory.
Local Open Scope ring_scope.
Local Opaque expn.

Section New.
Variables (F : fieldType) (fp : ff_params F).
Implicit Types (pr : profile) (props : instance_properties F).
Notation S := (ff_S fp).

Lemma next_pow2_gt0 n : (0 < next_pow2 n)%N.
Proof. by rewrite /next_pow2 expn_gt0. Qed.

Lemma lt6364 : (2 ^ 63 < 2 ^ 64)%N.
Proof. exact (etrans (@ltn_exp2l 2 63 64 isT) isT). Qed.

Lemma np_fits pr n : (next_pow2 n <= 2 ^ 63)%N -> w_next_power_of_two pr n = Ok (next_pow2 n).
Proof. move=> Hn; exact (fitE pr (leq_ltn_trans Hn lt6364)). Qed.

(** The largest degree, and the number of points that the constraints need. *)
Definition largest props : nat := \max_(c <- ip_constraints props) c_degree c.
Definition points_needed props : nat := (next_pow2 (largest props) * next_pow2 (ip_num_rows props))%N.

Lemma largest_mask g props : max_degree (map (mask_constraint g) (ip_constraints props)) = largest props.
Proof. by rewrite mask_max. Qed.

Lemma remap_max (cd : domain F) props cs : mapM (remap_constraint cd) (ip_constraints props) = Ok cs ->
  max_degree cs = largest props.
Proof. rewrite (mapM_total _ (remap_constraintE _)); case: ifP => // _ [<-]; exact: largest_mask. Qed.

Lemma leq_factors (a b c : nat) : (0 < a)%N -> (0 < b)%N -> (a * b <= c)%N -> (a <= c)%N /\ (b <= c)%N.
Proof. by move=> Ha Hb Hc; split; apply: leq_trans Hc; [rewrite leq_pmulr | rewrite leq_pmull]. Qed.

(** If they fit into a machine word, the machine does what the model does. *)
Theorem C76_new_fits pr fuel props lde : (64 <= fuel)%N -> (points_needed props <= 2 ^ 63)%N ->
  w_verifier_new fp pr fuel props lde = Some (verifier_new fp props lde).
Proof.
move=> Hf Hp; have [H2 H1] := leq_factors (next_pow2_gt0 _) (next_pow2_gt0 _) Hp.
rewrite /w_verifier_new /verifier_new (np_fits _ H1) bindR_ok (w_domain_newE _ _ H1 Hf).
case: (domain_new _ _) => [cd| |]; [|reflexivity|reflexivity]; rewrite bindR_ok bind_ok.
case Ecs: (mapM _ _) => [cs| |]; [|reflexivity|reflexivity]; rewrite bindR_ok bind_ok.
rewrite (remap_max Ecs) (np_fits _ H2) bindR_ok /wmul (fitE _ (leq_ltn_trans Hp lt6364)).
rewrite bindR_ok (w_domain_newE _ _ Hp Hf).
case: (domain_new _ _) => [kd| |]; [|reflexivity|reflexivity]; rewrite bindR_ok bind_ok; case: ifP => _; reflexivity.
Qed.

Lemma pow2_big n : (2 ^ 63 < 2 ^ n)%N -> (64 <= n)%N.
Proof. by move=> Hn; rewrite -(@ltn_exp2l 2 63 n isT). Qed.

Lemma fit_debug n : (2 ^ 63 < 2 ^ n)%N -> M_Words.fit Debug 64 (2 ^ n) = Panic.
Proof.
move=> Hn; rewrite /M_Words.fit (_ : (2 ^ n < 2 ^ 64)%N = false); first reflexivity.
rewrite (@ltn_exp2l 2 n 64 isT) ltnNge (pow2_big Hn); reflexivity.
Qed.

Lemma fit_release n : (2 ^ 63 < 2 ^ n)%N -> M_Words.fit Release 64 (2 ^ n) = Ok 0%N.
Proof.
move=> Hn; rewrite /M_Words.fit (_ : (2 ^ n < 2 ^ 64)%N = false).
  by rewrite (eqP (_ : 2 ^ 64 %| 2 ^ n)%N); [reflexivity | exact: (dvdn_exp2l 2 (pow2_big Hn))].
rewrite (@ltn_exp2l 2 n 64 isT) ltnNge (pow2_big Hn); reflexivity.
Qed.

Lemma w_domain_0 pr fuel : (64 <= fuel)%N -> w_domain_new fp pr fuel 0 = Some (domain_new fp 0).
Proof. move=> Hf; exact (w_domain_newE _ _ (leq0n _) Hf). Qed.

(** With overflow checks there is no verifier otherwise. *)
Theorem C76_new_debug fuel props lde : (64 <= fuel)%N -> (2 ^ 63 < points_needed props)%N ->
  w_verifier_new fp Debug fuel props lde = Some Panic \/ w_verifier_new fp Debug fuel props lde = Some Err.
Proof.
move=> Hf Hp; rewrite /w_verifier_new.
case: (leqP (next_pow2 (ip_num_rows props)) (2 ^ 63)) => H1; last first.
  left; rewrite /w_next_power_of_two (fit_debug H1); reflexivity.
rewrite (np_fits _ H1) bindR_ok (w_domain_newE _ _ H1 Hf).
case: (domain_new _ _) => [cd| |]; [|right; reflexivity|left; reflexivity]; rewrite ?bindR_ok.
case Ecs: (mapM _ _) => [cs| |]; [|right; reflexivity|left; reflexivity]; rewrite ?bindR_ok.
rewrite (remap_max Ecs); case: (leqP (next_pow2 (largest props)) (2 ^ 63)) => H2; last first.
  left; rewrite {1}/w_next_power_of_two (fit_debug H2); reflexivity.
rewrite (np_fits _ H2) bindR_ok /wmul; move: Hp; rewrite /points_needed /next_pow2 -expnD => Hp.
left; rewrite (fit_debug Hp); reflexivity.
Qed.

(** Without them, there is one as soon as the rows fit, and its domain for the constraints has a single
    point. *)
Theorem C76_new_release fuel props lde : (64 <= fuel)%N -> (2 ^ 63 < points_needed props)%N ->
  (next_pow2 (ip_num_rows props) <= 2 ^ 63)%N -> (up_log 2 (ip_num_rows props) <= S)%N ->
  all (@c_steps F) (ip_constraints props) ->
  exists v, [/\ w_verifier_new fp Release fuel props lde = Some (Ok v), d_size (v_constraints_domain v) = 1%N,
    v_max_power v = largest props & d_size (v_column_domain v) = next_pow2 (ip_num_rows props)].
Proof.
move=> Hf Hp H1 HS Hst; rewrite /w_verifier_new (np_fits _ H1) bindR_ok (w_domain_newE _ _ H1 Hf).
rewrite domain_newE /next_pow2 (@up_expnK 2 _ isT) (ltnNge S) HS [~~ _]/= bindR_ok.
rewrite (mapM_total _ (remap_constraintE _)) Hst bindR_ok largest_mask.
have [p2 Ep2 Emul] : exists2 p2, w_next_power_of_two Release (largest props) = Ok p2 &
    wmul Release 64 p2 (2 ^ up_log 2 (ip_num_rows props)) = Ok 0%N.
  case: (leqP (next_pow2 (largest props)) (2 ^ 63)) => H2.
    exists (next_pow2 (largest props)); first exact (np_fits _ H2).
    by move: Hp; rewrite /points_needed /wmul /next_pow2 -expnD => Hp; exact (fit_release Hp).
  exists 0%N; first exact (fit_release H2).
  rewrite /wmul mul0n; exact (fitE _ (etrans (expn_gt0 2 64) isT)).
rewrite Ep2 bindR_ok Emul bindR_ok (w_domain_0 _ Hf) domain_newE up_log0 ltn0 bindR_ok.
have Hall g : all (fun c => c_degree c <= largest props)%N (map (mask_constraint g) (ip_constraints props)).
  by rewrite -(largest_mask g props) max_degree_all.
rewrite (batch_all (fun c => c_degree c <= largest props)%N) Hall.
eexists; split; [reflexivity|exact: expn0|reflexivity|reflexivity].
Qed.

(** The number of rows may also be too large: then there is a verifier for one row. *)
Theorem C76_new_release_rows fuel props lde : (64 <= fuel)%N -> (2 ^ 63 < next_pow2 (ip_num_rows props))%N ->
  all (@c_steps F) (ip_constraints props) ->
  exists v, [/\ w_verifier_new fp Release fuel props lde = Some (Ok v), d_size (v_constraints_domain v) = 1%N,
    v_max_power v = largest props & d_size (v_column_domain v) = 1%N].
Proof.
move=> Hf Hp Hst; rewrite /w_verifier_new {1}/w_next_power_of_two (fit_release Hp) bindR_ok (w_domain_0 _ Hf).
rewrite domain_newE up_log0 ltn0 bindR_ok (mapM_total _ (remap_constraintE _)) Hst bindR_ok largest_mask.
have [p2 Ep2 Emul] : exists2 p2, w_next_power_of_two Release (largest props) = Ok p2 & wmul Release 64 p2 0 = Ok 0%N.
  have E p2 : wmul Release 64 p2 0 = Ok 0%N by rewrite /wmul muln0; exact (fitE _ (etrans (expn_gt0 2 64) isT)).
  case: (leqP (next_pow2 (largest props)) (2 ^ 63)) => H2.
    exists (next_pow2 (largest props)); [exact (np_fits _ H2) | exact (E _)].
  exists 0%N; [exact (fit_release H2) | exact (E _)].
rewrite Ep2 bindR_ok Emul bindR_ok (w_domain_0 _ Hf) domain_newE up_log0 ltn0 bindR_ok.
have Hall g : all (fun c => c_degree c <= largest props)%N (map (mask_constraint g) (ip_constraints props)).
  by rewrite -(largest_mask g props) max_degree_all.
rewrite (batch_all (fun c => c_degree c <= largest props)%N) Hall.
eexists; split; [reflexivity|exact: expn0|reflexivity|exact: expn0].
Qed.

(** The model has no verifier for such an instance. *)
Theorem C76_new_model props lde : (S <= 63)%N -> (2 ^ 63 < points_needed props)%N ->
  all (@c_steps F) (ip_constraints props) -> verifier_new fp props lde = Err.
Proof.
move=> HS; rewrite /points_needed /next_pow2 -expnD => /pow2_big Hp Hst; rewrite verifier_newE Hst.
case: ifP => // _; rewrite mask_max ifT //; exact: leq_trans Hp.
Qed.

(** The property: in every build a verifier is only returned for an instance whose constraints fit into a
    domain of the field. *)
Definition C76_statement := forall pr fuel props lde v, (64 <= fuel)%N -> (ip_num_rows props < 2 ^ 64)%N ->
  all (fun c => c_degree c < 2 ^ 64)%N (ip_constraints props) ->
  w_verifier_new fp pr fuel props lde = Some (Ok v) ->
  (largest props * ip_num_rows props <= d_size (v_constraints_domain v))%N.
End New.

Section Verify.
Variables (F : fieldType) (fp : ff_params F) (H : hash_fun).
Implicit Types (pr : profile) (v : verifier F) (pf : instance_proof F).

Lemma draw_prefixE v pf : draw_challenges fp H v pf =
  let* '(chs, bchs, z, alphas, t) := draw_prefix fp H v pf in
  let f_lde_size := (d_size (v_column_domain v) * v_lde_factor v)%N in
  let g_lde_size := (d_size (v_constraints_domain v) * v_lde_factor v)%N in
  let* f_lde_domain := domain_new fp f_lde_size in
  let* g_lde_domain := domain_new fp g_lde_size in
  let: (b1, t) := get_challenge_bytes H t in
  let* i1 := bytes_to_challenge_index b1 f_lde_size (v_lde_factor v) in
  let: (b2, t) := get_challenge_bytes H t in
  let* i2 := bytes_to_challenge_index b2 g_lde_size (v_lde_factor v) in
  Ok (Challenges chs bchs z alphas i1 i2, f_lde_domain, g_lde_domain).
Proof.
rewrite /draw_challenges /draw_prefix; case: (transcript_new fp) => [t| |] //; rewrite !bind_ok.
case: (challenge_pairs _ _ _ _) => [[chs t1]| |] //; rewrite !bind_ok.
case: (challenge_pairs _ _ _ _) => [[bchs t2]| |] //; rewrite !bind_ok.
case: (get_challenge _ _ _) => [[z t3]| |] //; rewrite !bind_ok.
case: (mask_challenges _ _ _ _) => [[al t4]| |] //; rewrite !bind_ok.
case: (last_root _) => [r1| |] //; rewrite !bind_ok.
by case: (last_root _) => [r2| |] //; rewrite !bind_ok.
Qed.

Lemma w_indexE pr (s : digest) n l : (n <= 2 ^ 63)%N ->
  w_bytes_to_challenge_index pr s n l = bytes_to_challenge_index s n l.
Proof.
move=> Hn; rewrite /w_bytes_to_challenge_index /bytes_to_challenge_index /wsub /usub size_tuple.
rewrite [(8 <= 32)%N]/= !bind_ok; case: (eqVneq n 0%N) => [-> //|H0].
rewrite [~~ false]/=.
set x := N.to_nat _; have Hx : (x < n)%N.
  rewrite /x; move/eqP: H0 => H0; move: (be_value _) => y.
  have := @N.mod_lt y (N.of_nat n); move: (y mod _)%num => r Hr; apply/ltP; clear x Hn; lia.
have W y : (y < n)%N -> wadd pr 64 y 1 = Ok y.+1.
  move=> Hy; rewrite /wadd addn1; exact (fitE pr (leq_ltn_trans Hy (leq_ltn_trans Hn lt6364))).
rewrite /urem; case: (l != 0%N) => //; rewrite !bind_ok.
have Hn0 : (0 < n)%N by rewrite lt0n.
case: (x %% l == 0)%N.
  rewrite (W _ Hx) !bind_ok; case: (_ == 0)%N => //; by rewrite W ?bind_ok // ltn_mod.
by rewrite !bind_ok; case: (_ == 0)%N => //; rewrite (W _ Hx) bind_ok.
Qed.

(** The value of [verify] once the sizes are known. *)
Lemma w_verify_allE pr fuel v pf chs : 
  w_draw_challenges fp H pr fuel v pf = Some chs -> draw_challenges fp H v pf = chs ->
  w_verify_all fp H pr fuel v pf = w_verify fp H pr fuel v pf.
Proof. by rewrite /w_verify_all /w_verify => -> ->. Qed.

Section Sizes.
Variables (v : verifier F) (k m l : nat).
Hypotheses (Hk : d_size (v_column_domain v) = (2 ^ k)%N) (Hm : d_size (v_constraints_domain v) = (2 ^ m)%N)
  (Hl : v_lde_factor v = (2 ^ l)%N).

Lemma w_mul_small pr a b : (a + b <= 63)%N -> wmul pr 64 (2 ^ a) (2 ^ b) = Ok (2 ^ (a + b))%N.
Proof.
by move=> Hab; rewrite /wmul -expnD; apply: fitE; rewrite ltn_exp2l //; exact: (leq_ltn_trans Hab isT).
Qed.

(** The sizes of the two extended domains fit in 64 bits: nothing is different on the machine. *)
Theorem C76_verify_fits pr fuel pf : (64 <= fuel)%N -> (k + l <= 63)%N -> (m + l <= 63)%N ->
  w_verify_all fp H pr fuel v pf = w_verify fp H pr fuel v pf.
Proof.
move=> Hf Hkl Hml; apply: w_verify_allE (erefl _); rewrite draw_prefixE /w_draw_challenges Hk Hm Hl -!expnD.
case: (draw_prefix _ _ _ _) => [[[[[chs bchs] z] al] t]| |] //; rewrite bind_ok bindR_ok.
rewrite !w_mul_small // !bindR_ok.
have Hle a : (a <= 63)%N -> (2 ^ a <= 2 ^ 63)%N by move=> Ha; rewrite leq_exp2l.
rewrite !w_domain_newE ?Hle //.
case: (domain_new _ _) => [d1| |] //; rewrite bind_ok bindR_ok.
case: (domain_new _ _) => [d2| |] //; rewrite bind_ok bindR_ok.
case: (get_challenge_bytes _ _) => [b1 t1]; rewrite !w_indexE ?Hle //.
case: (bytes_to_challenge_index _ _ _) => [i1| |] //; rewrite bind_ok bindR_ok.
case: (get_challenge_bytes _ _) => [b2 t2]; rewrite !w_indexE ?Hle //.
by case: (bytes_to_challenge_index _ _ _).
Qed.

(** One of the sizes does not fit: the verifier gives no answer. *)
Theorem C76_verify_large pr fuel pf b : (64 <= fuel)%N -> ((63 < k + l) || (63 < m + l))%N ->
  w_verify_all fp H pr fuel v pf <> Some (Ok b).
Proof.
move=> Hf Hbig; rewrite /w_verify_all /w_draw_challenges Hk Hm Hl.
case: (draw_prefix _ _ _ _) => [[[[[chs bchs] z] al] t]| |] //; rewrite !bindR_ok.
have Hw c x y : wmul pr 64 (2 ^ x) (2 ^ y) = c -> (63 < x + y)%N -> c = Panic \/ c = Ok 0%N.
  rewrite /wmul -expnD /M_Words.fit => <- Hxy.
  have -> : (2 ^ (x + y) < 2 ^ 64)%N = false by rewrite ltn_exp2l // ltnNge Hxy.
  by case: (pr); [left | right; rewrite -(subnK Hxy) expnD modnMl].
case E1: (wmul _ _ _ _) => [s1| |] //; rewrite bindR_ok.
case E2: (wmul _ _ _ _) => [s2| |] //; rewrite bindR_ok.
case: (w_domain_new _ _ _ _) => [[d1| |]|] //; rewrite bindR_ok.
case: (w_domain_new _ _ _ _) => [[d2| |]|] //; rewrite bindR_ok.
have Hi (s : digest) : w_bytes_to_challenge_index pr s 0 (2 ^ l) = Panic.
  by rewrite /w_bytes_to_challenge_index /wsub size_tuple.
case: (get_challenge_bytes _ _) => [b1 t1]; case/orP: Hbig => Hb.
  by case: (Hw _ _ _ E1 Hb) => // -[->]; rewrite Hi.
case: (w_bytes_to_challenge_index _ _ _ _) => [i1| |] //; rewrite bindR_ok.
case: (get_challenge_bytes _ _) => [b2 t2].
by case: (Hw _ _ _ E2 Hb) => // -[->]; rewrite Hi.
Qed.

(** Machine integers never turn a rejection into an acceptance. *)
Theorem C76_no_false_accept pr fuel pf : (64 <= fuel)%N -> w_verify_all fp H pr fuel v pf = Some (Ok true) ->
  w_verify fp H pr fuel v pf = Some (Ok true).
Proof.
move=> Hf E; have := @C76_verify_large pr fuel pf true Hf; rewrite E.
case: leqP => H1; last by move=> /(_ isT).
case: leqP => H2; last by move=> /(_ isT).
by move=> _; rewrite -(C76_verify_fits pr pf Hf H1 H2).
Qed.

(** What the verifier of the model accepts is accepted on the machine. *)
Theorem C76_accepts pr fuel pf : (64 <= fuel)%N -> (ff_S fp <= 63)%N -> verify fp H v pf = Ok true ->
  w_verify_all fp H pr fuel v pf = Some (Ok true).
Proof.
move=> Hf HS E; have [chs [d1 [d2 [h1 [gz [h2 [Ed _ _ _ _]]]]]]] := verify_true E.
have [H1 H2] : (k + l <= 63)%N /\ (m + l <= 63)%N.
  move: Ed; rewrite draw_prefixE Hk Hm Hl -!expnD.
  case: (draw_prefix _ _ _ _) => [[[[[? ?] ?] ?] ?]| |] //; rewrite bind_ok [X in X -> _]/=.
  rewrite !domain_newE !(@up_expnK 2 _ isT).
  case: ltnP => // Hk1; rewrite bind_ok; case: ltnP => // Hk2 _.
  by split; exact: leq_trans HS.
by rewrite (C76_verify_fits pr pf Hf H1 H2) (C69_accepts_partial pr HS Hf E).
Qed.
End Sizes.
End Verify.

(** What the constructor of the model returns has the sizes used above. *)
Lemma verifier_new_sizes (F : fieldType) (fp : ff_params F) props lde (v : verifier F) :
  verifier_new fp props lde = Ok v ->
  [/\ d_size (v_column_domain v) = (2 ^ up_log 2 (ip_num_rows props))%N,
      exists m, d_size (v_constraints_domain v) = (2 ^ m)%N & v_lde_factor v = lde].
Proof.
rewrite verifier_newE; case: ifP => // _; case: ifP => // _; case: ifP => // _ [<-].
by split=> //; eexists.
Qed.

(** The squaring program of [Prop_Ali] with another degree declared. *)
Definition declared (D : nat) : instance_properties F257 :=
  Props 4 1 [:: let c := sq_constraint 0 1 in
                Constr (c_constant_term c) (c_terms c) D (c_density c)] [::].

Lemma exp63_65 : (2 ^ 63 < 2 ^ 63 * 4)%N /\ (1 < 2 ^ 63 * 4)%N.
Proof.
rewrite -(expnD 2 63 2); split; first exact (etrans (@ltn_exp2l 2 63 65 isT) isT).
rewrite -{1}(expn0 2); exact (etrans (@ltn_exp2l 2 0 65 isT) isT).
Qed.

Lemma declared_needed : points_needed (declared (2 ^ 63)) = (2 ^ 63 * 4)%N.
Proof.
rewrite /points_needed /largest [ip_constraints _]/= big_cons big_nil maxn0 [c_degree _]/= /next_pow2.
by rewrite (@up_expnK 2 _ isT).
Qed.

(** The full property is false: without overflow checks there is a verifier, with a domain of one point, for
    four rows and degree [2^63]; with them there is none; the model has an error. *)
Theorem C76_refuted : ~ C76_statement f257.
Proof.
have [Hb1 Hb2] := exp63_65.
have Hp : (2 ^ 63 < points_needed (declared (2 ^ 63)))%N by rewrite declared_needed.
have Hr : (next_pow2 (ip_num_rows (declared (2 ^ 63))) <= 2 ^ 63)%N.
  exact (etrans (@leq_exp2l 2 2 63 isT) isT).
have [v [Ev Ed _ _]] := @C76_new_release _ f257 64 (declared (2 ^ 63)) 4 (leqnn 64) Hp Hr isT isT.
move=> S; have := S Release 64%N (declared (2 ^ 63)) 4%N v (leqnn 64).
have R : (ip_num_rows (declared (2 ^ 63)) < 2 ^ 64)%N by exact (etrans (@ltn_exp2l 2 2 64 isT) isT).
have D : all (fun c => c_degree c < 2 ^ 64)%N (ip_constraints (declared (2 ^ 63))).
  exact (introT andP (conj lt6364 isT)).
move=> /(_ R D Ev); rewrite Ed /largest [ip_constraints _]/= big_cons big_nil maxn0 [c_degree _]/=.
rewrite leqNgt Hb2 => E; discriminate E.
Qed.

Example C76_ex : [/\ forall v, w_verifier_new f257 Debug 64 (declared (2 ^ 63)) 4 <> Some (Ok v),
  exists2 v, w_verifier_new f257 Release 64 (declared (2 ^ 63)) 4 = Some (Ok v) & d_size (v_constraints_domain v) = 1%N &
  verifier_new f257 (declared (2 ^ 63)) 4 = Err].
Proof.
have [Hb1 Hb2] := exp63_65.
have Hp : (2 ^ 63 < points_needed (declared (2 ^ 63)))%N by rewrite declared_needed.
have Hr : (next_pow2 (ip_num_rows (declared (2 ^ 63))) <= 2 ^ 63)%N.
  exact (etrans (@leq_exp2l 2 2 63 isT) isT).
split.
- move=> v; case: (@C76_new_debug _ f257 64 (declared (2 ^ 63)) 4 (leqnn 64) Hp) => -> E; discriminate E.
- have [v [Ev Ed _ _]] := @C76_new_release _ f257 64 (declared (2 ^ 63)) 4 (leqnn 64) Hp Hr isT isT.
  exact (ex_intro2 _ _ v Ev Ed).
- exact (@C76_new_model _ f257 (declared (2 ^ 63)) 4 isT Hp isT).
Qed.

(** An honest proof, accepted on the machine in both builds. *)
Example C76_ex_accepts : exists v pf, verifier_new f257 one_density 4 = Ok v /\
  forall pr, w_verify_all f257 toy_hash pr 64 v pf = Some (Ok true).
Proof.
have [Hs Hsat Hl] := C40_ex.
case EP: (prover_new f257 one_density 4 1 3) => [P| |]; [|by []|by []].
rewrite [bind _ _]/=; case Epf: (prove _ _ _ _) => [pf| |]; [|by []|by []] => _.
have Hm : (\max_(c <- ip_constraints one_density) c_degree c < 2 * 3)%N by rewrite /= !big_cons big_nil.
have [v Ev E] := C40_completeness_partial f257_ok Hdec257 (isT : 0 < 3)%N Hs Hsat (or_intror (conj Hl Hm)) EP Epf.
exists v, pf; split; [exact Ev|]; move=> pr; have [H1 [m H2] H3] := verifier_new_sizes Ev.
exact (@C76_accepts _ f257 toy_hash v _ m 2 H1 H2 H3 pr 64 pf (leqnn 64) isT E).
Qed.

Print Assumptions C76_new_fits.
Print Assumptions C76_new_debug.
Print Assumptions C76_new_release.
Print Assumptions C76_new_release_rows.
Print Assumptions C76_new_model.
Print Assumptions C76_verify_fits.
Print Assumptions C76_verify_large.
Print Assumptions C76_no_false_accept.
Print Assumptions C76_accepts.
Print Assumptions C76_refuted.
Print Assumptions C76_ex.
Print Assumptions C76_ex_accepts.
