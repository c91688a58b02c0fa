(** C78: the constructor of the prover with machine integers. *)
From Coq Require Import NArith Lia.
From mathcomp Require Import all_ssreflect all_algebra.
From Verif Require Import Spec SpecAir SpecStark M_Base M_Worker M_Field M_Domain M_Fft M_Poly M_Bytes M_Transcript M_Merkle M_Fri.
From Verif Require Import M_Challenge M_Air M_Arp M_Ali M_Prover M_Verifier M_Words M_WordsFri M_WordsNew M_WordsRange M_WordsProver.
From Verif Require Import P_Base P_Fft P_Domain P_Air P_Arp P_Vals P_Maps P_PolyOps P_Ali P_Honest P_Stark P_Words P_WordsFri.
From Verif Require Import Instances Prop_Hash Prop_Ali Prop_Words Prop_WordsNew Prop_WordsRange.

Set Implicit Arguments.
Unset Strict Implicit.
Unset Printing Implicit Defensive.
Import GRing.Theory.
Local Open Scope ring_scope.
Local Opaque expn.

Section Prover.
Variables (F : fieldType) (fp : ff_params F).
Implicit Types (pr : profile) (props : instance_properties F).
Notation S := (ff_S fp).

(** The points that the prover computes: the padded rows times the largest degree. *)
Definition points_used props : nat := (next_pow2 (ip_num_rows props) * largest props)%N.

Lemma foldM_all A B (f g : B -> A -> outcome B) (P : pred A) s b : all P s ->
  (forall b x, P x -> f b x = g b x) -> foldM f b s = foldM g b s.
Proof.
move=> + Hfg; elim: s b => [|x s IH] b //= /andP [Hx Hs]; rewrite (Hfg _ _ Hx).
by case: (g b x) => //= b'; exact: IH.
Qed.

(** Every range lies inside the trace. *)
Definition ranges_inside (props : instance_properties F) : bool :=
  all (fun c => if c_density c is Dense s sp then (s + sp <= ip_num_rows props)%N else true) (ip_constraints props).

Lemma restE pr props w col ev : pr = Debug \/ ranges_inside props -> (ip_num_rows props <= d_size col)%N ->
  w_from_arp_rest fp pr props col ev w = w_from_arp_rest fp Debug props col ev w.
Proof.
case: pr => [_ _|[//|Hin] Hn]; first reflexivity; rewrite /w_from_arp_rest.
case: (precompute _ _ _) => [pre| |]; [|reflexivity|reflexivity]; rewrite !bind_ok.
congr (bind _ _).
apply: (@foldM_all _ _ _ _ (fun db => if db.1 is Dense s sp then (s + sp <= ip_num_rows props)%N else true)).
  rewrite -(@all_map _ _ fst (fun d => if d is Dense s sp then (s + sp <= ip_num_rows props)%N else true)).
  apply/allP => dn; rewrite batch_keys; move: Hin; rewrite /ranges_inside.
  elim: (ip_constraints props) => [|c cs IH] //= /andP [Hc /IH {}IH]; case/orP => [/eqP <-|]; [exact Hc | exact IH].
move=> m [[s sp|? ? ?|?] b] H; rewrite [fst _]/=; [|reflexivity|reflexivity].
by have [_ ->] := C77_release_fits fp 0 ev w H Hn.
Qed.

Lemma from_arpE' pr props w :
  (forall col ev, (ip_num_rows props <= d_size col)%N -> w_from_arp_rest fp pr props col ev w = w_from_arp_rest fp Debug props col ev w) ->
  forall fuel, (64 <= fuel)%N -> (next_pow2 (ip_num_rows props) <= 2 ^ 63)%N ->
  (next_pow2 (ip_num_rows props) * max_degree (ip_constraints props) <= 2 ^ 63)%N ->
  w_from_arp fp pr fuel props w = Some (from_arp fp props w).
Proof.
move=> Hrest fuel Hf Hr Hp; have Hr0 : (ip_num_rows props <= 2 ^ 63)%N by exact (leq_trans (next_pow2_ge _) Hr).
rewrite /w_from_arp /from_arp (w_domain_newE _ _ Hr0 Hf) domain_newE.
case: (ltnP S _) => Hk; first reflexivity.
rewrite bindR_ok bind_ok [d_size _]/= /wmul (fitE _ (leq_ltn_trans Hp lt6364)) bindR_ok (w_domain_newE _ _ Hp Hf).
case: (domain_new _ (_ * _)) => [kd| |]; [|reflexivity|reflexivity]; rewrite bindR_ok bind_ok Hrest; first reflexivity.
exact (next_pow2_ge _).
Qed.

Lemma w_from_instanceE pr fuel props : (64 <= fuel)%N -> (next_pow2 (ip_num_rows props) <= 2 ^ 63)%N ->
  w_from_instance fp pr fuel props = Some (from_instance fp props).
Proof.
move=> Hf H1; rewrite /w_from_instance /from_instance (np_fits _ H1) bindR_ok (w_domain_newE _ _ H1 Hf).
case: (domain_new _ _) => [cd| |]; [|reflexivity|reflexivity]; rewrite bindR_ok bind_ok.
by case: (mapM _ _) => [cs| |].
Qed.

(** What [from_instance] leaves of the properties. *)
Lemma from_instance_inv props arp : from_instance fp props = Ok arp ->
  [/\ ip_num_rows arp = ip_num_rows props, max_degree (ip_constraints arp) = largest props &
      ranges_inside arp = ranges_inside props].
Proof.
rewrite /from_instance; case: (domain_new _ _) => [cd| |] //; rewrite bind_ok.
case Ecs: (mapM _ _) => [cs| |] // [<-]; split=> //=; first exact: remap_max Ecs.
move: Ecs; rewrite (mapM_total _ (remap_constraintE _)); case: ifP => // _ [<-].
by rewrite /ranges_inside /= all_map; apply: eq_all => c; case: c.
Qed.

(** If the points fit into a machine word and, in a release build, the ranges lie inside the trace, the
    machine does what the model does. *)
Theorem C78_new_fits pr fuel props lde out w : (64 <= fuel)%N ->
  (next_pow2 (ip_num_rows props) <= 2 ^ 63)%N -> (points_used props <= 2 ^ 63)%N ->
  pr = Debug \/ ranges_inside props ->
  w_prover_new fp pr fuel props lde out w = Some (prover_new fp props lde out w).
Proof.
move=> Hf Hr Hp Hin; rewrite /w_prover_new /prover_new (w_from_instanceE _ Hf Hr).
case Ea: (from_instance _ _) => [arp| |]; [|reflexivity|reflexivity]; have [E1 E2 E3] := from_instance_inv Ea.
rewrite bindR_ok bind_ok (@from_arpE' pr) //.
- by case: (from_arp _ _ _).
- by move=> col ev Hn; apply: restE Hn; rewrite E3.
- by rewrite E1.
- by rewrite E1 E2.
Qed.

(** With overflow checks there is no prover otherwise. *)
Theorem C78_new_debug fuel props lde out w : (64 <= fuel)%N -> (2 ^ 63 < points_used props)%N ->
  w_prover_new fp Debug fuel props lde out w = Some Panic \/ w_prover_new fp Debug fuel props lde out w = Some Err.
Proof.
move=> Hf Hp; rewrite /w_prover_new; case: (leqP (next_pow2 (ip_num_rows props)) (2 ^ 63)) => H1; last first.
  by left; rewrite /w_from_instance /w_next_power_of_two (fit_debug H1).
rewrite (w_from_instanceE _ Hf H1).
case Ea: (from_instance _ _) => [arp| |]; [|right; reflexivity|left; reflexivity]; have [E1 E2 _] := from_instance_inv Ea.
rewrite bindR_ok /w_from_arp E1 E2.
have Hr0 : (ip_num_rows props <= 2 ^ 63)%N by exact (leq_trans (next_pow2_ge _) H1).
rewrite (w_domain_newE _ _ Hr0 Hf) domain_newE; case: (ltnP S _) => Hk; first by right.
rewrite bindR_ok [d_size _]/= -/(next_pow2 _) -/(points_used _) /wmul /M_Words.fit.
case: ifP => _; last by left.
by left; rewrite bindR_ok (w_domain_new_debug _ _ Hp).
Qed.

Lemma new_sizes pr fuel props lde out w P : (64 <= fuel)%N -> (next_pow2 (ip_num_rows props) <= 2 ^ 63)%N ->
  w_prover_new fp pr fuel props lde out w = Some (Ok P) ->
  exists m, [/\ M_Words.fit pr 64 (points_used props) = Ok m, (m <= 2 ^ 63)%N,
      d_size (a_constraints_domain (p_ali P)) = next_pow2 m,
      d_size (a_column_domain (p_ali P)) = next_pow2 (ip_num_rows props) &
      a_max_power (p_ali P) = largest props].
Proof.
move=> Hf H1; rewrite /w_prover_new (w_from_instanceE _ Hf H1).
case Ea: (from_instance _ _) => [arp| |]; [|discriminate|discriminate]; have [E1 E2 _] := from_instance_inv Ea.
rewrite bindR_ok /w_from_arp E1 E2.
have Hr0 : (ip_num_rows props <= 2 ^ 63)%N by exact (leq_trans (next_pow2_ge _) H1).
rewrite (w_domain_newE _ _ Hr0 Hf) domain_newE; case: (ltnP S _) => Hk; first discriminate.
rewrite bindR_ok [d_size _]/= -/(next_pow2 _) /wmul -/(points_used _).
case: (M_Words.fit _ _ _) => [m| |]; [|discriminate|discriminate]; rewrite bindR_ok.
case: (leqP m (2 ^ 63)) => Hm; last first.
  by case: pr; [rewrite (w_domain_new_debug _ _ Hm); discriminate | rewrite (w_domain_new_release _ _ Hm); discriminate].
rewrite (w_domain_newE _ _ Hm Hf) domain_newE; case: (ltnP S _) => HK; first discriminate.
rewrite bindR_ok; case Er: (w_from_arp_rest _ _ _ _ _ _) => [a| |]; [|discriminate|discriminate].
rewrite bindR_ok => -[<-]; rewrite [p_ali _]/=.
move: Er; rewrite /w_from_arp_rest => Er; do 3! [have [? _ {}Er] := bind_Ok Er]; case: Er => <-.
exists m; split; [reflexivity | exact Hm | reflexivity | reflexivity | exact E2].
Qed.

(** The prover of a release build: its domain of the constraints is that of the truncated product. *)
Theorem C78_new_release fuel props lde out w P : (64 <= fuel)%N -> (next_pow2 (ip_num_rows props) <= 2 ^ 63)%N ->
  w_prover_new fp Release fuel props lde out w = Some (Ok P) ->
  [/\ (points_used props %% 2 ^ 64 <= 2 ^ 63)%N,
      d_size (a_constraints_domain (p_ali P)) = next_pow2 (points_used props %% 2 ^ 64),
      d_size (a_column_domain (p_ali P)) = next_pow2 (ip_num_rows props) &
      a_max_power (p_ali P) = largest props].
Proof.
move=> Hf H1 HP; have [m [Em Hm E1 E2 E3]] := new_sizes Hf H1 HP.
have E : m = (points_used props %% 2 ^ 64)%N.
  by move: Em; rewrite /M_Words.fit; case: ltnP => [Hl [<-]|_ [<-]]; [rewrite (modn_small Hl) | reflexivity].
rewrite -E; split; [exact Hm | exact E1 | exact E2 | exact E3].
Qed.

(** The domain of the constraints has room for every constraint. *)
Definition C78_statement := forall pr fuel props lde out w P, (64 <= fuel)%N -> (0 < w)%N ->
  (ip_num_rows props < 2 ^ 64)%N -> all (fun c => c_degree c < 2 ^ 64)%N (ip_constraints props) ->
  w_prover_new fp pr fuel props lde out w = Some (Ok P) ->
  (largest props * ip_num_rows props <= d_size (a_constraints_domain (p_ali P)))%N.

Theorem C78_room_partial pr fuel props lde out w P : (64 <= fuel)%N ->
  (next_pow2 (ip_num_rows props) <= 2 ^ 63)%N -> pr = Debug \/ (points_used props < 2 ^ 64)%N ->
  w_prover_new fp pr fuel props lde out w = Some (Ok P) ->
  (largest props * ip_num_rows props <= d_size (a_constraints_domain (p_ali P)))%N.
Proof.
move=> Hf H1 Hfit HP; have [m [Em Hm -> _ _]] := new_sizes Hf H1 HP.
have E : m = points_used props.
  move: Em Hfit; rewrite /M_Words.fit; case: ltnP => Hl; first by case.
  by case: pr {HP} => // _ [].
rewrite {}E in Hm Em *; apply: leq_trans (next_pow2_ge _); rewrite mulnC /points_used leq_mul2r next_pow2_ge orbT; reflexivity.
Qed.
End Prover.

Lemma wmul_mod a b m : ((a * b) %% 2 ^ 64 = m)%N -> wmul Release 64 a b = Ok m.
Proof.
move=> <-; rewrite /wmul /M_Words.fit; case: (ltnP (a * b)%N (2 ^ 64)%N) => Hl; last reflexivity.
rewrite (modn_small Hl); reflexivity.
Qed.

Definition remapped (D : nat) : instance_properties F257 :=
  Props 4 1 (map (mask_constraint (dom_gen f257 2)) (ip_constraints (declared D))) [::].

Lemma declared_rest (D : nat) : exists2 a, w_from_arp_rest f257 Release (remapped D) (dom f257 2) (dom f257 2) 1 = Ok a &
  a_constraints_domain a = dom f257 2.
Proof.
have [deg Ec] := @w_cosetE _ f257 f257_ok 2 2 0 1 4 1 isT isT isT.
have Hall : all (fun x => x ^+ (2 ^ 2) - 1 != 0) (points f257 2 (ff_gen f257)) by vm_compute.
rewrite Hall in Ec; rewrite /w_from_arp_rest precomputeE; [|exact isT|by vm_compute].
rewrite (bind_ok (Precomputed _ _ _)).
have Eb : batch_by_density (ip_constraints (remapped D)) = [:: (Dense 0 1, ip_constraints (remapped D))] by reflexivity.
rewrite Eb; cbn [foldM fst]; rewrite [ip_num_rows _]/= Ec (bind_ok (vf _ _ _ _, _)) (bind_ok (im_insert _ _ _)).
rewrite (_ : ip_boundary_constraints (remapped D) = [::]); last reflexivity.
cbn [foldM foldl]; rewrite ?(bind_ok (im_insert _ _ _)) ?(bind_ok [::]).
by eexists; reflexivity.
Qed.

Lemma declared_instance (D : nat) : from_instance f257 (declared D) = Ok (remapped D).
Proof. by rewrite from_instanceE. Qed.

Lemma largest_declared D : largest (declared D) = D.
Proof. by rewrite /largest [ip_constraints _]/= big_cons big_nil maxn0. Qed.

Lemma domain_4 : domain_new f257 4 = Ok (dom f257 2).
Proof. by rewrite domain_newE. Qed.

Lemma le463 : (4 <= 2 ^ 63)%N.
Proof. exact (etrans (@leq_exp2l 2 2 63 isT) isT). Qed.

Lemma declared_prover (D : nat) : ((4 * D) %% 2 ^ 64 = 4)%N ->
  exists2 P, w_prover_new f257 Release 64 (declared D) 4 1 1 = Some (Ok P) &
    d_size (a_constraints_domain (p_ali P)) = 4%N.
Proof.
move=> HD; have Hf : (64 <= 64)%N by exact (leqnn 64).
have Er : next_pow2 (ip_num_rows (declared D)) = 4%N by reflexivity.
have Hr : (next_pow2 (ip_num_rows (declared D)) <= 2 ^ 63)%N by rewrite Er; exact le463.
have [_ Em _] := from_instance_inv (declared_instance D).
rewrite /w_prover_new (w_from_instanceE _ _ Hf Hr) (declared_instance D) bindR_ok /w_from_arp Em (largest_declared D).
rewrite (_ : ip_num_rows (remapped D) = 4%N); last reflexivity.
rewrite (w_domain_newE _ _ le463 Hf) domain_4 bindR_ok (_ : d_size (dom f257 2) = 4%N); last reflexivity.
rewrite (wmul_mod HD) bindR_ok (w_domain_newE _ _ le463 Hf) domain_4 bindR_ok.
have [a -> Ea] := declared_rest D; rewrite bindR_ok; eexists; first reflexivity.
by rewrite [p_ali _]/= Ea.
Qed.

(** A degree of 2^62 + 1 over four rows: the product is 2^64 + 4. *)
Lemma wrapped : ((4 * (2 ^ 62).+1) %% 2 ^ 64 = 4)%N.
Proof.
have E : (4 * 2 ^ 62 = 2 ^ 64)%N by exact (esym (expnD 2 2 62)).
rewrite mulnS E modnDr; exact (modn_small (etrans (@ltn_exp2l 2 2 64 isT) isT)).
Qed.

Lemma lt62 : ((2 ^ 62).+1 < 2 ^ 64)%N.
Proof.
exact (leq_ltn_trans (etrans (@ltn_exp2l 2 62 63 isT) isT) lt6364).
Qed.

(** The full property is false: without overflow checks the prover works on four points. *)
Theorem C78_refuted : ~ C78_statement f257.
Proof.
have [P EP Ed] := declared_prover wrapped => St.
have R : (ip_num_rows (declared (2 ^ 62).+1) < 2 ^ 64)%N by exact (etrans (@ltn_exp2l 2 2 64 isT) isT).
have D : all (fun c => c_degree c < 2 ^ 64)%N (ip_constraints (declared (2 ^ 62).+1)).
  exact (introT andP (conj lt62 isT)).
have := St Release 64%N (declared (2 ^ 62).+1) 4%N 1%N 1%N P (leqnn 64) isT R D EP.
rewrite Ed largest_declared [ip_num_rows _]/= mulSn leqNgt => /negP; apply.
rewrite -[X in (X < _)%N]addn0 ltn_add2l muln_gt0 andbT expn_gt0; reflexivity.
Qed.

(** In a release build the prover and the verifier of the same properties can work on different domains. *)
Theorem C78_differ : exists props P v,
  [/\ w_prover_new f257 Release 64 props 4 1 1 = Some (Ok P), w_verifier_new f257 Release 64 props 4 = Some (Ok v),
      (0 < largest props)%N, d_size (a_constraints_domain (p_ali P)) = 4%N & d_size (v_constraints_domain v) = 1%N].
Proof.
have [P EP Ed] := declared_prover wrapped.
have Hn : next_pow2 (2 ^ 62).+1 = (2 ^ 63)%N.
  have H : (2 ^ 62 < (2 ^ 62).+1 <= 2 ^ 63)%N.
    exact (introT andP (conj (leqnn _) (etrans (@ltn_exp2l 2 62 63 isT) isT))).
  rewrite /next_pow2 (@up_log_eq 2 62 _ isT H); reflexivity.
have Hp : (2 ^ 63 < points_needed (declared (2 ^ 62).+1))%N.
  rewrite /points_needed largest_declared Hn; exact (proj1 exp63_65).
have Hr : (next_pow2 (ip_num_rows (declared (2 ^ 62).+1)) <= 2 ^ 63)%N.
  exact (etrans (@leq_exp2l 2 2 63 isT) isT).
have [v [Ev Ed2 _ _]] := @C76_new_release _ f257 64 (declared (2 ^ 62).+1) 4 (leqnn 64) Hp Hr isT isT.
exists (declared (2 ^ 62).+1), P, v; split; [exact EP | exact Ev | rewrite largest_declared; exact (ltn0Sn _) | exact Ed | exact Ed2].
Qed.

Example C78_ex pr : w_prover_new f257 pr 64 one_density 4 1 3 = Some (prover_new f257 one_density 4 1 3) /\
  exists P, prover_new f257 one_density 4 1 3 = Ok P.
Proof.
split; last first.
  have : (if prover_new f257 one_density 4 1 3 is Ok _ then true else false) by vm_compute.
  by case: (prover_new _ _ _ _ _) => [P| |] //; exists P.
have H63 : (2 ^ 3 <= 2 ^ 63)%N by exact (etrans (@leq_exp2l 2 3 63 isT) isT).
apply: C78_new_fits; [exact (leqnn 64) | | | right; reflexivity].
- apply: leq_trans H63; reflexivity.
- apply: leq_trans H63; rewrite /points_used /largest [ip_constraints _]/= big_cons big_nil; reflexivity.
Qed.

Print Assumptions C78_new_fits.
Print Assumptions C78_new_debug.
Print Assumptions C78_new_release.
Print Assumptions C78_room_partial.
Print Assumptions C78_refuted.
Print Assumptions C78_differ.
