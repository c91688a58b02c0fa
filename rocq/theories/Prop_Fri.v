(** Properties C26 - C32: FRI and the choice of the queried position. *)
From Coq Require Import NArith Lia.
From mathcomp Require Import all_ssreflect all_algebra.
From Verif Require Import M_Base M_Worker M_Field M_Domain M_Fft M_Poly M_Bytes M_Merkle M_Fri M_Challenge.
From Verif Require Import Spec SpecPoly SpecHash SpecFri.
From Verif Require Import P_Base P_Fft P_Domain P_Poly P_Lde P_PolyOps P_Wf P_Bytes P_Merkle P_Fri Instances Prop_Hash.

Set Implicit Arguments.
Unset Strict Implicit.
Unset Printing Implicit Defensive.
Import GRing.Theory.
Local Open Scope ring_scope.

Section Fri.
Variables (F : fieldType) (fp : ff_params F) (H : hash_fun).
Hypothesis Hok : ff_ok fp.

(** [P] holds the values of [f] on its domain. *)
Definition values_of (P : hpoly F Values) (f : {poly F}) : Prop :=
  wf_poly fp P /\ p_coeffs P = evals f 1 (p_omega P) (size (p_coeffs P)).

Let H2 : (2%:R : F) != 0. Proof. by case: Hok. Qed.

(** The meaning of [fold_poly]: f_even + b f_odd, in terms of values of f, and
    half the degree. *)
Theorem C26_fold_poly (b x : F) (f : {poly F}) (n : nat) :
  (x != 0 -> (fold_poly b f).[x ^+ 2] = (f.[x] + f.[- x]) / 2%:R + b * ((f.[x] - f.[- x]) / (2%:R * x))) /\
  ((size f <= 2 * n)%N -> (size (fold_poly b f) <= n)%N).
Proof. by split=> [Hx|]; [rewrite -fold_at_poly | apply: size_fold_poly]. Qed.

(** One layer of the prover: round [i] folds the values of [f] on the domain
    with 2^(K-i) elements to the values of f_even + b f_odd on the domain with
    half as many. *)
Theorem C26_fold_layer (w : worker) (K i : nat) (b : F) (f : {poly F}) :
  (0 < w)%N -> (i < K)%N -> (K <= ff_S fp)%N ->
  forall g n, (2 ^ K).-primitive_root g -> n = (2 ^ (K - i.+1))%N ->
  fold_layer w 2%:R^-1 (powers g^-1 (2 ^ K %/ 2)) (2 ^ i) b (evals f 1 (g ^+ (2 ^ i)) (2 * n)) n =
  Ok (evals (fold_poly b f) 1 (g ^+ (2 ^ i.+1)) n).
Proof.
move=> Hw Hi HK g n Hg ->; set n' := (2 ^ (K - i.+1))%N.
have Hn : (0 < n')%N by rewrite expn_gt0.
have EK : (2 ^ K = 2 ^ i * (2 * n'))%N by rewrite -expnS subnSK // -expnD subnKC // ltnW.
have Hp : (2 * n').-primitive_root (g ^+ (2 ^ i)).
  have := exp_prim_root Hg (2 ^ i); rewrite EK gcdnMr mulKn ?expn_gt0 //.
rewrite fold_layerE ?expn_gt0 ?size_evals //; last first.
- by rewrite EK mulnCA mulKn // mulnC.
- by rewrite mulnC.
by rewrite fold_vec_evals // -exprM -expnSr.
Qed.

(** Whole prover: every layer in the prototype holds the values of the
    polynomial folded by the challenges drawn so far. *)
Theorem C26_prover_layers w P f lde_factor output proto :
  (0 < w)%N -> values_of P f ->
  proof_from_lde_by_values fp H P lde_factor output w = Ok proto ->
  let N := size (p_coeffs P) in
  [/\ size (fpt_values proto) = size (fpt_challenges proto),
      (output * lde_factor * 2 ^ size (fpt_challenges proto) = N)%N &
      forall j, (j < size (fpt_values proto))%N -> forall d,
        p_coeffs (nth d (fpt_values proto) j) =
        evals (fold_polys (take j.+1 (fpt_challenges proto)) f) 1 (p_omega P ^+ (2 ^ j.+1)) (N %/ 2 ^ j.+1)].
Proof.
move=> Hw [Hwf Hv] Hpr; have [K [e [r [v [[EP Hs HK -> ->] [h1 h2 h3 ->]]]]]] := by_values_inv Hok Hw Hwf Hpr.
move: Hv; rewrite EP /= Hs => Hv; set m := (K - (e + r))%N.
rewrite size_mkseq size_chals; split=> //.
  by rewrite -!expnD [(r + e)%N]addnC subnKC // ltnW.
move=> j Hj d; rewrite nth_mkseq //= take_chals // Hv.
have HjK : (j < K)%N by apply: leq_trans Hj (leq_subr _ _).
by rewrite layer_evals // -dom_gen_pow // divn_pow2.
Qed.

(** C27.  Full statement: both provers return the same prototype. *)
Definition C27_statement : Prop := forall w P f lde_factor output,
  (0 < w)%N -> values_of P f -> (size f <= size (p_coeffs P) %/ lde_factor)%N ->
  proof_from_lde_through_coefficients fp H P lde_factor output w =
  proof_from_lde_by_values fp H P lde_factor output w.

(** It holds whenever the multi-threaded LDE is right for this CPU count and
    factor: one CPU or factor < 2 CPUs (see C09). *)
Theorem C27_provers_agree_partial w P f lde_factor output :
  (0 < w)%N -> lde_cpus_ok w lde_factor ->
  values_of P f -> (size f <= size (p_coeffs P) %/ lde_factor)%N ->
  proof_from_lde_through_coefficients fp H P lde_factor output w =
  proof_from_lde_by_values fp H P lde_factor output w.
Proof.
move=> Hw Hcpu [Hwf Hv] Hf.
case Hp: (is_pow2 lde_factor && is_pow2 output); last by rewrite by_values_bad // through_bad.
case/andP: Hp => /is_pow2P [e Ee] /is_pow2P [r ->]; rewrite Ee in Hcpu Hf *.
case/wfE: Hwf Hv Hf => K [v [-> Hs HK]] /=; rewrite Hs => Hv Hf.
case: (leqP e K) => HeK; last first.
  rewrite by_values_exact // /proof_from_lde_through_coefficients /p_size /= Hs.
  rewrite [(_ < K)%N]ltnNge (leq_trans (ltnW HeK)) ?leq_addr // andbF /=.
  case: (tree_create_cases fp H Hw v) => [->|[t ->]] //; rewrite bind_eq !is_pow2_exp.
  by rewrite (@divn_small (2 ^ K)) ?ltn_exp2l // div0n.
rewrite divn_pow2 // in Hf; have HD : (K - e + e = K)%N by rewrite subnK.
have := @through_exact _ fp H Hok w Hw K (K - e) e (mkseq (nth 0 f) (2 ^ (K - e))) HD HK.
by rewrite size_mkseq coeffs_of_poly // -Hv => ->.
Qed.

(** C28: the prototype is accepted at every odd position (inside of the
    domain); at even positions the verifier returns an error. *)
Theorem C28_prototype_complete w P f lde_factor output proto idx :
  (0 < w)%N -> values_of P f -> (size f <= size (p_coeffs P) %/ lde_factor)%N ->
  proof_from_lde_by_values fp H P lde_factor output w = Ok proto ->
  (idx < size (p_coeffs P))%N ->
  verify_prototype fp proto P idx = if odd idx then Ok true else Err.
Proof.
move=> Hw [Hwf Hv] Hf Hpr Hi.
have [K [e [r [v [[EP Hs HK El Eo] [h1 h2 h3 ->]]]]]] := by_values_inv Hok Hw Hwf Hpr.
move: Hv Hi Hf; rewrite EP El /= Hs => Hv Hi.
have HeK : (e <= K)%N by rewrite (leq_trans _ (ltnW h2)) // leq_addr.
rewrite divn_pow2 // => Hf; case: ifP => Ho; last first.
  by rewrite /verify_prototype /= -expnD subnK // verify_startE // Ho andbF.
rewrite verify_prototype_honest //; congr Ok; apply/eqP.
have Hfin := final_poly H Hok HK (ltnW h2) Hf; rewrite /= -Hv in Hfin; rewrite Hfin.
have HmK : (K - (e + r) <= K)%N by rewrite leq_subr.
rewrite [in RHS]Hv layer_evals // -Hv subKn ?(ltnW h2) // nth_evals ?ltn_mod ?expn_gt0 //.
by rewrite mul1r exprM dom_gen_pow // subKn // ltnW.
Qed.

(** The prover returns a prototype whenever hashing into the field cannot fail
    (see C23), the factors are powers of two and there is something to fold. *)
Theorem C28_prover_total w P lde_factor output :
  (0 < w)%N -> wf_poly fp P -> is_pow2 lde_factor -> is_pow2 output ->
  (1 < lde_factor * output < size (p_coeffs P))%N ->
  (forall d, exists x, bytes_to_field fp d = Ok x) ->
  exists proto, proof_from_lde_by_values fp H P lde_factor output w = Ok proto.
Proof.
move=> Hw /wfE [K [v [-> Hs HK]]] /is_pow2P [e ->] /is_pow2P [r ->]; rewrite -expnD /= Hs.
rewrite -{1}(expn0 2) !ltn_exp2l // => Her Hd; rewrite by_values_exact // Her andTb.
suff -> : all (layer_ok fp H K (dom_gen fp K) v) (iota 0 (K - (e + r)).+1) by eexists.
apply/allP => j _; rewrite /layer_ok /vchal_ok /encode_root_into_challenge.
by case: (Hd (vroot fp H (K - j) (layer fp H K (dom_gen fp K) v j))) => x ->.
Qed.

(** C29.  Full statement: the proof produced for an odd position is accepted
    with the honest value. *)
Definition C29_statement : Prop := forall w P f lde_factor output proto pr idx,
  (0 < w)%N -> values_of P f -> (size f <= size (p_coeffs P) %/ lde_factor)%N ->
  proof_from_lde_by_values fp H P lde_factor output w = Ok proto ->
  odd idx -> (idx < size (p_coeffs P))%N ->
  produce_proof fp H proto P idx = Ok pr ->
  verify_proof fp H pr idx (p_coeffs P)`_idx = Ok true.

(** A proof can be produced at every position, and it is accepted exactly with
    the honest value and when the final polynomial and its own fold by the last
    challenge agree at one point: the verifier folds once more than the
    prover. *)
Theorem C29_acceptance w P f lde_factor output proto idx :
  (0 < w)%N -> values_of P f -> (size f <= size (p_coeffs P) %/ lde_factor)%N ->
  proof_from_lde_by_values fp H P lde_factor output w = Ok proto ->
  (idx < size (p_coeffs P))%N ->
  exists2 pr, produce_proof fp H proto P idx = Ok pr &
    odd idx ->
    exists b, encode_root_into_challenge fp (fpt_final_root proto) = Ok b /\
    let m := size (fpt_challenges proto) in
    let final := fold_polys (fpt_challenges proto) f in
    let x := p_omega P ^+ (2 ^ m.+1 * idx) in
    forall y, verify_proof fp H pr idx y = Ok true <->
      y = (p_coeffs P)`_idx /\ final.[x] = (fold_poly b final).[x].
Proof.
move=> Hw [Hwf Hv] Hf Hpr Hi.
have [K [e [r [v [[EP Hs HK El Eo] [h1 h2 h3 ->]]]]]] := by_values_inv Hok Hw Hwf Hpr.
move: Hv Hi Hf; rewrite EP El /= Hs => Hv Hi.
have HeK : (e <= K)%N by rewrite (leq_trans _ (ltnW h2)) // leq_addr.
rewrite divn_pow2 // => Hf; set m := (K - (e + r))%N.
have HmK : (m < K)%N by rewrite /m ltn_subrL h1 (leq_ltn_trans _ h2).
have EmK : (K - m = e + r)%N by rewrite subKn // ltnW.
exists (honest_proof fp H K e r idx v); first exact: produce_honest.
move=> Ho; exists (vchal fp H (e + r) (layer fp H K (dom_gen fp K) v m)); split.
  rewrite encode_vroot; move/allP: h3 => /(_ m); rewrite mem_iota /= add0n ltnSn => /(_ isT).
  by rewrite /layer_ok EmK => ->.
rewrite size_chals => y; rewrite verify_honest // -/m.
have Hfin := final_poly H Hok HK (ltnW h2) Hf; rewrite /= -Hv in Hfin; rewrite [poly_of _]Hfin -/m.
have Hx : dom_gen fp K ^+ (2 ^ m.+1 * (idx %% 2 ^ (K - m.+1))) = dom_gen fp K ^+ (2 ^ m.+1 * idx).
  rewrite !exprM dom_gen_pow // [in RHS](divn_eq idx (2 ^ (K - m.+1))) exprD mulnC exprM.
  by rewrite (prim_expr_order (dom_gen_prim Hok (leq_trans (leq_subr m.+1 K) HK))) expr1n mul1r.
rewrite Hx.
have -> : (layer fp H K (dom_gen fp K) v m.+1)`_(idx %% 2 ^ (K - m.+1)) =
    (fold_poly (vchal fp H (e + r) (layer fp H K (dom_gen fp K) v m))
      (fold_polys (chals fp H K (dom_gen fp K) v m) f)).[dom_gen fp K ^+ (2 ^ m.+1 * idx)].
  rewrite {1}Hv layer_evals // -Hv nth_evals ?ltn_mod ?expn_gt0 // mul1r -Hx exprM dom_gen_pow //.
  by rewrite /= fold_polys_rcons EmK.
by [].
Qed.

(** It holds for output degree 1 ... *)
Theorem C29_complete_partial w P f lde_factor proto pr idx :
  (0 < w)%N -> values_of P f -> (size f <= size (p_coeffs P) %/ lde_factor)%N ->
  proof_from_lde_by_values fp H P lde_factor 1 w = Ok proto ->
  odd idx -> (idx < size (p_coeffs P))%N ->
  produce_proof fp H proto P idx = Ok pr ->
  verify_proof fp H pr idx (p_coeffs P)`_idx = Ok true.
Proof.
move=> Hw HP Hf Hpr Ho Hi.
have [pr' -> Hacc] := C29_acceptance Hw HP Hf Hpr Hi; case=> <-; have [b [_ /= Hb]] := Hacc Ho.
apply/Hb; split=> //.
have [_ HN _] := C26_prover_layers Hw HP Hpr; rewrite mul1n in HN.
have Hlde : (0 < lde_factor)%N by case: (lde_factor) HN Hi => //; rewrite mul0n => <-.
rewrite -HN mulKn // in Hf.
have : (size (fold_polys (fpt_challenges proto) f) <= 1)%N by apply: size_fold_polys; rewrite muln1.
set q := fold_polys _ f => Hq; rewrite (size1_polyC Hq) hornerC.
have Hs1 : (size (fold_poly b (q`_0)%:P) <= 1)%N by apply: size_fold_poly; rewrite (leq_trans (size_polyC_leq1 _)).
by rewrite (size1_polyC Hs1) hornerC coef_fold_poly !coefC /= mulr0 addr0.
Qed.

(** C30: the verifier returns [Ok(true)] exactly for the proofs described by
    [accepts] (SpecFri.v). *)
Theorem C30_verify_exact p idx v d :
  domain_new fp (fpr_degree_plus_one p * fpr_lde_factor p) = Ok d ->
  verify_proof fp H p idx v = Ok true <-> accepts fp H (d_pow d) (d_gen d) p idx v.
Proof. exact: verify_proofP. Qed.

(** In particular the oracle value is the first-round opening at the queried
    position, and if the first root is the root of a committed vector, it is
    the committed value there. *)
Theorem C30_oracle_value p idx v :
  verify_proof fp H p idx v = Ok true ->
  exists b, [/\ (b < minn 2 (size (fpr_queries p)))%N, q_index (opening p 0 b) = idx, q_value (opening p 0 b) = v &
                verify_query fp H (opening p 0 b) (root_of p 0)].
Proof.
case Hd: (domain_new fp (fpr_degree_plus_one p * fpr_lde_factor p)) => [d| |]; last first.
- by rewrite /verify_proof /verify_proof_queries /verify_start (fri_two_inv Hok) bind_eq Hd.
- by rewrite /verify_proof /verify_proof_queries /verify_start (fri_two_inv Hok) bind_eq Hd.
case/(verify_proofP H Hok idx v Hd) => bs [/andP [Hidx Ho] _ /andP [HR HRK] Hr _].
have HK : (0 < d_pow d)%N by apply: leq_trans HR HRK.
have E : (2 * half (d_pow d) 0 = 2 ^ d_pow d)%N by rewrite /half -expnS subn1 prednK.
have [h1 h2 h3 h4 _ h6] := Hr 0%N HR; rewrite E modn_small // in h6.
have Hlt : (idx < 2 * half (d_pow d) 0)%N by rewrite E.
have Hq2 : minn 2 (size (fpr_queries p)) = 2%N.
  apply/minn_idPl; move: HR; rewrite leq_min => /andP [_]; rewrite leq_divRL //.
have := mem_halves Hlt; rewrite !inE => /orP [/eqP Ei|/eqP Ei].
  by exists 0%N; rewrite Hq2 h6 // ?h1.
by exists 1%N; rewrite Hq2 h6 // ?h2.
Qed.

Theorem C30_committed_oracle w leafs t p idx v : ff_repr_ok fp ->
  (0 < w)%N -> tree_create fp H w leafs = Ok t -> get_root t = Ok (root_of p 0) ->
  (idx < size leafs)%N ->
  verify_proof fp H p idx v = Ok true ->
  v = leafs`_idx \/ collision_among H (tree_inputs fp H leafs ++ queries_inputs fp H (fpr_queries p)).
Proof.
move=> Hrep Hw Ht Hroot Hidx /C30_oracle_value [b [Hb Ei Ev Hq]].
case: (C21_opening_of_vector Hrep Hw Ht Hroot Hq) => [[_]|Hc].
  by rewrite Ei Ev modn_small //; left.
right; apply: collision_sub Hc; apply: cat_sub => //.
by apply: queries_sub; move: Hb; rewrite leq_min => /andP [].
Qed.
End Fri.

Section Soundness.
Variables (F : fieldType) (fp : ff_params F) (H : hash_fun).
Hypothesis Hok : ff_ok fp.

(** [v] is the vector behind the first root, and at every admissible (odd)
    position somebody can complete the roots and final coefficients to a proof
    that is accepted with the committed value. *)
Definition accepted_everywhere (d out lde : nat) roots finals (v : seq F) : Prop :=
  forall idx, odd idx -> (idx < size v)%N ->
    exists queries, verify_proof fp H (FriProof queries roots finals d out lde) idx v`_idx = Ok true.

(** C31.  Full statement: such a vector agrees at all positions that can be
    queried with a polynomial of size at most [d]. *)
Definition C31_statement : Prop := forall w d out lde roots finals (v : seq F) t D,
  (0 < w)%N -> tree_create fp H w v = Ok t -> get_root t = Ok (head zero_digest roots) ->
  domain_new fp (d * lde) = Ok D -> size v = d_size D ->
  accepted_everywhere d out lde roots finals v ->
  exists2 f : {poly F}, (size f <= d)%N &
    forall i, odd i -> (i < size v)%N -> v`_i = f.[d_gen D ^+ i].

(** The verifier lets the prover choose the number of rounds and the number of
    final coefficients, so every vector is accepted everywhere, whatever degree
    [d] is claimed. *)
Theorem C31_any_vector_accepted w d out lde (v : seq F) K t root b :
  (0 < w)%N -> (0 < K <= ff_S fp)%N -> (d * lde = 2 ^ K)%N -> size v = (2 ^ K)%N ->
  tree_create fp H w v = Ok t -> get_root t = Ok root -> encode_root_into_challenge fp root = Ok b ->
  exists finals, accepted_everywhere d out lde [:: root] finals v.
Proof.
move=> Hw /andP [HK0 HK] Hd Hs Ht Hroot Hb; set g := dom_gen fp K.
move: Ht Hroot; rewrite (tree_createP fp H Hw Hs) // => -[<-]; rewrite -/(vtree fp H K v) get_root_vtree // => -[Er].
exists (ifft_vec fp K.-1 (fold_vec b g v)) => idx Ho; rewrite Hs => Hi.
pose n := (2 ^ K.-1)%N; exists [:: hquery fp H K v (idx %% n); hquery fp H K v (idx %% n + n)].
set p := FriProof _ _ _ _ _ _.
have En : (2 ^ K = 2 * n)%N by rewrite /n -expnS prednK.
have Hn : (0 < n)%N by rewrite expn_gt0.
have Hm : (idx %% n < n)%N by rewrite ltn_mod.
have Hdn : domain_new fp (fpr_degree_plus_one p * fpr_lde_factor p) = Ok (Domain (2 ^ K) K g).
  by rewrite /= Hd domain_new_pow.
apply/(verify_proofP H Hok idx v`_idx Hdn); rewrite [d_pow _]/= [d_gen _]/=.
have Hh : half K 0 = n by rewrite /half subn1.
have R1 : rounds p = 1%N by [].
have Hfold : folded K g p idx [:: b] 0 = (fold_vec b g v)`_(idx %% n).
  rewrite /folded Hh /= mul1n /fold_vec Hs En mulKn // nth_mkseq //.
exists [:: b]; rewrite R1; split=> //.
- by rewrite Hi.
- case=> // _; split; rewrite ?Hh //.
  + rewrite /root_of [nth _ _ _]/= -Er; apply: verify_hquery => //; by rewrite En mul2n -addnn (leq_trans Hm) ?leq_addr.
  + rewrite /root_of [nth _ _ _]/= -Er; apply: verify_hquery => //; by rewrite En mul2n -addnn ltn_add2r.
  + rewrite -En modn_small // => -[|[|]] // _ E; rewrite /expected_in -E //.
- rewrite [RHS]Hfold subn1 -/n.
  have Hsv : size (fold_vec b g v) = (2 ^ K.-1)%N by rewrite size_mkseq Hs En mulKn.
  have HK1 : (K.-1 <= ff_S fp)%N by rewrite (leq_trans (leq_pred _)).
  have Eg : g ^+ (2 ^ 1) = dom_gen fp K.-1 by rewrite /g (@dom_gen_pow _ fp) // subn1.
  rewrite exprM Eg.
  have := ifft_vecK Hok Hsv HK1 => Hv; rewrite -[in RHS]Hv nth_evals // mul1r.
  by [].
Qed.

(** ... hence the full statement fails as soon as the field has an eighth root
    of unity and the challenge is defined: x^3 passes as a polynomial of
    degree below 2. *)
Theorem C31_refuted : (3 <= ff_S fp)%N ->
  (forall d, exists x, bytes_to_field fp d = Ok x) -> ~ C31_statement.
Proof.
move=> HS Hd St; set g := dom_gen fp 3; pose v : seq F := evals 'X^3 1 g 8.
have Hs : size v = (2 ^ 3)%N by rewrite size_evals.
have Ht : tree_create fp H 1 v = Ok (vtree fp H 3 v) by rewrite (tree_createP fp H _ Hs).
have Hr : get_root (vtree fp H 3 v) = Ok (vroot fp H 3 v) by rewrite get_root_vtree.
have [b Hb] : exists b, encode_root_into_challenge fp (vroot fp H 3 v) = Ok b by exact: Hd.
have [finals Hacc] := @C31_any_vector_accepted 1 2 1 4 v 3 _ _ b isT HS erefl Hs Ht Hr Hb.
have Hdom : domain_new fp (2 * 4) = Ok (Domain 8 3 g) by rewrite (@domain_new_pow _ fp 3).
have [f Hf Hv] := St 1%N 2%N 1%N 4%N [:: vroot fp H 3 v] finals v _ _ isT Ht Hr Hdom Hs Hacc.
clear St Ht Hr Hb Hacc Hdom.
pose q : {poly F} := 'X^3 - f.
have Hlt : (size (- f) < size ('X^3 : {poly F}))%N by rewrite size_opp size_polyXn ltnS (leq_trans Hf).
have Hq : size q = 4%N by rewrite (size_addl Hlt) size_polyXn.
have q0 : q != 0 by rewrite -size_poly_eq0 Hq.
have Hg := dom_gen_prim Hok HS.
pose os := [seq i <- iota 0 8 | odd i].
have Hos i : i \in os -> odd i /\ (i < 8)%N by rewrite mem_filter mem_iota => /andP [-> /andP [_ ->]].
pose rs := [seq g ^+ i | i <- os].
have Hroots : all (root q) rs.
  apply/allP => x /mapP [i /Hos [Ho Hi8] ->]; rewrite /root /q hornerD hornerN subr_eq0.
  have := Hv i Ho; rewrite Hs => /(_ Hi8) /= <-.
  by rewrite nth_evals // mul1r.
have Hu : uniq rs.
  rewrite map_inj_in_uniq ?filter_uniq ?iota_uniq // => i j /Hos [_ Hi] /Hos [_ Hj] /eqP.
  by rewrite (eq_prim_root_expr Hg) !modn_small // => /eqP.
have Hsr : size rs = 4%N by rewrite size_map.
by have := max_poly_roots q0 Hroots Hu; rewrite Hq Hsr ltnn.
Qed.

(** What one accepted position says about committed vectors. *)
Lemma accepted_position (Hrep : ff_repr_ok fp) d out lde roots finals K (vs : nat -> seq F)
    (qs : seq (query F)) (bs : seq F) (idx : nat) (y : F) :
  let R := size roots in let g := dom_gen fp K in
  domain_new fp (d * lde) = Ok (Domain (2 ^ K) K g) -> (0 < R < K)%N ->
  (forall j, (j < R)%N -> size (vs j) = (2 ^ (K - j))%N /\ exists w t,
     [/\ (0 < w)%N, tree_create fp H w (vs j) = Ok t & get_root t = Ok (nth zero_digest roots j)]) ->
  (forall j, (j < R)%N -> encode_root_into_challenge fp (nth zero_digest roots j) = Ok bs`_j) ->
  size qs = (2 * R)%N -> verify_proof fp H (FriProof qs roots finals d out lde) idx y = Ok true ->
  [/\ (idx < 2 ^ K)%N && odd idx, y = (vs 0%N)`_idx,
      forall j, (j.+1 < R)%N -> (vs j.+1)`_(idx %% 2 ^ (K - j.+1)) =
          (fold_vec bs`_j (g ^+ (2 ^ j)) (vs j))`_(idx %% 2 ^ (K - j.+1)) &
      (poly_of finals).[g ^+ (2 ^ R) ^+ (idx %% 2 ^ (K - R))] =
          (fold_vec bs`_R.-1 (g ^+ (2 ^ R.-1)) (vs R.-1))`_(idx %% 2 ^ (K - R))] \/
  collision_among H (trees_inputs fp H (mkseq vs R) ++ queries_inputs fp H qs).
Proof.
move=> R g Hd /andP [HR0 HRK] Hvs Hch Hqs; set xs := trees_inputs _ _ _ ++ _; set p := FriProof qs roots finals d out lde.
case/(verify_proofP H Hok _ _ (p := p) Hd) => bs' [/andP [Hidx Ho] _ _ Hr Hfin]; rewrite [d_pow _]/= [d_gen _]/= in Hr Hfin.
have ER : rounds p = R by rewrite /rounds /= Hqs mulKn // minnn.
rewrite ER in Hr Hfin.
have Hopen j : (j < R)%N -> (forall b, (b < 2)%N ->
    q_value (opening p j b) = (vs j)`_(q_index (opening p j b) %% 2 ^ (K - j))) \/ collision_among H xs.
  move=> Hj; have [h1 h2 h3 h4 _ _] := Hr j Hj; have [Hvj [w [t [Hw Ht Hroot]]]] := Hvs j Hj.
  have Hsub b : (b < 2)%N -> {subset tree_inputs fp H (vs j) ++
      opening_inputs fp H (q_value (opening p j b)) (q_path (opening p j b)) (q_index (opening p j b)) <= xs}.
    move=> Hb; apply: cat_sub.
      move=> z Hy; apply/flattenP; exists (tree_inputs fp H (vs j)) => //.
      by apply: map_f; apply/mapP; exists j; rewrite ?mem_iota.
    have Hqj : (2 * j + b < size qs)%N.
      rewrite Hqs; apply: leq_trans (_ : 2 * j.+1 <= _)%N; last by rewrite leq_mul2l.
      by rewrite mulnS addnC ltn_add2r.
    by move=> z /(queries_sub Hqj).
  case: (C21_opening_of_vector Hrep Hw Ht Hroot h3) => [[_ E3]|Hc]; last by right; apply: collision_sub Hc; apply: Hsub.
  case: (C21_opening_of_vector Hrep Hw Ht Hroot h4) => [[_ E4]|Hc]; last by right; apply: collision_sub Hc; apply: Hsub.
  by left=> -[|[|]] // _; rewrite -Hvj.
case: (all_or Hopen) => [Hval|]; last by right.
left.
have Hbb j : (j < R)%N -> bs'`_j = bs`_j.
  by move=> Hj; have [_ _ _ _ h5 _] := Hr j Hj; have := Hch j Hj; rewrite -[nth _ _ _]/(root_of p j) h5 => -[].
have Hfold j : (j < R)%N -> folded K g p idx bs' j =
    (fold_vec bs`_j (g ^+ (2 ^ j)) (vs j))`_(idx %% 2 ^ (K - j.+1)).
  move=> Hj; have [h1 h2 _ _ _ _] := Hr j Hj; have [Hvj _] := Hvs j Hj.
  have HjK : (j < K)%N by apply: ltn_trans Hj HRK.
  have E : (2 ^ (K - j) = 2 * 2 ^ (K - j.+1))%N by rewrite -expnS subnSK.
  have Hm : (idx %% 2 ^ (K - j.+1) < 2 ^ (K - j.+1))%N by rewrite ltn_mod expn_gt0.
  have Hm1 : (idx %% 2 ^ (K - j.+1) %% (2 * 2 ^ (K - j.+1)) = idx %% 2 ^ (K - j.+1))%N.
    by apply: modn_small; rewrite mul2n -addnn (leq_trans Hm) ?leq_addr.
  have Hm2 : ((idx %% 2 ^ (K - j.+1) + 2 ^ (K - j.+1)) %% (2 * 2 ^ (K - j.+1)) =
      idx %% 2 ^ (K - j.+1) + 2 ^ (K - j.+1))%N.
    by apply: modn_small; rewrite mul2n -addnn ltn_add2r.
  rewrite /folded !(Hval j Hj) // h1 h2 Hbb // /fold_vec Hvj E mulKn // nth_mkseq // /half.
  by rewrite Hm1 Hm2 exprM.
have Hcons j : (j < R)%N -> expected_in K g p idx y bs' j = (vs j)`_(idx %% 2 ^ (K - j)).
  move=> Hj; have [h1 h2 _ _ _ h6] := Hr j Hj.
  have HjK : (j < K)%N by apply: ltn_trans Hj HRK.
  have E : (2 ^ (K - j) = 2 * half K j)%N by rewrite /half -expnS subnSK.
  have Hm : (idx %% 2 ^ (K - j) < 2 * half K j)%N by rewrite -E ltn_mod expn_gt0.
  have Hmm : (idx %% 2 ^ (K - j) %% half K j = idx %% half K j)%N.
    by rewrite modn_dvdm // E dvdn_mull.
  have := mem_halves Hm; rewrite Hmm !inE => /orP [] /eqP Ei.
    have Eq : q_index (opening p j 0) = (idx %% (2 * half K j))%N by rewrite h1 -E.
    by have := h6 0%N isT Eq; rewrite (Hval j Hj) // Eq -E modn_mod.
  have Eq : q_index (opening p j 1) = (idx %% (2 * half K j))%N by rewrite h2 -E.
  by have := h6 1%N isT Eq; rewrite (Hval j Hj) // Eq -E modn_mod.
split; [by rewrite Hidx Ho | | |].
- by have := Hcons 0%N HR0; rewrite /= subn0 modn_small // => <-.
- by move=> j Hj; rewrite -Hfold; [rewrite -(Hcons j.+1 Hj) | exact: ltnW].
rewrite -exprM; move: Hfin; rewrite [fpr_final_coefficients _]/= => ->.
by rewrite Hfold ?prednK.
Qed.

(** The general step: the proof for position [idx] is [prf idx], it is accepted at
    all odd positions outside of [rej].  Then the vector folded by the challenges
    agrees with the final polynomial at the positions to which none of [rej] is
    folded, or two of the strings hashed on the way collide. *)
Lemma fold_chain (Hrep : ff_repr_ok fp) d out lde roots finals K (vs : nat -> seq F)
    (prf : nat -> seq (query F)) (bs : seq F) (rej : seq nat) :
  let R := size roots in
  domain_new fp (d * lde) = Ok (Domain (2 ^ K) K (dom_gen fp K)) -> (0 < R < K)%N ->
  (forall j, (j < R)%N -> size (vs j) = (2 ^ (K - j))%N /\ exists w t,
     [/\ (0 < w)%N, tree_create fp H w (vs j) = Ok t & get_root t = Ok (nth zero_digest roots j)]) ->
  size bs = R -> (forall j, (j < R)%N -> encode_root_into_challenge fp (nth zero_digest roots j) = Ok bs`_j) ->
  (forall idx, odd idx -> (idx < 2 ^ K)%N -> idx \notin rej -> size (prf idx) = (2 * R)%N /\
     verify_proof fp H (FriProof (prf idx) roots finals d out lde) idx (vs 0%N)`_idx = Ok true) ->
  collision_among H (trees_inputs fp H (mkseq vs R) ++ queries_inputs fp H (flatten (mkseq prf (2 ^ K)))) \/
  forall i, odd i -> (i < 2 ^ (K - R))%N ->
    (forall idx, (idx < 2 ^ K)%N -> (idx %% 2 ^ (K - R) = i)%N -> idx \notin rej) ->
    (fold_vecs bs (dom_gen fp K) (vs 0%N))`_i = (poly_of finals).[dom_gen fp K ^+ (2 ^ R) ^+ i].
Proof.
move=> R Hd /andP [HR0 HRK] Hvs Hbs Hch Hacc; set g := dom_gen fp K; set xs := trees_inputs _ _ _ ++ _.
suff Hall idx : (idx < 2 ^ K)%N -> (odd idx -> idx \notin rej ->
    [/\ forall j, (j.+1 < R)%N -> (vs j.+1)`_(idx %% 2 ^ (K - j.+1)) =
          (fold_vec bs`_j (g ^+ (2 ^ j)) (vs j))`_(idx %% 2 ^ (K - j.+1)) &
        (poly_of finals).[g ^+ (2 ^ R) ^+ (idx %% 2 ^ (K - R))] =
          (fold_vec bs`_R.-1 (g ^+ (2 ^ R.-1)) (vs R.-1))`_(idx %% 2 ^ (K - R))]) \/ collision_among H xs.
  case: (all_or Hall) => [Hok2|]; last by left.
  right; pose good j i := forall idx, (idx < 2 ^ K)%N -> (idx %% 2 ^ (K - j) = i)%N -> idx \notin rej.
  have Hlt i j : (j <= K)%N -> (i < 2 ^ (K - j))%N -> (i < 2 ^ K)%N.
    by move=> Hj Hi; apply: leq_trans Hi _; rewrite leq_exp2l // leq_subr.
  have Hstep j u : (j < R)%N -> size u = (2 ^ (K - j))%N ->
      (forall i, odd i -> (i < 2 ^ (K - j))%N -> good j i -> u`_i = (vs j)`_i) ->
      forall i, odd i -> (i < 2 ^ (K - j.+1))%N -> good j.+1 i ->
      (fold_vec bs`_j (g ^+ (2 ^ j)) u)`_i = (fold_vec bs`_j (g ^+ (2 ^ j)) (vs j))`_i.
    move=> Hj Hu Heq i Ho Hi Hg; have [Hvj _] := Hvs j Hj.
    have HjK : (j.+1 < K)%N by apply: leq_ltn_trans Hj HRK.
    have E : (2 ^ (K - j) = 2 * 2 ^ (K - j.+1))%N by rewrite -expnS subnSK // ltnW.
    have Hev : odd (2 ^ (K - j.+1)) = false by rewrite oddX /= orbF subn_eq0 leqNgt HjK.
    rewrite /fold_vec Hu Hvj E mulKn // !nth_mkseq // !Heq //.
    - by rewrite oddD Ho Hev.
    - by rewrite E mul2n -addnn ltn_add2r.
    - move=> idx Hx Em; apply: Hg => //.
      by rewrite -(modn_dvdm idx (_ : 2 ^ (K - j.+1) %| 2 ^ (K - j))%N) ?Em ?modnDr ?modn_small // E dvdn_mull.
    - by rewrite E mul2n -addnn (leq_trans Hi) ?leq_addr.
    - move=> idx Hx Em; apply: Hg => //.
      by rewrite -(modn_dvdm idx (_ : 2 ^ (K - j.+1) %| 2 ^ (K - j))%N) ?Em ?modn_small // E dvdn_mull.
  have Htake j : (j < R)%N -> take j.+1 bs = rcons (take j bs) bs`_j.
    by move=> Hj; rewrite (take_nth 0) ?Hbs.
  have Hsz j : (j < R)%N -> size (fold_vecs (take j bs) g (vs 0%N)) = (2 ^ (K - j))%N.
    move=> Hj; apply: size_fold_vecs; rewrite size_take Hbs Hj subnKC; last by rewrite ltnW ?(ltn_trans Hj).
    by have [-> _] := Hvs 0%N HR0; rewrite subn0.
  have Hst j : (j < R)%N -> size (take j bs) = j by move=> Hj; rewrite size_take Hbs Hj.
  have Hchain j : (j < R)%N -> forall i, odd i -> (i < 2 ^ (K - j))%N -> good j i ->
      (fold_vecs (take j bs) g (vs 0%N))`_i = (vs j)`_i.
    elim: j => [|j IH] Hj i Ho Hi Hgi; first by rewrite take0.
    have Hj' := ltnW Hj; rewrite (Htake j Hj') fold_vecs_rcons (Hst j Hj') (Hstep j _ Hj' (Hsz j Hj') (IH Hj')) //.
    have Hir : i \notin rej by apply: Hgi; [apply: (Hlt i j.+1 (ltnW (ltn_trans Hj HRK)) Hi) | rewrite modn_small].
    have [Hc _] := Hok2 i (Hlt i j.+1 (ltnW (ltn_trans Hj HRK)) Hi) Ho Hir.
    by have := Hc j Hj; rewrite modn_small.
  move=> i Ho Hi Hgi; have HR1 : (R.-1 < R)%N by rewrite prednK.
  have := Htake R.-1 HR1; rewrite prednK // -{1}Hbs take_size => ->.
  rewrite fold_vecs_rcons (Hst _ HR1) (Hstep _ _ HR1 (Hsz _ HR1) (Hchain _ HR1)) ?prednK //.
  have Hir : i \notin rej by apply: Hgi; [apply: (Hlt i R (ltnW HRK) Hi) | rewrite modn_small].
  have [_] := Hok2 i (Hlt i R (ltnW HRK) Hi) Ho Hir.
  by rewrite modn_small // => <-.
move=> Hidx; case Ho: (odd idx); last by left.
case Hrj: (idx \notin rej); last by left.
have [Hqs Hv] := Hacc idx Ho Hidx Hrj.
have HR : (0 < R < K)%N by rewrite HR0.
case: (accepted_position Hrep Hd HR Hvs Hch Hqs Hv) => [[_ _ H1 H2']|Hc]; first by left.
right; apply: collision_sub Hc; apply: cat_sub => z Hz //; exact: (queries_flatten Hidx).
Qed.

(** What does follow: if every proof has one pair of openings per root and all
    the roots are roots of committed vectors, then the vector folded by the
    challenges agrees with the final polynomial at all odd positions (or
    two of the strings hashed on the way collide).  Missing for C31: the verifier does not check
    the number of rounds or of final coefficients, and the step from a folded
    vector to the original one needs random challenges. *)
Theorem C31_fold_chain_partial (Hrep : ff_repr_ok fp) d out lde roots finals K (vs : nat -> seq F)
    (prf : nat -> seq (query F)) :
  let R := size roots in
  domain_new fp (d * lde) = Ok (Domain (2 ^ K) K (dom_gen fp K)) -> (0 < R < K)%N ->
  (forall j, (j < R)%N -> size (vs j) = (2 ^ (K - j))%N /\ exists w t,
     [/\ (0 < w)%N, tree_create fp H w (vs j) = Ok t & get_root t = Ok (nth zero_digest roots j)]) ->
  (forall idx, odd idx -> (idx < 2 ^ K)%N -> size (prf idx) = (2 * R)%N /\
     verify_proof fp H (FriProof (prf idx) roots finals d out lde) idx (vs 0%N)`_idx = Ok true) ->
  collision_among H (trees_inputs fp H (mkseq vs R) ++ queries_inputs fp H (flatten (mkseq prf (2 ^ K)))) \/
  exists bs, [/\ size bs = R,
    forall j, (j < R)%N -> encode_root_into_challenge fp (nth zero_digest roots j) = Ok bs`_j &
    forall i, odd i -> (i < 2 ^ (K - R))%N ->
      (fold_vecs bs (dom_gen fp K) (vs 0%N))`_i = (poly_of finals).[dom_gen fp K ^+ (2 ^ R) ^+ i]].
Proof.
move=> R Hd /andP [HR0 HRK] Hvs Hacc; set g := dom_gen fp K; set xs := trees_inputs _ _ _ ++ _.
(* challenges *)
have [bs [Hbs Hch]] : exists bs, size bs = R /\
    forall j, (j < R)%N -> encode_root_into_challenge fp (nth zero_digest roots j) = Ok bs`_j.
  have H1 : (1 < 2 ^ K)%N by rewrite -{1}(expn0 2) ltn_exp2l // (leq_ltn_trans _ HRK).
  have [Hqs] := Hacc 1%N isT H1; set qs := prf 1%N in Hqs *.
  case/(verify_proofP H Hok _ _ (p := FriProof qs roots finals d out lde) Hd) => bs [_ _ _ Hr _].
  have ER : rounds (FriProof qs roots finals d out lde) = R by rewrite /rounds /= Hqs mulKn // minnn.
  exists (mkseq (nth 0 bs) R); rewrite size_mkseq; split=> // j Hj; rewrite nth_mkseq //.
  by rewrite ER in Hr; case: (Hr j Hj).
have HRK' : (0 < R < K)%N by rewrite HR0.
have Hacc' idx : odd idx -> (idx < 2 ^ K)%N -> idx \notin [::] -> size (prf idx) = (2 * R)%N /\
     verify_proof fp H (FriProof (prf idx) roots finals d out lde) idx (vs 0%N)`_idx = Ok true.
  by move=> Ho Hi _; apply: Hacc.
case: (fold_chain Hrep Hd HRK' Hvs Hbs Hch Hacc') => [|Hf]; first by left.
by right; exists bs; split=> // i Ho Hi; apply: Hf.
Qed.

(** Two distinct challenges are enough to go back from the folded vectors to
    the vector: if both folds agree at odd positions with polynomials of size
    at most [m], the vector agrees at odd positions with one of size at most
    2 m. *)
Theorem C31_two_challenges_partial (g b b' : F) (v : seq F) (n m : nat) (p p' : {poly F}) :
  size v = (2 * n)%N -> ~~ odd n -> (2 * n).-primitive_root g -> b != b' ->
  (size p <= m)%N -> (size p' <= m)%N ->
  (forall i, odd i -> (i < n)%N -> (fold_vec b g v)`_i = p.[g ^+ 2 ^+ i]) ->
  (forall i, odd i -> (i < n)%N -> (fold_vec b' g v)`_i = p'.[g ^+ 2 ^+ i]) ->
  exists2 f : {poly F}, (size f <= 2 * m)%N & forall i, odd i -> (i < 2 * n)%N -> v`_i = f.[g ^+ i].
Proof.
move=> Hs Hn Hg Hb Hp Hp' Hf Hf'.
have H2 : (2%:R : F) != 0 by case: Hok.
case: (posnP n) => [En|Hn0]; first by exists 0; [rewrite size_poly0 | move=> i _; rewrite En muln0].
have Hg0 : g != 0.
  apply/eqP => E; have := prim_expr_order Hg; rewrite E expr0n muln_eq0 (eqn0Ngt n) Hn0 /=.
  by move/eqP; rewrite eq_sym oner_eq0.
have Hh : g ^+ n = -1.
  have : (g ^+ n) ^+ 2 == 1 by rewrite -exprM mulnC (prim_expr_order Hg).
  rewrite sqrf_eq1 => /orP [|/eqP //]; rewrite -(prim_order_dvd Hg) => /dvdn_leq.
  by move=> /(_ Hn0); rewrite mul2n -addnn -[X in (_ <= X)%N]addn0 leq_add2l leqNgt Hn0.
have Hbb : b - b' != 0 by rewrite subr_eq0.
pose po := (b - b')^-1 *: (p - p'); pose pe := p - b *: po.
have Hpo : (size po <= m)%N.
  by rewrite (leq_trans (size_scale_leq _ _)) // (leq_trans (size_add _ _)) // size_opp geq_max Hp.
have Hpe : (size pe <= m)%N.
  by rewrite (leq_trans (size_add _ _)) // size_opp geq_max Hp (leq_trans (size_scale_leq _ _)).
have Hcomp (q : {poly F}) : (size q <= m)%N -> (size (q \Po 'X^2) <= (2 * m).-1)%N.
  move=> Hq; case: (eqVneq q 0) => [->|q0]; first by rewrite comp_poly0 size_poly0.
  apply: (leq_trans (size_comp_poly_leq q 'X^2)); rewrite size_polyXn muln2 mul2n.
  rewrite -size_poly_gt0 in q0; case: (size q) Hq q0 => // s Hs1 _; case: (m) Hs1 => // m'.
  by rewrite ltnS doubleS /= ltnS leq_double.
exists (pe \Po 'X^2 + 'X * (po \Po 'X^2)).
  apply: (leq_trans (size_add _ _)); rewrite geq_max (leq_trans (Hcomp _ Hpe)) ?leq_pred //=.
  case: (eqVneq (po \Po 'X^2) 0) => [->|q0]; first by rewrite mulr0 size_poly0.
  rewrite mulrC size_mulX // (leq_ltn_trans (Hcomp _ Hpo)) // prednK //.
  by have := Hcomp _ Hpo; rewrite -size_poly_gt0 in q0; move/(leq_trans q0); case: (2 * m)%N.
move=> i Ho Hi; have Hi2 : i \in [:: i %% n; i %% n + n]%N by apply: mem_halves.
have Hj : (i %% n < n)%N by rewrite ltn_mod.
have Hjo : odd (i %% n).
  by move: Ho; rewrite {1}(divn_eq i n) oddD oddM (negbTE Hn) andbF.
have := Hf _ Hjo Hj; have := Hf' _ Hjo Hj; move: Hi2; rewrite /fold_vec Hs mulKn // !nth_mkseq //.
move: (i %% n)%N => j Hij E' E; set x := g ^+ j in E E'; set y0 := v`_j in E E'; set y1 := v`_(j + n) in E E'.
have Hx : x != 0 by rewrite expf_neq0.
have Ex : g ^+ 2 ^+ j = x ^+ 2 by rewrite -!exprM mulnC.
rewrite Ex in E E'.
have Epo : po.[x ^+ 2] = (y0 - y1) / (2%:R * x).
  rewrite /po hornerZ hornerD hornerN -E -E' /fold_at opprD addrACA subrr add0r -mulrBl mulKf //.
have Epe : pe.[x ^+ 2] = (y0 + y1) / 2%:R.
  by rewrite /pe hornerD hornerN hornerZ Epo -E /fold_at addrK.
have Hhalf (z : F) : (z + z) / 2%:R = z by rewrite -mulr2n -(mulr_natr z) mulfK.
have Exo : x * po.[x ^+ 2] = (y0 - y1) / 2%:R.
  by rewrite Epo invfM mulrCA [x * (_ * _)]mulrCA mulfV // mulr1.
move: Hij; rewrite !inE => /orP [] /eqP ->.
  rewrite hornerD hornerM hornerX !horner_comp !hornerXn -/x Epe Exo -mulrDl.
  by rewrite addrACA [y1 - y1]subrr addr0 Hhalf.
rewrite hornerD hornerM hornerX !horner_comp !hornerXn exprD Hh mulrN1 -/x sqrrN Epe mulNr Exo -mulrBl.
by rewrite opprB [y0 + y1]addrC addrACA subrr addr0 Hhalf.
Qed.
End Soundness.

Lemma std_values_of (F : fieldType) (fp : ff_params F) K (f : {poly F}) : ff_ok fp -> (K <= ff_S fp)%N ->
  values_of fp (std fp Values K (evals f 1 (dom_gen fp K) (2 ^ K))) f.
Proof.
move=> Hok HK; split; last by rewrite /= size_evals.
by apply: wf_std; rewrite ?size_evals.
Qed.

(** C29 does not hold for an output degree above 1: the proofs for x^2 on 16
    points with output 2 cannot be accepted at both positions 1 and 3. *)
Theorem C29_refuted (F : fieldType) (fp : ff_params F) (H : hash_fun) :
  ff_ok fp -> (4 <= ff_S fp)%N -> (forall d, exists x, bytes_to_field fp d = Ok x) -> ~ C29_statement fp H.
Proof.
move=> Hok HS Hd St; set g := dom_gen fp 4.
have [P [HP Hs Eg]] : exists P, [/\ values_of fp P 'X^2, size (p_coeffs P) = 16%N & p_omega P = g].
  by exists (std fp Values 4 (evals 'X^2 1 g (2 ^ 4))); split; [exact: std_values_of | rewrite size_evals |].
have Hf : (size ('X^2 : {poly F}) <= size (p_coeffs P) %/ 4)%N by rewrite Hs size_polyXn.
have [|proto Hp] := @C28_prover_total F fp H Hok 1 P 4 2 isT HP.1 isT isT _ Hd; first by rewrite Hs.
have [_ HN _] := C26_prover_layers Hok (isT : (0 < 1)%N) HP Hp; rewrite Hs in HN.
have Hm : size (fpt_challenges proto) = 1%N.
  apply/eqP; rewrite -(@eqn_exp2l 2) // -(@eqn_pmul2l 8) //; apply/eqP; exact: HN.
pose b := if encode_root_into_challenge fp (fpt_final_root proto) is Ok b then b else 0.
have Hacc idx : (idx < 16)%N -> odd idx -> g ^+ (4 * idx) = b.
  move=> Hi Ho; have Hi' : (idx < size (p_coeffs P))%N by rewrite Hs.
  have [pr Hpr Hb] := C29_acceptance Hok (isT : (0 < 1)%N) HP Hf Hp Hi'; have [b' [Eb' Hv]] := Hb Ho.
  have := St 1%N _ _ _ _ _ _ _ isT HP Hf Hp Ho Hi' Hpr; move/(Hv _) => -[_].
  have -> : fold_polys (fpt_challenges proto) 'X^2 = 'X.
    case: (fpt_challenges proto) Hm => [|c [|]] // _; apply/polyP => i.
    have H2 : (2%:R : F) != 0 by case: Hok.
    by rewrite [fold_polys _ _]/= coef_fold_poly // !coefXn coefX; case: i => [|[|i]]; rewrite !addn1 !mul2n ?doubleS /= ?mulr0 ?addr0.
  rewrite hornerX Hm Eg => ->; rewrite /b Eb'.
  have -> : fold_poly b' 'X = b'%:P.
    apply/polyP => i; have H2 : (2%:R : F) != 0 by case: Hok.
    by rewrite coef_fold_poly // !coefX coefC; case: i => [|[|i]]; rewrite !addn1 !mul2n ?doubleS /= ?mulr0 ?addr0 ?add0r ?mulr1.
  by rewrite hornerC.
have := Hacc 3%N isT isT; rewrite -(Hacc 1%N isT isT).
by move/eqP; rewrite (eq_prim_root_expr (dom_gen_prim Hok HS)).
Qed.

(** * C32: the queried position *)
Theorem C32_challenge_index (s : bytes) (lde_size lde_factor : nat) :
  (8 <= size s)%N -> (0 < lde_size)%N -> ~~ odd lde_size -> (0 < lde_factor)%N -> ~~ odd lde_factor ->
  exists i, [/\ bytes_to_challenge_index s lde_size lde_factor = Ok i,
    (i < lde_size)%N, odd i & ~~ (lde_factor %| i)%N].
Proof.
move=> Hs Hn He Hf Hef; rewrite /bytes_to_challenge_index /usub Hs bind_eq -lt0n Hn /= /urem -lt0n Hf /=.
set x := N.to_nat _.
have Hx : (x < lde_size)%N.
  have : (be_value (drop (size s - 8) s) mod N.of_nat lde_size < N.of_nat lde_size)%num.
    by apply: N.mod_lt => E; move: Hn; rewrite -(Nat2N.id lde_size) E.
  by rewrite /x; move: (N.modulo _ _) => y Hy; apply/ltP; lia.
have Hmod z : odd (z %% lde_size) = odd z.
  by rewrite [in RHS](divn_eq z lde_size) oddD oddM (negbTE He) andbF.
have Hdvd i : odd i -> ~~ (lde_factor %| i)%N.
  by move=> Ho; apply/negP => /dvdnP [k Ek]; move: Ho; rewrite Ek oddM (negbTE Hef) andbF.
set y := (if (x %% lde_factor == 0)%N then _ else _).
have Hy : (y < lde_size)%N by rewrite /y; case: ifP => _ //; rewrite ltn_mod.
rewrite modn2 eqb0; case Ho: (odd y) => /=; first by exists y; split=> //; rewrite ?Ho // Hdvd.
have Ho1 : odd (y.+1 %% lde_size) by rewrite Hmod /= Ho.
by exists (y.+1 %% lde_size)%N; rewrite ltn_mod; split=> //; apply: Hdvd.
Qed.

(** The index depends on the last eight bytes only: the challenge read as a
    big-endian number, reduced, moved to the next admissible position. *)
Theorem C32_index_of_challenge (s : bytes) (lde_size lde_factor : nat) (n : nat) :
  (8 <= size s)%N -> ~~ odd lde_size -> (0 < lde_factor)%N -> ~~ odd lde_factor ->
  be_value (drop (size s - 8) s) = N.of_nat n -> (n < lde_size)%N ->
  bytes_to_challenge_index s lde_size lde_factor = Ok (if odd n then n else n.+1).
Proof.
move=> Hs He Hf Hef Hb Hn; have Hn0 : (0 < lde_size)%N by apply: leq_ltn_trans Hn.
rewrite /bytes_to_challenge_index /usub Hs bind_eq -lt0n Hn0 /= /urem -lt0n Hf /= Hb.
rewrite N.mod_small; last by move/ltP: Hn => Hn; lia.
rewrite Nat2N.id -/(lde_factor %| n)%N.
have Hn1 : ~~ odd n -> (n.+1 < lde_size)%N.
  move=> Ho; rewrite ltn_neqAle Hn andbT; apply/eqP => E; move: He; rewrite -E /= Ho.
  by [].
case Ho: (odd n); last first.
  have Hl := Hn1 (negbT Ho); case: (lde_factor %| n)%N; rewrite ?(modn_small Hl) modn2 /= Ho //=.
have -> : (lde_factor %| n)%N = false.
  by apply/negP => /dvdnP [k Ek]; move: Ho; rewrite Ek oddM (negbTE Hef) andbF.
by rewrite modn2 Ho.
Qed.

(** * Concrete cases *)

(** Degree below 4, on the 16 elements of a domain of the test field, LDE
    factor 4 and output degree 1. *)
Definition ex_poly : {poly F257} := poly_of [:: 3%:R; 1%:R; 4%:R; 2%:R].
Definition ex_values : hpoly F257 Values := std f257 Values 4 (evals ex_poly 1 (dom_gen f257 4) (2 ^ 4)).

(** The hypotheses of C26-C29 are met together, by a prototype that exists. *)
Example C28_ex : exists proto, [/\ values_of f257 ex_values ex_poly,
  (size ex_poly <= size (p_coeffs ex_values) %/ 4)%N, lde_cpus_ok 3 4 &
  proof_from_lde_by_values f257 toy_hash ex_values 4 1 3 = Ok proto].
Proof.
have Hwf : values_of f257 ex_values ex_poly by apply: std_values_of; [exact: f257_ok|].
have Hs : size (p_coeffs ex_values) = 16%N by rewrite size_evals.
have [||||||proto Hp] := @C28_prover_total _ f257 toy_hash f257_ok 3 ex_values 4 1.
- by [].
- by case: Hwf.
- by [].
- by [].
- by rewrite Hs.
- by move=> d; have [|x Hx _] := bytes_to_field_ok f257_constants d _ f257_repr_ok; [|exists x].
exists proto; split; [exact: Hwf | by rewrite Hs; exact: size_poly_of | by [] | exact: Hp].
Qed.

(** C27 refuted: x^2 on 16 points of the test field, LDE factor 4, output 1, on
    two CPUs.  The layers of the two provers differ. *)
Definition layers_nat (r : outcome (fri_prototype F257)) : option (seq (seq nat)) :=
  if r is Ok p then Some [seq nats (p_coeffs q) | q <- fpt_values p] else None.
Definition ex_powers : hpoly F257 Values := std f257 Values 4 (powers (dom_gen f257 4 ^+ 2) 16).

Lemma evals_X2 (F : fieldType) (g : F) n : evals 'X^2 1 g n = powers (g ^+ 2) n.
Proof. by apply: eq_map => i; rewrite hornerXn mul1r -!exprM mulnC. Qed.

Theorem C27_refuted : ~ C27_statement f257 toy_hash.
Proof.
move=> St; have HP : values_of f257 ex_powers 'X^2.
  by rewrite /ex_powers -evals_X2; apply: (std_values_of 'X^2 f257_ok).
have Hf : (size ('X^2 : {poly F257}) <= size (p_coeffs ex_powers) %/ 4)%N.
  by rewrite size_polyXn size_powers.
have := congr1 layers_nat (St 2%N ex_powers 'X^2 4%N 1%N isT HP Hf).
by clear; apply/eqP; vm_compute.
Qed.

(** C29, C30: the proof at position 5 is accepted with the committed value and
    rejected with another one, at another position and with a changed final
    coefficient or opening. *)
Definition ex_check (w : worker) : outcome (seq bool) :=
  let* proto := proof_from_lde_by_values f257 toy_hash ex_powers 4 1 w in
  let* p := produce_proof f257 toy_hash proto ex_powers 5 in
  let v := dom_gen f257 4 ^+ 10 in
  let is_accepted r := if r is Ok b then b else false in
  let with_queries qs := FriProof qs (fpr_roots p) (fpr_final_coefficients p)
     (fpr_degree_plus_one p) (fpr_output p) (fpr_lde_factor p) in
  let with_finals fc := FriProof (fpr_queries p) (fpr_roots p) fc
     (fpr_degree_plus_one p) (fpr_output p) (fpr_lde_factor p) in
  Ok [:: is_accepted (verify_proof f257 toy_hash p 5 v);
         is_accepted (verify_proof f257 toy_hash p 5 (v + 1));
         is_accepted (verify_proof f257 toy_hash p 7 (dom_gen f257 4 ^+ 14));
         is_accepted (verify_proof f257 toy_hash (with_finals [seq x + 1 | x <- fpr_final_coefficients p]) 5 v);
         is_accepted (verify_proof f257 toy_hash (with_queries [seq Query (q_index q) (q_value q + 1) (q_path q) | q <- fpr_queries p]) 5 v)].
Example C29_ex : ex_check 3 = Ok [:: true; false; false; false; false].
Proof. by vm_compute. Qed.

(** C31: the hypotheses of C31_refuted are met by the test field. *)
Example C31_ex : ff_ok f257 /\ (3 <= ff_S f257)%N /\ forall d, exists x, bytes_to_field f257 d = Ok x.
Proof.
split; first exact: f257_ok; split=> // d.
by have [|x Hx _] := bytes_to_field_ok f257_constants d _ f257_repr_ok; [|exists x].
Qed.
Corollary C31_refuted_f257 H : ~ C31_statement f257 H.
Proof. by have [h1 [h2 h3]] := C31_ex; apply: C31_refuted. Qed.
Corollary C29_refuted_f257 H : ~ C29_statement f257 H.
Proof. by have [h1 [h2 h3]] := C31_ex; apply: C29_refuted. Qed.

Example C32_ex : bytes_to_challenge_index (nseq 7 (to_byte 0) ++ [:: to_byte 20]) 64 4 = Ok 21%N.
Proof. by vm_compute. Qed.

Print Assumptions C26_fold_poly.
Print Assumptions C26_fold_layer.
Print Assumptions C26_prover_layers.
Print Assumptions C27_provers_agree_partial.
Print Assumptions C27_refuted.
Print Assumptions C28_prototype_complete.
Print Assumptions C28_prover_total.
Print Assumptions C29_acceptance.
Print Assumptions C29_complete_partial.
Print Assumptions C29_refuted.
Print Assumptions C30_verify_exact.
Print Assumptions C30_oracle_value.
Print Assumptions C30_committed_oracle.
Print Assumptions C31_any_vector_accepted.
Print Assumptions C31_refuted.
Print Assumptions C31_fold_chain_partial.
Print Assumptions C31_two_challenges_partial.
Print Assumptions C32_challenge_index.
Print Assumptions C32_index_of_challenge.
