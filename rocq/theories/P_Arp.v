(** Witness polynomials and constraint remapping. *)
From Coq Require Import NArith.
From mathcomp Require Import all_ssreflect all_algebra.
From Verif Require Import M_Base M_Worker M_Field M_Domain M_Fft M_Poly M_Air M_Arp.
From Verif Require Import Spec SpecPoly SpecAir P_Base P_Fft P_Domain P_Poly P_Wf P_Air.

Set Implicit Arguments.
Unset Strict Implicit.
Unset Printing Implicit Defensive.
Import GRing.Theory.
Local Open Scope ring_scope.

Section Arp.
Variables (F : fieldType) (fp : ff_params F).
Hypothesis Hok : ff_ok fp.
Variable w : worker.
Hypothesis Hw : (0 < w)%N.
Local Notation S := (ff_S fp).

Lemma make_witness_std k (trace : seq (seq F)) : (0 < size trace)%N ->
  all (fun v => size v == (2 ^ k)%N) trace -> (k <= S)%N ->
  make_witness_polynomials fp w trace = Ok [seq std fp Coefficients k (ifft_vec fp k v) | v <- trace].
Proof.
move=> H0 Hall Hk; rewrite /make_witness_polynomials (get_nth [::] H0) bind_ok.
have Hs0 : size (nth [::] trace 0) = (2 ^ k)%N.
  by apply/eqP; apply: (all_nthP [::] Hall).
rewrite Hs0 (eq_all (a2 := fun v => size v == (2 ^ k)%N)); last by move=> v; rewrite eq_sym.
rewrite Hall next_pow2_pow domain_new_pow // bind_ok.
rewrite [d_gen _]/= [d_size _]/= [d_pow _]/= !inverse_neq0 ?(dom_gen_neq0 Hok) ?(pow2_neq0 Hok) //.
rewrite /unwrap !bind_ok /from_nat.
set hint := (if (w <= size trace)%N then _ else _).
have Hh : is_true (if hint is Some h then 0 < h <= w else true)%N.
  rewrite /hint; case: leqP => [_|H]; first by rewrite Hw.
  by rewrite divn_small // modn_small // -lt0n H0 add0n /=.
clearbody hint.
rewrite (@mapM_OkP _ _ _ (fun v => evals (poly_of v) 1 (dom_gen fp k)^-1 (2 ^ k))); last first.
  move=> v /(allP Hall) /eqP Hv; 
  have Hr : fft_root (dom_gen fp k)^-1 k by apply: fft_root_inv; apply: (dom_gen_root Hok).
  exact: (best_fftP Hw Hv Hr Hh).
rewrite bind_ok.
rewrite (@mapM_OkP _ _ _ (fun v => std fp Coefficients k [seq x * (2 ^ k)%:R^-1 | x <- v])); last first.
  move=> v /mapP [u Hu ->]; rewrite par_eachE //.
  by rewrite (from_coeffs_pow Hok (k := k)) // size_map size_evals.
rewrite -map_comp; congr Ok; apply/eq_in_map => v /(allP Hall) /eqP Hv /=.
by rewrite /ifft_vec dft_evals.
Qed.

Lemma calculate_witness_std props k (trace : seq (seq F)) :
  (0 < size trace)%N -> all (fun v => size v == (2 ^ k)%N) trace -> (k <= S)%N ->
  calculate_witness_polys fp props w trace =
  if (size trace == ip_num_registers props) && ((2 ^ k)%N == ip_num_rows props) then
    Ok [seq std fp Coefficients k (ifft_vec fp k v) | v <- trace]
  else Err.
Proof.
move=> H0 Hall Hk; rewrite /calculate_witness_polys (get_nth [::] H0) bind_ok.
have Hs0 : size (nth [::] trace 0) = (2 ^ k)%N.
  by apply/eqP; apply: (all_nthP [::] Hall).
rewrite Hs0 (eq_all (a2 := fun v => size v == (2 ^ k)%N)); last by move=> v; rewrite eq_sym.
rewrite Hall (make_witness_std H0 Hall Hk).
by case: eqP => //=; case: eqP.
Qed.

(** Remapping *)
Definition mask_uni (g : F) (u : univariate_term F) : univariate_term F :=
  UTerm (ut_coeff u) (ut_register u)
    (if ut_steps u is Steps d then Mask (g ^+ d) else ut_steps u) (ut_power u).
Definition mask_term (g : F) (t : constraint_term F) : constraint_term F :=
  match t with
  | Univariate u => Univariate (mask_uni g u)
  | Polyvariate p => Polyvariate (PTerm (pt_coeff p) [seq mask_uni g u | u <- pt_terms p] (pt_total_degree p))
  end.
Definition mask_constraint (g : F) (c : constraint F) : constraint F :=
  Constr (c_constant_term c) [seq mask_term g t | t <- c_terms c] (c_degree c) (c_density c).

Definition u_steps (u : univariate_term F) : bool := if ut_steps u is Steps _ then true else false.
Definition t_steps (t : constraint_term F) : bool :=
  match t with Univariate u => u_steps u | Polyvariate p => all u_steps (pt_terms p) end.
Definition c_steps (c : constraint F) : bool := all t_steps (c_terms c).

Lemma mapM_total A B (f : A -> outcome B) (g : A -> B) (ok : pred A) s :
  (forall a, f a = if ok a then Ok (g a) else Panic) ->
  mapM f s = if all ok s then Ok (map g s) else Panic.
Proof.
move=> H; elim: s => [|a s IH] //=; rewrite H IH.
by case: (ok a) => //=; case: (all ok s).
Qed.

Lemma remap_uniE D u : remap_univariate_term D u =
  if u_steps u then Ok (mask_uni (d_gen D) u) else Panic.
Proof. by case: u => c r [d|m] p. Qed.

Lemma remap_termE D t : remap_term D t = if t_steps t then Ok (mask_term (d_gen D) t) else Panic.
Proof.
case: t => [u|p] /=; first by rewrite remap_uniE; case: (u_steps u).
by rewrite (mapM_total _ (remap_uniE D)); case: (all u_steps _).
Qed.

Lemma remap_constraintE D c :
  remap_constraint D c = if c_steps c then Ok (mask_constraint (d_gen D) c) else Panic.
Proof.
by rewrite /remap_constraint (mapM_total _ (remap_termE D)) /c_steps; case: (all t_steps _).
Qed.

Lemma from_instanceE props : from_instance fp props =
  if (S < up_log 2 (ip_num_rows props))%N then Err
  else if all c_steps (ip_constraints props) then
    Ok (Props (ip_num_rows props) (ip_num_registers props)
          [seq mask_constraint (dom_gen fp (up_log 2 (ip_num_rows props))) c | c <- ip_constraints props]
          (ip_boundary_constraints props))
  else Panic.
Proof.
rewrite /from_instance /next_pow2 domain_newE up_expnK //; case: ltnP => // H.
rewrite bind_ok (mapM_total _ (remap_constraintE _)) [d_gen _]/=.
by case: (all c_steps _).
Qed.
End Arp.

Section MaskEnv.
Variables (F : fieldType).

(** The assignment given by polynomials at a point: register [n] at the offset
    given by a mask [m] has the value of its polynomial at [m * x]. *)
Definition mask_env (ps : seq {poly F}) (x : F) : env F := fun r s =>
  match r, s with Reg n, Mask m => (nth 0 ps n).[m * x] | _, _ => 0 end.

Definition c_unis (c : constraint F) : seq (univariate_term F) :=
  flatten [seq match t with Univariate u => [:: u] | Polyvariate p => pt_terms p end | t <- c_terms c].

(** Two assignments that agree on the univariate terms of a constraint before
    and after a rewriting of the terms give the same value. *)
Lemma mask_cval_eq (e e' : env F) g c (P : pred (univariate_term F)) :
  (forall u, P u -> uval e' (mask_uni g u) = uval e u) -> all P (c_unis c) ->
  cval e' (mask_constraint g c) = cval e c.
Proof.
move=> H; rewrite /cval /c_unis /= => Hall; congr (_ + _); rewrite big_map.
elim: (c_terms c) Hall => [|t ts IH]; first by rewrite !big_nil.
rewrite /= all_cat => /andP [Ht Hts]; rewrite !big_cons IH //; congr (_ + _).
case: t Ht => [u|p] /=; first by rewrite andbT => Hu; rewrite H.
rewrite /pval /= big_map => Hp; congr (_ * _).
elim: (pt_terms p) Hp => [|u us IHu]; first by rewrite !big_nil.
by case/andP => Hu Hus; rewrite !big_cons IHu // H.
Qed.

Lemma c_in_trace_unis (trace : seq (seq F)) i c : c_in_trace trace i c = all (u_in_trace trace i) (c_unis c).
Proof.
rewrite /c_in_trace /c_unis; elim: (c_terms c) => //= t ts ->; rewrite all_cat; congr (_ && _).
by case: t => [u|p] //=; rewrite andbT.
Qed.

Lemma c_steps_unis (c : constraint F) : c_steps c = all (@u_steps F) (c_unis c).
Proof.
rewrite /c_steps /c_unis; elim: (c_terms c) => //= t ts ->; rewrite all_cat; congr (_ && _).
by case: t => [u|p] //=; rewrite andbT.
Qed.
End MaskEnv.
