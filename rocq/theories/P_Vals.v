(** Value vectors of functions on a coset of a domain, and the operations of
    src/polynomials/mod.rs on them. *)
From Coq Require Import NArith.
From mathcomp Require Import all_ssreflect all_algebra.
From Verif Require Import M_Base M_Worker M_Field M_Domain M_Fft M_Poly M_Air M_Arp M_Ali.
From Verif Require Import Spec P_Base P_Fft P_Domain P_Poly P_Lde P_PolyOps P_Air.

Set Implicit Arguments.
Unset Strict Implicit.
Unset Printing Implicit Defensive.
Import GRing.Theory.
Local Open Scope ring_scope.

Section Vals.
Variables (F : fieldType) (fp : ff_params F).
Hypothesis Hok : ff_ok fp.
Notation gen := (ff_gen fp).
Notation S := (ff_S fp).
Variable w : worker.
Hypothesis Hw : (0 < w)%N.
Variables (K : nat) (h : F).
Hypothesis HK : (K <= S)%N.

Definition points := mkseq (fun i => h * dom_gen fp K ^+ i) (2 ^ K).
Definition vf (f : F -> F) : hpoly F Values := std fp Values K (map f points).

Lemma size_points : size points = (2 ^ K)%N. Proof. exact: size_mkseq. Qed.

Lemma vf_ext f g : {in points, f =1 g} -> vf f = vf g.
Proof. by move=> H; rewrite /vf; congr (std _ _ _ _); apply/eq_in_map. Qed.

Lemma vf_eq f g : f =1 g -> vf f = vf g.
Proof. by move=> H; apply: vf_ext => x _. Qed.

Lemma zip_map_map A B C D (f : A -> B) (g : A -> C) (op : B -> C -> D) s :
  [seq op x.1 x.2 | x <- zip (map f s) (map g s)] = [seq op (f x) (g x) | x <- s].
Proof. by elim: s => //= x s ->. Qed.

Lemma vf_size f : p_size (vf f) = (2 ^ K)%N.
Proof. by rewrite /p_size /= size_map size_points. Qed.

Lemma vf_add f g : add_assign (vf f) w (vf g) = Ok (vf (fun x => f x + g x)).
Proof. by rewrite /add_assign !vf_size eqxx -(vf_size f) /= par_zip_eq ?size_map // zip_map_map. Qed.

Lemma vf_mul f g : mul_assign (vf f) w (vf g) = Ok (vf (fun x => f x * g x)).
Proof. by rewrite /mul_assign !vf_size eqxx -(vf_size f) /= par_zip_eq ?size_map // zip_map_map. Qed.

Lemma vf_each (f : F -> F) g : with_coeffs Values (vf f) (par_each w g (p_coeffs (vf f))) = vf (fun x => g (f x)).
Proof. by rewrite par_eachE //= -map_comp. Qed.

Lemma vf_scale f c : scale (vf f) w c = vf (fun x => f x * c).
Proof. exact: vf_each. Qed.
Lemma vf_negate f : negate (vf f) w = vf (fun x => - f x).
Proof. exact: vf_each. Qed.
Lemma vf_addc f c : add_constant (vf f) w c = vf (fun x => f x + c).
Proof. exact: vf_each. Qed.
Lemma vf_pow f n : pow (vf f) w n = vf (fun x => f x ^+ n).
Proof.
rewrite /pow; case: eqP => [->|_]; last exact: vf_each.
by rewrite /square vf_each; apply: vf_eq => x; rewrite expr2.
Qed.

Lemma vf_apply_coeff f c : apply_coeff (vf f) w c = vf (fun x => c * f x).
Proof.
rewrite /apply_coeff; case: eqP => [->|_] /=; first by apply: vf_eq => x; rewrite mul1r.
case: eqP => [->|_]; first by rewrite vf_negate; apply: vf_eq => x; rewrite mulN1r.
by rewrite vf_scale; apply: vf_eq => x; rewrite mulrC.
Qed.

Lemma vf_inv f : batch_inversion (vf f) w =
  if all (fun x => f x != 0) points then Ok (vf (fun x => (f x)^-1)) else Err.
Proof.
rewrite /batch_inversion /= (batch_inversion_vecP Hw) all_map.
rewrite [all (preim _ _) _](eq_all (a2 := fun x => f x != 0)) //.
by case: (all _ _) => //=; rewrite -map_comp.
Qed.

Lemma vf_zero : new_for_size fp Values (2 ^ K) = Ok (vf (fun=> 0)).
Proof.
rewrite /new_for_size (@from_vec_pow _ _ Hok _ K) ?size_nseq //; congr (Ok (std _ _ _ _)).
by rewrite -size_points; elim: points => //= x s ->.
Qed.

Lemma evals_points (p : {poly F}) : evals p h (dom_gen fp K) (2 ^ K) = map (horner p) points.
Proof. by rewrite /evals /points /mkseq -map_comp. Qed.

Lemma linear_polyE root : (1 <= S)%N -> linear_poly fp root = Ok (std fp Coefficients 1 [:: 0 - root; 1]).
Proof. by move=> H; rewrite /linear_poly /new_for_size (@from_vec_pow _ _ Hok _ 1). Qed.

Lemma linear_polyN root : ~~ (1 <= S)%N -> linear_poly fp root = Err.
Proof.
move=> H; rewrite /linear_poly /new_for_size.
have -> : from_vec fp Coefficients (nseq 2 0) = Err => //.
by rewrite /from_vec size_nseq domain_newE ltnNge (_ : up_log 2 2 = 1%N) //= H.
Qed.

Lemma vf_linear root : (1 <= S)%N ->
  (let* q := linear_poly fp root in eval_degree_one fp h q w (2 ^ K)) = Ok (vf (fun x => x - root)).
Proof.
move=> HS; rewrite linear_polyE // bind_ok (eval_degree_oneE Hok Hw) up_expnK // ltnNge HK /=.
rewrite evals_points; congr (Ok (std _ _ _ _)); apply: eq_map => x.
by rewrite hornerD hornerC hornerZ hornerX mul1r sub0r addrC.
Qed.

(** Polynomials of low degree are determined by the values. *)
Lemma points_uniq : h != 0 -> uniq points.
Proof.
move=> Hh; rewrite map_inj_in_uniq ?iota_uniq // => i j.
rewrite !mem_iota !add0n /= => Hi Hj /(mulfI Hh) /eqP.
by rewrite (eq_prim_root_expr (dom_gen_prim Hok HK)) !modn_small // => /eqP.
Qed.

Lemma interp_points (p q : {poly F}) : h != 0 -> (size p <= 2 ^ K)%N -> (size q <= 2 ^ K)%N ->
  {in points, horner p =1 horner q} -> p = q.
Proof.
move=> Hh Hp Hq H; apply/eqP; rewrite -subr_eq0; apply/eqP.
apply: (@roots_geq_poly_eq0 _ _ points); last 1 first.
- rewrite size_points; apply: leq_trans (size_add _ _) _; by rewrite geq_max size_opp Hp.
- by apply/allP => x Hx; rewrite rootE !hornerE H // subrr.
- exact: points_uniq.
Qed.
End Vals.

Section Coset.
Variables (F : fieldType) (fp : ff_params F).
Hypothesis Hok : ff_ok fp.
Notation gen := (ff_gen fp).
Notation S := (ff_S fp).
Variable w : worker.
Hypothesis Hw : (0 < w)%N.

Lemma vf_coset_lde k d c : size c = (2 ^ k)%N -> (k <= S)%N -> lde_cpus_ok w (2 ^ d) ->
  coset_lde fp (std fp Coefficients k c) w (2 ^ d) =
  if (k + d <= S)%N then Ok (vf fp (k + d) gen (horner (poly_of c))) else Err.
Proof. by move=> Hc Hk Hcpu; rewrite (coset_lde_std Hok Hw Hc Hk Hcpu) evals_points. Qed.

Lemma vf_lde k d c : size c = (2 ^ k)%N -> (k <= S)%N -> lde_cpus_ok w (2 ^ d) ->
  lde fp (std fp Coefficients k c) w (2 ^ d) =
  if (k + d <= S)%N then Ok (vf fp (k + d) 1 (horner (poly_of c))) else Err.
Proof. by move=> Hc Hk Hcpu; rewrite (lde_std Hok Hw Hc Hk Hcpu) evals_points. Qed.

Lemma vf_icoset K f (P : {poly F}) : (K <= S)%N -> (size P <= 2 ^ K)%N ->
  {in points fp K gen, f =1 horner P} ->
  icoset_fft (vf fp K gen f) w = Ok (std fp Coefficients K (mkseq (fun i => P`_i) (2 ^ K))).
Proof.
move=> HK HP Hf; have Hg := gen_neq0 Hok.
have := @icoset_evals _ _ Hok _ Hw K (mkseq (fun i => P`_i) (2 ^ K)) gen (size_mkseq _ _) HK Hg.
rewrite evals_points => <-; rewrite /icoset_fft /icoset_fft_for_generator.
congr (let* r := ifft _ _ in _); apply: vf_ext => // x Hx; rewrite Hf //; congr horner.
apply/polyP => i; rewrite coef_poly_of.
case: (ltnP i (2 ^ K)) => Hi; first by rewrite nth_mkseq.
by rewrite nth_default ?(leq_trans HP) // nth_default // size_mkseq.
Qed.
End Coset.
