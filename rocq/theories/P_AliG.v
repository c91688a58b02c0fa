(** The composition polynomial computed by the prover. *)
From Coq Require Import NArith.
From mathcomp Require Import all_ssreflect all_algebra.
From Verif Require Import M_Base M_Worker M_Field M_Domain M_Fft M_Poly M_Bytes M_Transcript M_Air M_Arp M_Ali M_Verifier.
From Verif Require Import Spec SpecAir SpecStark P_Base P_Fft P_Domain P_Poly P_Lde P_PolyOps P_Air P_Arp P_Vals P_Maps P_Ali.

Set Implicit Arguments.
Unset Strict Implicit.
Unset Printing Implicit Defensive.
Import GRing.Theory.
Local Open Scope ring_scope.

(** * Challenges *)
Lemma foldM_cons (A B : Type) (f : B -> A -> outcome B) b x s :
  foldM f b (x :: s) = bind (f b x) (fun b' => foldM f b' s).
Proof. by []. Qed.

Section Chal.
Variables (F : fieldType) (fp : ff_params F) (H : hash_fun) (decode : digest -> F).
Hypothesis Hdec : forall d, bytes_to_field fp d = Ok (decode d).

Notation st_state := (stream_state H).
Notation st := (stream H decode).
Notation st_pairs := (stream_pairs H decode).

Lemma get_challengeE t : get_challenge fp H t = Ok (st t 0, st_state t 1).
Proof. by rewrite /get_challenge Hdec. Qed.

Lemma stream_stateD t i j : st_state (st_state t i) j = st_state t (i + j).
Proof. by rewrite /stream_state addnC iterD. Qed.

Lemma streamD t i j : st (st_state t i) j = st t (i + j).
Proof. by rewrite /stream stream_stateD. Qed.

Lemma stream_pairsS t n : st_pairs t n.+1 = (st t 0, st t 1) :: st_pairs (st_state t 2) n.
Proof.
rewrite /stream_pairs mkseqS; congr (_ :: _); apply: eq_mkseq => i.
by rewrite !streamD doubleS.
Qed.

Lemma challenge_pairsE A t (s : seq A) :
  challenge_pairs fp H t s = Ok (st_pairs t (size s), st_state t (size s).*2).
Proof.
rewrite /challenge_pairs -[st_pairs _ _]cat0s.
elim: s t [::] => [|x s IH] t l; first by rewrite /= cats0.
rewrite [size _]/= stream_pairsS -cat_rcons doubleS -[(size s).*2.+2]add2n -stream_stateD -IH.
by rewrite [foldM _ _ (x :: s)]/= get_challengeE bind_ok get_challengeE bind_ok.
Qed.

Lemma mask_challengesE A t (s : seq A) :
  mask_challenges fp H t s = Ok (mkseq (st t) (size s), st_state t (size s)).
Proof.
rewrite /mask_challenges -[mkseq _ _]cat0s.
elim: s t [::] => [|x s IH] t l; first by rewrite /= cats0.
rewrite [size _]/= mkseqS -cat_rcons -[(size s).+1]add1n -stream_stateD.
rewrite (_ : mkseq _ _ = mkseq (st (st_state t 1)) (size s)); last by apply: eq_mkseq => i; rewrite streamD.
by rewrite -IH [foldM _ _ (x :: s)]/= get_challengeE bind_ok.
Qed.
End Chal.

(** * Evaluation of constraints on the coset *)
Section CalcG.
Variables (F : fieldType) (fp : ff_params F) (H : hash_fun) (decode : digest -> F).
Hypothesis Hok : ff_ok fp.
Hypothesis Hdec : forall d, bytes_to_field fp d = Ok (decode d).
Notation gen := (ff_gen fp).
Notation S := (ff_S fp).
Notation st_state := (stream_state H).
Notation st := (stream H decode).
Notation st_pairs := (stream_pairs H decode).
Variable w : worker.
Hypothesis Hw : (0 < w)%N.
Variables (k d : nat) (wc : seq (seq F)).
Hypothesis Hkd : (k + d <= S)%N.
Hypothesis Hcpu : lde_cpus_ok w (2 ^ d).
Hypothesis Hwc : all (fun c => size c == (2 ^ k)%N) wc.
Let K := (k + d)%N.
Let D := (2 ^ d)%N.
Let ps : seq {poly F} := map (@poly_of F) wc.
Let witness := map (std fp Coefficients k) wc.
Notation vf := (vf fp K gen).

Let HkS : (k <= S)%N. Proof. by rewrite (leq_trans _ Hkd) // leq_addr. Qed.

Definition mask_ok (nr : nat) (m : mask_properties F) : bool :=
  match m.1, m.2 with Reg r, Mask _ => (r < nr)%N | _, _ => false end.

Lemma nth_wc r : (r < size wc)%N -> size (nth [::] wc r) = (2 ^ k)%N.
Proof. by move=> Hr; apply/eqP; apply: (all_nthP [::] Hwc). Qed.

Lemma nth_ps r : (r < size wc)%N -> nth 0 ps r = poly_of (nth [::] wc r).
Proof. by move=> Hr; rewrite (nth_map [::]). Qed.

Definition masked_for (masks : seq (mask_properties F)) (masked : seq (mask_properties F * hpoly F Coefficients)) :=
  forall m, m \in masks -> exists c, [/\ size c = (2 ^ k)%N,
    im_get masked m = Some (std fp Coefficients k c) &
    forall x, (poly_of c).[x] = mask_env ps x m.1 m.2].

Lemma masked_polynomialsP a : all (mask_ok (size wc)) (a_all_masks a) ->
  exists2 masked, masked_polynomials a witness w = Ok masked & masked_for (a_all_masks a) masked.
Proof.
move=> Hall; rewrite /masked_polynomials.
pose f (m : mask_properties F) : outcome (hpoly F Coefficients) :=
  let* n := reg_number m.1 in let* p := get witness n in
  let* mk := (if m.2 is Mask mk then Ok mk else Panic) in Ok (p_distribute_powers p w mk).
rewrite (_ : foldM _ _ _ = foldM (fun m k => let* v := f k in Ok (im_insert m k v)) [::] (a_all_masks a)); last first.
  apply: eq_foldM => b m; rewrite /f; case: (reg_number _) => //= n; case: (get _ _) => //= p.
  by case: (m.2).
have Hf m : m \in a_all_masks a -> exists2 c, f m = Ok (std fp Coefficients k c) &
    size c = (2 ^ k)%N /\ forall x, (poly_of c).[x] = mask_env ps x m.1 m.2.
  move/(allP Hall); rewrite /mask_ok /f; case: m => [[?|r|?|?] [?|mk]] //= Hr.
  rewrite (get_nth (HPoly Coefficients [::] 0 0 0 0 0)) ?size_map // bind_ok (nth_map [::]) //.
  rewrite /p_distribute_powers (distribute_powersE _ _ Hw).
  exists (mapi (fun i x => x * mk ^+ i) (nth [::] wc r)); first by [].
  rewrite size_mapi nth_wc //; split=> // x.
  by rewrite poly_of_powers nth_ps.
have [|masked E] := @im_build_total _ _ f (a_all_masks a) [::].
  by move=> m /Hf [c Ec _]; exists (std fp Coefficients k c).
exists masked => // m Hm; have := im_build_mem E m; rewrite Hm => -[v Ev ->].
have [c Ec [Hc Hx]] := Hf m Hm; exists c; split=> //; congr Some.
by move: Ev; rewrite Ec => -[].
Qed.

Definition cache_ok (ch : cache F) : Prop :=
  forall key e, im_get ch key = Some e -> e = vf (fun x => mask_env ps x key.1.1.1 key.1.1.2 ^+ key.1.2).

Section Masked.
Variables (masks : seq (mask_properties F)) (masked : seq (mask_properties F * hpoly F Coefficients)).
Hypothesis Hmasked : masked_for masks masked.

Lemma eval_uni_valuesP ch u : cache_ok ch -> uni_mask u \in masks ->
  exists2 ch', eval_uni_values fp masked D w ch u = Ok (vf (fun x => uval (mask_env ps x) u), ch') &
    cache_ok ch'.
Proof.
move=> Hch Hu; rewrite /eval_uni_values /D is_pow2_exp.
have [c [Hc -> Hx]] := Hmasked Hu; rewrite /unwrap bind_ok.
set key := (uni_mask u, _, _).
case E: (im_get ch key) => [e|].
  by exists ch => //; rewrite (Hch _ _ E) vf_apply_coeff.
rewrite vf_coset_lde // Hkd bind_ok vf_pow // vf_apply_coeff //.
eexists; first by congr (Ok (_, _)); apply: vf_eq => x; rewrite Hx.
move=> key' e; rewrite im_get_insert; case: eqP => [<- [<-]|_]; last exact: Hch.
by apply: vf_eq => x; rewrite Hx.
Qed.

Definition t_nonempty (t : constraint_term F) : bool :=
  if t is Polyvariate p then (0 < size (pt_terms p))%N else true.
Definition t_unis (t : constraint_term F) : seq (univariate_term F) :=
  match t with Univariate u => [:: u] | Polyvariate p => pt_terms p end.

Lemma eval_term_valuesP ch t : cache_ok ch -> t_nonempty t -> all (fun u => uni_mask u \in masks) (t_unis t) ->
  exists2 ch', eval_term_values fp masked D w ch t = Ok (vf (fun x => SpecAir.tval (mask_env ps x) t), ch') &
    cache_ok ch'.
Proof.
move=> Hch; rewrite /eval_term_values {1}/D is_pow2_exp; case: t => [u|p] /=.
  by move=> _; rewrite andbT; apply: eval_uni_valuesP.
move=> Hne Hall.
set fo := fun (st : option _ * cache F) => _.
have Hf (us : seq (univariate_term F)) (f : F -> F) ch1 : cache_ok ch1 ->
    all (fun u => uni_mask u \in masks) us -> exists2 ch', foldM fo (Some (vf f), ch1) us =
      Ok (Some (vf (fun x => f x * \prod_(u <- us) uval (mask_env ps x) u)), ch') & cache_ok ch'.
  elim: us f ch1 => [|u us IH] f ch1 Hch1 /=.
    move=> _; exists ch1 => //; congr (Ok (Some _, _)); apply: vf_eq => x; by rewrite big_nil mulr1.
  case/andP => Hu Hus; rewrite {1}/fo; have [ch2 -> Hch2] := eval_uni_valuesP Hch1 Hu.
  rewrite bind_ok vf_mul // !bind_ok.
  have [ch3 -> Hch3] := IH (fun x => f x * uval (mask_env ps x) u) ch2 Hch2 Hus.
  exists ch3 => //; congr (Ok (Some _, _)); apply: vf_eq => x; by rewrite big_cons mulrA.
case: p Hne Hall => co us dg /=; case: us => // u us _ /= /andP [Hu Hus].
have [ch2 E2 Hch2] := eval_uni_valuesP Hch Hu.
rewrite E2 !bind_ok; have [ch3 -> Hch3] := Hf us (fun x => uval (mask_env ps x) u) ch2 Hch2 Hus.
rewrite !bind_ok vf_scale //; exists ch3 => //; congr (Ok (_, _)); apply: vf_eq => x.
by rewrite /pval /= big_cons mulrC.
Qed.

Lemma eval_terms_valuesP ch f ts : cache_ok ch -> all t_nonempty ts ->
  all (fun u => uni_mask u \in masks) (flatten (map t_unis ts)) ->
  exists2 ch', foldM (fun st term =>
      let: (v, ch) := st in
      let* '(s, ch) := eval_term_values fp masked D w ch term in
      let* v := add_assign v w s in Ok (v, ch)) (vf f, ch) ts =
    Ok (vf (fun x => f x + \sum_(t <- ts) SpecAir.tval (mask_env ps x) t), ch') & cache_ok ch'.
Proof.
elim: ts ch f => [|t ts IH] ch f Hch /=.
  move=> _ _; exists ch => //; congr (Ok (_, _)); apply: vf_eq => x; by rewrite big_nil addr0.
case/andP => Ht Hts; rewrite all_cat => /andP [Hu Hus].
have [ch2 -> Hch2] := eval_term_valuesP Hch Ht Hu; rewrite bind_ok vf_add // !bind_ok.
have [ch3 -> Hch3] := IH _ (fun x => f x + SpecAir.tval (mask_env ps x) t) Hch2 Hts Hus.
exists ch3 => //; congr (Ok (_, _)); apply: vf_eq => x; by rewrite big_cons addrA.
Qed.

(** * Constraints *)
Section Instance.
Variable a : ali_instance F.
Hypothesis Hmax : a_max_power a = D.
Hypothesis Hdom : a_constraints_domain a = dom fp K.
Hypothesis Hcoset : pc_coset (a_precomputations a) = points fp K gen.

Lemma adjustE adj alpha beta : adjust fp a w adj alpha beta =
  Ok (if adj == 0%N then None else Some (vf (fun x => x ^+ adj * alpha + beta))).
Proof.
rewrite /adjust; case: eqP => // /eqP Hadj; rewrite /adjustment_poly lt0n Hadj Hcoset Hdom /= size_points eqxx.
rewrite (from_values_pow Hok (size_points _ _ _) Hkd) bind_ok.
have -> : std fp Values (k + d) (points fp K gen) = vf id by rewrite /P_Vals.vf map_id.
by rewrite vf_pow // vf_scale // vf_addc.
Qed.

Lemma apply_adjustmentE deg (ab : F * F) f : apply_adjustment w ab.1
    (if (D - deg)%N == 0%N then None else Some (vf (fun x => x ^+ (D - deg) * ab.1 + ab.2))) (vf f) =
  Ok (vf (fun x => f x * (weight D deg ab).[x])).
Proof.
rewrite /apply_adjustment /weight; case: ifP => _.
  by rewrite vf_scale //; congr Ok; apply: vf_eq => x; rewrite hornerC.
by rewrite vf_mul //; congr Ok; apply: vf_eq => x; rewrite hornerD hornerZ hornerXn hornerC [_ * ab.1]mulrC.
Qed.

Definition c_fit (c : constraint F) : bool :=
  [&& (c_degree c <= D)%N, all t_nonempty (c_terms c) & all (fun u => uni_mask u \in masks) (c_unis c)].

Lemma g_constraintP g0 B t ch c : cache_ok ch -> c_fit c ->
  exists2 ch', g_constraint fp H a w masked (vf g0) (vf B, t, ch) c =
    Ok (vf (fun x => B x + (g0 x + cval (mask_env ps x) c) * (weight D (c_degree c) (st t 0, st t 1)).[x]),
        st_state t 2, ch') & cache_ok ch'.
Proof.
move=> Hch /and3P [Hdeg Hne Hall]; rewrite /g_constraint Hmax Hdeg.
rewrite !(get_challengeE H Hdec) bind_ok (get_challengeE H Hdec) bind_ok adjustE bind_ok.
have [ch2 -> Hch2] := eval_terms_valuesP g0 Hch Hne Hall; rewrite bind_ok vf_addc //.
rewrite streamD stream_stateD addn0.
rewrite (apply_adjustmentE (c_degree c) (st t 0, st t 1)) bind_ok vf_add // bind_ok.
exists ch2 => //; congr (Ok (_, _, _)); apply: vf_eq => x; rewrite /cval.
by rewrite -!addrA; congr (_ + (_ + _) * _); rewrite addrC.
Qed.

Lemma g_constraintsP g0 B t ch cs : cache_ok ch -> all c_fit cs ->
  exists2 ch', foldM (g_constraint fp H a w masked (vf g0)) (vf B, t, ch) cs =
    Ok (vf (fun x => B x + \sum_(cab <- zip cs (st_pairs t (size cs)))
              (g0 x + cval (mask_env ps x) cab.1) * (weight D (c_degree cab.1) cab.2).[x]),
        st_state t (size cs).*2, ch') & cache_ok ch'.
Proof.
elim: cs B t ch => [|c cs IH] B t ch Hch.
  move=> _; exists ch => //=; congr (Ok (_, _, _)); apply: vf_eq => x; by rewrite big_nil addr0.
case/andP => Hc Hcs; rewrite foldM_cons.
have [ch2 -> Hch2] := g_constraintP g0 B t Hch Hc; rewrite bind_ok.
set B' := (X in (vf X, _, _)).
have [ch3 -> Hch3] := IH B' (st_state t 2) ch2 Hch2 Hcs; rewrite /B'.
exists ch3 => //; rewrite stream_stateD [size _]/= doubleS add2n stream_pairsS; congr (Ok (_, _, _)).
by apply: vf_eq => x; rewrite [zip (_ :: _) _]/= big_cons -addrA.
Qed.

(** * Boundary constraints *)
Variables (G : F).
Definition bval (b : boundary_constraint F) (x : F) : F :=
  mask_env ps x (b_register b) (Mask 1) - (if b_value b is Some v then v else 0).

Lemma g_boundaryP f t b r v row : b = Boundary (Reg r) row (Some v) -> (r < size wc)%N ->
  im_get (a_boundary_divisors a) row = Some (vf (fun x => (x - G ^+ row)^-1)) ->
  g_boundary fp H a w witness (vf f, t) b =
  Ok (vf (fun x => f x + bval b x * (weight D 1 (st t 0, st t 1)).[x] * (x - G ^+ row)^-1), st_state t 2).
Proof.
move=> -> Hr Hdiv; rewrite /g_boundary Hmax.
rewrite !(get_challengeE H Hdec) bind_ok (get_challengeE H Hdec) bind_ok /usub expn_gt0 bind_ok adjustE bind_ok.
rewrite [reg_number _]/= bind_ok (get_nth (HPoly Coefficients [::] 0 0 0 0 0)) ?size_map // bind_ok.
rewrite (nth_map [::]) // [unwrap _]/= bind_ok [p_coeffs _]/=.
have Hc := nth_wc Hr; set c := nth [::] wc r in Hc *.
have H0 : (0 < size c)%N by rewrite Hc expn_gt0.
rewrite (get_nth 0) // bind_ok.
have -> : with_coeffs Coefficients (std fp Coefficients k c) (set_nth 0 c 0 (c`_0 - v)) =
          std fp Coefficients k (set_nth 0 c 0 (c`_0 - v)) by [].
rewrite vf_coset_lde //; last by rewrite size_set_nth Hc; apply/maxn_idPr; rewrite expn_gt0.
rewrite Hkd bind_ok (apply_adjustmentE 1 (st t 0, st (st_state t 1) 0)) bind_ok Hdiv [unwrap _]/= bind_ok.
rewrite vf_mul // bind_ok vf_add // bind_ok streamD stream_stateD addn0; congr (Ok (_, _)).
apply: vf_eq => x; congr (_ + _ * _ * _); rewrite /bval /= mul1r nth_ps // -/c.
have -> : poly_of (set_nth 0 c 0 (c`_0 - v)) = poly_of c - v%:P; last by rewrite !hornerE.
apply/polyP => i; rewrite coefB coefC !coef_poly_of nth_set_nth /=.
by case: eqP => [->|]; rewrite ?subr0.
Qed.

Definition b_ok (b : boundary_constraint F) : Prop :=
  [/\ (if b_register b is Reg r then r < size wc else false)%N, b_value b <> None &
      im_get (a_boundary_divisors a) (b_at_row b) = Some (vf (fun x => (x - G ^+ b_at_row b)^-1))].

Lemma g_boundariesP f t bs : foldr (fun b P => b_ok b /\ P) True bs ->
  foldM (g_boundary fp H a w witness) (vf f, t) bs =
  Ok (vf (fun x => f x + \sum_(bab <- zip bs (st_pairs t (size bs)))
         bval bab.1 x * (weight D 1 bab.2).[x] * (x - G ^+ b_at_row bab.1)^-1),
      st_state t (size bs).*2).
Proof.
elim: bs f t => [|b bs IH] f t.
  by move=> _ /=; congr (Ok (_, _)); apply: vf_eq => x; rewrite big_nil addr0.
case=> -[Hr Hv Hd] Hbs; rewrite foldM_cons.
case: b Hr Hv Hd => [[?|r|?|?] row [v|]] // Hr _ Hd.
rewrite (@g_boundaryP f t _ r v row) // bind_ok IH // stream_stateD doubleS add2n stream_pairsS.
by congr (Ok (_, _)); apply: vf_eq => x; rewrite [zip (_ :: _) _]/= big_cons -addrA.
Qed.
End Instance.
End Masked.

(** * The composition polynomial *)
Definition g_fun (G : F) (Z : {poly F}) (cs : seq (constraint F)) chs (bs : seq (boundary_constraint F)) bchs (x : F) : F :=
  \sum_(cab <- zip cs chs) cval (mask_env ps x) cab.1 * (weight D (c_degree cab.1) cab.2).[x] * (Z.[x])^-1 +
  \sum_(bab <- zip bs bchs) bval bab.1 x * (weight D 1 bab.2).[x] * (x - G ^+ b_at_row bab.1)^-1.

Lemma calculate_gP a t (G : F) (Z P : {poly F}) cs bs :
  a_max_power a = D -> a_constraints_domain a = dom fp K ->
  pc_coset (a_precomputations a) = points fp K gen ->
  size wc = ip_num_registers (a_properties a) ->
  all (mask_ok (size wc)) (a_all_masks a) ->
  all (c_fit (a_all_masks a)) cs ->
  (a_batches a = [::] /\ cs = [::] \/
   exists2 dn, a_batches a = [:: (dn, cs)] & im_get (a_divisors a) dn = Some (vf (fun x => (Z.[x])^-1))) ->
  ip_boundary_constraints (a_properties a) = bs ->
  foldr (fun b P => b_ok a G b /\ P) True bs ->
  let chs := st_pairs t (size cs) in let bchs := st_pairs (st_state t (size cs).*2) (size bs) in
  (size P <= 2 ^ K)%N -> {in points fp K gen, g_fun G Z cs chs bs bchs =1 horner P} ->
  calculate_g fp H a t witness w =
  Ok (std fp Coefficients K (mkseq (fun i => P`_i) (2 ^ K)), st_state t (size cs + size bs).*2).
Proof.
move=> Hmax Hdom Hcoset Hnr Hmasks Hcs Hbat Hbs Hbok chs bchs HP Hg.
rewrite /calculate_g size_map Hnr eqxx Hdom [d_size _]/= (vf_zero Hok gen Hkd) bind_ok.
have [masked -> Hmasked] := masked_polynomialsP Hmasks; rewrite bind_ok.
pose f1 x := \sum_(cab <- zip cs chs) cval (mask_env ps x) cab.1 * (weight D (c_degree cab.1) cab.2).[x] * (Z.[x])^-1.
have [ch ->] : exists ch, foldM (g_batch fp H a w masked) (vf (fun=> 0), t, [::]) (a_batches a) =
    Ok (vf f1, st_state t (size cs).*2, ch).
  case: Hbat => [[-> E]|[dn -> Hdiv]].
    exists [::]; rewrite /= E; congr (Ok (_, _, _)); apply: vf_eq => x.
    rewrite /f1; have -> : zip cs chs = [::] by rewrite E; case: (chs).
    by rewrite big_nil.
  rewrite foldM_cons.
  have Hch0 : cache_ok ([::] : cache F) by [].
  have [ch E _] := g_constraintsP Hmasked Hmax Hdom Hcoset (fun=> 0) (fun=> 0) t Hch0 Hcs.
  rewrite /g_batch [(dn, cs).2]/= [(dn, cs).1]/= E bind_ok Hdiv [unwrap _]/= bind_ok vf_mul // bind_ok vf_add // !bind_ok.
  exists ch; congr (Ok (_, _, _)); apply: vf_eq => x; rewrite !add0r mulr_suml.
  by apply: eq_bigr => cab _; rewrite add0r.
rewrite bind_ok Hbs (g_boundariesP Hmax Hdom Hcoset _ _ Hbok) bind_ok.
rewrite (vf_icoset Hok Hw Hkd HP) //.
by rewrite bind_ok stream_stateD doubleD.
Qed.
End CalcG.
