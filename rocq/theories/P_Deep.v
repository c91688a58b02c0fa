(** The DEEP quotients computed by prover and verifier. *)
From Coq Require Import NArith.
From mathcomp Require Import all_ssreflect all_algebra.
From Verif Require Import M_Base M_Worker M_Field M_Domain M_Fft M_Poly M_Bytes M_Transcript M_Air M_Arp M_Ali M_Verifier.
From Verif Require Import Spec SpecAir SpecStark P_Base P_Fft P_Domain P_Poly P_Lde P_PolyOps P_Air P_Arp.
From Verif Require Import P_Vals P_Maps P_Ali P_AliG.

Set Implicit Arguments.
Unset Strict Implicit.
Unset Printing Implicit Defensive.
Import GRing.Theory.
Local Open Scope ring_scope.

Section Quotient.
Variable F : fieldType.
Implicit Types (p : {poly F}) (z x : F).

Lemma deep_dvd p z : 'X - z%:P %| p - p.[z]%:P.
Proof. by rewrite dvdp_XsubCl rootE hornerD hornerN hornerC subrr. Qed.

Lemma deep_quotientK p z : deep_quotient p z * ('X - z%:P) = p - p.[z]%:P.
Proof. by rewrite /deep_quotient divpK // deep_dvd. Qed.

Lemma deep_quotientE p z x : x - z != 0 -> (deep_quotient p z).[x] = (p.[x] - p.[z]) * (x - z)^-1.
Proof.
move=> Hx; have := deep_quotientK p z => /(congr1 (horner^~ x)).
rewrite hornerM hornerXsubC hornerD hornerN hornerC => <-; by rewrite mulfK.
Qed.

Lemma size_deep_quotient p z n : (size p <= n.+1)%N -> (size (deep_quotient p z) <= n)%N.
Proof.
move=> Hp; rewrite size_divp ?polyXsubC_eq0 // size_XsubC /= leq_subLR add1n.
apply: leq_trans (size_add _ _) _; rewrite geq_max Hp size_opp.
exact: leq_trans (size_polyC_leq1 _) _.
Qed.

Lemma size_column_poly (ps : seq {poly F}) n r : all (fun p : {poly F} => size p <= n)%N ps ->
  (size (column_poly ps r) <= n)%N.
Proof.
move=> Hps; case: r => [|r||] /=; rewrite ?size_poly0 //.
case: (ltnP r (size ps)) => Hr; first exact: (all_nthP 0 Hps).
by rewrite nth_default // size_poly0.
Qed.

Lemma size_deep_h1 (ps : seq {poly F}) n masks z alphas : all (fun p : {poly F} => size p <= n.+1)%N ps ->
  (size (deep_h1 ps masks z alphas) <= n)%N.
Proof.
move=> Hps; rewrite /deep_h1; elim: (zip _ _) => [|ma l IH]; first by rewrite big_nil size_poly0.
rewrite big_cons; apply: leq_trans (size_add _ _) _; rewrite geq_max IH andbT.
apply: leq_trans (size_scale_leq _ _) _; apply: size_deep_quotient.
exact: size_column_poly.
Qed.

Lemma deep_h1E (ps : seq {poly F}) masks z alphas x : all (fun m => x - shifted m.2 z != 0) masks ->
  (deep_h1 ps masks z alphas).[x] =
  \sum_(ma <- zip masks alphas) ((column_poly ps ma.1.1).[x] - (column_poly ps ma.1.1).[shifted ma.1.2 z]) *
     ma.2 * (x - shifted ma.1.2 z)^-1.
Proof.
rewrite /deep_h1 horner_sum.
elim: masks alphas => [|m l IH] [|al alphas] => [||_|]; rewrite ?big_nil //.
rewrite [all _ _]/= [zip _ _]/= !big_cons => /andP [Hm Hl]; rewrite IH //; congr (_ + _).
by rewrite hornerZ deep_quotientE //= mulrA [al * _]mulrC.
Qed.
End Quotient.

Section Deep.
Variables (F : fieldType) (fp : ff_params F) (H : hash_fun) (decode : digest -> F).
Hypothesis Hok : ff_ok fp.
Hypothesis Hdec : forall d, bytes_to_field fp d = Ok (decode d).
Notation S := (ff_S fp).
Notation st_state := (stream_state H).
Notation st := (stream H decode).
Variable w : worker.
Hypothesis Hw : (0 < w)%N.
Variables (k K : nat) (wc : seq (seq F)).
Hypothesis HK : (K <= S)%N.
Hypothesis HS : (1 <= S)%N.
Hypothesis Hwc : all (fun c => size c == (2 ^ k)%N) wc.
Let ps : seq {poly F} := map (@poly_of F) wc.
Notation vf := (vf fp K 1).
Notation pts := (points fp K 1).
Let f_polys := map (std fp Coefficients k) wc.
Let f_ldes := [seq vf (horner (poly_of c)) | c <- wc].

Lemma linear_inv L T root (kont : hpoly F Values -> outcome T) : (L <= S)%N ->
  (let* q := linear_poly fp root in
   let* v := evaluate_at_domain_for_degree_one fp q w (2 ^ L) in
   let* v := batch_inversion v w in kont v) =
  if all (fun x => x - root != 0) (points fp L 1) then kont (P_Vals.vf fp L 1 (fun x => (x - root)^-1)) else Err.
Proof.
move=> HL; have := vf_linear Hok Hw 1 HL root HS; rewrite linear_polyE // !bind_ok.
rewrite /evaluate_at_domain_for_degree_one => ->; rewrite bind_ok vf_inv //; by case: ifP.
Qed.

Definition avoids (z : F) (m : mask_properties F) : bool := all (fun x => x - shifted m.2 z != 0) pts.

Definition divs_ok z (divs : seq (step_difference F * hpoly F Values)) : Prop :=
  forall s v, im_get divs s = Some v ->
    all (fun x => x - shifted s z != 0) pts /\ v = vf (fun x => (x - shifted s z)^-1).

Definition deep_term z (ma : mask_properties F * F) (x : F) : F :=
  ((column_poly ps ma.1.1).[x] - (column_poly ps ma.1.1).[shifted ma.1.2 z]) * ma.2 * (x - shifted ma.1.2 z)^-1.

Lemma deep_maskP z f vals divs t m : divs_ok z divs -> mask_ok (size wc) m ->
  exists2 divs', deep_mask fp H f_polys f_ldes (2 ^ K) w z (vf f, vals, divs, t) m =
    (if avoids z m then
       Ok (vf (fun x => f x + deep_term z (m, st t 0) x),
           rcons vals (column_poly ps m.1).[shifted m.2 z], divs', st_state t 1)
     else Err) & divs_ok z divs'.
Proof.
move=> Hd; case: m => [[?|r|?|?] [?|mk]] // Hr; rewrite /mask_ok /= in Hr.
rewrite /deep_mask [(_, _).1]/= [(_, _).2]/= bind_ok [reg_number _]/= bind_ok.
rewrite (get_nth (HPoly Coefficients [::] 0 0 0 0 0)) ?size_map // bind_ok (nth_map [::]) //.
rewrite /avoids [(_, _).2]/= [shifted _ _]/=.
have Ev : evaluate_at (std fp Coefficients k (nth [::] wc r)) w (mk * z) = (nth 0 ps r).[mk * z].
  by rewrite (evaluate_atP fp Hw) /= /ps (nth_map [::]).
rewrite Ev.
have Htail v t' : (let* l0 := get f_ldes r in
   let* '(alpha, t) := get_challenge fp H t in
   let* l1 := mul_assign (scale (add_constant l0 w (- (nth 0 ps r).[mk * z])) w alpha) w (vf (fun x => (x - mk * z)^-1)) in
   let* h1 := add_assign (vf f) w l1 in Ok (h1, rcons vals (nth 0 ps r).[mk * z], v : seq (step_difference F * hpoly F Values), t)) = t' ->
   t' = Ok (vf (fun x => f x + deep_term z ((Reg r, Mask mk), st t 0) x), rcons vals (nth 0 ps r).[mk * z], v, st_state t 1).
  move=> <-; rewrite (get_nth (vf (fun=> 0))) ?size_map // bind_ok (nth_map [::]) //.
  rewrite (get_challengeE H Hdec) bind_ok vf_addc // vf_scale // vf_mul // bind_ok vf_add // bind_ok.
  congr (Ok (_, _, _, _)); apply: vf_eq => x; rewrite /deep_term /=.
  by rewrite /ps (nth_map [::]).
case E: (im_get divs (Mask mk)) => [v|].
  have [Hav ->] := Hd _ _ E; rewrite Hav bind_ok; exists divs => //.
  exact: (Htail divs _ erefl).
rewrite (linear_inv _ _ HK); case: ifP => Hav; last by exists divs.
rewrite !bind_ok; eexists; first exact: (Htail _ _ erefl).
move=> s v; rewrite im_get_insert; case: eqP => [<- [<-]|_]; last exact: Hd.
by split.
Qed.

Lemma deep_foldP z f vals divs t masks : divs_ok z divs -> all (mask_ok (size wc)) masks ->
  exists divs', foldM (deep_mask fp H f_polys f_ldes (2 ^ K) w z) (vf f, vals, divs, t) masks =
    (if all (avoids z) masks then
       Ok (vf (fun x => f x + \sum_(ma <- zip masks (mkseq (st t) (size masks))) deep_term z ma x),
           vals ++ [seq (column_poly ps m.1).[shifted m.2 z] | m <- masks], divs', st_state t (size masks))
     else Err).
Proof.
elim: masks f vals divs t => [|m ms IH] f vals divs t Hd.
  move=> _; exists divs; rewrite cats0 /=; congr (Ok (_, _, _, _)).
  by apply: vf_eq => x; rewrite big_nil addr0.
case/andP => Hm Hms; rewrite foldM_cons.
have [divs1 -> Hd1] := deep_maskP f vals t Hd Hm.
rewrite [all _ (m :: ms)]/=; case: (avoids z m); last by exists divs.
rewrite bind_ok; set f1 := (X in (vf X, _, _, _)).
have [divs2 ->] := IH f1 (rcons vals (column_poly ps m.1).[shifted m.2 z]) divs1 (st_state t 1) Hd1 Hms.
exists divs2; case: (all _ ms) => //; rewrite cat_rcons stream_stateD; congr (Ok (_, _, _, _)).
apply: vf_eq => x; rewrite /f1 mkseqS /= big_cons addrA; congr (_ + _).
have -> // : mkseq (st (st_state t 1)) (size ms) = mkseq (fun i => st t i.+1) (size ms).
by apply: eq_mkseq => i; rewrite streamD.
Qed.

Lemma deep_sum z masks alphas : all (avoids z) masks ->
  vf (fun x => 0 + \sum_(ma <- zip masks alphas) deep_term z ma x) = vf (horner (deep_h1 ps masks z alphas)).
Proof.
move=> Hav; apply: vf_ext => x Hx; rewrite add0r deep_h1E //.
by apply: sub_all Hav => m Hm; apply: (allP Hm).
Qed.

Lemma calculate_deepP (a : ali_instance F) Kg Lg cg t : (0 < size wc)%N -> (Lg <= S)%N ->
  all (mask_ok (size wc)) (a_all_masks a) ->
  let masks := a_all_masks a in let z := st t 0 in
  calculate_deep fp H a f_polys f_ldes (std fp Coefficients Kg cg) (P_Vals.vf fp Lg 1 (horner (poly_of cg))) t w =
  if all (avoids z) masks && all (fun x => x - z != 0) (points fp Lg 1) then
    Ok (vf (horner (deep_h1 ps masks z (mkseq (st (st_state t 1)) (size masks)))),
        P_Vals.vf fp Lg 1 (horner (deep_quotient (poly_of cg) z)),
        [seq (column_poly ps m.1).[shifted m.2 z] | m <- masks], (poly_of cg).[z], st_state t (size masks).+1)
  else Err.
Proof.
move=> H0 Hg Hm masks z; rewrite /calculate_deep (get_challengeE H Hdec) bind_ok -/z.
rewrite (get_nth (vf (fun=> 0))) ?size_map // bind_ok (nth_map [::]) // !vf_size.
rewrite (vf_zero Hok 1 HK) bind_ok.
have Hd0 : divs_ok z [::] by [].
have [divs ->] := deep_foldP (fun=> 0) [::] (st_state t 1) Hd0 Hm.
rewrite -/masks; case Hav: (all (avoids z) masks) => //; rewrite bind_ok andTb.
rewrite (linear_inv _ _ Hg); case: ifP => // Hz.
rewrite (evaluate_atP fp Hw) vf_addc // vf_mul // bind_ok stream_stateD add1n cat0s.
congr (Ok (_, _, _, _, _)); first exact: deep_sum.
by apply: vf_ext => x Hx; rewrite deep_quotientE // (allP Hz).
Qed.

(** The verifier's simulation. *)
Lemma simulate_h1P (v : verifier F) z alphas idx f_at_x f_at_z :
  let masks := v_all_masks v in let x := dom_gen fp K ^+ idx in
  all (mask_ok (size wc)) masks -> all (avoids z) masks -> (idx < 2 ^ K)%N ->
  f_at_x = [seq (poly_of c).[x] | c <- wc] -> f_at_z = [seq (column_poly ps m.1).[shifted m.2 z] | m <- masks] ->
  simulate_h1 v alphas idx (dom fp K) f_at_x f_at_z z = Ok (deep_h1 ps masks z alphas).[x].
Proof.
move=> masks x Hm Hav Hidx -> ->.
have Hx : x \in points fp K 1 by apply/mapP; exists idx; rewrite ?mul1r // mem_iota.
have Hav' : all (fun m : mask_properties F => x - shifted m.2 z != 0) masks.
  by apply: sub_all Hav => m Ha; apply: (allP Ha).
rewrite /simulate_h1 deep_h1E // -/masks [d_gen _]/= -/x.
rewrite -[X in _ = Ok X]add0r; move: {1 2}(0 : F) => s.
elim: masks Hm Hav' {Hav} alphas s => [|m ms IH] Hm Hav al s.
  by case: al => [|? ?]; rewrite /= big_nil addr0.
case: al => [|a al]; first by rewrite /= big_nil addr0.
move: Hm Hav => /andP [Hm Hms] /andP [Ha Hams]; rewrite [map _ _]/= [zip _ _]/= foldM_cons.
case: m Hm Ha => [[?|r|?|?] [?|mk]] // Hr Ha; rewrite /mask_ok /= in Hr.
rewrite [(_, _).1]/= [(_, _).2]/= bind_ok [reg_number _]/= bind_ok (get_nth 0) ?size_map // bind_ok.
rewrite (nth_map [::]) //; rewrite [shifted _ _]/= in Ha *.
rewrite inverse_neq0 // [ok_or _]/= !bind_ok IH // big_cons addrA; congr (Ok (_ + _ + _)).
by rewrite /= /ps (nth_map [::]) // -!mulrA; congr (_ * _); rewrite mulrC.
Qed.

Lemma simulate_h2P Kg cg z idx : (Kg <= S)%N -> all (fun x => x - z != 0) (points fp Kg 1) -> (idx < 2 ^ Kg)%N ->
  let x := dom_gen fp Kg ^+ idx in
  simulate_h2 idx (dom fp Kg) (poly_of cg).[x] z (poly_of cg).[z] = Ok (deep_quotient (poly_of cg) z).[x].
Proof.
move=> Hg Hz Hidx x; rewrite /simulate_h2 /=.
have Hx : x \in points fp Kg 1 by apply/mapP; exists idx; rewrite ?mul1r // mem_iota.
by rewrite inverse_neq0 ?(allP Hz) //= deep_quotientE // (allP Hz).
Qed.
End Deep.
