(** Properties C36, C37, C38, C39 and C45: divisors, the composition polynomial,
    its recomputation by the verifier, the DEEP quotients and the
    precomputations of both parties. *)
From Coq Require Import NArith.
From mathcomp Require Import all_ssreflect all_algebra.
From Verif Require Import M_Base M_Worker M_Field M_Domain M_Fft M_Poly M_Bytes M_Transcript M_Merkle M_Fri.
From Verif Require Import M_Challenge M_Air M_Arp M_Ali M_Verifier M_Prover.
From Verif Require Import Spec SpecPoly SpecFri SpecAir SpecStark P_Base P_Fft P_Domain P_Poly P_Lde P_PolyOps P_Wf P_Bytes P_Merkle P_Fri P_Air P_Arp.
From Verif Require Import P_Vals P_Maps P_Ali P_AliG P_Comp P_Honest P_Gz P_Deep P_Stark.
From Verif Require Import Instances Prop_Hash Prop_Fri Prop_Air Prop_Arp.

Set Implicit Arguments.
Unset Strict Implicit.
Unset Printing Implicit Defensive.
Import GRing.Theory.
Local Open Scope ring_scope.

(** * C36 *)
Section C36.
Variables (F : fieldType) (fp : ff_params F).
Hypothesis Hok : ff_ok fp.

Lemma domain_new_dom m col : domain_new fp m = Ok col -> exists2 k, (k <= ff_S fp)%N & col = dom fp k.
Proof. by rewrite domain_newE; case: ltnP => // Hk [<-]; exists (up_log 2 m). Qed.

(** The verifier's inverse divisor at [x]: outside of the trace domain it is
    the inverse of the product of [x - g^i] over the rows [i] with
    [start_at <= i < num_rows - span], inside of the domain there is an error,
    and an empty range of rows ([start_at + span > num_rows]) panics. *)
Theorem C36_verifier_divisor (x : F) (m : nat) (col : domain F) (start_at span num_rows : nat) :
  domain_new fp m = Ok col -> (num_rows <= d_size col)%N ->
  inverse_divisor_at x col start_at span num_rows =
  if (start_at + span <= num_rows)%N then
    if x ^+ d_size col == 1 then Err
    else Ok ((\prod_(i <- iota 0 num_rows | (start_at <= i)%N && (i + span < num_rows)%N) (x - d_gen col ^+ i))^-1,
             (num_rows - start_at - span)%N)
  else Panic.
Proof.
move=> /domain_new_dom [k Hk ->] Hn; rewrite inverse_divisor_atE //; case: ifP => // _; case: ifP => // _.
congr (Ok (_^-1, _)); rewrite /divisor horner_prod; apply: eq_bigr => i _; by rewrite hornerXsubC.
Qed.

(** The divisor vanishes exactly at those rows. *)
Theorem C36_divisor_rows (m : nat) (col : domain F) (start_at span num_rows i : nat) :
  domain_new fp m = Ok col -> (num_rows <= d_size col)%N -> (i < d_size col)%N ->
  \prod_(j <- iota 0 num_rows | (start_at <= j)%N && (j + span < num_rows)%N) (d_gen col ^+ i - d_gen col ^+ j) = 0
  <-> (start_at <= i < num_rows - span)%N.
Proof.
move=> /domain_new_dom [k Hk ->] /= Hn Hi; have := divisor_root start_at span (dom_gen_prim Hok Hk) Hn Hi.
rewrite /root /divisor horner_prod /dense_row ltn_subRL [(span + i)%N]addnC => <-.
under [X in _ <-> is_true (X == 0)]eq_bigr do rewrite hornerXsubC.
by split=> [/eqP|/eqP].
Qed.

(** The prover's table of inverse divisors on the coset: entry [j] is what the
    verifier computes at the point [gen * omega^j], and the table exists when
    the verifier succeeds at all these points. *)
Theorem C36_prover_verifier_agree (w : worker) (m m' : nat) (col ev : domain F) (start_at span num_rows : nat) :
  (0 < w)%N -> domain_new fp m = Ok col -> domain_new fp m' = Ok ev -> (num_rows <= d_size col)%N ->
  let x j := ff_gen fp * d_gen ev ^+ j in
  (forall p deg, inverse_divisor_in_coset fp col ev start_at span num_rows w = Ok (p, deg) ->
     [/\ wf_poly fp p, size (p_coeffs p) = d_size ev &
         forall j, (j < d_size ev)%N ->
           inverse_divisor_at (x j) col start_at span num_rows = Ok ((p_coeffs p)`_j, deg)]) /\
  ((forall j, (j < d_size ev)%N -> exists r, inverse_divisor_at (x j) col start_at span num_rows = Ok r) ->
   exists r, inverse_divisor_in_coset fp col ev start_at span num_rows w = Ok r).
Proof.
move=> Hw /domain_new_dom [k Hk ->] /domain_new_dom [K HK ->] /= Hn.
rewrite inverse_divisor_in_cosetE //; case: ifP => Hs; last first.
  split=> // /(_ 0%N); rewrite expn_gt0 inverse_divisor_atE // Hs => /(_ isT) [r] //.
case: ifP => Hall.
  split; last by move=> _; eexists.
  move=> p deg [<- <-]; have Hsz : size (map (fun x => (divisor (dom_gen fp k) start_at span num_rows).[x]^-1)
      (points fp K (ff_gen fp))) = (2 ^ K)%N by rewrite size_map size_points.
  split; [exact: wf_std | exact: Hsz |].
  move=> j Hj; rewrite inverse_divisor_atE // Hs.
  have Hp : (points fp K (ff_gen fp))`_j = ff_gen fp * dom_gen fp K ^+ j by rewrite nth_mkseq.
  rewrite -subr_eq0 -Hp (negbTE (allP Hall _ _)) ?mem_nth ?size_points //.
  by rewrite /= (nth_map 0) ?size_points.
split=> // H; suff: false by [].
rewrite -Hall; apply/(all_nthP 0) => j; rewrite size_points => Hj.
have := H j Hj; rewrite inverse_divisor_atE // Hs nth_mkseq // subr_eq0.
by case: eqP => // _ [].
Qed.
End C36.

(** * C37 and C38 *)
Section Batches.
Variable F : fieldType.
Implicit Types (cs : seq (constraint F)).

Lemma batch_density cs :
  all (fun db => all (fun c => c_density c == db.1) db.2) (batch_by_density cs).
Proof.
rewrite /batch_by_density; have : all (fun db => all (fun c => c_density c == db.1) db.2) ([::] : seq (density * seq (constraint F))) by [].
elim: cs [::] => //= c cs IH m Hm; apply: IH; elim: m Hm => [|[d b] m IHm] /=; first by rewrite eqxx.
case/andP => Hb Hm; case: eqP => /= [E|_]; last by rewrite Hb IHm.
by rewrite all_rcons -E eqxx Hb Hm.
Qed.

Lemma all_batches (P : pred (constraint F)) cs :
  all P (flatten [seq db.2 | db <- batch_by_density cs]) = all P cs.
Proof.
rewrite -(batch_all P cs); elim: (batch_by_density cs) => // db m IH.
by rewrite [flatten _]/= all_cat [RHS]/= -IH.
Qed.
End Batches.

Section C37.
Variables (F : fieldType) (fp : ff_params F) (H : hash_fun) (decode : digest -> F).
Hypothesis Hok : ff_ok fp.
(** Every digest decodes to a field element (C25 shows this for the
    parameters the field macro generates). *)
Hypothesis Hdec : forall d, bytes_to_field fp d = Ok (decode d).

(** The constraints in the order in which challenges are drawn for them. *)
Definition in_batches (props' : instance_properties F) : seq (constraint F) :=
  flatten [seq db.2 | db <- batch_by_density (ip_constraints props')].

(** The range of every constraint lies in the trace. *)
Definition ranges_fit (props : instance_properties F) : bool :=
  all (fun c => if c_density c is Dense s sp then (s + sp <= ip_num_rows props)%N else false) (ip_constraints props).

(** The composition polynomial of an instance: sum over the constraints of
    weight * constraint / divisor, and the same for boundary constraints
    (SpecStark.v).  [g] is the generator of the trace domain. *)
Definition comp_of (props props' : instance_properties F) (g : F) (ws : seq (hpoly F Coefficients))
    (chs bchs : seq (F * F)) : {poly F} :=
  composition g (ip_num_rows props) (\max_(c <- ip_constraints props) c_degree c) (polys_of ws)
    (in_batches props') chs (ip_boundary_constraints props') bchs.

(** All quotients in the composition polynomial are exact. *)
Definition all_divide (props props' : instance_properties F) (g : F) (ws : seq (hpoly F Coefficients)) : Prop :=
  all (fun c => density_divisor g (ip_num_rows props) (c_density c) %| cpoly (polys_of ws) c) (ip_constraints props') /\
  all (fun b => 'X - (g ^+ b_at_row b)%:P %| boundary_poly (polys_of ws) b) (ip_boundary_constraints props').

Definition C37_statement : Prop :=
  forall w props props' trace ws a t,
  (0 < w)%N -> supported_but_density props -> satisfied props trace ->
  from_instance fp props = Ok props' -> calculate_witness_polys fp props' w trace = Ok ws ->
  from_arp fp props' w = Ok a ->
  let D := \max_(c <- ip_constraints props) c_degree c in
  let nc := size (ip_constraints props') in let nb := size (ip_boundary_constraints props') in
  let g := d_gen (a_column_domain a) in
  exists2 gp, calculate_g fp H a t ws w = Ok (gp, stream_state H t (nc + nb).*2) &
    [/\ wf_poly fp gp, (size (poly_of (p_coeffs gp)) <= D * ip_num_rows props)%N,
        poly_of (p_coeffs gp) = comp_of props props' g ws (stream_pairs H decode t nc)
                                  (stream_pairs H decode (stream_state H t nc.*2) nb) &
        all_divide props props' g ws].

(** C37 for instances whose constraints all have the same density, and CPU
    counts for which the low-degree extension is right (C09). *)
Theorem C37_composition_partial w props props' trace ws a t :
  (0 < w)%N -> supported_but_density props -> satisfied props trace ->
  from_instance fp props = Ok props' -> calculate_witness_polys fp props' w trace = Ok ws ->
  from_arp fp props' w = Ok a ->
  let D := \max_(c <- ip_constraints props) c_degree c in
  single_density props -> w = 1%N \/ (D < 2 * w)%N ->
  let nc := size (ip_constraints props') in let nb := size (ip_boundary_constraints props') in
  let g := d_gen (a_column_domain a) in
  exists2 gp, calculate_g fp H a t ws w = Ok (gp, stream_state H t (nc + nb).*2) &
    [/\ wf_poly fp gp, (size (poly_of (p_coeffs gp)) <= D * ip_num_rows props)%N,
        poly_of (p_coeffs gp) = comp_of props props' g ws (stream_pairs H decode t nc)
                                  (stream_pairs H decode (stream_state H t nc.*2) nb) &
        all_divide props props' g ws].
Proof.
move=> Hw Hsup Hsat Hinst Hws Ha D Hden Hcpu nc nb g.
have [k [d [HH Hall Ews]]] := honest_setup Hok Hw Hsup Hinst Hws.
have Hcpu' : lde_cpus_ok w (2 ^ d).
  by rewrite /lde_cpus_ok -(hn_max HH) -/D; case: Hcpu => [->|->] //; rewrite orbT.
have Eg : g = dom_gen fp k.
  have Haf := from_arp_inv Hok Hw Ha.
  by rewrite /g (af_column Haf) (hn_props' HH) /= up_expnK.
have Eps : polys_of ws = [seq poly_of c | c <- [seq ifft_vec fp k v | v <- trace]].
  by rewrite Ews /polys_of -!map_comp; apply: eq_map.
have [s [sp [Hdn Hs _ _]]] := honest_density Hok Hw HH Ha Hden.
have Ein : in_batches props' = ip_constraints props'.
  by rewrite /in_batches (batch_single (honest_cs0 HH) Hdn) /= cats0.
have Hds := honest_dense Hok Hw HH Ha Hden.
have := honest_g Hok Hw HH Hall Hsat H Hdec Ha Hden Hcpu' t; rewrite -Ews -/nc -/nb.
set P := honest_comp _ _ _ _ _ _ _ => ->.
have HP : (size P <= 2 ^ (k + d))%N := honest_size Hok Hw HH Ha Hden _ _.
eexists; first by []; rewrite [p_coeffs _]/= (coeffs_of_poly HP); split.
- apply: wf_std; [by rewrite size_mkseq | exact: (honest_kd Hok Hw HH Ha)].
- by rewrite /D (hn_max HH) (hn_rows HH) -expnD addnC.
- by rewrite /comp_of Ein Eps Eg (hn_max HH) (hn_rows HH).
- split; rewrite Eps Eg ?(hn_rows HH).
    have := honest_divides Hok HH Hall Hsat Hds; apply: sub_all => c.
    by rewrite /c_divides; case: (c_density c).
  have := honest_bdivides Hok HH Hall Hsat; apply: sub_all => b.
  by rewrite /b_divides dvdp_XsubCl.
Qed.

(** For any trace, satisfying or not, the verifier computes from the true
    openings at [z] the weighted sum of constraints over divisors. *)
Definition quotients_at (props props' : instance_properties F) (g : F) (ps : seq {poly F})
    (chs bchs : seq (F * F)) (z : F) : F :=
  let D := \max_(c <- ip_constraints props) c_degree c in
  \sum_(cab <- zip (in_batches props') chs) (cpoly ps cab.1).[z] * (weight D (c_degree cab.1) cab.2).[z] *
     (density_divisor g (ip_num_rows props) (c_density cab.1)).[z]^-1 +
  \sum_(bab <- zip (ip_boundary_constraints props') bchs) (boundary_poly ps bab.1).[z] *
     (weight D 1 bab.2).[z] * (z - g ^+ b_at_row bab.1)^-1.

Lemma verifier_value w lde props props' trace ws v (ps : seq {poly F}) chs bchs z :
  (0 < w)%N -> supported_but_density props -> ranges_fit props ->
  from_instance fp props = Ok props' -> calculate_witness_polys fp props' w trace = Ok ws ->
  verifier_new fp props lde = Ok v ->
  size ps = size trace ->
  size chs = size (ip_constraints props') -> size bchs = size (ip_boundary_constraints props') ->
  z ^+ ip_num_rows props != 1 ->
  calculate_g_at_z v chs bchs [seq (column_poly ps m.1).[shifted m.2 z] | m <- v_all_masks v] z =
  Ok (quotients_at props props' (d_gen (v_column_domain v)) ps chs bchs z).
Proof.
move=> Hw Hsup Hr Hinst Hws Hv Hsps Hchs Hbchs Hz.
have [k [d [HH Hall Ews]]] := honest_setup Hok Hw Hsup Hinst Hws.
set cs' := ip_constraints props' in Hchs; set bs := ip_boundary_constraints props' in Hbchs.
have Hmax : max_degree cs' = (2 ^ d)%N by rewrite (honest_maxdeg HH).
have [Ei Ed Ec Em Eb] : [/\ v_instance v = props', v_max_power v = (2 ^ d)%N, v_column_domain v = dom fp k,
    v_all_masks v = masks_of cs' bs & v_batches v = batch_by_density cs'].
  move: Hinst Hv; rewrite from_instanceE verifier_newE (hn_rows HH) up_expnK //.
  case: ltnP => // _; case: ifP => // _ [E]; case: ltnP => // _ [<-] /=.
  have Ec : cs' = [seq mask_constraint (dom_gen fp k) c | c <- ip_constraints props] by rewrite /cs' -E.
  have Eb : bs = ip_boundary_constraints props by rewrite /bs -E.
  by rewrite -Ec -Eb in E *; rewrite Hmax.
have Hnr : ip_num_registers (v_instance v) = size ps by rewrite Ei (hn_props' HH) /= size_map Hsps.
have Hmk : all (mask_ok (ip_num_registers (v_instance v))) (v_all_masks v) by rewrite Hnr Em; have := hn_regs HH; rewrite size_map -Hsps.
have Hzt : z ^+ (2 ^ k) != 1 by rewrite -(hn_rows HH).
have [Hin1 Hin2] : all (fun c => all (fun u => uni_mask u \in masks_of cs' bs) (c_unis c)) cs' /\
           all (fun b => (b_register b, Mask 1) \in masks_of cs' bs) bs.
  have := all_masks_of (mem (masks_of cs' bs)) cs' bs; rewrite (introT allP) //.
  by move/esym/andP => [].
have Hfits : all (fun c => if c_density c is Dense s sp then (s + sp <= 2 ^ k)%N else false) cs'.
  rewrite /cs' (hn_props' HH) /= all_map; move: Hr; rewrite /ranges_fit (hn_rows HH); by apply: sub_all => c.
have := @calculate_g_at_zP F fp Hok ps k z (hn_k HH) Hzt v Hmk Ec chs bchs.
have Hsf : size (flatten [seq db.2 | db <- v_batches v]) = size cs'.
  rewrite Eb /batch_by_density -[RHS]add0n -[0%N]/(size (flatten [seq db.2 | db <- ([::] : seq (density * seq (constraint F)))])).
  elim: cs' [::] {Hchs Hmax Em Eb Hin1 Hin2 Hfits} => [|c s IH] m; first by rewrite addn0.
  rewrite [foldl _ _ _]/= IH addnS -addSn; congr (_ + _)%N.
  elim: m => [|[dn b] m IHm] //=; case: ifP => _ /=; first by rewrite !size_cat size_rcons.
  by rewrite !size_cat IHm addnS.
rewrite Ed Ei => -> //.
- congr Ok; rewrite /quotients_at (hn_max HH) (hn_rows HH) Ec [d_gen _]/= /in_batches -/cs' -Eb -/bs /cterm /bterm Ed.
  by congr (_ + _); apply: eq_bigr => cab _; rewrite ?cpolyE ?boundary_polyE.
- by rewrite expn_gt0.
- by rewrite (hn_props' HH).
- rewrite Eb.
  have H1 : all (fun c => c_degree c <= 2 ^ d)%N cs' by rewrite -Hmax max_degree_all.
  have H3 := all_and3 Hfits H1 Hin1; rewrite -batch_all in H3.
  have H4 : all (fun db => has (fun c => c_density c == db.1) cs') (batch_by_density cs').
    have : all (fun dn => has (fun c => c_density c == dn) cs') (map fst (batch_by_density cs')).
      by apply/allP => dn; rewrite batch_keys.
    by rewrite all_map.
  have H5 := batch_density cs'.
  elim: (batch_by_density cs') H3 H4 H5 => //= db m IH /andP [H3 H3'] /andP [H4 H4'] /andP [H5 H5'].
  rewrite IH // andbT /db_fit; apply/andP; split.
    have := all_and3 H3 H5 H5; rewrite Em Ed; apply: sub_all => c /and3P [/and3P [_ -> ->] -> _] //.
  move: Hfits; elim: (cs') H4 => //= c s IHs /orP [/eqP <-|H4] /andP [Hc Hs] //; exact: IHs.
- have H1 : all (fun b => b_value b != None) bs.
    rewrite /bs (hn_props' HH) /=; apply: sub_all (hn_bfit HH) => b; by case/andP.
  by rewrite Em; apply: sub_all (all_and3 Hin2 H1 H1) => b /and3P [-> -> _].
- by rewrite Hsf.
Qed.

(** C38, verifier side, for any number of densities: from the true openings the
    verifier computes the value at [z] of the composition polynomial. *)
Theorem C38_verifier_value w lde props props' trace ws v chs bchs z :
  (0 < w)%N -> supported_but_density props -> satisfied props trace -> ranges_fit props ->
  from_instance fp props = Ok props' -> calculate_witness_polys fp props' w trace = Ok ws ->
  verifier_new fp props lde = Ok v ->
  size chs = size (ip_constraints props') -> size bchs = size (ip_boundary_constraints props') ->
  z ^+ ip_num_rows props != 1 ->
  calculate_g_at_z v chs bchs [seq (column_poly (polys_of ws) m.1).[shifted m.2 z] | m <- v_all_masks v] z =
  Ok (comp_of props props' (d_gen (v_column_domain v)) ws chs bchs).[z].
Proof.
move=> Hw Hsup Hsat Hr Hinst Hws Hv Hchs Hbchs Hz.
have [k [d [HH Hall Ews]]] := honest_setup Hok Hw Hsup Hinst Hws.
have Eps : polys_of ws = [seq poly_of c | c <- [seq ifft_vec fp k v | v <- trace]].
  by rewrite Ews /polys_of -!map_comp; apply: eq_map.
rewrite (verifier_value Hw Hsup Hr Hinst Hws Hv) //; last by rewrite Eps !size_map.
congr Ok.
have Ec : v_column_domain v = dom fp k.
  move: Hinst Hv; rewrite from_instanceE verifier_newE (hn_rows HH) up_expnK //.
  by case: ltnP => // _; case: ifP => // _ [_]; case: ltnP => // _ [<-].
have Hfits : all (fun c => if c_density c is Dense s sp then (s + sp <= 2 ^ k)%N else false) (ip_constraints props').
  rewrite (hn_props' HH) /= all_map; move: Hr; rewrite /ranges_fit (hn_rows HH); by apply: sub_all => c.
have Hzt : z ^+ (2 ^ k) - 1 != 0 by rewrite -(hn_rows HH) subr_eq0.
rewrite /comp_of Ec [d_gen _]/= Eps (hn_max HH) (hn_rows HH) compositionE.
- rewrite /quotients_at (hn_max HH) (hn_rows HH); congr (_ + _); apply: eq_bigr => cab _; by rewrite ?cpolyE ?boundary_polyE.
- rewrite all_batches; exact: (honest_divides Hok HH Hall Hsat).
- exact: (honest_bdivides Hok HH Hall Hsat).
- rewrite all_batches; apply: sub_all Hfits => c; case: (c_density c) => // s' sp' Hs'.
  by apply: (divisor_neq0 Hok HH).
- by apply/(all_nthP (Boundary (Reg 0) 0 None)) => i _; apply: (bdivisor_neq0 Hok HH).
Qed.

(** C38: the verifier's value at [z] is the value of the polynomial the prover
    commits to. *)
Definition C38_statement : Prop :=
  forall w lde props props' trace ws a v t gp t' z,
  (0 < w)%N -> supported_but_density props -> satisfied props trace ->
  from_instance fp props = Ok props' -> calculate_witness_polys fp props' w trace = Ok ws ->
  from_arp fp props' w = Ok a -> verifier_new fp props lde = Ok v ->
  calculate_g fp H a t ws w = Ok (gp, t') -> z ^+ ip_num_rows props != 1 ->
  let nc := size (ip_constraints props') in let nb := size (ip_boundary_constraints props') in
  calculate_g_at_z v (stream_pairs H decode t nc) (stream_pairs H decode (stream_state H t nc.*2) nb)
    [seq (column_poly (polys_of ws) m.1).[shifted m.2 z] | m <- v_all_masks v] z =
  Ok (poly_of (p_coeffs gp)).[z].

Lemma single_ranges_fit w props props' trace ws a :
  (0 < w)%N -> supported_but_density props -> 
  from_instance fp props = Ok props' -> calculate_witness_polys fp props' w trace = Ok ws ->
  from_arp fp props' w = Ok a -> single_density props -> ranges_fit props.
Proof.
move=> Hw Hsup Hinst Hws Ha Hden.
have [k [d [HH Hall Ews]]] := honest_setup Hok Hw Hsup Hinst Hws.
have := honest_dense Hok Hw HH Ha Hden; rewrite (hn_props' HH) /= all_map /ranges_fit (hn_rows HH).
by apply: sub_all.
Qed.

Theorem C38_same_value_partial w lde props props' trace ws a v t gp t' z :
  (0 < w)%N -> supported_but_density props -> satisfied props trace ->
  from_instance fp props = Ok props' -> calculate_witness_polys fp props' w trace = Ok ws ->
  from_arp fp props' w = Ok a -> verifier_new fp props lde = Ok v ->
  calculate_g fp H a t ws w = Ok (gp, t') -> z ^+ ip_num_rows props != 1 ->
  single_density props -> w = 1%N \/ (\max_(c <- ip_constraints props) c_degree c < 2 * w)%N ->
  let nc := size (ip_constraints props') in let nb := size (ip_boundary_constraints props') in
  calculate_g_at_z v (stream_pairs H decode t nc) (stream_pairs H decode (stream_state H t nc.*2) nb)
    [seq (column_poly (polys_of ws) m.1).[shifted m.2 z] | m <- v_all_masks v] z =
  Ok (poly_of (p_coeffs gp)).[z].
Proof.
move=> Hw Hsup Hsat Hinst Hws Ha Hv Hg Hz Hden Hcpu nc nb.
have Hr := single_ranges_fit Hw Hsup Hinst Hws Ha Hden.
rewrite (C38_verifier_value Hw Hsup Hsat Hr Hinst Hws Hv) ?size_mkseq //.
have [gp' Hg' [_ _ Eg _]] := C37_composition_partial t Hw Hsup Hsat Hinst Hws Ha Hden Hcpu.
move: Hg; rewrite Hg' => -[<- _]; rewrite Eg; do 3! f_equal.
have Haf := from_arp_inv Hok Hw Ha; rewrite (af_column Haf) [d_gen _]/=.
move: Hinst Hv; rewrite from_instanceE verifier_newE; case: ltnP => // _; case: ifP => // _ [<-].
by case: ltnP => // _ [<-].
Qed.
End C37.

(** * C39 *)
Section C39.
Variables (F : fieldType) (fp : ff_params F) (H : hash_fun) (decode : digest -> F).
Hypothesis Hok : ff_ok fp.
Hypothesis Hdec : forall d, bytes_to_field fp d = Ok (decode d).

(** The quotients of the specification are the polynomials with
    (X - z) q = p - p(z), of degree below that of [p]. *)
Theorem C39_quotient (p : {poly F}) (z : F) (n : nat) :
  [/\ deep_quotient p z * ('X - z%:P) = p - p.[z]%:P,
      (size p <= n.+1)%N -> (size (deep_quotient p z) <= n)%N &
      forall q, q * ('X - z%:P) = p - p.[z]%:P -> q = deep_quotient p z].
Proof.
split; [exact: deep_quotientK | exact: size_deep_quotient |].
by move=> q Hq; apply: (mulIf (negbT (polyXsubC_eq0 z))); rewrite Hq deep_quotientK.
Qed.

Definition cdef : hpoly F Coefficients := HPoly Coefficients [::] 0 0 0 0 0.
Definition vdef : hpoly F Values := HPoly Values [::] 0 0 0 0 0.

(** [qs] are the values of the polynomials [ps], all given by [n] coefficients,
    on the domain of [N] elements generated by [om]. *)
Definition extensions (ps : seq (hpoly F Coefficients)) (qs : seq (hpoly F Values)) (n N : nat) (om : F) : Prop :=
  size qs = size ps /\
  forall i, (i < size ps)%N -> let p := nth cdef ps i in let q := nth vdef qs i in
    [/\ wf_poly fp p, size (p_coeffs p) = n, values_of fp q (poly_of (p_coeffs p)),
        size (p_coeffs q) = N & p_omega q = om].

(** The masks refer to registers of the trace and have been multiplied out. *)
Definition plain_mask (nr : nat) (m : register * step_difference F) : bool :=
  match m with (Reg r, Mask _) => (r < nr)%N | _ => false end.

Lemma values_vf (q : hpoly F Values) f : values_of fp q f ->
  exists K, [/\ q = vf fp K 1 (horner f), (K <= ff_S fp)%N & size (p_coeffs q) = (2 ^ K)%N].
Proof.
case=> /wfE [K [c [-> Hc HK]]] /= Ec; exists K; split=> //.
by rewrite /vf -evals_points Ec Hc.
Qed.

Lemma nth_vdef K (P : {poly F}) i : (i < 2 ^ K)%N -> (p_coeffs (vf fp K 1 (horner P)))`_i = P.[dom_gen fp K ^+ i].
Proof. exact: nth_vf. Qed.

Lemma vf_values K (P : {poly F}) : (K <= ff_S fp)%N -> values_of fp (vf fp K 1 (horner P)) P.
Proof.
move=> HK; split; first by apply: wf_std => //; rewrite size_map size_points.
by rewrite /= size_map size_points evals_points.
Qed.

(** For all polynomials given with their values on domains of [N] and [N2]
    elements: with z, alphas the challenges drawn from the transcript, the call
    fails exactly when z times a mask is in the LDE domain or z is in the
    domain of g, and otherwise gives the values of h1 and h2, of lower degree,
    and the values of the f_i and of g at the points z m_i and z.  From these
    values and from those of the f_i and g at any position of the domains the
    verifier computes the values of h1 and h2 there. *)
Theorem C39_deep (w : worker) (a : ali_instance F) (t : bytes) (ps : seq (hpoly F Coefficients)) (qs : seq (hpoly F Values))
    (g : hpoly F Coefficients) (gl : hpoly F Values) (n N : nat) (om : F) :
  (0 < w)%N -> (1 <= ff_S fp)%N -> (0 < size ps)%N -> extensions ps qs n N om ->
  wf_poly fp g -> values_of fp gl (poly_of (p_coeffs g)) ->
  all (plain_mask (size ps)) (a_all_masks a) ->
  let masks := a_all_masks a in
  let N2 := size (p_coeffs gl) in let om2 := p_omega gl in
  let z := stream H decode t 0 in
  let alphas := mkseq (fun i => stream H decode t i.+1) (size masks) in
  let vals := [seq (column_poly (polys_of ps) m.1).[shifted m.2 z] | m <- masks] in
  let h1 := deep_h1 (polys_of ps) masks z alphas in
  let h2 := deep_quotient (poly_of (p_coeffs g)) z in
  let outside := all (fun m => all (fun i => om ^+ i != shifted m.2 z) (iota 0 N)) masks &&
                 all (fun i => om2 ^+ i != z) (iota 0 N2) in
  [/\ ~~ outside -> calculate_deep fp H a ps qs g gl t w = Err,
      outside -> exists h1v h2v,
        [/\ calculate_deep fp H a ps qs g gl t w =
              Ok (h1v, h2v, vals, (poly_of (p_coeffs g)).[z], stream_state H t (size masks).+1),
            [/\ values_of fp h1v h1, size (p_coeffs h1v) = N & p_omega h1v = om],
            [/\ values_of fp h2v h2, size (p_coeffs h2v) = N2 & p_omega h2v = om2],
            forall v D idx, v_all_masks v = masks -> d_gen D = om -> (idx < N)%N ->
              simulate_h1 v alphas idx D [seq (p_coeffs q)`_idx | q <- qs] vals z = Ok (p_coeffs h1v)`_idx &
            forall D idx, d_gen D = om2 -> (idx < N2)%N ->
              simulate_h2 idx D (p_coeffs gl)`_idx z (poly_of (p_coeffs g)).[z] = Ok (p_coeffs h2v)`_idx],
      (size h1 <= n.-1)%N & (size h2 <= (size (p_coeffs g)).-1)%N].
Proof.
move=> Hw HS1 Hps [Eq Hext] Hg Hgl Hm masks N2 om2 z alphas vals h1 h2 outside.
have [kg [cg [Eg Hcg Hkg]]] := wfE Hg; have [Lg [Egl HLg HNg]] := values_vf Hgl.
have [/wfE [k [c0 [Ep0 Hc0 Hk]]] Hn Hq0 HN Hom] := Hext 0%N Hps.
have [K [Eq0 HK HNK]] := values_vf Hq0.
have {Hn}Hn : n = (2 ^ k)%N by rewrite -Hn Ep0.
have {HN}HN : N = (2 ^ K)%N by rewrite -HN HNK.
have {Hom}Hom : om = dom_gen fp K by rewrite -Hom Eq0.
pose wc := [seq p_coeffs p | p <- ps].
have Hsz : size wc = size ps by rewrite size_map.
have Eps : ps = map (std fp Coefficients k) wc.
  apply: (@eq_from_nth _ cdef) => [|i Hi]; first by rewrite !size_map.
  rewrite (nth_map [::]) ?Hsz // (nth_map cdef) //.
  have [/wfE [k' [c [Ep Hc _]]] + _ _ _] := Hext i Hi; rewrite Ep /= Hc Hn => /eqP.
  by rewrite eqn_exp2l // => /eqP <-.
have Eqs : qs = [seq vf fp K 1 (horner (poly_of c)) | c <- wc].
  apply: (@eq_from_nth _ vdef) => [|i]; first by rewrite !size_map.
  rewrite Eq => Hi; rewrite (nth_map [::]) ?Hsz // (nth_map cdef) //.
  have [_ _ /values_vf [K' [Ep _ Hc]] + _] := Hext i Hi; rewrite Ep -Ep Hc HN => /eqP.
  by rewrite eqn_exp2l // => /eqP <-.
have Epo : polys_of ps = map (@poly_of F) wc by rewrite /wc -map_comp.
have Hwc : all (fun c => size c == (2 ^ k)%N) wc.
  apply/(all_nthP [::]) => i; rewrite Hsz => Hi; rewrite (nth_map cdef) //.
  by have [_ -> _ _ _] := Hext i Hi; rewrite Hn.
have Hmo : all (mask_ok (size wc)) masks by rewrite Hsz; apply: sub_all Hm => -[[|r||] [|mk]].
have HN2 : N2 = (2 ^ Lg)%N by exact: HNg.
have Hom2 : om2 = dom_gen fp Lg by rewrite /om2 Egl.
have Ealph : alphas = mkseq (stream H decode (stream_state H t 1)) (size masks).
  by apply: eq_mkseq => i; rewrite streamD.
have Hpts L (r : F) : all (fun i => dom_gen fp L ^+ i != r) (iota 0 (2 ^ L)) = all (fun x => x - r != 0) (points fp L 1).
  rewrite /points all_map; apply: eq_all => i; by rewrite /= mul1r subr_eq0.
have Eout : outside = all (avoids fp K z) masks && all (fun x => x - z != 0) (points fp Lg 1).
  rewrite /outside HN HN2 Hom Hom2 Hpts; congr (_ && _); apply: eq_all => m; exact: Hpts.
have Ecd := @calculate_deepP F fp H decode Hok Hdec w Hw k K wc HK HS1 a kg Lg cg t.
have {Ecd}Ecd : calculate_deep fp H a ps qs g gl t w =
    if outside then Ok (vf fp K 1 (horner h1), vf fp Lg 1 (horner h2), vals, (poly_of (p_coeffs g)).[z],
                        stream_state H t (size masks).+1) else Err.
  have Hwc0 : (0 < size wc)%N by rewrite Hsz.
  move: (Ecd Hwc0 HLg Hmo); cbv zeta; rewrite -/masks -/z Eout -Ealph -Epo -/h1 -/vals.
  rewrite -Eps -Eqs; have -> : h2 = deep_quotient (poly_of cg) z by rewrite /h2 Eg.
  have -> : vf fp Lg 1 (horner (poly_of cg)) = gl by rewrite Egl Eg.
  by rewrite -Eg => ->; rewrite Eg.
split.
- by rewrite Ecd => /negbTE ->.
- move=> Ho; rewrite Ecd Ho; do 2! eexists; split; first by [].
  + by rewrite Hom HN; split=> //; [exact: vf_values | rewrite /= size_map size_points].
  + by rewrite Hom2 HN2; split=> //; [exact: vf_values | rewrite /= size_map size_points].
  + move=> v D idx Ev ED; rewrite HN => Hidx.
    have Hav : all (avoids fp K z) (v_all_masks v) by rewrite Ev; move: Ho; rewrite Eout => /andP [].
    have := @simulate_h1P F fp K wc v z alphas idx _ vals; rewrite Ev => /(_ _ Hmo _ Hidx erefl).
    rewrite -Epo -/h1 -/vals nth_vdef // /simulate_h1 ED Hom => <- //; last by rewrite -Ev.
    have -> // : [seq (p_coeffs q)`_idx | q <- qs] = [seq (poly_of c).[dom_gen fp K ^+ idx] | c <- wc].
    by rewrite Eqs -map_comp; apply: eq_map => c; apply: nth_vdef.
  + move=> D idx ED; rewrite HN2 => Hidx.
    have := @simulate_h2P F fp Lg (p_coeffs g) z idx HLg.
    move: Ho; rewrite Eout => /andP [_ Hz] /(_ Hz Hidx); rewrite -/h2 nth_vdef // => <-.
    by rewrite /simulate_h2 ED Hom2 {1}Egl nth_vdef.
- rewrite /h1 Epo Hn; apply: size_deep_h1; rewrite all_map prednK ?expn_gt0 //.
  apply: sub_all Hwc => c /eqP <-; exact: size_poly_of.
- apply: size_deep_quotient; rewrite Eg /= prednK ?Hcg ?expn_gt0 // -Hcg; exact: size_poly_of.
Qed.
End C39.

(** * C45 *)
Section C45.
Variables (F : fieldType) (fp : ff_params F).
Hypothesis Hok : ff_ok fp.

Definition same_precomputation (p : prover F) (v : verifier F) : Prop :=
  [/\ v_all_masks v = a_all_masks (p_ali p), v_batches v = a_batches (p_ali p),
      v_column_domain v = a_column_domain (p_ali p), v_max_power v = a_max_power (p_ali p) &
      [/\ v_boundary_registers v = a_boundary_registers (p_ali p), v_instance v = p_arp p &
          a_properties (p_ali p) = p_arp p]].

Definition C45_statement : Prop :=
  forall w props lde out p v, (0 < w)%N ->
  prover_new fp props lde out w = Ok p -> verifier_new fp props lde = Ok v ->
  same_precomputation p v /\ v_constraints_domain v = a_constraints_domain (p_ali p).

(** Everything but the constraint domain is the same; the constraint domains
    are the same exactly when some constraint has a degree or the trace has at
    most one row. *)
Theorem C45_same_precomputation_partial w props lde out p v : (0 < w)%N ->
  prover_new fp props lde out w = Ok p -> verifier_new fp props lde = Ok v ->
  same_precomputation p v /\
  (v_constraints_domain v = a_constraints_domain (p_ali p) <->
   (0 < \max_(c <- ip_constraints props) c_degree c)%N \/ (ip_num_rows props <= 1)%N).
Proof.
move=> Hw; rewrite /prover_new from_instanceE verifier_newE; case: ltnP => // Hk; case: ifP => // _.
set cs := map _ _; set props' := Props _ _ _ _; rewrite bind_ok => Hp; have [a Ha {}Hp] := bind_Ok Hp.
case: Hp => <-; case: ltnP => // HK [<-]; rewrite [p_ali _]/=.
have Haf := from_arp_inv Hok Hw Ha.
have Hreg : a_boundary_registers a = foldl (fun s b => set_insert s (b_register b)) [::] (ip_boundary_constraints props).
  move: Ha; rewrite /from_arp => Ha.
  do 5! [have [? _ {}Ha] := bind_Ok Ha]; by case: Ha => <-.
have Em : max_degree cs = \max_(c <- ip_constraints props) c_degree c.
  rewrite max_degreeE /cs big_map; apply: eq_bigr => c _; by case: c.
split; first by split; rewrite /= ?(af_masks Haf) ?(af_batches Haf) ?(af_column Haf) ?(af_max Haf) ?Hreg ?(af_properties Haf).
rewrite (af_constraints Haf) /= -/cs Em; case: (posnP (\max_(c <- _) _)) => [->|Hm].
  rewrite muln0 up_log0 add0n; split=> [[/eqP + _ _]|[//|H1]].
    rewrite eqn_exp2l // => /eqP E; right; rewrite leqNgt.
    by have := up_log_gt0 2 (ip_num_rows props); rewrite E /= => <-.
  by have -> : up_log 2 (ip_num_rows props) = 0%N by move: H1; case: (ip_num_rows props) => [|[]].
by rewrite up_log_mulpow // addnC; split=> // _; left.
Qed.

(** The verifier can be built whenever the prover can, if some constraint has a
    degree. *)
Theorem C45_verifier_exists w props lde out p : (0 < w)%N -> (0 < \max_(c <- ip_constraints props) c_degree c)%N ->
  prover_new fp props lde out w = Ok p -> exists v, verifier_new fp props lde = Ok v.
Proof.
move=> Hw Hm; rewrite /prover_new from_instanceE verifier_newE; case: ltnP => // Hk; case: ifP => // _.
set cs := map _ _; set props' := Props _ _ _ _; rewrite bind_ok => Hp; have [a Ha {}Hp] := bind_Ok Hp.
have Haf := from_arp_inv Hok Hw Ha.
have Em : max_degree cs = \max_(c <- ip_constraints props) c_degree c.
  rewrite max_degreeE /cs big_map; apply: eq_bigr => c _; by case: c.
have := af_K Haf; rewrite [ip_constraints _]/= [ip_num_rows _]/= -/cs Em up_log_mulpow // addnC leqNgt => /negbTE ->.
by eexists.
Qed.
End C45.

(** * Concrete cases *)
Definition decode257 (d : digest) : F257 := if bytes_to_field f257 d is Ok x then x else 0.
Lemma decode257P d : bytes_to_field f257 d = Ok (decode257 d).
Proof. by rewrite /decode257; have [|x -> _] := bytes_to_field_ok f257_constants d _ f257_repr_ok. Qed.

(** [supported_but_density] without big operators, to compute with. *)
Section Decide.
Variable F : fieldType.
Definition tdeg_b (t : constraint_term F) : nat :=
  match t with Univariate u => ut_power u | Polyvariate p => foldr addn 0%N (map (@ut_power F) (pt_terms p)) end.
Definition supported_b (props : instance_properties F) : bool :=
  let nr := ip_num_registers props in
  [&& is_pow2 (ip_num_rows props), (1 < ip_num_rows props)%N,
      is_pow2 (foldr maxn 0%N (map (@c_degree F) (ip_constraints props))),
      all (fun c => all (t_supported nr) (c_terms c) && (foldr maxn 0%N (map tdeg_b (c_terms c)) <= c_degree c)%N)
        (ip_constraints props) &
      all (b_supported nr) (ip_boundary_constraints props)].
Lemma supportedE props : supported_but_density props = supported_b props.
Proof.
rewrite /supported_but_density /supported_b foldrE big_map; do 3! congr (_ && _); congr (_ && _).
apply: eq_all => c; rewrite /c_supported /cdeg foldrE big_map; congr (_ && (_ <= _)%N).
by apply: eq_bigr => -[u|p] _ //=; rewrite foldrE big_map.
Qed.
End Decide.

(** A column in which each row is the square of the one before. *)
Definition sq_constraint (s sp : nat) : constraint F257 :=
  Constr 0 [:: Univariate (UTerm 1 (Reg 0) (Steps 1) 1%N); Univariate (UTerm (-1) (Reg 0) (Steps 0) 2%N)] 2%N (Dense s sp).
Definition sq_props (dens : seq (nat * nat)) (x : F257) : instance_properties F257 :=
  Props 4 1 [seq sq_constraint d.1 d.2 | d <- dens] [:: Boundary (Reg 0) 0 (Some x)].
Definition sq_trace (x : F257) : seq (seq F257) := [:: [:: x; x ^+ 2; x ^+ 4; x ^+ 8]].
Definition one_density := sq_props [:: (0, 1)]%N 3.
Definition two_densities := sq_props [:: (0, 1); (1, 1)]%N 3.

Lemma one_supported : supported_but_density one_density.
Proof. by rewrite supportedE; vm_compute. Qed.
Lemma two_supported : supported_but_density two_densities.
Proof. by rewrite supportedE; vm_compute. Qed.
Lemma one_satisfied : satisfied one_density (sq_trace 3).
Proof. by apply/is_satisfiedP; vm_compute. Qed.
Lemma two_satisfied : satisfied two_densities (sq_trace 3).
Proof. by apply/is_satisfiedP; vm_compute. Qed.

(** g(z) as the prover has it and as the verifier recomputes it. *)
Section BothG.
Variables (F : fieldType) (fp : ff_params F) (H : hash_fun) (decode : digest -> F).
Hypothesis Hok : ff_ok fp.
Hypothesis Hdec : forall d, bytes_to_field fp d = Ok (decode d).

Definition both_g (props : instance_properties F) (trace : seq (seq F)) (t : bytes) (z : F) :
    outcome (F * F) :=
  let* props' := from_instance fp props in
  let* ws := calculate_witness_polys fp props' 1 trace in
  let* a := from_arp fp props' 1 in
  let* gt := calculate_g fp H a t ws 1 in
  let* v := verifier_new fp props 4 in
  let* ct := challenge_pairs fp H t (ip_constraints props') in
  let* bt := challenge_pairs fp H ct.2 (ip_boundary_constraints props') in
  let* vals := mapM (fun m : mask_properties F => if m is (Reg r, Mask m) then
    let* p := get ws r in Ok (evaluate_at p 1 (m * z)) else Panic) (v_all_masks v) in
  let* gz := calculate_g_at_z v ct.1 bt.1 vals z in
  Ok (evaluate_at gt.1 1 z, gz).

Lemma both_gP props trace t z x y : both_g props trace t z = Ok (x, y) ->
  exists props' ws a gp t' v, 
  let nc := size (ip_constraints props') in let nb := size (ip_boundary_constraints props') in
  [/\ [/\ from_instance fp props = Ok props', calculate_witness_polys fp props' 1 trace = Ok ws,
          from_arp fp props' 1 = Ok a & verifier_new fp props 4 = Ok v],
      calculate_g fp H a t ws 1 = Ok (gp, t'), x = (poly_of (p_coeffs gp)).[z] &
      calculate_g_at_z v (stream_pairs H decode t nc) (stream_pairs H decode (stream_state H t nc.*2) nb)
        [seq (column_poly (polys_of ws) m.1).[shifted m.2 z] | m <- v_all_masks v] z = Ok y].
Proof.
have Hev (p : hpoly F Coefficients) u : evaluate_at p 1 u = (poly_of (p_coeffs p)).[u].
  exact: (@evaluate_atP F fp 1%N _ 0 (p_coeffs p) u).
rewrite /both_g => E; have [props' H1 {}E] := bind_Ok E; have [ws H2 {}E] := bind_Ok E.
have [a H3 {}E] := bind_Ok E; have [[gp t'] H4 {}E] := bind_Ok E; have [v H5 {}E] := bind_Ok E.
rewrite (challenge_pairsE H Hdec) bind_ok in E; rewrite (challenge_pairsE H Hdec) bind_ok in E; have [vals H6 {}E] := bind_Ok E; have [gz H7 {}E] := bind_Ok E.
move: E => -[Ex <-]; exists props', ws, a, gp, t', v; split=> //; first by rewrite -Ex; exact: Hev.
rewrite -H7; congr (calculate_g_at_z _ _ _ _ _); move: H6; elim: (v_all_masks v) vals {H7} => [|m ms IH] vals.
  by case.
rewrite [map _ _]/= [mapM _ _]/=; case: m => [[|r||] [|m]] // E; have [y0 Hy {}E] := bind_Ok E.
have [ys Hys [<-]] := bind_Ok E; rewrite (IH _ Hys); congr (_ :: _).
have [p Hp [<-]] := bind_Ok Hy; rewrite Hev /=; congr (horner _ _).
by have [Hr ->] := get_Ok p Hp; rewrite /polys_of (nth_map p).
Qed.

Lemma both_g_runs props trace t z : (if both_g props trace t z is Ok (x, y) then x == y else false) ->
  exists props' ws a gp t' v, 
  [/\ from_instance fp props = Ok props', calculate_witness_polys fp props' 1 trace = Ok ws,
      from_arp fp props' 1 = Ok a & verifier_new fp props 4 = Ok v] /\ calculate_g fp H a t ws 1 = Ok (gp, t').
Proof.
case Exy: (both_g _ _ _ _) => [[x y]| |] // _; move: Exy => /both_gP [props' [ws [a [gp [t' [v [H1 H2 _ _]]]]]]].
by exists props', ws, a, gp, t', v.
Qed.

(** Where the two values differ, C37 and C38 fail. *)
Lemma C38_fails props trace t z : (if both_g props trace t z is Ok (x, y) then x != y else false) ->
  supported_but_density props -> satisfied props trace -> z ^+ ip_num_rows props != 1 ->
  ~ C38_statement fp H decode.
Proof.
case Exy: (both_g _ _ _ _) => [[x y]| |] //; move: Exy => /both_gP [props' [ws [a [gp [t' [v [[H1 H2 H3 H4] H5 -> Hv]]]]]]] Hxy Hsup Hsat Hz HC.
have := HC 1%N 4%N props props' trace ws a v t gp t' z isT Hsup Hsat H1 H2 H3 H4 H5 Hz; cbv zeta; rewrite Hv => -[E].
by rewrite E eqxx in Hxy.
Qed.

Lemma C37_fails props trace t z : (if both_g props trace t z is Ok (x, y) then x != y else false) ->
  supported_but_density props -> satisfied props trace -> ranges_fit props -> z ^+ ip_num_rows props != 1 ->
  ~ C37_statement fp H decode.
Proof.
case Exy: (both_g _ _ _ _) => [[x y]| |] //; move: Exy => /both_gP [props' [ws [a [gp [t' [v [[H1 H2 H3 H4] H5 -> Hv]]]]]]] Hxy Hsup Hsat Hr Hz HC.
have [gp' E [_ _ Ec _]] := HC 1%N props props' trace ws a t isT Hsup Hsat H1 H2 H3.
rewrite E in H5; case: H5 => ? _; subst gp'.
have := @C38_verifier_value F fp Hok 1 4 props props' trace ws v (stream_pairs H decode t (size (ip_constraints props')))
  (stream_pairs H decode (stream_state H t (size (ip_constraints props')).*2) (size (ip_boundary_constraints props')))
  z isT Hsup Hsat Hr H1 H2 H4.
rewrite !size_mkseq => /(_ erefl erefl Hz); rewrite Hv => -[Ey].
have Haf : ali_for fp props' a := @from_arp_inv F fp Hok 1 isT props' a H3.
have Eg : d_gen (a_column_domain a) = d_gen (v_column_domain v).
  rewrite (af_column Haf) [d_gen _]/=.
  move: H1 H4; rewrite from_instanceE verifier_newE; case: ltnP => // _; case: ifP => // _ [<-].
  by case: ltnP => // _ [<-].
by rewrite Ec Eg -Ey eqxx in Hxy.
Qed.
End BothG.

Lemma both_g_same : if both_g f257 toy_hash one_density (sq_trace 3) (toy_hash [::]) 3 is Ok (x, y) then x == y else false.
Proof. by vm_compute. Qed.
Lemma both_g_differ : if both_g f257 toy_hash two_densities (sq_trace 3) (toy_hash [::]) 3 is Ok (x, y) then x != y else false.
Proof. by vm_compute. Qed.

(** Two constraints of different densities, four rows: the prover's g is not
    the composition polynomial and the verifier's value is another one. *)
Theorem C37_refuted : ~ C37_statement f257 toy_hash decode257.
Proof.
have Hz : (3 : F257) ^+ ip_num_rows two_densities != 1 by vm_compute.
have Hr : ranges_fit two_densities by vm_compute.
have X := @C37_fails _ f257 toy_hash decode257 f257_ok decode257P two_densities (sq_trace 3) (toy_hash [::]) 3.
exact (X both_g_differ two_supported two_satisfied Hr Hz).
Qed.
Theorem C38_refuted : ~ C38_statement f257 toy_hash decode257.
Proof.
have Hz : (3 : F257) ^+ ip_num_rows two_densities != 1 by vm_compute.
have X := @C38_fails _ f257 toy_hash decode257 decode257P two_densities (sq_trace 3) (toy_hash [::]) 3.
exact (X both_g_differ two_supported two_satisfied Hz).
Qed.

(** C36: rows 1 to 6 of 8; inside of the domain there is an error. *)
Example C36_ex : (let* col := domain_new f257 8 in
  let* '(x, n) := inverse_divisor_at (3 : F257) col 1 1 8 in
  Ok (n, d_size col, if inverse_divisor_at (1 : F257) col 1 1 8 is Err then true else false)) = Ok (6, 8, true)%N.
Proof. by vm_compute. Qed.

(** C37, C38: the hypotheses hold for the instance with one density. *)
Example C37_ex : exists props' ws a gp t' v,
  [/\ supported_but_density one_density, satisfied one_density (sq_trace 3), single_density one_density,
      [/\ from_instance f257 one_density = Ok props', calculate_witness_polys f257 props' 1 (sq_trace 3) = Ok ws,
          from_arp f257 props' 1 = Ok a & verifier_new f257 one_density 4 = Ok v] &
      calculate_g f257 toy_hash a (toy_hash [::]) ws 1 = Ok (gp, t')] /\
      (3 : F257) ^+ ip_num_rows one_density != 1.
Proof.
have Hz : (3 : F257) ^+ ip_num_rows one_density != 1 by vm_compute.
have Hs : single_density one_density by vm_compute.
have X := @both_g_runs _ f257 toy_hash decode257 decode257P one_density (sq_trace 3) (toy_hash [::]) 3.
have [props' [ws [a [gp [t' [v [H1 H2]]]]]]] := X both_g_same.
exists props', ws, a, gp, t', v; split; last exact: Hz.
by split; [exact: one_supported | exact: one_satisfied | exact: Hs | exact: H1 | exact: H2].
Qed.

(** C39: a polynomial of four coefficients on 16 points, a g of eight
    coefficients on 32 points, the masks of the squaring instance. *)
Section C39Ex.
Variables (F : fieldType) (fp : ff_params F).
Hypothesis Hok : ff_ok fp.
Lemma ex_extensions k K c : size c = (2 ^ k)%N -> (k <= ff_S fp)%N -> (K <= ff_S fp)%N ->
  extensions fp [:: std fp Coefficients k c] [:: vf fp K 1 (horner (poly_of c))] (2 ^ k) (2 ^ K) (dom_gen fp K).
Proof.
move=> Hc Hk HK; split=> // -[|//] _ /=; split=> //; [exact: wf_std | exact: vf_values |].
by rewrite size_map size_points.
Qed.
End C39Ex.

Definition C39_ex_poly : seq F257 := [:: 3; 1; 4; 1].
Definition C39_ex_g : seq F257 := [:: 2; 7; 1; 8; 2; 8; 1; 8].
Example C39_ex :
  extensions f257 [:: std f257 Coefficients 2 C39_ex_poly] [:: vf f257 4 1 (horner (poly_of C39_ex_poly))] (2 ^ 2) (2 ^ 4) (dom_gen f257 4) /\
  wf_poly f257 (std f257 Coefficients 3 C39_ex_g) /\ values_of f257 (vf f257 5 1 (horner (poly_of C39_ex_g))) (poly_of C39_ex_g) /\
  exists2 a, (let* props' := from_instance f257 one_density in from_arp f257 props' 1) = Ok a &
    [/\ all (plain_mask 1) (a_all_masks a), (0 < size (a_all_masks a))%N &
        all (fun m => all (fun i => dom_gen f257 4 ^+ i != shifted m.2 (stream toy_hash decode257 (toy_hash [:: to_byte 5]) 0)) (iota 0 16))
            (a_all_masks a) &&
        all (fun i => dom_gen f257 5 ^+ i != stream toy_hash decode257 (toy_hash [:: to_byte 5]) 0) (iota 0 32)].
Proof.
have X : (if (let* props' := from_instance f257 one_density in from_arp f257 props' 1) is Ok a then
  [&& all (plain_mask 1) (a_all_masks a), (0 < size (a_all_masks a))%N &
        all (fun m => all (fun i => dom_gen f257 4 ^+ i != shifted m.2 (stream toy_hash decode257 (toy_hash [:: to_byte 5]) 0)) (iota 0 16))
            (a_all_masks a) &&
        all (fun i => dom_gen f257 5 ^+ i != stream toy_hash decode257 (toy_hash [:: to_byte 5]) 0) (iota 0 32)] else false) by vm_compute.
split; last split; last split.
- exact (@ex_extensions _ f257 2 4 C39_ex_poly erefl isT isT).
- exact (@wf_std _ f257 Coefficients 3 C39_ex_g erefl isT).
- exact (@vf_values _ f257 5 (poly_of C39_ex_g) isT).
- by move: X; case: (let* _ := _ in _) => // a /and3P [h1 h2 h3]; exists a.
Qed.

(** C45: the hypotheses hold for the squaring instance. *)
Example C45_ex : is_ok (prover_new f257 one_density 4 1 3) && is_ok (verifier_new f257 one_density 4).
Proof. by vm_compute. Qed.

(** C45: for an instance without constraints and with four rows the prover uses
    a domain of one element, the verifier one of four. *)
Section C45Refuted.
Variables (F : fieldType) (fp : ff_params F).
Hypothesis Hok : ff_ok fp.
Lemma C45_fails props : is_ok (prover_new fp props 4 1 1) && is_ok (verifier_new fp props 4) ->
  ip_constraints props = [::] -> (1 < ip_num_rows props)%N -> ~ C45_statement fp.
Proof.
case Ep: (prover_new _ _ _ _ _) => [p| |] //; case Ev: (verifier_new _ _ _) => [v| |] // _ Ec Hn HC.
have [_ E] := HC 1%N props 4%N 1%N p v isT Ep Ev.
have [_ [/(_ E) + _]] := C45_same_precomputation_partial Hok (isT : (0 < 1)%N) Ep Ev.
by rewrite Ec big_nil; case=> //; rewrite leqNgt Hn.
Qed.
End C45Refuted.
Theorem C45_refuted : ~ C45_statement f257.
Proof.
have X := @C45_fails _ f257 f257_ok (Props 4 1 [::] [::]).
by apply X; [vm_compute | |].
Qed.

Print Assumptions C36_verifier_divisor.
Print Assumptions C36_divisor_rows.
Print Assumptions C36_prover_verifier_agree.
Print Assumptions C37_composition_partial.
Print Assumptions C37_refuted.
Print Assumptions C38_verifier_value.
Print Assumptions C38_same_value_partial.
Print Assumptions C38_refuted.
Print Assumptions C39_quotient.
Print Assumptions C39_deep.
Print Assumptions C45_same_precomputation_partial.
Print Assumptions C45_verifier_exists.
Print Assumptions C45_refuted.
