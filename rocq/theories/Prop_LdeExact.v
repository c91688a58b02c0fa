(** Properties C09, C10, C15: exactly which extensions are right, on every number of CPUs. *)
From mathcomp Require Import all_ssreflect all_algebra.
From Verif Require Import M_Base M_Worker M_Field M_Domain M_Fft M_Poly Spec SpecPoly.
From Verif Require Import P_Base P_Fft P_Domain P_Poly P_Lde P_PolyOps P_Wf Instances Prop_Fft Prop_PolyOps.

Set Implicit Arguments.
Unset Strict Implicit.
Unset Printing Implicit Defensive.
Import GRing.Theory.
Local Open Scope ring_scope.

Section LdeExact.
Variables (F : fieldType) (fp : ff_params F) (w : worker).
Hypotheses (Hok : ff_ok fp) (Hw : (0 < w)%N).
Local Notation S := (ff_S fp).

(** The coset that the code computes in the place of coset number [j] of [f]: the tasks get
    [f / w] cosets each, and task number [i] starts with coset [i]. *)
Definition computed_coset (c f j : nat) : nat :=
  if (f < c)%N then j else (j %/ (f %/ c) + j %% (f %/ c))%N.

Lemma computed_cosetE f j : coset_exp w f j = computed_coset w f j.
Proof.
rewrite /coset_exp /computed_coset /get_chunk_size; case: ltnP => // H.
by rewrite divn1 modn1 addn0.
Qed.

(** C09, exact: on any number of CPUs and for any power-of-two factor above one, [lde] and
    [coset_lde] return the value at the point with number [j + k f] of the domain where [j] is
    replaced by the number of another coset. *)
Theorem C09_exact (p : hpoly F Coefficients) (e : nat) : wf_poly fp p -> (0 < e)%N ->
  let f := (2 ^ e)%N in
  let n := (size (p_coeffs p) * f)%N in
  let P := poly_of (p_coeffs p) in
  match domain_new fp n with
  | Ok d => exists u v,
     [/\ lde fp p w f = Ok u, coset_lde fp p w f = Ok v, wf_poly fp u & wf_poly fp v] /\
     [/\ size (p_coeffs u) = n, size (p_coeffs v) = n &
       forall j k, (j < f)%N -> (k < size (p_coeffs p))%N ->
         let x := d_gen d ^+ (computed_coset w f j + f * k) in
         (p_coeffs u)`_(j + f * k) = P.[x] /\ (p_coeffs v)`_(j + f * k) = P.[ff_gen fp * x]]
  | _ => lde fp p w f = Err /\ coset_lde fp p w f = Err
  end.
Proof.
case/wfE => k [c [-> Hc Hk]] He /=.
rewrite (lde_exact Hok Hw Hc Hk He) (coset_lde_exact Hok Hw Hc Hk He) Hc domain_new_mul.
case: ifP => //= HS; do 2!eexists; split.
  by split; [by []|by []|apply: wf_std => //; rewrite size_mkseq|apply: wf_std => //; rewrite size_mkseq].
rewrite !size_mkseq -expnD; split=> // j i Hj Hi.
have Hji : (j + 2 ^ e * i < 2 ^ (k + e))%N.
  rewrite expnD; apply: (@leq_trans (2 ^ e * i.+1)); first by rewrite mulnS ltn_add2r.
  by rewrite mulnC leq_mul2r Hi orbT.
have Em : ((j + 2 ^ e * i) %% 2 ^ e = j)%N by rewrite addnC mulnC modnMDl modn_small.
have Ed : ((j + 2 ^ e * i) %/ 2 ^ e = i)%N by rewrite addnC mulnC divnMDl ?expn_gt0 // divn_small // addn0.
rewrite /= !nth_mkseq // Em Ed computed_cosetE -(dom_gen_sub HS) -exprM exprD.
by rewrite !mulrA.
Qed.

(** Two cosets of the small domain on which a polynomial of small degree has the same values in the
    same order belong to one and the same shift, or the polynomial is a constant. *)
Lemma same_on_cosets c k e h a b : size c = (2 ^ k)%N -> (k + e <= S)%N -> h != 0 ->
  (a < b < 2 ^ e)%N ->
  (forall t, (t < 2 ^ k)%N ->
     (poly_of c).[h * dom_gen fp (k + e) ^+ a * dom_gen fp k ^+ t] =
     (poly_of c).[h * dom_gen fp (k + e) ^+ b * dom_gen fp k ^+ t]) ->
  (size (poly_of c) <= 1)%N.
Proof.
move=> Hc HS Hh /andP [Hab Hb] H; set G := dom_gen fp (k + e) in H *; set g := dom_gen fp k in H *.
have HG : (2 ^ (k + e)).-primitive_root G by apply: dom_prim.
have Hg : (2 ^ k).-primitive_root g by apply: dom_prim => //; apply: leq_trans (leq_addr _ _) HS.
pose q := \poly_(m < 2 ^ k) (c`_m * h ^+ m * (G ^+ (a * m) - G ^+ (b * m))).
have Hev x : q.[x] = (poly_of c).[h * G ^+ a * x] - (poly_of c).[h * G ^+ b * x].
  rewrite /q /poly_of !horner_poly Hc -sumrB; apply: eq_bigr => m _.
  by rewrite !exprMn -!exprM !mulrBr mulrBl !mulrA.
have Hq : q = 0.
  apply: (@roots_geq_poly_eq0 _ _ (mkseq (fun t => g ^+ t) (2 ^ k))).
  - apply/allP => x /mapP [t]; rewrite mem_iota => /andP [_ Ht] ->.
    by rewrite rootE Hev subr_eq0 H.
  - rewrite /mkseq map_inj_in_uniq ?iota_uniq // => i j; rewrite !mem_iota !add0n => /andP [_ Hi] /andP [_ Hj] /eqP.
    by rewrite (eq_prim_root_expr Hg) /= !modn_small // => /eqP.
  - by rewrite size_mkseq size_poly.
apply/leq_sizeP => m Hm; rewrite coef_poly_of.
case: (ltnP m (2 ^ k)) => Hmk; last by rewrite nth_default // Hc.
have := congr1 (fun r : {poly F} => r`_m) Hq; rewrite coef_poly Hmk coef0 => /eqP.
rewrite mulf_eq0 mulf_eq0 expf_eq0 (negbTE Hh) andbF orbF => /orP [/eqP //|].
rewrite subr_eq0 (eq_prim_root_expr HG) /=.
have Hsm d : (d < 2 ^ e)%N -> (d * m < 2 ^ (k + e))%N.
  move=> Hd; rewrite expnD mulnC; apply: (@leq_ltn_trans (m * 2 ^ e)); first by rewrite leq_mul2l (ltnW Hd) orbT.
  by rewrite ltn_mul2r Hmk expn_gt0.
rewrite !modn_small ?Hsm ?(ltn_trans Hab) // eqn_mul2r => /orP [/eqP E|/eqP E].
  by rewrite E in Hm.
by rewrite E ltnn in Hab.
Qed.

Lemma constant_evals c (x y : F) : (size (poly_of c) <= 1)%N -> (poly_of c).[x] = (poly_of c).[y].
Proof. by move=> /size1_polyC ->; rewrite !hornerC. Qed.

(** C09: a polynomial that fits into the field is extended correctly exactly when there is one CPU,
    or the factor is below twice the number of CPUs, or the polynomial is a constant.  So on all
    other machines *every* polynomial that is not constant is extended wrongly. *)
Theorem C09_iff (p : hpoly F Coefficients) (e : nat) : wf_poly fp p ->
  (size (p_coeffs p) * 2 ^ e <= 2 ^ S)%N ->
  C09_statement fp w e p <->
  [\/ w = 1%N, (2 ^ e < 2 * w)%N | (size (poly_of (p_coeffs p)) <= 1)%N].
Proof.
move=> Hp; have [k [c [Ep Hc Hk]]] := wfE Hp.
have -> : (size (p_coeffs p) * 2 ^ e <= 2 ^ S)%N = (k + e <= S)%N.
  by rewrite Ep /= Hc -expnD leq_exp2l.
move=> HS; split=> [H|[Hc1|Hc2|Hsz]]; first last.
- case: (posnP e) => [E|He].
    apply: (C09_lde_partial Hok Hw Hp); right.
    by rewrite E expn0 (leq_trans (_ : 1 < 2 * 1)%N) // leq_mul2l.
  move: Hsz; rewrite Ep /C09_statement /= => Hsz.
  rewrite (lde_exact Hok Hw Hc Hk He) (coset_lde_exact Hok Hw Hc Hk He) Hc domain_new_mul HS /=.
  split; (eexists; first by []); split; try by [apply: wf_std => //; rewrite size_mkseq].
  + by rewrite /= -expnD; apply: eq_map => i; apply: constant_evals.
  + by rewrite /= -expnD; apply: eq_map => i; apply: constant_evals.
- by apply: (C09_lde_partial Hok Hw Hp); right.
- by apply: (C09_lde_partial Hok Hw Hp); left.
case: (boolP (lde_cpus_ok w (2 ^ e))) => [/orP [/eqP ->|->]|Hno]; [by constructor|by constructor|].
case: (posnP e) => [E|He].
  by move: Hno; rewrite E /lde_cpus_ok expn0 (leq_trans (_ : 1 < 2 * 1)%N) ?orbT // leq_mul2l.
move: Hno; rewrite /lde_cpus_ok negb_or -leqNgt => /andP [Hw1 Hf].
apply: Or33; move: H; rewrite Ep /C09_statement /= (lde_exact Hok Hw Hc Hk He) Hc domain_new_mul HS.
case=> -[v [<-] [_ /= Ev]] _.
set ch := get_chunk_size w (2 ^ e).
have Ech : ch = (2 ^ e %/ w)%N.
  by rewrite /ch /get_chunk_size ltnNge (leq_trans _ Hf) // leq_pmull.
have Hch : (2 <= ch)%N by rewrite Ech leq_divRL.
have Hche : (ch < 2 ^ e)%N.
  by rewrite Ech ltn_Pdiv // ?expn_gt0 // ltn_neqAle eq_sym Hw1.
apply: (@same_on_cosets c k e 1 1%N ch) => //; [exact: oner_neq0 | by rewrite Hch |].
move=> t Ht.
have Hi : (ch + 2 ^ e * t < 2 ^ (k + e))%N.
  rewrite expnD; apply: (@leq_trans (2 ^ e * t.+1)); first by rewrite mulnS ltn_add2r.
  by rewrite mulnC leq_mul2r Ht orbT.
have := congr1 (fun s => s`_(ch + 2 ^ e * t)) Ev; rewrite nth_mkseq // nth_evals -?expnD //.
have Em : ((ch + 2 ^ e * t) %% 2 ^ e = ch)%N by rewrite addnC mulnC modnMDl modn_small.
have Ed : ((ch + 2 ^ e * t) %/ 2 ^ e = t)%N by rewrite addnC mulnC divnMDl ?expn_gt0 // divn_small // addn0.
have Ei : 1 * dom_gen fp (k + e) ^+ (ch + 2 ^ e * t) = 1 * dom_gen fp (k + e) ^+ ch * dom_gen fp k ^+ t.
  by rewrite -(coset_index _ _ HS) Em Ed.
rewrite Ei Em Ed /coset_exp -/ch divnn modnn addn0 (ltn_trans _ Hch) //.
by rewrite !mul1r.
Qed.

(** C10: the variant used by the prover agrees with the filtering one in exactly these cases. *)
Theorem C10_iff (p : hpoly F Coefficients) (e : nat) : wf_poly fp p ->
  (size (p_coeffs p) * 2 ^ e <= 2 ^ S)%N ->
  (lde_using_multiple_cosets fp p w (2 ^ e) = filtering_lde fp p w (2 ^ e) /\
   coset_lde_using_multiple_cosets fp p w (2 ^ e) = coset_filtering_lde fp p w (2 ^ e)) <->
  [\/ w = 1%N, (2 ^ e < 2 * w)%N | (size (poly_of (p_coeffs p)) <= 1)%N].
Proof.
move=> Hp HS; rewrite -(C09_iff Hp HS); split=> [[E1 E2]|].
  rewrite /C09_statement /lde /coset_lde E1 E2.
  have := C08_filtering_lde Hok Hw e Hp; have := C08_coset_filtering_lde Hok Hw e Hp => /=.
  by case: (domain_new fp _).
have [k [c [Ep Hc Hk]]] := wfE Hp.
have HS' : (k + e <= S)%N by move: HS; rewrite Ep /= Hc -expnD leq_exp2l.
rewrite Ep (filtering_lde_std Hok Hw e Hc Hk) (coset_filtering_lde_std Hok Hw e Hc Hk) HS'.
rewrite /C09_statement /lde /coset_lde /= Hc domain_new_mul HS' /= => -[[u -> [Hu Eu]] [v -> [Hv Ev]]].
have std_of (t : hpoly F Values) s : wf_poly fp t -> p_coeffs t = s -> size s = (2 ^ (k + e))%N ->
    t = std fp Values (k + e) s.
  move=> /wf_inv [Et Hs _] Es Hss; move: Hs; rewrite Es Hss => /eqP; rewrite eqn_exp2l // => /eqP Ek.
  by rewrite Et -Ek Es.
by split; congr Ok; apply: std_of => //; rewrite ?size_evals // ?Eu ?Ev -expnD.
Qed.

(** * C15 *)
(** The loop of [from_roots] over the products of the chunks. *)
Definition roots_step (result_len : nat) (result : option (hpoly F Values)) (s : seq F) :=
  if size s == 0%N then Ok result
  else
    let* t := from_coeffs fp s in
    let factor := (result_len %/ p_size t)%N in
    let* t := lde fp t w factor in
    if result is Some res then let* r := mul_assign res w t in Ok (Some r)
    else Ok (Some t).

Section Roots.
Variable rs : seq F.
Let n := size rs.
Let K := up_log 2 n.+1.
Let ch := get_chunk_size w n.
Let nt := ceil_div n ch.
Hypotheses (Hn : (0 < n)%N) (HS : (K <= S)%N).

Lemma roots_ch : (0 < ch)%N. Proof. exact: chunk_size_gt0. Qed.

Lemma from_roots_loop : from_roots fp rs w =
  let* result := foldM (roots_step (2 ^ K)) None (mkseq (fun i => root_product (chunk_at ch rs i)) nt) in
  let* result := unwrap result in ifft result w.
Proof.
rewrite /from_roots addn1 domain_newE -/n -/K ltnNge HS /=.
have Hnt : get_num_spawned_threads w n = nt by apply: num_spawned_chunks.
rewrite -/ch Hnt.
have Hsc : size (chunks ch rs) = nt by rewrite size_chunks.
set st := map _ _.
have Est : st = mkseq (fun i => root_product (chunk_at ch rs i)) nt.
  have -> : st = map (@root_product F) (map fst (zip (chunks ch rs) (iota 0 nt))) by rewrite -map_comp.
  rewrite zip_iota_full //.
  by rewrite /chunks /mkseq -map_comp.
by rewrite Est size_mkseq subnn cats0.
Qed.

(** One chunk, on any number of CPUs. *)
Lemma roots_stepE m r : (m < nt)%N ->
  let s := chunk_at ch rs m in
  let kt := up_log 2 (size s).+1 in
  let c := resize 0 (2 ^ kt) (root_product s) in
  [/\ (kt <= K)%N, size c = (2 ^ kt)%N, poly_of c = roots_poly s &
  roots_step (2 ^ K) r (root_product s) =
    let* t := lde fp (std fp Coefficients kt c) w (2 ^ (K - kt)) in
    if r is Some res then let* r := mul_assign res w t in Ok (Some r) else Ok (Some t)].
Proof.
move=> Hm s kt c.
have Hcs : (0 < size s)%N.
  by rewrite /s size_chunk_at leq_min roots_ch /= subn_gt0; apply: (ceil_div_lt roots_ch).
have [Hrs Hrp] := root_productP Hcs.
have HktK : (kt <= K)%N.
  apply: leq_up_log; rewrite ltnS size_chunk_at.
  by apply: leq_trans (geq_minr _ _) (leq_subr _ _).
have Hc : size c = (2 ^ kt)%N by rewrite size_resize.
split=> //; first by rewrite poly_of_resize ?Hrs ?up_logP // Hrp.
rewrite /roots_step Hrs /= /from_coeffs (from_vecE Hok) Hrs -/kt ltnNge (leq_trans HktK HS) /=.
by rewrite /p_size /= -/c Hc div_pow2.
Qed.

Lemma roots_prefix m : (m < nt)%N ->
  (forall i, (i <= m)%N -> lde_cpus_ok w (2 ^ K %/ 2 ^ up_log 2 (size (chunk_at ch rs i)).+1)) ->
  foldM (roots_step (2 ^ K)) None (mkseq (fun i => root_product (chunk_at ch rs i)) m.+1) =
  Ok (Some (std fp Values K (evals (roots_poly (take (m.+1 * ch) rs)) 1 (dom_gen fp K) (2 ^ K)))).
Proof.
have Hstep i r : (i < nt)%N -> lde_cpus_ok w (2 ^ K %/ 2 ^ up_log 2 (size (chunk_at ch rs i)).+1) ->
  roots_step (2 ^ K) r (root_product (chunk_at ch rs i)) =
  let t := std fp Values K (evals (roots_poly (chunk_at ch rs i)) 1 (dom_gen fp K) (2 ^ K)) in
  if r is Some res then let* r := mul_assign res w t in Ok (Some r) else Ok (Some t).
  move=> Hi Hcpu; have [HktK Hc Hp ->] := roots_stepE r Hi.
  rewrite (lde_std Hok Hw) ?(leq_trans HktK HS) //; last by rewrite -div_pow2.
  by rewrite subnKC // HS /= Hp.
elim: m => [|m IH] Hm Hcpu.
  by rewrite /= Hstep ?Hcpu //= mul1n /chunk_at mul0n drop0.
rewrite /mkseq iotaSr map_rcons foldM_rcons -/(mkseq _ _) IH ?(ltnW Hm) //=; last first.
  by move=> i Hi; apply: Hcpu; apply: leqW.
rewrite Hstep ?Hcpu //= (mul_assign_evals _ Hw) /= /roots_poly.
by rewrite [in RHS]take_chunk big_cat.
Qed.
End Roots.

(** C15: if no root lies in the domain on which the factors are multiplied, the product is right
    exactly under the condition of [C15_from_roots_partial].  In particular there are wrong results
    for every size and number of CPUs that violate it (all roots zero, for instance). *)
Theorem C15_iff (roots : seq F) :
  let n := size roots in let r := (n %% (n %/ w))%N in
  (0 < n < 2 ^ S)%N -> (forall x, x \in roots -> x ^+ (2 ^ up_log 2 n.+1) != 1) ->
  C15_statement fp w roots <->
  [\/ w = 1%N, (n < w)%N, r = 0%N | (2 ^ up_log 2 n.+1 < 2 * w * 2 ^ up_log 2 r.+1)%N].
Proof.
move=> n r /andP [Hn HnS] Hroots; split=> [H|]; last exact: C15_from_roots_partial.
set K := up_log 2 n.+1 in Hroots *.
have HS : (K <= S)%N by apply: up_log_min.
case: (eqVneq w 1%N) => [->|Hw1]; first by constructor.
case: (ltnP n w) => Hnw; first by constructor.
case: (eqVneq r 0%N) => [->|Hr]; first by constructor.
apply: Or44; rewrite ltnNge; apply/negP => Hbad.
set ch := (n %/ w)%N in r Hr Hbad.
have Ech : get_chunk_size w n = ch by rewrite /get_chunk_size ltnNge Hnw.
have Hch : (0 < ch)%N by rewrite divn_gt0.
have Ent : ceil_div n ch = (n %/ ch).+1 by rewrite /ceil_div -/r Hr addn1.
set m := (n %/ ch)%N in Ent.
have Hm : (0 < m)%N by rewrite divn_gt0 // leq_div.
have En : n = (m * ch + r)%N by apply: divn_eq.
have Hrch : (r < ch)%N by rewrite ltn_mod.
have Hfull i : (i < m)%N -> size (chunk_at ch roots i) = ch.
  move=> Hi; rewrite size_chunk_at; apply/minn_idPl; rewrite -/n En.
  rewrite leq_subRL; last by apply: leq_trans (leq_addr _ _); rewrite leq_mul2r (ltnW Hi) orbT.
  by apply: leq_trans (leq_addr _ _); rewrite addnC -mulSn leq_mul2r Hi orbT.
have Hlast : size (chunk_at ch roots m) = r.
  by rewrite size_chunk_at -/n En addKn; apply/minn_idPr; apply: ltnW.
have Hcpu i : (i <= m.-1)%N -> lde_cpus_ok w (2 ^ K %/ 2 ^ up_log 2 (size (chunk_at ch roots i)).+1).
  move=> Hi; rewrite Hfull; last by rewrite -(prednK Hm) ltnS.
  have Hup : (2 ^ K <= 2 * n)%N.
    rewrite /K; case E: (up_log 2 n.+1) => [|K']; first by rewrite expn0 (leq_trans Hn) // leq_pmull.
    rewrite expnS leq_mul2l /= leqNgt; apply/negP => Hlt.
    by have := @up_log_min 2 n.+1 K' isT Hlt; rewrite E ltnn.
  rewrite /lde_cpus_ok; apply/orP; right; rewrite ltn_divLR ?expn_gt0 //.
  apply: leq_ltn_trans Hup _; rewrite -mulnA ltn_mul2l /=.
  apply: (@leq_trans (w * ch.+1)); first by rewrite mulnC -ltn_divLR.
  by rewrite leq_mul2l up_logP ?orbT.
have := from_roots_loop HS; rewrite Ech -/n -/K Ent /mkseq iotaSr map_rcons foldM_rcons.
have := @roots_prefix roots HS m.-1; rewrite Ech -/n -/K Ent prednK // => -> //.
rewrite /mkseq /=.
have := @roots_stepE roots HS m
  (Some (std fp Values K (evals (roots_poly (take (m * ch) roots)) 1 (dom_gen fp K) (2 ^ K)))).
rewrite Ech -/n -/K Ent => /(_ (ltnSn m)) /=; rewrite Hlast.
set kt := up_log 2 r.+1; set c := resize 0 _ _; case=> HktK Hc Hp ->.
have Hkt : (kt <= S)%N by apply: leq_trans HS.
have He : (0 < K - kt)%N.
  rewrite subn_gt0 -(@ltn_exp2l 2) //; apply: leq_trans Hbad; rewrite -/kt -{1}[(2 ^ kt)%N]mul1n.
  by rewrite ltn_mul2r expn_gt0 /= (leq_trans (_ : 1 < 2 * 1)%N) // leq_mul2l.
rewrite (lde_exact Hok Hw Hc Hkt He) subnKC // HS /=.
set V := mkseq _ _.
rewrite mul_assignE ?size_evals ?size_mkseq //= (ifft_std Hok Hw) //; last first.
  by rewrite size_map size_zip size_evals size_mkseq minnn.
set vals := map _ _ => Er.
have Hvs : size vals = (2 ^ K)%N by rewrite size_map size_zip size_evals size_mkseq minnn.
move: H; rewrite /C15_statement Er -/n; case: (n) Hn HnS => // n' _ HnS.
rewrite ltnNge HnS /= => -[_ [<-] [_ /= Ep]].
have Ev : evals (\prod_(x <- roots) ('X - x%:P)) 1 (dom_gen fp K) (2 ^ K) = vals.
  by rewrite -Ep ifft_vecK.
pose q := roots_poly (chunk_at ch roots m).
have Ea : \prod_(x <- roots) ('X - x%:P) = roots_poly (take (m * ch) roots) * q.
  rewrite -/(roots_poly roots) /q /chunk_at [take ch _]take_oversize; last first.
    by rewrite size_drop -/n En addKn ltnW.
  by rewrite /roots_poly -big_cat cat_take_drop.
have Hval i : (i < 2 ^ K)%N -> q.[dom_gen fp K ^+ i] = V`_i.
  move=> Hi; have := congr1 (fun s => s`_i) Ev.
  rewrite nth_evals // mul1r Ea hornerM /vals (nth_map (0, 0)) ?size_zip ?size_evals ?size_mkseq ?minnn //.
  rewrite nth_zip ?size_evals ?size_mkseq //= nth_evals // mul1r => /mulfI; apply.
  rewrite /roots_poly -rootE; apply/negP; rewrite root_prod_XsubC => /mem_take /Hroots.
  by rewrite exprAC (prim_expr_order (dom_prim Hok HS)) expr1n eqxx.
pose f := (2 ^ (K - kt))%N.
set ch' := get_chunk_size w f.
have Hf : (2 * w <= f)%N.
  by rewrite -(leq_pmul2r (_ : 0 < 2 ^ kt)%N) ?expn_gt0 // /f -expnD subnK.
have Ech' : ch' = (f %/ w)%N by rewrite /ch' /get_chunk_size ltnNge (leq_trans _ Hf) // leq_pmull.
have Hch' : (2 <= ch')%N by rewrite Ech' leq_divRL.
have Hche : (ch' < f)%N by rewrite Ech' ltn_Pdiv // ?expn_gt0 // ltn_neqAle eq_sym Hw1.
have EK : (kt + (K - kt) = K)%N by rewrite subnKC.
have HS' : (kt + (K - kt) <= S)%N by rewrite EK.
suff : (size (poly_of c) <= 1)%N by rewrite Hp roots_poly_size Hlast ltnS leqn0 (negbTE Hr).
apply: (@same_on_cosets c kt (K - kt) 1 1%N ch') => //; [exact: oner_neq0 | by rewrite Hch' |].
move=> t Ht.
have Hi : (ch' + f * t < 2 ^ K)%N.
  rewrite -EK expnD; apply: (@leq_trans (f * t.+1)); first by rewrite mulnS ltn_add2r.
  by rewrite mulnC leq_mul2r Ht orbT.
have Em : ((ch' + f * t) %% f = ch')%N by rewrite addnC mulnC modnMDl modn_small.
have Ed : ((ch' + f * t) %/ f = t)%N by rewrite addnC mulnC divnMDl ?expn_gt0 // divn_small // addn0.
have Ei : 1 * dom_gen fp (kt + (K - kt)) ^+ (ch' + f * t) =
  1 * dom_gen fp (kt + (K - kt)) ^+ ch' * dom_gen fp kt ^+ t.
  by rewrite -(coset_index _ _ HS') Em Ed.
rewrite -Ei EK !mul1r Hp (Hval _ Hi) /V nth_mkseq // -/f Em Ed /coset_exp -/ch' divnn modnn addn0 (ltn_trans _ Hch') //.
by rewrite Hp.
Qed.
End LdeExact.

(** Examples over the field with 257 elements: two CPUs and factor 4 get a constant right and the
    polynomial X wrong; the seven-fold root zero on two CPUs gives a wrong product. *)
Definition ex_const : hpoly F257 Coefficients := P_Poly.std f257 Coefficients 1 [:: 3%:R; 0].

Example C09_iff_ex :
  [/\ wf_poly f257 ex_const, wf_poly f257 ex_X, C09_statement f257 2 2 ex_const &
      ~ C09_statement f257 2 2 ex_X].
Proof.
have H : wf_poly f257 ex_const by apply: wf_std.
split; [exact: H | exact: ex_X_wf | | by case: C09_refuted].
apply: (proj2 (@C09_iff _ f257 2 f257_ok isT ex_const 2 H isT)); apply: Or33.
apply/leq_sizeP => j Hj; rewrite coef_poly_of; case: j Hj => [|[|j]] //= _; exact: nth_nil.
Qed.

Example C15_iff_ex : (forall x : F257, x \in nseq 7 0 -> x ^+ (2 ^ up_log 2 8) != 1) /\
  ~ C15_statement f257 2 (nseq 7 0) /\ C15_statement f257 3 (nseq 7 0).
Proof.
have H : forall x : F257, x \in nseq 7 0 -> x ^+ (2 ^ up_log 2 8) != 1.
  by move=> x /nseqP [-> _]; rewrite expr0n gtn_eqF ?expn_gt0 // eq_sym oner_neq0.
split=> //; split.
  by move=> /(proj1 (@C15_iff _ f257 2 f257_ok isT (nseq 7 0) isT H)); rewrite size_nseq; case.
apply: (proj2 (@C15_iff _ f257 3 f257_ok isT (nseq 7 0) isT H)).
by rewrite size_nseq; apply: Or44.
Qed.

Print Assumptions C09_exact.
Print Assumptions C09_iff.
Print Assumptions C10_iff.
Print Assumptions C15_iff.
