(** The value of the composition polynomial computed by the verifier. *)
From Coq Require Import NArith.
From mathcomp Require Import all_ssreflect all_algebra.
From Verif Require Import M_Base M_Worker M_Field M_Domain M_Fft M_Poly M_Bytes M_Transcript M_Air M_Arp M_Ali M_Verifier.
From Verif Require Import Spec SpecAir SpecStark P_Base P_Fft P_Domain P_Poly P_Lde P_PolyOps P_Air P_Arp.
From Verif Require Import P_Vals P_Maps P_Ali P_AliG.

Set Implicit Arguments.
Unset Strict Implicit.
Unset Printing Implicit Defensive.
Import GRing.Theory.
Local Open Scope ring_scope.

Section Gz.
Variables (F : fieldType) (fp : ff_params F).
Hypothesis Hok : ff_ok fp.
Notation S := (ff_S fp).
Variables (ps : seq {poly F}) (k : nat) (z : F).
Hypothesis Hk : (k <= S)%N.
Hypothesis Hz : z ^+ (2 ^ k) != 1.
Let G := dom_gen fp k.
Variable v : verifier F.
Let nr := ip_num_registers (v_instance v).
Let masks := v_all_masks v.
Let D := v_max_power v.
Hypothesis Hmasks : all (mask_ok nr) masks.
Hypothesis Hcol : v_column_domain v = dom fp k.

Definition opened_at (m : mask_properties F) : F := (column_poly ps m.1).[shifted m.2 z].

Lemma opened_env m : mask_ok nr m -> opened_at m = mask_env ps z m.1 m.2.
Proof. by case: m => [[?|r|?|?] [?|mk]]. Qed.

Definition opens (vals : openings F) (m : mask_properties F) : Prop :=
  if m.1 is Reg r then im_get (nth [::] vals r) m.2 = Some (opened_at m) else False.

Lemma opened_valuesP : exists vals, [/\ opened_values v (map opened_at masks) = Ok vals, size vals = nr &
  forall m, m \in masks -> opens vals m].
Proof.
rewrite /opened_values -/masks -/nr.
suff X : forall ms vals (done : seq (mask_properties F)), all (mask_ok nr) ms -> size vals = nr -> (forall m, m \in done -> opens vals m) ->
  exists vals', [/\ foldM (fun (vals : openings F) mf =>
      let: (m, f_at_z) := mf in
      let* _ := (if m.2 is Mask mk then Ok mk else Panic) in
      let* reg_num := reg_number m.1 in
      let* vs := get vals reg_num in
      Ok (set_nth [::] vals reg_num (im_insert vs m.2 f_at_z))) vals (zip ms (map opened_at ms)) = Ok vals',
    size vals' = nr & forall m, (m \in done) || (m \in ms) -> opens vals' m].
  have [|||vals [E Hs Ho]] := X masks (nseq nr [::]) [::] => //; first by rewrite size_nseq.
  by exists vals; split=> // m Hm; apply: Ho; rewrite Hm orbT.
elim=> [|m ms IH] vals dn Hm Hs Hd.
  by exists vals; split=> // m; rewrite orbF => /Hd.
move: Hm => /andP [Hm Hms]; rewrite [map _ _]/= [zip _ _]/= foldM_cons.
case: m Hm => [[?|r|?|?] [?|mk]] // Hr; rewrite /mask_ok /= in Hr.
rewrite [(_, _).1]/= [(_, _).2]/= bind_ok [reg_number _]/= bind_ok (get_nth [::]) ?Hs // !bind_ok.
set vals1 := set_nth _ _ _ _.
have Hs1 : size vals1 = nr by rewrite size_set_nth Hs; apply/maxn_idPr.
have [|vals2 [E Hs2 Ho]] := IH vals1 ((Reg r, Mask mk) :: dn) Hms Hs1.
  move=> m; rewrite in_cons /opens => /orP [/eqP ->|Hdm].
    by rewrite /= nth_set_nth /= eqxx im_get_insert eqxx.
  have := Hd m Hdm; rewrite /opens; case: m {Hdm} => [[?|r'|?|?] s'] //=.
  rewrite nth_set_nth /=; case: eqP => [->|] //; rewrite im_get_insert; case: eqP => [<- _|] //.
exists vals2; split=> // m Hm; apply: Ho; move: Hm; rewrite !in_cons.
by case: (m == _) => //=; rewrite orbT.
Qed.

Section Values.
Variable vals : openings F.
Hypothesis Hvals : size vals = nr.
Hypothesis Hopen : forall m, m \in masks -> opens vals m.

Lemma eval_uni_at_zP u : uni_mask u \in masks -> eval_uni_at_z vals u = Ok (uval (mask_env ps z) u).
Proof.
move=> Hu; have Hm := allP Hmasks _ Hu; have := Hopen Hu; rewrite /opens /eval_uni_at_z /uval.
rewrite (opened_env Hm); move: Hm; rewrite /mask_ok /=.
case: (ut_register u) => // r; case: (ut_steps u) => // mk Hr E.
rewrite [reg_number _]/= bind_ok (get_nth [::]) ?Hvals // bind_ok E [ok_or _]/= bind_ok.
by rewrite mulrC.
Qed.

Lemma eval_term_at_zP t : all (fun u => uni_mask u \in masks) (t_unis t) ->
  eval_term_at_z vals t = Ok (SpecAir.tval (mask_env ps z) t).
Proof.
case: t => [u|p]; first by rewrite /= andbT => Hu; rewrite eval_uni_at_zP.
rewrite /= => Hp; rewrite /pval.
have -> : foldM (fun result u => let* v0 := eval_uni_at_z vals u in Ok (result * v0)) 1 (pt_terms p) =
    Ok (1 * \prod_(u <- pt_terms p) uval (mask_env ps z) u); last by rewrite bind_ok mul1r mulrC.
move: {1 2}(1 : F) => s; elim: (pt_terms p) Hp s => [|u us IH] Hp s; first by rewrite big_nil mulr1.
move: Hp => /andP [Hu Hus]; rewrite foldM_cons eval_uni_at_zP // !bind_ok IH // big_cons mulrA //.
Qed.

Lemma eval_constraint_at_zP c : all (fun u => uni_mask u \in masks) (c_unis c) ->
  eval_constraint_at_z vals c = Ok (cval (mask_env ps z) c).
Proof.
rewrite /eval_constraint_at_z /cval; move: (c_constant_term c) => s.
rewrite /c_unis; elim: (c_terms c) s => [|t ts IH] s; first by rewrite big_nil addr0.
rewrite [flatten _]/= all_cat => /andP [Ht Hts]; rewrite foldM_cons eval_term_at_zP // !bind_ok IH //.
by rewrite big_cons addrA.
Qed.

Lemma adjust_atE deg (ab : F * F) x : adjust_at z (D - deg) ab.1 ab.2 x = x * (weight D deg ab).[z].
Proof.
rewrite /adjust_at /weight; case: ifP => _; first by rewrite hornerC.
by rewrite hornerD hornerZ hornerXn hornerC [ab.1 * _]mulrC.
Qed.

Definition db_fit (db : density * seq (constraint F)) : bool :=
  all (fun c => [&& (c_degree c <= D)%N, all (fun u => uni_mask u \in masks) (c_unis c) & c_density c == db.1]) db.2 &&
  (if db.1 is Dense s sp then (s + sp <= 2 ^ k)%N else false).

Definition cterm (cab : constraint F * (F * F)) : F :=
  cval (mask_env ps z) cab.1 * (weight D (c_degree cab.1) cab.2).[z] * (density_divisor G (2 ^ k) (c_density cab.1)).[z]^-1.

Hypothesis Hrows : ip_num_rows (v_instance v) = (2 ^ k)%N.

Lemma g_at_z_batchP db g chs rest : db_fit db -> size chs = size db.2 ->
  g_at_z_batch v vals z (g, chs ++ rest) db = Ok (g + \sum_(cab <- zip db.2 chs) cterm cab, rest).
Proof.
case: db => [dn cs]; rewrite /db_fit /g_at_z_batch ![(_, _).1]/= ![(_, _).2]/=.
case: dn => [s sp|? ? ?|?]; rewrite ?andbF // => /andP [Hcs Hdn] Hsz.
rewrite Hcol Hrows (inverse_divisor_atE Hok) // (_ : (s + sp <= 2 ^ k)%N) // (negbTE Hz) !bind_ok -/G.
elim: cs chs Hsz Hcs g => [|c cs IH] [|ab chs] // Hsz Hcs g; first by rewrite /= big_nil addr0.
move: Hcs => /andP [/and3P [Hd Hu Hdn2] Hcs]; case: Hsz => Hsz.
rewrite foldM_cons -/D Hd cat_cons; case: ab => alpha beta.
rewrite eval_constraint_at_zP // !bind_ok IH // [zip _ _]/= big_cons addrA; congr (Ok (_ + _ + _, _)).
by rewrite (adjust_atE _ (alpha, beta)) /cterm /= (eqP Hdn2).
Qed.

Lemma g_at_z_batchesP dbs g chs : all db_fit dbs -> size chs = size (flatten (map snd dbs)) ->
  foldM (g_at_z_batch v vals z) (g, chs) dbs =
  Ok (g + \sum_(cab <- zip (flatten (map snd dbs)) chs) cterm cab, [::]).
Proof.
elim: dbs g chs => [|db dbs IH] g chs.
  by move=> _ /size0nil -> /=; rewrite big_nil addr0.
case/andP => Hdb Hdbs; rewrite [flatten _]/= size_cat => Hsz.
rewrite foldM_cons -{1}(cat_take_drop (size db.2) chs).
have Ht : size (take (size db.2) chs) = size db.2 by rewrite size_takel // Hsz leq_addr.
rewrite g_at_z_batchP // bind_ok IH //; last by rewrite size_drop Hsz addKn.
rewrite -[in RHS](cat_take_drop (size db.2) chs) zip_cat // big_cat /= addrA //.
Qed.

Definition bterm (bab : boundary_constraint F * (F * F)) : F :=
  (mask_env ps z (b_register bab.1) (Mask 1) - (if b_value bab.1 is Some v then v else 0)) *
  (weight D 1 bab.2).[z] * (z - G ^+ b_at_row bab.1)^-1.

Lemma z_row row : z - G ^+ row != 0.
Proof.
rewrite subr_eq0; apply: contraNneq Hz => ->; rewrite -exprM mulnC exprM.
by rewrite (prim_expr_order (dom_gen_prim Hok Hk)) expr1n.
Qed.

Lemma g_at_z_boundariesP bs g chs : (0 < D)%N ->
  all (fun b => ((b_register b, Mask 1) \in masks) && (b_value b != None)) bs -> size chs = size bs ->
  foldM (g_at_z_boundary v vals z) (g, chs) bs = Ok (g + \sum_(bab <- zip bs chs) bterm bab, [::]).
Proof.
move=> HD; elim: bs chs g => [|b bs IH] [|ab chs] g //; first by rewrite /= big_nil addr0.
case/andP => /andP [Hm Hb] Hbs [Hsz]; rewrite foldM_cons {1}/g_at_z_boundary -/D /usub HD bind_ok.
have Hm1 := allP Hmasks _ Hm; have := Hopen Hm; rewrite /opens (opened_env Hm1).
case: b Hm1 Hb Hm => [[?|r|?|?] row [x|]] // Hr _ _ E; rewrite /mask_ok /= in Hr E.
case: ab => alpha beta.
rewrite [reg_number _]/= bind_ok (get_nth [::]) ?Hvals // bind_ok E [ok_or _]/= bind_ok [ok_or _]/= bind_ok.
rewrite Hcol [d_gen _]/= -/G [b_at_row _]/= inverse_neq0 ?z_row // [ok_or _]/= !bind_ok IH // [zip _ _]/= big_cons addrA.
by congr (Ok (_ + _ + _, _)); rewrite (adjust_atE 1 (alpha, beta)) /bterm /=.
Qed.
End Values.

Lemma calculate_g_at_zP chs bchs : (0 < D)%N -> ip_num_rows (v_instance v) = (2 ^ k)%N ->
  all db_fit (v_batches v) ->
  all (fun b => ((b_register b, Mask 1) \in masks) && (b_value b != None)) (ip_boundary_constraints (v_instance v)) ->
  size chs = size (flatten (map snd (v_batches v))) -> size bchs = size (ip_boundary_constraints (v_instance v)) ->
  calculate_g_at_z v chs bchs (map opened_at masks) z =
  Ok (\sum_(cab <- zip (flatten (map snd (v_batches v))) chs) cterm cab +
      \sum_(bab <- zip (ip_boundary_constraints (v_instance v)) bchs) bterm bab).
Proof.
move=> HD Hrows Hdb Hbs Hs1 Hs2; have [vals [E Hs Ho]] := opened_valuesP.
rewrite /calculate_g_at_z E bind_ok (g_at_z_batchesP Hs Ho Hrows _ Hdb Hs1) bind_ok.
by rewrite (g_at_z_boundariesP Hs Ho _ HD Hbs Hs2) bind_ok add0r.
Qed.
End Gz.
