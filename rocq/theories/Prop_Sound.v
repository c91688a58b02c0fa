(** Property C56: soundness of the check that the verifier makes on the
    composition polynomial. *)
From Coq Require Import NArith.
From mathcomp Require Import all_ssreflect all_algebra.
From Verif Require Import M_Base M_Worker M_Field M_Domain M_Fft M_Poly M_Bytes M_Transcript M_Merkle M_Fri.
From Verif Require Import M_Challenge M_Air M_Arp M_Ali M_Verifier M_Prover.
From Verif Require Import Spec SpecPoly SpecFri SpecAir SpecStark SpecSound P_Base P_Fft P_Domain P_Poly P_Lde P_PolyOps P_Wf P_Bytes P_Merkle P_Fri P_Air P_Arp.
From Verif Require Import P_Vals P_Maps P_Ali P_AliG P_Comp P_Honest P_Gz P_Deep P_Stark P_Sound.
From Verif Require Import Instances Prop_Hash Prop_Fri Prop_Air Prop_Arp Prop_Ali.

Set Implicit Arguments.
Unset Strict Implicit.
Unset Printing Implicit Defensive.
Import GRing.Theory.
Local Open Scope ring_scope.

Section Batch.
Variable F : fieldType.

(** Masking does not change the batches. *)
Lemma in_batches_map (f : constraint F -> constraint F) cs : (forall c, c_density (f c) = c_density c) ->
  flatten [seq db.2 | db <- batch_by_density (map f cs)] = map f (flatten [seq db.2 | db <- batch_by_density cs]).
Proof.
move=> Hf; pose m (s : seq (density * seq (constraint F))) := [seq (db.1, map f db.2) | db <- s].
suff E : batch_by_density (map f cs) = m (batch_by_density cs).
  rewrite E /m -map_comp map_flatten -map_comp; congr flatten; exact: eq_map.
rewrite /batch_by_density -[X in foldl _ X (map f cs)]/(m [::]).
elim: cs [::] => //= c cs IH b; rewrite -IH; congr foldl.
elim: b => [|[dn b] bs IHb] /=; first by rewrite Hf.
rewrite Hf; case: ifP => _ /=; first by rewrite map_rcons.
by rewrite IHb.
Qed.
End Batch.

Lemma size_in_batches (F : fieldType) (p : instance_properties F) : size (in_batches p) = size (ip_constraints p).
Proof.
rewrite /in_batches /batch_by_density -[RHS]add0n -[0%N]/(size (flatten [seq db.2 | db <- ([::] : seq (density * seq (constraint F)))])).
elim: (ip_constraints p) [::] => [|c s IH] m; first by rewrite addn0.
rewrite [foldl _ _ _]/= IH addnS -addSn; congr (_ + _)%N.
elim: m => [|[dn b] m IHm] //=; case: ifP => _ /=; first by rewrite !size_cat size_rcons.
by rewrite !size_cat IHm addnS.
Qed.

Section C56.
Variables (F : fieldType) (fp : ff_params F).
Hypothesis Hok : ff_ok fp.

(** The values of the columns that the verifier asks for at [z]. *)
Definition true_openings (v : verifier F) (ws : seq (hpoly F Coefficients)) (z : F) : seq F :=
  [seq (column_poly (polys_of ws) m.1).[shifted m.2 z] | m <- v_all_masks v].

(** The prover who committed to the columns [ws] can answer the verifier: with
    [n] rows and maximal degree [D] there is a polynomial [g] of degree below
    [D*n] whose value is the one that the verifier computes from the openings, at
    [(D+1)*n] points [z] outside of the trace domain. *)
Definition answers (props : instance_properties F) (v : verifier F) (ws : seq (hpoly F Coefficients))
    (chs bchs : seq (F * F)) : Prop :=
  let n := ip_num_rows props in let D := \max_(c <- ip_constraints props) c_degree c in
  exists (g : {poly F}) (zs : seq F), [/\ (size g <= D * n)%N, uniq zs, (D.+1 * n <= size zs)%N &
    forall z, z \in zs -> z ^+ n != 1 /\ calculate_g_at_z v chs bchs (true_openings v ws z) z = Ok g.[z]].

(** The same for polynomials [ps] in the place of the columns, with [e] more for the
    degree of [g] and for the number of points. *)
Definition answers_of (e : nat) (props : instance_properties F) (v : verifier F) (ps : seq {poly F})
    (chs bchs : seq (F * F)) : Prop :=
  let n := ip_num_rows props in let D := \max_(c <- ip_constraints props) c_degree c in
  exists (g : {poly F}) (zs : seq F), [/\ (size g <= D * n + e)%N, uniq zs, (D.+1 * n + e <= size zs)%N &
    forall z, z \in zs -> z ^+ n != 1 /\
      calculate_g_at_z v chs bchs [seq (column_poly ps m.1).[shifted m.2 z] | m <- v_all_masks v] z = Ok g.[z]].

Lemma answersE props v ws chs bchs : answers props v ws chs bchs -> answers_of 0 props v (polys_of ws) chs bchs.
Proof. by case=> g [zs [Hg Hu Hz He]]; exists g, zs; rewrite !addn0; split. Qed.

Section Setup.
Variables (w : worker) (lde : nat) (props props' : instance_properties F) (trace : seq (seq F)).
Variables (ws : seq (hpoly F Coefficients)) (v : verifier F).
Hypothesis Hw : (0 < w)%N.
Hypothesis Hsup : supported_but_density props.
Hypothesis Hfit : ranges_fit props.
Hypothesis Hinst : from_instance fp props = Ok props'.
Hypothesis Hws : calculate_witness_polys fp props' w trace = Ok ws.
Hypothesis Hv : verifier_new fp props lde = Ok v.

Let n := ip_num_rows props.
Let D := \max_(c <- ip_constraints props) c_degree c.
Let G := d_gen (v_column_domain v).
(** Polynomials of degree below n + e that take the values of the trace. *)
Variables (e : nat) (ps : seq {poly F}).
Hypothesis He : (e <= 1)%N.
Hypothesis Hsps : size ps = size trace.
Hypothesis Hps : all (fun p : {poly F} => size p <= n + e)%N ps.
Hypothesis Hval : forall r i, (r < size trace)%N -> (i < n)%N -> (nth 0 ps r).[G ^+ i] = (nth [::] trace r)`_i.
Let Z : {poly F} := 'X^n - 1.

Definition citem (c : constraint F) : item F :=
  Item (cpoly ps c) (density_divisor G n (c_density c)) (Z %/ density_divisor G n (c_density c)) (c_degree c).
Definition bitem (b : boundary_constraint F) : item F :=
  Item (boundary_poly ps b) ('X - (G ^+ b_at_row b)%:P) (Z %/ ('X - (G ^+ b_at_row b)%:P)) 1.
Let items := map citem (in_batches props') ++ map bitem (ip_boundary_constraints props').


Lemma setup : exists k d, let wc := [seq ifft_vec fp k t | t <- trace] in
  [/\ honest fp props props' trace k d wc, all (fun t => size t == (2 ^ k)%N) trace,
      G = dom_gen fp k & [/\ n = (2 ^ k)%N, D = (2 ^ d)%N & (1 < n)%N]].
Proof.
have [k [d [HH Hall Ews]]] := honest_setup Hok Hw Hsup Hinst Hws; exists k, d => wc.
have H1 : (1 < n)%N by have /and5P [] := Hsup.
split=> //; last by split; [exact: (hn_rows HH) | exact: (hn_max HH) |].
rewrite /G; move: Hinst Hv; rewrite from_instanceE verifier_newE (hn_rows HH) up_expnK //.
by case: ltnP => // _; case: ifP => // _ [_]; case: ltnP => // _ [<-].
Qed.

Lemma batches' : in_batches props' = map (mask_constraint G) (in_batches props).
Proof.
have [k [d [HH _ EG _]]] := setup.
by rewrite /in_batches (hn_props' HH) /= -EG in_batches_map.
Qed.

Lemma G_prim : n.-primitive_root G.
Proof. by have [k [d [HH _ -> [-> _ _]]]] := setup; apply: (honest_prim Hok HH). Qed.

Lemma G_root i : root Z (G ^+ i).
Proof. by rewrite rootE !hornerE hornerXn -exprM mulnC exprM (prim_expr_order G_prim) expr1n subrr. Qed.

Lemma boundaries' : ip_boundary_constraints props' = ip_boundary_constraints props.
Proof. by have [k [d [HH _ _ _]]] := setup; rewrite (hn_props' HH). Qed.

Lemma in_fit j : (j < size (in_batches props'))%N -> let c := nth c_default (in_batches props') j in
  [/\ (if c_density c is Dense s sp then (s + sp <= n)%N else false) : bool, (c_degree c <= D)%N & (cdeg c <= c_degree c)%N].
Proof.
move=> Hj c; have [k [d [HH Hall EG [En ED H1]]]] := setup.
have H3 : all (fun c => [&& (if c_density c is Dense s sp then (s + sp <= n)%N else false), (c_degree c <= D)%N &
    (cdeg c <= c_degree c)%N]) (ip_constraints props').
  apply: all_and3.
  - by rewrite (hn_props' HH) /= all_map; apply: sub_all Hfit => c'.
  - by rewrite ED -(honest_maxdeg HH) max_degree_all.
  - by apply: sub_all (hn_fit HH) => c' /andP [].
move: H3; rewrite -all_batches -/(in_batches props') => H3.
by have /and3P [X Y U] := all_nthP c_default H3 j Hj; split.
Qed.

Lemma items_split i : (i < size items)%N -> it_div (nth (@item0 F) items i) * it_cof (nth (@item0 F) items i) = Z.
Proof.
rewrite /items size_cat !size_map => Hi; rewrite nth_cat size_map; case: ltnP => Hlt.
  rewrite (nth_map c_default) // /citem /=; set c := nth _ _ _.
  have [Hd _ _] := in_fit Hlt; rewrite -/c in Hd.
  rewrite mulrC divpK //; case: (c_density c) Hd => // s sp Hs /=.
  by rewrite /Z -(divisor_split G_prim (leqnn _) Hs) dvdp_mulIl.
rewrite (nth_map (Boundary (Reg 0) 0 None)) ?ltn_subLR // /bitem /=.
by rewrite mulrC divpK // dvdp_XsubCl G_root.
Qed.

Lemma size_items : size items = (size (in_batches props') + size (ip_boundary_constraints props'))%N.
Proof. by rewrite /items size_cat !size_map. Qed.

Lemma zip_map_l A B C (f : A -> B) (s : seq A) (t : seq C) : zip (map f s) t = [seq (f x.1, x.2) | x <- zip s t].
Proof. by elim: s t => [|a s IH] [|c t] //=; rewrite IH. Qed.

Lemma comb_items chs bchs z : size chs = size (in_batches props') ->
  comb_at D items (chs ++ bchs) z = quotients_at props props' G ps chs bchs z.
Proof.
move=> Hs; rewrite /comb_at /items zip_cat ?size_map // big_cat !zip_map_l !big_map /=; congr (_ + _).
by apply: eq_bigr => x _; rewrite hornerXsubC.
Qed.

Lemma bound_ce deg : (0 < D)%N -> (1 < n)%N -> (deg <= D)%N -> ((D - deg) + deg * (n + e).-1 < D * n + e)%N.
Proof.
case: e He => [|[|//]] _ HD Hn Hd; first by rewrite !addn0; apply: bound_c.
rewrite addn1 [_.-1]/= addn1 ltnS -{2}(subnK Hd) mulnDl leq_add2r leq_pmulr //; exact: ltnW.
Qed.

Lemma bound_be : (0 < D)%N -> (1 < n)%N -> ((D - 1) + (n + e).-1 < D * n + e)%N.
Proof. by move=> HD Hn; have := bound_ce HD Hn HD; rewrite mul1n. Qed.

Lemma items_size j chs : (j < size items)%N ->
  (size (it_num (nth (@item0 F) items j) * weight D (it_deg (nth (@item0 F) items j)) (nth (0, 0) chs j) *
     it_cof (nth (@item0 F) items j))%R <= D.+1 * n + e)%N.
Proof.
have [k [d [HH Hall EG [En ED H1]]]] := setup; have Hn : (0 < n)%N := ltnW H1.
have HD : (0 < D)%N by rewrite ED expn_gt0.
have Hne : (0 < n + e)%N by rewrite addn_gt0 Hn.
have HZ (q : {poly F}) : (size (Z %/ q)%R <= n.+1)%N.
  apply: leq_trans (leq_divp _ _) _; rewrite /Z; apply: leq_trans (size_add _ _) _.
  by rewrite size_opp size_polyXn size_poly1 geq_max leqnn.
have fin (p q r : {poly F}) a b : (size p <= a.+1)%N -> (size q <= b.+1)%N -> (size r <= n.+1)%N -> (b + a < D * n + e)%N ->
    (size (p * q * r)%R <= D.+1 * n + e)%N.
  move=> Hp Hq Hr Hb; apply: leq_trans (size_mul_le (size_mul_le Hp Hq) Hr) _.
  have -> : (D.+1 * n + e = D * n + e + n)%N by rewrite mulSn -addnA addnC.
  by rewrite ltn_add2r addnC.
rewrite /items size_cat !size_map => Hj; rewrite nth_cat size_map; case: ltnP => Hlt.
  rewrite (nth_map c_default) // /citem; set c := nth _ _ _; rewrite [it_num _]/= [it_deg _]/= [it_cof _]/=.
  have [_ Hdeg Hc] := in_fit Hlt; rewrite -/c in Hdeg Hc.
  apply: fin (size_weight _ _ _) (HZ _) (bound_ce HD H1 Hdeg).
  apply: leq_trans (size_cpolyN Hne Hps c) _; by rewrite ltnS leq_mul2r Hc orbT.
rewrite (nth_map (Boundary (Reg 0) 0 None)) ?ltn_subLR // /bitem [it_num _]/= [it_deg _]/= [it_cof _]/=.
apply: fin (size_weight _ _ _) (HZ _) (bound_be HD H1).
rewrite prednK // /boundary_poly; apply: leq_trans (size_add _ _) _.
by rewrite geq_max (size_mask_polyN Hne Hps) size_opp (leq_trans (size_polyC_leq1 _)).
Qed.

Lemma with_alphaL chs bchs j a : (j < size chs)%N -> with_alpha chs j a ++ bchs = with_alpha (chs ++ bchs) j a :> seq (F * F).
Proof.
move=> Hj; apply: (@eq_from_nth _ (0, 0)) => [|i Hi].
  by rewrite size_cat !size_set_nth size_cat !(maxn_idPr _) // (leq_trans Hj) ?leq_addr.
rewrite nth_cat !nth_set_nth /= !nth_cat !size_set_nth (maxn_idPr Hj) Hj; case: eqP => [->|//]; by rewrite Hj.
Qed.

Lemma with_alphaR chs bchs j a : (j < size bchs)%N ->
  chs ++ with_alpha bchs j a = with_alpha (chs ++ bchs) (size chs + j) a :> seq (F * F).
Proof.
move=> Hj; apply: (@eq_from_nth _ (0, 0)) => [|i Hi].
  by rewrite size_cat !size_set_nth size_cat !(maxn_idPr _) // ltn_add2l.
rewrite /with_alpha nth_cat !nth_set_nth /= !nth_cat addKn [(_ + _ < _)%N]ltnNge leq_addr /=.
case: ltnP => Hlt; first by case: eqP => // E; move: Hlt; rewrite E ltnNge leq_addr.
by rewrite -[i in RHS](subnKC Hlt) eqn_add2l addKn.
Qed.

Lemma answers_poly chs bchs : size chs = size (ip_constraints props) -> size bchs = size (ip_boundary_constraints props) ->
  answers_of e props v ps chs bchs -> exists g, g * Z = comb_poly D items (chs ++ bchs).
Proof.
move=> Hs Hb [g [zs [Hg Hu Hz Hgz]]].
have [k [d [HH Hall EG [En ED H1]]]] := setup.
have Ec : size (ip_constraints props') = size (ip_constraints props) by rewrite (hn_props' HH) /= size_map.
have Eb : size (ip_boundary_constraints props') = size (ip_boundary_constraints props) by rewrite boundaries'.
have Es : size chs = size (in_batches props') by rewrite size_in_batches Ec.
apply: (@agrees_comb _ Z D items items_split (D * n + e) (D.+1 * n + e)).
- by rewrite size_items size_cat Es Hb Eb.
- by rewrite /Z size_Xn_sub_1 ?(ltnW H1) //= mulSn addnC addnA.
- by move=> i; apply: items_size.
exists g, zs; split=> // z /Hgz [Hz1 E]; split.
  by rewrite /Z !hornerE hornerXn subr_eq0.
move: E; rewrite (verifier_value Hok Hw Hsup Hfit Hinst Hws Hv) ?Ec ?Eb // => -[<-].
exact: comb_items.
Qed.

(** A constraint of the instance holds in a row from which it reads only cells
    of the trace. *)
Lemma row_value c i : (i < n)%N -> c_in_trace trace i c ->
  (cpoly ps (mask_constraint G c)).[G ^+ i] = cval (row_env trace i) c.
Proof.
move=> Hi Hin; have [k [d [HH Hall EG [En ED H1]]]] := setup; rewrite cpolyE.
apply: (@mask_cval_eq _ _ _ _ _ (u_in_trace trace i)); last by rewrite -c_in_trace_unis.
move=> u; rewrite /u_in_trace /uval /=; case: (ut_register u) => // r.
case: (ut_steps u) => // st /andP [Hr Hst]; congr (_ * _ ^+ _).
have Hsz : size (nth [::] trace r) = (2 ^ k)%N by apply/eqP; apply: (all_nthP [::] Hall).
by rewrite /= -exprD addnC Hval // En -Hsz.
Qed.

Lemma G_neq0 i : G ^+ i != 0.
Proof.
apply/eqP => E; have := G_root i; rewrite E rootE !hornerE hornerXn expr0n gtn_eqF ?(prim_order_gt0 G_prim) //.
by rewrite sub0r oppr_eq0 oner_eq0.
Qed.

Lemma Z_neq0 : Z != 0.
Proof. by rewrite -size_poly_gt0 size_Xn_sub_1 // (prim_order_gt0 G_prim). Qed.

Lemma size_with_alpha chs j a : (j < size chs)%N -> size (with_alpha chs j a : seq (F * F)) = size chs.
Proof. by move=> Hj; rewrite size_set_nth (maxn_idPr Hj). Qed.

Lemma divides_root (q p : {poly F}) (x : F) b : q %| 'X^b * p -> root q x -> x != 0 -> p.[x] = 0.
Proof.
move=> Hd Hq Hx; have : root ('X^b * p) x by rewrite -dvdp_XsubCl (dvdp_trans _ Hd) // dvdp_XsubCl.
by rewrite rootE hornerM hornerXn mulf_eq0 expf_eq0 (negbTE Hx) andbF /= => /eqP.
Qed.

Lemma constraint_sound chs bchs j a a' : size chs = size (ip_constraints props) ->
  size bchs = size (ip_boundary_constraints props) -> (j < size (ip_constraints props))%N -> a != a' ->
  answers_of e props v ps (with_alpha chs j a) bchs -> answers_of e props v ps (with_alpha chs j a') bchs ->
  let c := nth c_default (in_batches props) j in
  exists s sp, c_density c = Dense s sp /\
    forall i, dense_row s sp n i -> c_in_trace trace i c -> cval (row_env trace i) c = 0.
Proof.
move=> Hs Hb Hj Ha A A' c; rewrite -Hs in Hj.
have [g E] := answers_poly (etrans (size_with_alpha a Hj) Hs) Hb A.
have [g' E'] := answers_poly (etrans (size_with_alpha a' Hj) Hs) Hb A'.
rewrite !with_alphaL // in E E'.
have Hsb : size (in_batches props') = size chs by rewrite batches' size_map size_in_batches.
have Hji : (j < size items)%N by rewrite size_items Hsb ltn_addr.
have Hsi : size (chs ++ bchs) = size items by rewrite size_items Hsb size_cat Hb boundaries'.
have := two_alphas items_split Hji Hsi Z_neq0 Ha E E'.
rewrite /items nth_cat size_map Hsb Hj (nth_map c_default) ?Hsb // /citem [it_div _]/= [it_num _]/= [it_deg _]/=.
have [] := in_fit (_ : j < size (in_batches props'))%N; first by rewrite Hsb.
rewrite batches' (nth_map c_default) ?size_in_batches -?Hs // -/c [c_density _]/= [c_degree _]/=.
case: (c_density c) => // s sp Hsp _ _ Hdvd; exists s, sp; split=> // i Hi Hin.
have Hin' : (i < n)%N by case/andP: Hi => _; apply: leq_ltn_trans; apply: leq_addr.
rewrite -row_value //; apply: divides_root Hdvd _ (G_neq0 i).
rewrite /= /divisor rootE horner_prod prodf_seq_eq0; apply/hasP; exists i; first by rewrite mem_iota.
by rewrite Hi hornerXsubC subrr eqxx.
Qed.


Lemma boundary_sound chs bchs j a a' : size chs = size (ip_constraints props) ->
  size bchs = size (ip_boundary_constraints props) -> (j < size (ip_boundary_constraints props))%N -> a != a' ->
  answers_of e props v ps chs (with_alpha bchs j a) -> answers_of e props v ps chs (with_alpha bchs j a') ->
  let b := nth (Boundary (Reg 0) 0 None) (ip_boundary_constraints props) j in
  exists r x, [/\ b_register b = Reg r, b_value b = Some x, (r < size trace)%N &
    (nth [::] trace r)`_(b_at_row b %% n) = x].
Proof.
move=> Hs Hb Hj Ha A A' b; rewrite -Hb in Hj.
have [g E] := answers_poly Hs (etrans (size_with_alpha a Hj) Hb) A.
have [g' E'] := answers_poly Hs (etrans (size_with_alpha a' Hj) Hb) A'.
rewrite !with_alphaR // in E E'.
have Hsb : size (in_batches props') = size chs by rewrite batches' size_map size_in_batches.
have Hji : (size chs + j < size items)%N by rewrite size_items Hsb ltn_add2l boundaries' -Hb.
have Hsi : size (chs ++ bchs) = size items by rewrite size_items Hsb size_cat Hb boundaries'.
have := two_alphas items_split Hji Hsi Z_neq0 Ha E E'.
rewrite /items nth_cat size_map Hsb ltnNge leq_addr /= addKn (nth_map (Boundary (Reg 0) 0 None)) ?boundaries' -?Hb //.
rewrite -/b /bitem [it_div _]/= [it_num _]/= [it_deg _]/= => Hdvd.
have [k [d [HH Hall EG [En ED H1]]]] := setup.
have := divides_root Hdvd (_ : root ('X - (G ^+ b_at_row b)%:P) (G ^+ b_at_row b)) (G_neq0 _).
rewrite rootE hornerXsubC subrr eqxx => /(_ isT).
have := all_nthP (Boundary (Reg 0) 0 None) (hn_bfit HH) j; rewrite -Hb -/b => /(_ Hj).
rewrite boundary_polyE; case: (b_register b) => // r; case: (b_value b) => [x|]; last by rewrite andbF.
rewrite size_map andbT /= => Hr /eqP; rewrite subr_eq0 mul1r => /eqP E1; exists r, x; split=> //.
rewrite -E1 -(prim_expr_mod G_prim) Hval //.
by rewrite ltn_mod ltnW.
Qed.

End Setup.

Section Honest.
Variables (w : worker) (lde : nat) (props props' : instance_properties F) (trace : seq (seq F)).
Variables (ws : seq (hpoly F Coefficients)) (v : verifier F).
Hypothesis Hw : (0 < w)%N.
Hypothesis Hsup : supported_but_density props.
Hypothesis Hfit : ranges_fit props.
Hypothesis Hinst : from_instance fp props = Ok props'.
Hypothesis Hws : calculate_witness_polys fp props' w trace = Ok ws.
Hypothesis Hv : verifier_new fp props lde = Ok v.
Let n := ip_num_rows props.
Let D := \max_(c <- ip_constraints props) c_degree c.
Let G := d_gen (v_column_domain v).

Lemma honest_polys : [/\ size (polys_of ws) = size trace, all (fun p : {poly F} => size p <= n + 0)%N (polys_of ws) &
  forall r i, (r < size trace)%N -> (i < n)%N -> (nth 0 (polys_of ws) r).[G ^+ i] = (nth [::] trace r)`_i].
Proof.
have [k [d [HH Hall Ews]]] := honest_setup Hok Hw Hsup Hinst Hws.
have Eps : polys_of ws = [seq poly_of c | c <- [seq ifft_vec fp k v | v <- trace]].
  by rewrite Ews /polys_of -!map_comp; apply: eq_map.
split; first by rewrite Eps !size_map.
  by rewrite Eps addn0 /n (hn_rows HH); apply: (honest_ps HH).
move=> r i Hr; rewrite /n (hn_rows HH) => Hi.
have -> : G = dom_gen fp k.
  rewrite /G; move: Hinst Hv; rewrite from_instanceE verifier_newE (hn_rows HH) up_expnK //.
  by case: ltnP => // _; case: ifP => // _ [_]; case: ltnP => // _ [<-].
by rewrite Eps (honest_value Hok HH Hall).
Qed.

Lemma honest_answers chs bchs (zs : seq F) : size chs = size (ip_constraints props) ->
  size bchs = size (ip_boundary_constraints props) -> satisfied props trace ->
  uniq zs -> (D.+1 * n <= size zs)%N -> (forall z, z \in zs -> z ^+ n != 1) -> answers props v ws chs bchs.
Proof.
move=> Hs Hb Hsat Hu Hz H1; exists (comp_of props props' G ws chs bchs), zs.
have [k [d [HH Hall EG [En ED Hn1]]]] := setup Hw Hsup Hinst Hws Hv; have [_ Hps _] := honest_polys; split=> //.
  rewrite /comp_of -/n -/D; apply: (size_composition (G_prim Hw Hsup Hinst Hws Hv)) => //.
  - by rewrite addn0 in Hps.
  - by rewrite /D ED expn_gt0.
  - by apply/(all_nthP c_default) => i /(in_fit Hw Hsup Hfit Hinst Hws Hv) [H2 -> ->]; case: (c_density _) H2.
move=> z /H1 Hz1; split=> //.
apply: (C38_verifier_value Hok Hw Hsup Hsat Hfit Hinst Hws Hv) => //.
  by rewrite Hs (hn_props' HH) /= size_map.
by rewrite (boundaries' Hw Hsup Hinst Hws Hv).
Qed.
End Honest.

(** For every instance that the prover supports, every trace of the right shape
    (satisfying or not) and all values of the other challenges: if the prover can
    answer for two values of the coefficient of a constraint, the constraint
    holds in every row of its range from which it reads cells of the trace.
    [in_batches] lists the constraints in the order in which coefficients are
    drawn for them. *)
Theorem C56_constraint w lde props props' trace ws v chs bchs j a a' :
  (0 < w)%N -> supported_but_density props -> ranges_fit props ->
  from_instance fp props = Ok props' -> calculate_witness_polys fp props' w trace = Ok ws ->
  verifier_new fp props lde = Ok v ->
  size chs = size (ip_constraints props) -> size bchs = size (ip_boundary_constraints props) ->
  (j < size (ip_constraints props))%N -> a != a' ->
  answers props v ws (with_alpha chs j a) bchs -> answers props v ws (with_alpha chs j a') bchs ->
  let c := nth c_default (in_batches props) j in
  exists s sp, c_density c = Dense s sp /\
    forall i, dense_row s sp (ip_num_rows props) i -> c_in_trace trace i c -> cval (row_env trace i) c = 0.
Proof.
move=> H1 H2 H3 H4 H5 H6 Hs Hb Hj Ha /answersE A /answersE A'.
have [P1 P2 P3] := honest_polys H1 H2 H4 H5 H6.
exact: (constraint_sound H1 H2 H3 H4 H5 H6 (leq0n 1) P1 P2 P3 Hs Hb Hj Ha A A').
Qed.

(** The same for the coefficient of a boundary constraint.  Rows are counted
    modulo the number of rows. *)
Theorem C56_boundary w lde props props' trace ws v chs bchs j a a' :
  (0 < w)%N -> supported_but_density props -> ranges_fit props ->
  from_instance fp props = Ok props' -> calculate_witness_polys fp props' w trace = Ok ws ->
  verifier_new fp props lde = Ok v ->
  size chs = size (ip_constraints props) -> size bchs = size (ip_boundary_constraints props) ->
  (j < size (ip_boundary_constraints props))%N -> a != a' ->
  answers props v ws chs (with_alpha bchs j a) -> answers props v ws chs (with_alpha bchs j a') ->
  let b := nth (Boundary (Reg 0) 0 None) (ip_boundary_constraints props) j in
  exists r x, [/\ b_register b = Reg r, b_value b = Some x, (r < size trace)%N &
    (nth [::] trace r)`_(b_at_row b %% ip_num_rows props) = x].
Proof.
move=> H1 H2 H3 H4 H5 H6 Hs Hb Hj Ha /answersE A /answersE A'.
have [P1 P2 P3] := honest_polys H1 H2 H4 H5 H6.
exact: (boundary_sound H1 H2 H3 H4 H5 H6 (leq0n 1) P1 P2 P3 Hs Hb Hj Ha A A').
Qed.

(** Every constraint reads only cells of a trace of [n] rows, and boundary
    constraints refer to its rows. *)
Definition reads_fit (props : instance_properties F) (trace : seq (seq F)) : bool :=
  let n := ip_num_rows props in
  all (fun c => if c_density c is Dense s sp then
         all (fun i => dense_row s sp n i ==> c_in_trace trace i c) (iota 0 n) else false) (ip_constraints props) &&
  all (fun b => b_at_row b < n)%N (ip_boundary_constraints props).

Lemma satisfied_from (props : instance_properties F) (trace : seq (seq F)) : ranges_fit props -> reads_fit props trace ->
  (0 < size trace)%N -> (forall r, (r < size trace)%N -> size (nth [::] trace r) = ip_num_rows props) ->
  (forall j, (j < size (ip_constraints props))%N -> let c := nth c_default (in_batches props) j in
     exists s sp, c_density c = Dense s sp /\
       forall i, dense_row s sp (ip_num_rows props) i -> c_in_trace trace i c -> cval (row_env trace i) c = 0) ->
  (forall j, (j < size (ip_boundary_constraints props))%N ->
     let b := nth (Boundary (Reg 0) 0 None) (ip_boundary_constraints props) j in
     exists r x, [/\ b_register b = Reg r, b_value b = Some x, (r < size trace)%N &
       (nth [::] trace r)`_(b_at_row b %% ip_num_rows props) = x]) ->
  satisfied props trace.
Proof.
move=> Hfit /andP [Hr Hrb] Hsz Hn Hc Hb.
pose rows_ok (c : constraint F) := if c_density c is Dense s sp then
  all (fun i => dense_row s sp (ip_num_rows props) i && c_in_trace trace i c ==> (cval (row_env trace i) c == 0))
    (iota 0 (ip_num_rows props)) else false.
have Hrow (n s sp i : nat) : dense_row s sp n i -> i \in iota 0 n.
  by rewrite mem_iota => /andP [_ Hi]; apply: leq_ltn_trans Hi; apply: leq_addr.
have Hcs : all rows_ok (ip_constraints props).
  rewrite -all_batches; apply/(all_nthP c_default) => j; rewrite -/(in_batches props) size_in_batches => Hj.
  have [s [sp [Ed Hi]]] := Hc j Hj.
  rewrite /rows_ok Ed; apply/allP => i _; apply/implyP => /andP [Hd Hin]; apply/eqP; exact: Hi.
split=> // j Hj.
  have := all_nthP c_default Hcs j Hj; have := all_nthP c_default Hr j Hj; have := all_nthP c_default Hfit j Hj.
  rewrite /rows_ok; set c := nth _ _ _; case Ed: (c_density c) => [s sp||] // Hsp /allP Hin /allP Hv0.
  exists s, sp; rewrite Hn //; split=> //; first by apply: leq_trans Hsp; apply: leq_addl.
  move=> i Hi; have Hi' := Hrow _ _ _ _ Hi.
  have Hct : c_in_trace trace i c by have := Hin i Hi'; rewrite Hi.
  by split=> //; apply/eqP; have := Hv0 i Hi'; rewrite Hi Hct.
have [r [x [Er Ex Hlt Ev]]] := Hb j Hj.
exists r => // y; rewrite Ex => -[<-].
have Hlt2 := all_nthP (Boundary (Reg 0) 0 None) Hrb j Hj.
by rewrite Hn //; split=> //; rewrite -Ev modn_small.
Qed.

(** If for every coefficient there is a choice of the other challenges such that
    the prover can answer for two values of it, the trace satisfies the
    instance. *)
Theorem C56_all w lde props props' trace ws v :
  (0 < w)%N -> supported_but_density props -> ranges_fit props -> reads_fit props trace ->
  from_instance fp props = Ok props' -> calculate_witness_polys fp props' w trace = Ok ws ->
  verifier_new fp props lde = Ok v ->
  let chs_ok chs := size chs = size (ip_constraints props) in
  let bchs_ok bchs := size bchs = size (ip_boundary_constraints props) in
  (forall j, (j < size (ip_constraints props))%N -> exists chs bchs a a', [/\ chs_ok chs, bchs_ok bchs, a != a',
     answers props v ws (with_alpha chs j a) bchs & answers props v ws (with_alpha chs j a') bchs]) ->
  (forall j, (j < size (ip_boundary_constraints props))%N -> exists chs bchs a a', [/\ chs_ok chs, bchs_ok bchs, a != a',
     answers props v ws chs (with_alpha bchs j a) & answers props v ws chs (with_alpha bchs j a')]) ->
  satisfied props trace.
Proof.
move=> Hw Hsup Hfit Hr Hinst Hws Hv chs_ok bchs_ok Hc Hb.
have [k [d [HH Hall EG [En ED H1]]]] := setup Hw Hsup Hinst Hws Hv.
apply: satisfied_from => //.
- by case: trace Hws {Hr Hall HH Hc Hb}.
- by move=> r Hlt; rewrite En; apply/eqP; apply: (all_nthP [::] Hall).
- move=> j Hj; have [chs [bchs [a [a' [H2 H3 H4 H5 H6]]]]] := Hc j Hj.
  exact: (C56_constraint Hw Hsup Hfit Hinst Hws Hv H2 H3 Hj H4 H5 H6).
move=> j Hj; have [chs [bchs [a [a' [H2 H3 H4 H5 H6]]]]] := Hb j Hj.
exact: (C56_boundary Hw Hsup Hfit Hinst Hws Hv H2 H3 Hj H4 H5 H6).
Qed.

(** Conversely the honest prover can always answer, if the field has enough
    elements. *)
Theorem C56_honest w lde props props' trace ws v chs bchs (zs : seq F) :
  (0 < w)%N -> supported_but_density props -> ranges_fit props ->
  from_instance fp props = Ok props' -> calculate_witness_polys fp props' w trace = Ok ws ->
  verifier_new fp props lde = Ok v ->
  size chs = size (ip_constraints props) -> size bchs = size (ip_boundary_constraints props) ->
  satisfied props trace -> uniq zs ->
  ((\max_(c <- ip_constraints props) c_degree c).+1 * ip_num_rows props <= size zs)%N ->
  (forall z, z \in zs -> z ^+ ip_num_rows props != 1) ->
  answers props v ws chs bchs.
Proof. by move=> H1 H2 H3 H4 H5 H6; apply: (honest_answers H1 H2 H3 H4 H5 H6). Qed.
End C56.

(** * Examples over the field with 257 elements *)
Definition built (props : instance_properties F257) (trace : seq (seq F257)) : outcome unit :=
  let* p := from_instance f257 props in
  let* ws := calculate_witness_polys f257 p 1 trace in
  let* v := verifier_new f257 props 4 in Ok tt.

Lemma builtP props trace : built props trace = Ok tt -> exists props' ws v,
  [/\ from_instance f257 props = Ok props', calculate_witness_polys f257 props' 1 trace = Ok ws &
      verifier_new f257 props 4 = Ok v].
Proof.
rewrite /built => E; have [p H1 {}E] := bind_Ok E; have [ws H2 {}E] := bind_Ok E; have [v H3 _] := bind_Ok E.
by exists p, ws, v.
Qed.

(** Twelve points outside of the trace domain. *)
Definition zs257 : seq F257 := [:: 2; 3; 4 * 2; 3 * 3; 3 * 2; 3 * 4; 5 * 2; 5; 7; 5 * 3; 5 * 4; 7 * 2].

Lemma zs257_ok : uniq zs257 /\ forall z, z \in zs257 -> z ^+ 4 != 1.
Proof.
have H1 : uniq zs257 by vm_compute.
have H2 : all (fun z : F257 => z ^+ 4 != 1) zs257 by vm_compute.
by split=> // z /(allP H2).
Qed.

Lemma two_max : \max_(c <- ip_constraints two_densities) c_degree c = 2%N.
Proof. by rewrite /two_densities /sq_props /= !big_cons big_nil. Qed.

(** The honest prover of an instance with two constraints (of different
    densities) and a boundary constraint can answer for all challenges, so the
    hypotheses of all three theorems hold for their trace. *)
Example C56_ex_honest : exists props' ws v,
  [/\ from_instance f257 two_densities = Ok props', calculate_witness_polys f257 props' 1 (sq_trace 3) = Ok ws,
      verifier_new f257 two_densities 4 = Ok v,
      [/\ supported_but_density two_densities, ranges_fit two_densities & reads_fit two_densities (sq_trace 3)] &
      forall chs bchs, size chs = 2%N -> size bchs = 1%N -> answers two_densities v ws chs bchs].
Proof.
have Hb : built two_densities (sq_trace 3) = Ok tt by vm_compute.
have [props' [ws [v [H1 H2 H3]]]] := builtP Hb; exists props', ws, v.
have Hr : ranges_fit two_densities by vm_compute.
have Hrd : reads_fit two_densities (sq_trace 3) by vm_compute.
split; [exact: H1 | exact: H2 | exact: H3 | by split; [exact: two_supported | exact: Hr | exact: Hrd] |].
move=> chs bchs Hs Hbs; have [Hu Hz] := zs257_ok.
have Hsz : ((\max_(c <- ip_constraints two_densities) c_degree c).+1 * ip_num_rows two_densities <= size zs257)%N.
  by rewrite two_max.
exact: (C56_honest f257_ok (isT : (0 < 1)%N) two_supported Hr H1 H2 H3 Hs Hbs two_satisfied Hu Hsz Hz).
Qed.

(** A trace with a wrong last row: whatever the other challenges, the prover can
    answer for at most one value of the coefficient of the violated constraint. *)
Definition bad_trace : seq (seq F257) := [:: [:: 3; 9%:R; 81%:R; 5]].

Example C56_ex_cheat : exists props' ws v,
  [/\ from_instance f257 two_densities = Ok props', calculate_witness_polys f257 props' 1 bad_trace = Ok ws,
      verifier_new f257 two_densities 4 = Ok v, ~ satisfied two_densities bad_trace &
      forall chs bchs a a', size chs = 2%N -> size bchs = 1%N ->
        answers two_densities v ws (with_alpha chs 0 a) bchs -> answers two_densities v ws (with_alpha chs 0 a') bchs ->
        a = a'].
Proof.
have Hb : built two_densities bad_trace = Ok tt by vm_compute.
have [props' [ws [v [H1 H2 H3]]]] := builtP Hb; exists props', ws, v.
have Hr : ranges_fit two_densities by vm_compute.
have Hbad : (cval (row_env bad_trace 2) (sq_constraint 0 1) != 0).
  by rewrite /cval /= !big_cons big_nil; vm_compute.
split; [exact: H1 | exact: H2 | exact: H3 | |].
  case=> _ Hc _; have [s [sp [[<- <-] _ Hrow]]] := Hc 0%N isT.
  have [_ E] := Hrow 2%N isT; by move: Hbad; rewrite E eqxx.
move=> chs bchs a a' Hs Hbs A A'; apply/eqP; apply: contraT => Ha.
have Hin : in_batches two_densities = [:: sq_constraint 0 1; sq_constraint 1 1] by [].
have [s [sp []]] := C56_constraint f257_ok (isT : (0 < 1)%N) two_supported Hr H1 H2 H3 Hs Hbs (isT : (0 < 2)%N) Ha A A'.
rewrite Hin /= => -[<- <-] Hrow; have E := Hrow 2%N isT isT.
by move: Hbad; rewrite E eqxx.
Qed.

Print Assumptions C56_constraint.
Print Assumptions C56_boundary.
Print Assumptions C56_all.
Print Assumptions C56_honest.
