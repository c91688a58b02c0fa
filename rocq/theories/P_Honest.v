(** The setting of an honest prover: what a supported instance, a satisfying
    trace and the results of the prover's constructors give. *)
From Coq Require Import NArith.
From mathcomp Require Import all_ssreflect all_algebra.
From Verif Require Import M_Base M_Worker M_Field M_Domain M_Fft M_Poly M_Bytes M_Transcript M_Air M_Arp M_Ali M_Verifier.
From Verif Require Import Spec SpecAir SpecStark P_Base P_Fft P_Domain P_Poly P_Lde P_PolyOps P_Air P_Arp.
From Verif Require Import P_Vals P_Maps P_Ali P_AliG P_Comp.

Set Implicit Arguments.
Unset Strict Implicit.
Unset Printing Implicit Defensive.
Import GRing.Theory.
Local Open Scope ring_scope.

Lemma all_and3 (T : Type) (p q r : pred T) s : all p s -> all q s -> all r s ->
  all (fun x => [&& p x, q x & r x]) s.
Proof. by elim: s => //= x s IH /andP [-> Hp] /andP [-> Hq] /andP [-> Hr]; apply: IH. Qed.

Section Mask.
Variables (F : fieldType) (g : F).
Implicit Types (c : constraint F).

Lemma mask_unis c : c_unis (mask_constraint g c) = map (mask_uni g) (c_unis c).
Proof.
rewrite /c_unis /=; elim: (c_terms c) => //= t ts ->; rewrite map_cat; congr (_ ++ _).
by case: t.
Qed.

Lemma mask_cdeg c : cdeg (mask_constraint g c) = cdeg c.
Proof.
rewrite /cdeg /= big_map; apply: eq_bigr => t _; case: t => //= p; rewrite big_map.
by apply: eq_bigr.
Qed.

Lemma mask_nonempty c : all (@t_nonempty F) (c_terms (mask_constraint g c)) = all (@t_nonempty F) (c_terms c).
Proof. by rewrite /= all_map; apply: eq_all => t; case: t => //= p; rewrite size_map. Qed.

Lemma mask_max cs : max_degree (map (mask_constraint g) cs) = \max_(c <- cs) c_degree c.
Proof. by rewrite max_degreeE big_map. Qed.

Lemma supported_unis nr c : all (t_supported nr) (c_terms c) ->
  all (@t_nonempty F) (c_terms c) /\ all (u_supported nr) (c_unis c).
Proof.
rewrite /c_unis; elim: (c_terms c) => //= t ts IH /andP [Ht /IH [H1 H2]]; rewrite H1 all_cat H2.
by case: t Ht => [u|p] /=; [move-> | case/andP=> -> ->].
Qed.
End Mask.

Section Honest.
Variables (F : fieldType) (fp : ff_params F).
Hypothesis Hok : ff_ok fp.
Notation gen := (ff_gen fp).
Notation S := (ff_S fp).
Variable w : worker.
Hypothesis Hw : (0 < w)%N.

Lemma witness_inv (props : instance_properties F) k (trace : seq (seq F)) ws :
  ip_num_rows props = (2 ^ k)%N -> (k <= S)%N -> calculate_witness_polys fp props w trace = Ok ws ->
  [/\ size trace = ip_num_registers props, all (fun v => size v == (2 ^ k)%N) trace &
      ws = [seq std fp Coefficients k (ifft_vec fp k v) | v <- trace]].
Proof.
move=> Hn Hk E; have E0 := E; move: E; rewrite /calculate_witness_polys.
case: trace E0 => [|v trace] // E0; rewrite [get _ _]/= bind_ok.
case: ifP => // Hall; case: eqP => // Hr; case: eqP => // Hc _.
have Hall' : all (fun v => size v == (2 ^ k)%N) (v :: trace).
  by rewrite -Hn -Hc; apply: sub_all Hall => u; rewrite eq_sym.
split=> //; move: E0; rewrite (calculate_witness_std Hok Hw _ _ Hall' Hk) //.
by case: ifP => // _ [].
Qed.

(** Everything known about an honest run on a supported instance. *)
Record honest (props props' : instance_properties F) (trace : seq (seq F)) (k d : nat) (wc : seq (seq F)) : Prop :=
 Honest {
  hn_rows : ip_num_rows props = (2 ^ k)%N;
  hn_max : \max_(c <- ip_constraints props) c_degree c = (2 ^ d)%N;
  hn_k : (k <= S)%N;
  hn_1k : (1 < 2 ^ k)%N;
  hn_props' : props' = Props (2 ^ k) (size wc) (map (mask_constraint (dom_gen fp k)) (ip_constraints props))
                (ip_boundary_constraints props);
  hn_sizes : all (fun c => size c == (2 ^ k)%N) wc;
  hn_regs : all (mask_ok (size wc)) (masks_of (ip_constraints props') (ip_boundary_constraints props'));
  hn_fit : all (fun c => (cdeg c <= c_degree c)%N && all (@t_nonempty F) (c_terms c)) (ip_constraints props');
  hn_bfit : all (fun b => (if b_register b is Reg r then r < size wc else false)%N && (b_value b != None))
              (ip_boundary_constraints props) }.

Lemma honest_setup props props' trace ws : supported_but_density props ->
  from_instance fp props = Ok props' -> calculate_witness_polys fp props' w trace = Ok ws ->
  exists k d, let wc := [seq ifft_vec fp k v | v <- trace] in
  [/\ honest props props' trace k d wc, all (fun v => size v == (2 ^ k)%N) trace &
      ws = map (std fp Coefficients k) wc].
Proof.
case/and5P => /is_pow2P [k Hn] H1 /is_pow2P [d Hd] Hcs Hbs.
rewrite from_instanceE Hn up_expnK //; case: ltnP => // Hk; case: ifP => // Hst [E'].
move=> Hws; exists k, d; have Hn' : ip_num_rows props' = (2 ^ k)%N by rewrite -E'.
have [Hsz Hall ->] := witness_inv Hn' Hk Hws => /=.
have Hr : ip_num_registers props = size trace by rewrite Hsz -E'.
rewrite Hr in Hcs Hbs.
split=> //; last by rewrite -map_comp.
split=> //.
- by rewrite -Hn.
- by rewrite size_map -Hr E'.
- by rewrite all_map; apply: sub_all Hall => v Hv /=; rewrite size_ifft_vec.
- rewrite size_map all_masks_of -E' /=; apply/andP; split.
    have Hst2 : all (predI (@c_steps F) (c_supported (size trace))) (ip_constraints props).
      by rewrite all_predI Hst Hcs.
    rewrite all_map; apply: sub_all Hst2 => c /andP [H4 /andP [/supported_unis [_ H3] _]] /=.
    rewrite mask_unis all_map; rewrite c_steps_unis in H4.
    elim: (c_unis c) H3 H4 => //= u us IH /andP [Hu1 /IH {}IH] /andP [Hu2 /IH ->]; rewrite andbT.
    move: Hu1 Hu2; rewrite /u_supported /u_steps /mask_ok /=.
    by case: (ut_register u) => // r; case: (ut_steps u).
  apply: sub_all Hbs => b /andP [Hb _]; move: Hb; rewrite /mask_ok /=; by case: (b_register b).
- rewrite -E' /= all_map; apply: sub_all Hcs => c /andP [/supported_unis [H3 _] H2].
  by rewrite [preim _ _ _]/= mask_cdeg mask_nonempty H2 H3.
- by rewrite size_map.
Qed.

Section Use.
Variables (props props' : instance_properties F) (trace : seq (seq F)) (k d : nat).
Let wc := [seq ifft_vec fp k v | v <- trace].
Hypothesis HH : honest props props' trace k d wc.
Hypothesis Hall : all (fun v => size v == (2 ^ k)%N) trace.
Let G := dom_gen fp k.
Let ps : seq {poly F} := map (@poly_of F) wc.
Let cs' := ip_constraints props'.
Let bs := ip_boundary_constraints props'.

Lemma honest_prim : (2 ^ k).-primitive_root G.
Proof. exact: (dom_gen_prim Hok (hn_k HH)). Qed.

Lemma honest_ps : all (fun p : {poly F} => size p <= 2 ^ k)%N ps.
Proof.
rewrite /ps all_map; apply: sub_all (hn_sizes HH) => c /eqP Hc /=.
by rewrite -Hc size_poly_of.
Qed.

Lemma honest_value r i : (r < size trace)%N -> (i < 2 ^ k)%N -> (nth 0 ps r).[G ^+ i] = (nth [::] trace r)`_i.
Proof.
move=> Hr Hi; rewrite /ps /wc -map_comp (nth_map [::]) //=.
have Hv : size (nth [::] trace r) = (2 ^ k)%N by apply/eqP; apply: (all_nthP [::] Hall).
have := ifft_vecK Hok Hv (hn_k HH) => /(congr1 (fun s => nth 0 s i)).
by rewrite nth_evals // mul1r.
Qed.

Hypothesis Hsat : satisfied props trace.

Lemma honest_divides : all (fun c => if c_density c is Dense s sp then (s + sp <= 2 ^ k)%N else false) cs' ->
  all (c_divides G (2 ^ k) ps) cs'.
Proof.
move=> Hd; apply/(all_nthP c_default) => i; rewrite {1}/cs' (hn_props' HH) /= size_map => Hi.
have Hi' : (i < size cs')%N by rewrite /cs' (hn_props' HH) size_map.
have := all_nthP c_default Hd i Hi'; rewrite /cs' (hn_props' HH) /= !(nth_map c_default) //.
rewrite /c_divides /=; set c := nth _ _ _.
case Ed: (c_density c) => [s sp||] // Hs; apply: (divisor_dvd honest_prim Hs) => j Hj.
have [H0 Hc _] := Hsat; have [s' [sp' [Ed' _ Hrow]]] := Hc i Hi; rewrite -/c in Ed' Hrow.
have Hsz : size (nth [::] trace 0) = (2 ^ k)%N by apply/eqP; apply: (all_nthP [::] Hall).
move: Ed'; rewrite Ed => -[Es Esp]; rewrite -Es -Esp Hsz in Hrow.
have [Hin <-] := Hrow j Hj.
apply: (@mask_cval_eq _ _ _ _ _ (u_in_trace trace j)); last by rewrite -c_in_trace_unis.
move=> u; rewrite /u_in_trace /uval /=; case: (ut_register u) => // r.
case: (ut_steps u) => // e /andP [Hr He]; congr (_ * _ ^+ _).
have Hv : size (nth [::] trace r) = (2 ^ k)%N by apply/eqP; apply: (all_nthP [::] Hall).
by rewrite /= -/G -exprD addnC honest_value // -Hv.
Qed.

Lemma honest_bdivides : all (b_divides G ps) bs.
Proof.
apply/(all_nthP (Boundary (Reg 0) 0 None)) => i; rewrite /bs (hn_props' HH) /= => Hi.
set b := nth _ _ _; have [_ _ Hb] := Hsat; have [r Er Hv] := Hb i Hi; rewrite -/b in Er Hv.
have := all_nthP (Boundary (Reg 0) 0 None) (hn_bfit HH) i Hi; rewrite -/b Er.
case Ev: (b_value b) => [v|]; last by rewrite andbF.
move=> _; have [Hr Hrow Ex] := Hv v Ev.
have Hsz : size (nth [::] trace r) = (2 ^ k)%N by apply/eqP; apply: (all_nthP [::] Hall).
rewrite Hsz in Hrow.
by rewrite /b_divides rootE boundary_polyE Er Ev /= mul1r honest_value // Ex subrr.
Qed.

Lemma divisor_neq0 s sp x : (s + sp <= 2 ^ k)%N -> x ^+ (2 ^ k) - 1 != 0 -> (divisor G s sp (2 ^ k)).[x] != 0.
Proof.
move=> Hs Hx; have := divisor_split honest_prim (leqnn _) Hs => /(congr1 (horner^~ x)).
rewrite hornerM !(hornerD, hornerN, hornerXn, hornerC) => E.
by apply: contraNneq Hx => E0; rewrite -E E0 mul0r.
Qed.

Lemma bdivisor_neq0 row x : x ^+ (2 ^ k) - 1 != 0 -> x - G ^+ row != 0.
Proof.
apply: contraNneq => /eqP; rewrite subr_eq0 => /eqP ->; rewrite -exprM mulnC exprM.
by rewrite (prim_expr_order honest_prim) expr1n subrr.
Qed.

Lemma honest_cs0 : (0 < size cs')%N.
Proof.
rewrite /cs' (hn_props' HH) size_map; have := hn_max HH; case: (ip_constraints props) => //.
by rewrite big_nil => E; have := expn_gt0 2 d; rewrite -E.
Qed.

Lemma honest_maxdeg : max_degree cs' = (2 ^ d)%N.
Proof. by rewrite /cs' (hn_props' HH) mask_max (hn_max HH). Qed.

Section G.
Variables (H : hash_fun) (decode : digest -> F).
Hypothesis Hdec : forall d, bytes_to_field fp d = Ok (decode d).
Notation st_state := (stream_state H).
Notation st_pairs := (stream_pairs H decode).
Variable a : ali_instance F.
Hypothesis Ha : from_arp fp props' w = Ok a.

Let Haf : ali_for fp props' a. Proof. exact: (from_arp_inv Hok Hw Ha). Qed.

Let Ek : up_log 2 (ip_num_rows props') = k.
Proof. by rewrite (hn_props' HH) up_expnK. Qed.
Let EK : up_log 2 (2 ^ k * max_degree cs') = (k + d)%N.
Proof. by rewrite honest_maxdeg -expnD up_expnK. Qed.

Lemma honest_kd : (k + d <= S)%N.
Proof. by have := af_K Haf; rewrite Ek EK. Qed.

Definition honest_comp (chs bchs : seq (F * F)) : {poly F} :=
  composition G (2 ^ k) (2 ^ d) ps cs' chs bs bchs.

Hypothesis Hden : single_density props.
Hypothesis Hcpu : lde_cpus_ok w (2 ^ d).

Lemma honest_density : exists s sp,
  [/\ all (fun c => c_density c == Dense s sp) cs', (s + sp <= 2 ^ k)%N,
      all (fun x => x ^+ (2 ^ k) - 1 != 0) (points fp (k + d) gen) &
      im_get (a_divisors a) (Dense s sp) = Some (vf fp (k + d) gen (fun x => (divisor G s sp (2 ^ k)).[x]^-1))].
Proof.
have [dn Hdn] : exists dn, all (fun c => c_density c == dn) cs'.
  rewrite /cs' (hn_props' HH) /=; move: Hden; rewrite /single_density /constant.
  case: (ip_constraints props) => [|c l]; first by exists (Dense 0 0).
  by rewrite /= all_map => E; exists (c_density c); rewrite eqxx /= all_map.
have Hb := batch_single honest_cs0 Hdn.
have [|s [sp [Ed Hs Hp Hi]]] := @af_divisors _ _ _ _ Haf dn; first by rewrite -/cs' Hb mem_seq1.
exists s, sp; move: Hs Hp Hi; rewrite Ek -/cs' EK (hn_props' HH) Ed => Hs Hp Hi.
by split=> //; rewrite -Ed.
Qed.

Lemma honest_dense : all (fun c => if c_density c is Dense s sp then (s + sp <= 2 ^ k)%N else false) cs'.
Proof. by have [s [sp [Hd Hs _ _]]] := honest_density; apply: sub_all Hd => c /eqP ->. Qed.

Lemma honest_size chs bchs : (size (honest_comp chs bchs) <= 2 ^ (k + d))%N.
Proof.
rewrite expnD mulnC; apply: (size_composition honest_prim honest_ps); rewrite ?expn_gt0 ?(hn_1k HH) //.
have H3 := all_and3 (hn_fit HH) (max_degree_all cs') honest_dense; rewrite honest_maxdeg in H3.
apply: sub_all H3 => c /and3P [/andP [-> _] -> /=]; by case: (c_density c).
Qed.

Lemma honest_g t :
  calculate_g fp H a t (map (std fp Coefficients k) wc) w =
  Ok (std fp Coefficients (k + d)
        (mkseq (fun i => (honest_comp (st_pairs t (size cs'))
                            (st_pairs (st_state t (size cs').*2) (size bs)))`_i) (2 ^ (k + d))),
      st_state t (size cs' + size bs).*2).
Proof.
have [s [sp [Hdn Hs Hp Hdiv]]] := honest_density.
set P := honest_comp _ _.
apply: (@calculate_gP F fp H decode Hok Hdec w Hw k d wc honest_kd Hcpu (hn_sizes HH) a t G
          (divisor G s sp (2 ^ k)) P cs' bs).
- by rewrite (af_max Haf) honest_maxdeg.
- by rewrite (af_constraints Haf) Ek EK.
- by rewrite (af_coset Haf) Ek EK.
- by rewrite (af_properties Haf) (hn_props' HH).
- by rewrite (af_masks Haf) (hn_regs HH).
- rewrite (af_masks Haf) -/cs' -/bs.
  have H1 : all (fun c => c_degree c <= 2 ^ d)%N cs' by rewrite -honest_maxdeg max_degree_all.
  have H2 : all (fun c => all (fun u => uni_mask u \in masks_of cs' bs) (c_unis c)) cs'.
    have := all_masks_of (mem (masks_of cs' bs)) cs' bs; rewrite (introT allP) //.
    by move/esym/andP => [].
  have H3 := all_and3 (hn_fit HH) H1 H2.
  by apply: sub_all H3 => c /and3P [/andP [_ H4] H5 H6]; rewrite /c_fit H5 H4 H6.
- by right; exists (Dense s sp); rewrite // (af_batches Haf) -/cs' (batch_single honest_cs0 Hdn).
- by rewrite (af_properties Haf).
- have Hr row : row \in map (@b_at_row F) bs ->
     im_get (a_boundary_divisors a) row = Some (vf fp (k + d) gen (fun x => (x - G ^+ row)^-1)).
    by move/(af_boundary Haf) => -[_]; rewrite Ek EK.
  have := hn_bfit HH; rewrite -[ip_boundary_constraints props]/(ip_boundary_constraints (Props (2 ^ k) (size wc) (map (mask_constraint (dom_gen fp k)) (ip_constraints props)) (ip_boundary_constraints props))) -(hn_props' HH) -/bs.
  elim: bs Hr => //= b l IH Hr /andP [/andP [H1 H2] Hl]; split.
    split; [by case: (b_register b) H1 | by move: H2; case: (b_value b) | by apply: Hr; rewrite mem_head].
  by apply: IH => // row Hrow; apply: Hr; rewrite in_cons Hrow orbT.
- exact: honest_size.
move=> x Hx; have Hx1 := allP Hp x Hx.
rewrite /P /honest_comp compositionE ?honest_divides ?honest_bdivides ?honest_dense //.
- rewrite /g_fun; congr (_ + _).
  elim: (cs') Hdn (st_pairs _ _) => [|c l IH] Hdn [|ab chs]; rewrite ?big_nil //.
  move: Hdn => /= /andP [/eqP Hc Hl]; rewrite [zip _ _]/= !big_cons IH // Hc //.
- by apply: sub_all Hdn => c /eqP -> /=; apply: divisor_neq0.
- by elim: (bs) => //= b l ->; rewrite (bdivisor_neq0 _ Hx1).
Qed.
End G.
End Use.
End Honest.
