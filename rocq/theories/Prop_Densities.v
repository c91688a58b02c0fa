(** Properties C37, C38 and C40 for instances with several densities: what the prover computes,
    exactly when it is the composition polynomial, and exactly when its proof is accepted. *)
From Coq Require Import NArith Lia.
From mathcomp Require Import all_ssreflect all_algebra.
From Verif Require Import M_Base M_Worker M_Field M_Domain M_Fft M_Poly M_Bytes M_Transcript M_Merkle M_Fri.
From Verif Require Import M_Challenge M_Air M_Arp M_Ali M_Verifier M_Prover.
From Verif Require Import Spec SpecPoly SpecFri SpecAir SpecStark SpecMany SpecSound P_Base P_Fft P_Domain P_Poly P_Lde P_PolyOps P_Wf P_Bytes P_Merkle P_Fri P_Air P_Arp.
From Verif Require Import P_Vals P_Maps P_Ali P_AliG P_AliMany P_Comp P_Honest P_Gz P_Deep P_Stark P_Sound P_SoundDeep P_Few P_Run.
From Verif Require Import Instances Prop_Hash Prop_Fri Prop_Air Prop_Arp Prop_Ali Prop_Stark Prop_Verify Prop_Sound Prop_Claims Prop_SoundGame Prop_AnyWitness.

Set Implicit Arguments.
Unset Strict Implicit.
Unset Printing Implicit Defensive.
Import GRing.Theory.
Local Open Scope ring_scope.

(** Masking does not change the batches. *)
Lemma batch_map (F : fieldType) (f : constraint F -> constraint F) cs : (forall c, c_density (f c) = c_density c) ->
  batch_by_density (map f cs) = [seq (db.1, map f db.2) | db <- batch_by_density cs].
Proof.
move=> Hf; pose m (s : seq (density * seq (constraint F))) := [seq (db.1, map f db.2) | db <- s].
rewrite -/(m _) /batch_by_density -[X in foldl _ X (map f cs)]/(m [::]).
elim: cs [::] => //= c cs IH b; rewrite -IH; congr foldl.
elim: b => [|[dn b] bs IHb] /=; first by rewrite Hf.
rewrite Hf; case: ifP => _ /=; first by rewrite map_rcons.
by rewrite IHb.
Qed.

Section Densities.
Variables (F : fieldType) (fp : ff_params F) (H : hash_fun) (decode : digest -> F).
Hypothesis Hok : ff_ok fp.
Hypothesis Hdec : forall d, bytes_to_field fp d = Ok (decode d).
Notation S := (ff_S fp).
Notation gen := (ff_gen fp).

Variables (w : worker) (props props' : instance_properties F) (trace : seq (seq F)) (ws : seq (hpoly F Coefficients))
  (a : ali_instance F).
Let D := \max_(c <- ip_constraints props) c_degree c.
Let n := ip_num_rows props.
Hypotheses (Hw : (0 < w)%N) (Hsup : supported_but_density props).
Hypothesis Hinst : from_instance fp props = Ok props'.
Hypothesis Hws : calculate_witness_polys fp props' w trace = Ok ws.
Hypothesis Ha : from_arp fp props' w = Ok a.
Let nc := size (ip_constraints props').
Let nb := size (ip_boundary_constraints props').
Let g := d_gen (a_column_domain a).
(** The points at which the prover evaluates. *)
Let x_ i := gen * d_gen (a_constraints_domain a) ^+ i.

(** For any number of densities and any witness, satisfying or not, the prover interpolates
    [prover_value] on the coset. *)
Theorem C37_exact t : w = 1%N \/ (D < 2 * w)%N ->
  exists2 gp, calculate_g fp H a t ws w = Ok (gp, stream_state H t (nc + nb).*2) &
    [/\ wf_poly fp gp, (size (poly_of (p_coeffs gp)) <= D * n)%N &
        forall i, (i < D * n)%N -> (poly_of (p_coeffs gp)).[x_ i] =
          prover_value props props' g ws (x_ i) (stream_pairs H decode t nc)
            (stream_pairs H decode (stream_state H t nc.*2) nb)].
Proof.
move=> Hcpu; have [k [d [HH Hall Ews]]] := honest_setup Hok Hw Hsup Hinst Hws.
have Hcpu' : lde_cpus_ok w (2 ^ d).
  by rewrite /lde_cpus_ok -(hn_max HH) -/D; case: Hcpu => [->|->] //; rewrite orbT.
have Haf := from_arp_inv Hok Hw Ha.
have Ek : up_log 2 (ip_num_rows props') = k by rewrite (hn_props' HH) up_expnK.
have EK : up_log 2 (2 ^ k * max_degree (ip_constraints props')) = (k + d)%N.
  by rewrite (honest_maxdeg HH) -expnD up_expnK.
have EDn : (D * n = 2 ^ (k + d))%N by rewrite /D /n (hn_max HH) (hn_rows HH) -expnD addnC.
have Eps : polys_of ws = [seq poly_of c | c <- [seq ifft_vec fp k v | v <- trace]].
  by rewrite Ews /polys_of -!map_comp; apply: eq_map.
have [comp [Hcs [Hcv Hcg]]] := any_comp Hok Hw HH Ha Hcpu'.
have {}Hcg := Hcg H decode Hdec t; rewrite -/nc -/nb in Hcg.
rewrite Ews Hcg; eexists; first by reflexivity.
rewrite [p_coeffs _]/= (coeffs_of_poly (Hcs _ _)) EDn; split=> // [|i Hi].
  by apply: wf_std; [rewrite size_mkseq | exact: (honest_kd Hok Hw HH Ha)].
rewrite Hcv.
  by rewrite /prover_value -/D -/n /D /n (hn_max HH) (hn_rows HH) -Ews Eps /g (af_column Haf) Ek.
by apply/mapP; exists i; rewrite ?mem_iota // /x_ (af_constraints Haf) Ek EK.
Qed.

Let Hr : ranges_fit props.
Proof.
have [k [d [HH Hall Ews]]] := honest_setup Hok Hw Hsup Hinst Hws.
exact: (density_fits Hok Hw HH Ha).
Qed.

Let setup : exists k d,
  [/\ honest fp props props' trace k d [seq ifft_vec fp k v | v <- trace],
      all (fun v => size v == (2 ^ k)%N) trace, g = dom_gen fp k, a_constraints_domain a = dom fp (k + d) &
      [/\ (k + d <= S)%N, polys_of ws = [seq poly_of c | c <- [seq ifft_vec fp k v | v <- trace]],
          (D * n = 2 ^ (k + d))%N, (0 < k + d)%N &
          all (fun x => x ^+ (2 ^ k) - 1 != 0) (points fp (k + d) gen)]].
Proof.
have [k [d [HH Hall Ews]]] := honest_setup Hok Hw Hsup Hinst Hws.
have Haf := from_arp_inv Hok Hw Ha.
have Ek : up_log 2 (ip_num_rows props') = k by rewrite (hn_props' HH) up_expnK.
have EK : up_log 2 (2 ^ k * max_degree (ip_constraints props')) = (k + d)%N.
  by rewrite (honest_maxdeg HH) -expnD up_expnK.
exists k, d; split=> //; rewrite ?/g ?(af_column Haf) ?(af_constraints Haf) ?Ek ?EK //; split.
- exact: (honest_kd Hok Hw HH Ha).
- by rewrite Ews /polys_of -!map_comp; apply: eq_map.
- by rewrite /D /n (hn_max HH) (hn_rows HH) -expnD addnC.
- by have := hn_1k HH; case: (k).
have Hc0 := honest_cs0 HH.
have [|s [sp [_ _ Hx _]]] := @af_divisors _ _ _ _ Haf (c_density (nth c_default (ip_constraints props') 0)).
  by rewrite batch_keys; apply/(has_nthP c_default); exists 0%N.
by move: Hx; rewrite Ek EK.
Qed.

Lemma comp_of_size chs bchs : (size (comp_of props props' g ws chs bchs) <= D * n)%N.
Proof.
have [k [d [HH Hall Eg Ec [HS Eps EDn _ _]]]] := setup.
have Hfits : all (fun c => if c_density c is Dense s sp then (s + sp <= 2 ^ k)%N else false) (ip_constraints props').
  rewrite (hn_props' HH) /= all_map; move: Hr; rewrite /ranges_fit (hn_rows HH); by apply: sub_all => c.
rewrite /comp_of Eg Eps /D /n (hn_max HH) (hn_rows HH).
apply: (size_composition (honest_prim Hok HH) (honest_ps HH)); rewrite ?expn_gt0 ?(hn_1k HH) //.
have H3 := all_and3 (hn_fit HH) (max_degree_all (ip_constraints props')) Hfits; rewrite (honest_maxdeg HH) in H3.
rewrite all_batches.
apply: sub_all H3 => c /and3P [/andP [-> _] -> /=]; by case: (c_density c).
Qed.

(** Below, the witness satisfies the instance. *)
Hypothesis Hsat : satisfied props trace.
Variables (chs bchs : seq (F * F)).
Hypothesis Hchs : size chs = nc.
(** A polynomial with the degree and the values of the one that the prover computes. *)
Variable G : {poly F}.
Hypothesis HG : (size G <= D * n)%N.
Hypothesis HGv : forall i, (i < D * n)%N -> G.[x_ i] = prover_value props props' g ws (x_ i) chs bchs.

Let coset_ok i : (i < D * n)%N -> x_ i ^+ n != 1.
Proof.
have [k [d [HH Hall Eg Ec [HS Eps EDn _ Hx]]]] := setup; rewrite EDn => Hi.
rewrite /n (hn_rows HH) -subr_eq0; apply: (allP Hx).
by apply/mapP; exists i; rewrite ?mem_iota // /x_ Ec.
Qed.

Let coset_inj : uniq [seq x_ i | i <- iota 0 (D * n)].
Proof.
have [k [d [HH Hall Eg Ec [HS Eps EDn _ _]]]] := setup; rewrite EDn.
rewrite map_inj_in_uniq ?iota_uniq // => i j; rewrite !mem_iota !add0n => Hi Hj.
have Hg0 : gen != 0 by case: Hok.
move/(mulfI Hg0); rewrite Ec [d_gen _]/= => /eqP.
by rewrite (eq_prim_root_expr (dom_gen_prim Hok HS)) !modn_small // => /eqP.
Qed.

Let comp_value z : z ^+ n != 1 ->
  (comp_of props props' g ws chs bchs).[z] = quotients_at props props' g (polys_of ws) chs bchs z.
Proof.
have [k [d [HH Hall Eg Ec [HS Eps EDn _ _]]]] := setup => Hz.
have Hzt : z ^+ (2 ^ k) - 1 != 0 by rewrite -(hn_rows HH) subr_eq0.
have Hfits : all (fun c => if c_density c is Dense s sp then (s + sp <= 2 ^ k)%N else false) (ip_constraints props').
  rewrite (hn_props' HH) /= all_map; move: Hr; rewrite /ranges_fit (hn_rows HH); by apply: sub_all => c.
rewrite /comp_of Eg Eps (hn_max HH) (hn_rows HH) compositionE.
- rewrite /quotients_at (hn_max HH) (hn_rows HH); congr (_ + _); apply: eq_bigr => cab _; by rewrite ?cpolyE ?boundary_polyE.
- rewrite all_batches; exact: (honest_divides Hok HH Hall Hsat).
- exact: (honest_bdivides Hok HH Hall Hsat).
- rewrite all_batches; apply: sub_all Hfits => c; case: (c_density c) => // s' sp' Hs'.
  by apply: (divisor_neq0 Hok HH).
- by apply/(all_nthP (Boundary (Reg 0) 0 None)) => i _; apply: (bdivisor_neq0 Hok HH).
Qed.

Let comp_size : (size (comp_of props props' g ws chs bchs) <= D * n)%N.
Proof. exact: comp_of_size. Qed.

(** The prover computes the composition polynomial exactly if its sum is right at all points of the
    coset. *)
Theorem C37_right_iff :
  G = comp_of props props' g ws chs bchs <->
  forall i, (i < D * n)%N ->
    prover_value props props' g ws (x_ i) chs bchs = quotients_at props props' g (polys_of ws) chs bchs (x_ i).
Proof.
split=> [E i Hi|E]; first by rewrite -HGv // E comp_value // coset_ok.
apply/eqP; rewrite -subr_eq0; apply: contraT => Hne.
have := max_poly_roots Hne _ coset_inj; rewrite size_map size_iota ltnNge.
have -> : (size (G - comp_of props props' g ws chs bchs)%R <= D * n)%N.
  by rewrite (leq_trans (size_add _ _)) // geq_max size_opp HG comp_size.
apply; apply/allP => y /mapP [i]; rewrite mem_iota => /andP [_ Hi] ->.
by rewrite rootE hornerD hornerN HGv // E // comp_value ?coset_ok // subrr.
Qed.

(** Two densities: exactly if at every point of the coset the sum over the first batch vanishes, or
    the weights of the second batch add up to -1. *)
Theorem C37_two_densities d1 cs1 d2 cs2 :
  batch_by_density (ip_constraints props') = [:: (d1, cs1); (d2, cs2)] ->
  G = comp_of props props' g ws chs bchs <->
  forall i, (i < D * n)%N -> numerator D (polys_of ws) (x_ i) 0 cs1 chs = 0 \/
    1 + \sum_(cab <- zip cs2 (drop (size cs1) chs)) (weight D (c_degree cab.1) cab.2).[x_ i] = 0.
Proof.
move=> Hb; rewrite C37_right_iff.
suff eqv i : (i < D * n)%N ->
  (prover_value props props' g ws (x_ i) chs bchs = quotients_at props props' g (polys_of ws) chs bchs (x_ i) <->
   numerator D (polys_of ws) (x_ i) 0 cs1 chs = 0 \/
   1 + \sum_(cab <- zip cs2 (drop (size cs1) chs)) (weight D (c_degree cab.1) cab.2).[x_ i] = 0).
  by split=> E i Hi; apply/(eqv i Hi); apply: E.
move=> Hi; have Hx := coset_ok Hi; move: (x_ i) Hx => x Hx.
have Hs12 : (size cs1 + size cs2)%N = size chs.
  by rewrite Hchs /nc -(batch_size (ip_constraints props')) Hb /= cats0 size_cat.
have Ez : zip (in_batches props') chs = zip cs1 chs ++ zip cs2 (drop (size cs1) chs).
  rewrite /in_batches Hb [flatten _]/= cats0 -{1}(cat_take_drop (size cs1) chs) zip_cat ?size_takel -?Hs12 ?leq_addr //.
  by rewrite -{3}(cat_take_drop (size cs1) chs) zip_catr // size_takel -?Hs12 ?leq_addr.
have [Hd1 Hd2] : all (fun c => c_density c == d1) cs1 /\ all (fun c => c_density c == d2) cs2.
  by have := batch_density (ip_constraints props'); rewrite Hb /= andbT => /andP.
have Zne dn : dn \in [:: d1; d2] -> (density_divisor g n dn).[x] != 0.
  have [k [d [HH Hall Eg _ _]]] := setup => Hin.
  have Haf := from_arp_inv Hok Hw Ha.
  have [|s [sp [Ed Hs _ _]]] := @af_divisors _ _ _ _ Haf dn; first by rewrite Hb.
  rewrite Ed Eg /n (hn_rows HH); apply: (divisor_neq0 Hok HH); first by move: Hs; rewrite (hn_props' HH).
  by rewrite -(hn_rows HH) subr_eq0.
set Z1 := (density_divisor g n d1).[x]; set Z2 := (density_divisor g n d2).[x].
have Z10 : Z1 != 0 by apply: Zne; rewrite !inE eqxx.
have Z20 : Z2 != 0 by apply: Zne; rewrite !inE eqxx orbT.
have quot dn cs (l : seq (F * F)) : all (fun c => c_density c == dn) cs ->
    \sum_(cab <- zip cs l) (cpoly (polys_of ws) cab.1).[x] * (weight D (c_degree cab.1) cab.2).[x] *
      (density_divisor g n (c_density cab.1)).[x]^-1 =
    numerator D (polys_of ws) x 0 cs l / (density_divisor g n dn).[x].
  move=> Hcs; rewrite /numerator mulr_suml; elim: cs l Hcs => [|c cs IH] [|y l] => [||_|]; rewrite ?big_nil //.
  by move=> /andP [/eqP Hc Hcs]; rewrite [zip _ _]/= !big_cons /= Hc IH // add0r.
have num acc cs (l : seq (F * F)) : numerator D (polys_of ws) x acc cs l =
    acc * (\sum_(cab <- zip cs l) (weight D (c_degree cab.1) cab.2).[x]) + numerator D (polys_of ws) x 0 cs l.
  by rewrite /numerator mulr_sumr -big_split; apply: eq_bigr => cab _; rewrite mulrDl add0r.
rewrite /prover_value /quotients_at -/D -/n Hb Ez big_cat [accumulated _ _ _ _ _ _ _ _]/= (quot d1 cs1 chs Hd1) (quot d2 cs2 _ Hd2) -/Z1 -/Z2 !add0r.
rewrite (num (_ / Z1)).
set N1 := numerator D _ x 0 cs1 chs; set N2 := numerator D _ x 0 cs2 _.
set W := \sum_(cab <- zip cs2 _) _; set B := boundary_quotients _ _ _ _ _ _.
set A := N1 / Z1.
have -> : A + (A + (A * W + N2)) / Z2 + B = A + N2 / Z2 + B + A * (1 + W) / Z2.
  have -> : A + (A * W + N2) = A * (1 + W) + N2 by rewrite mulrDr mulr1 addrA.
  by rewrite mulrDl -!addrA; congr (_ + _); rewrite addrC -addrA.
rewrite -[X in _ = X <-> _]addr0; split=> [/addrI /eqP|E].
  rewrite !mulf_eq0 !invr_eq0 (negPf Z10) (negPf Z20) !orbF => /orP [/eqP|/eqP]; by [left | right].
congr (_ + _); apply/eqP; rewrite !mulf_eq0 !invr_eq0 (negPf Z10) (negPf Z20) !orbF.
by case: E => ->; rewrite eqxx ?orbT.
Qed.
End Densities.

Section Completeness.
Variables (F : fieldType) (fp : ff_params F).
Hypothesis Hok : ff_ok fp.
Variables (w : worker) (props : instance_properties F) (lde : nat) (P : prover F) (v : verifier F) (trace : seq (seq F)).
Let D := \max_(c <- ip_constraints props) c_degree c.
Let n := ip_num_rows props.
Hypotheses (Hw : (0 < w)%N) (Hsup : supported_but_density props) (Hcpus : cpus_ok w props lde).
Hypotheses (HP : prover_new fp props lde 1 w = Ok P) (Hv : verifier_new fp props lde = Ok v).
Hypotheses (Hsh : right_shape props trace) (Hlde : is_pow2 lde) (Hsat : satisfied props trace).

(** Final degree one, a satisfying witness, any number of densities: the proof is accepted exactly if
    the polynomial that the prover computes has the value of the composition polynomial at z. *)
Theorem C40_any_densities : exists props' ws,
  [/\ from_instance fp props = Ok props', calculate_witness_polys fp props' w trace = Ok ws &
  exists2 comp : seq (F * F) -> seq (F * F) -> {poly F},
    forall chs bchs, (size (comp chs bchs) <= D * n)%N /\
      forall i, (i < D * n)%N -> let x := ff_gen fp * d_gen (v_constraints_domain v) ^+ i in
      (comp chs bchs).[x] = prover_value props props' (d_gen (v_column_domain v)) ws x chs bchs &
    forall (H : hash_fun) pf, (forall d, exists x, bytes_to_field fp d = Ok x) -> prove fp H P trace = Ok pf ->
    exists ch FD GD, [/\ draw_challenges fp H v pf = Ok (ch, FD, GD),
      size (ch_constraints ch) = size (ip_constraints props), size (ch_boundary ch) = size (ip_boundary_constraints props) &
      verify fp H v pf = Ok true <->
      (comp (ch_constraints ch) (ch_boundary ch)).[ch_z ch] =
      (comp_of props props' (d_gen (v_column_domain v)) ws (ch_constraints ch) (ch_boundary ch)).[ch_z ch]]].
Proof.
have [props' [ws [Hinst Hws [comp Hcs Hacc]]]] := C65_exact Hok Hw Hsup Hcpus HP Hv Hsh Hlde.
exists props', ws; split=> //; exists comp => // H pf Hdec Hpf.
have [ch [FD [GD [Hdr [H1 H2 H3] Hvals Hiff]]]] := Hacc H pf Hdec Hpf.
exists ch, FD, GD; split=> //; rewrite Hiff.
have Hr : ranges_fit props.
  have [k [d [l [p' [a [_ _ _ Ha [HH _ _]]]]]]] := shape_setup Hok Hw Hsup HP Hsh Hlde.
  exact: (density_fits Hok Hw HH Ha).
have [E1 E2] : size (ip_constraints props') = size (ip_constraints props) /\
    ip_boundary_constraints props' = ip_boundary_constraints props.
  by move: Hinst; rewrite from_instanceE; case: ltnP => // _; case: ifP => // _ [<-]; rewrite /= size_map.
rewrite /true_openings (C38_verifier_value Hok Hw Hsup Hsat Hr Hinst Hws Hv) ?E1 ?E2 //.
by split=> [[->]|->].
Qed.

(** Two densities.  If the challenges are such that at every point of the coset the sum over the first
    batch vanishes or the weights of the second batch add up to -1, the proof is accepted; otherwise it
    is rejected for all but fewer than (largest degree) x (rows) points z. *)
Theorem C40_two_densities d1 cs1 d2 cs2 : batch_by_density (ip_constraints props) = [:: (d1, cs1); (d2, cs2)] ->
  exists props' ws (lucky : seq (F * F) -> seq (F * F) -> F -> Prop),
  [/\ from_instance fp props = Ok props', calculate_witness_polys fp props' w trace = Ok ws &
  let masked := map (mask_constraint (d_gen (v_column_domain v))) in
  let condition chs := forall i, (i < D * n)%N -> let x := ff_gen fp * d_gen (v_constraints_domain v) ^+ i in
    numerator D (polys_of ws) x 0 (masked cs1) chs = 0 \/
    1 + \sum_(cab <- zip (masked cs2) (drop (size cs1) chs)) (weight D (c_degree cab.1) cab.2).[x] = 0 in
  (forall chs bchs, size chs = size (ip_constraints props) ->
     (condition chs -> forall z, lucky chs bchs z) /\ (~ condition chs -> few (D * n).-1 (lucky chs bchs))) /\
  forall (H : hash_fun) pf, (forall d, exists x, bytes_to_field fp d = Ok x) -> prove fp H P trace = Ok pf ->
    exists ch FD GD, [/\ draw_challenges fp H v pf = Ok (ch, FD, GD),
      size (ch_constraints ch) = size (ip_constraints props), size (ch_boundary ch) = size (ip_boundary_constraints props) &
      verify fp H v pf = Ok true <-> lucky (ch_constraints ch) (ch_boundary ch) (ch_z ch)]].
Proof.
move=> Hb; have [props' [ws [Hinst Hws [comp Hcs Hacc]]]] := C40_any_densities.
pose C chs bchs := comp_of props props' (d_gen (v_column_domain v)) ws chs bchs.
exists props', ws, (fun chs bchs z => (comp chs bchs).[z] = (C chs bchs).[z]); split=> // masked condition; split=> // chs bchs Hc.
have [k [d [l [p' [a [El EP Hinst' Ha [HH _ Hws']]]]]]] := shape_setup Hok Hw Hsup HP Hsh Hlde.
move: Hinst' Ha HH Hws'; rewrite Hinst => -[<-] Ha HH Hws'.
have Haf := from_arp_inv Hok Hw Ha.
have Hv' := Hv; rewrite El in Hv'.
have [[Ei Ed Ec Ecd Em] [Eb Elf]] := P_Run.honest_verifier HH Hinst Hv'.
have Ek : up_log 2 (ip_num_rows props') = k by rewrite (hn_props' HH) up_expnK.
have EK : up_log 2 (2 ^ k * max_degree (ip_constraints props')) = (k + d)%N.
  by rewrite (honest_maxdeg HH) -expnD up_expnK.
have Ea1 : a_constraints_domain a = v_constraints_domain v by rewrite (af_constraints Haf) Ek EK Ecd.
have Ea2 : a_column_domain a = v_column_domain v by rewrite (af_column Haf) Ek Ec.
have Hb' : batch_by_density (ip_constraints props') = [:: (d1, masked cs1); (d2, masked cs2)].
  by rewrite (hn_props' HH) [ip_constraints _]/= /masked Ec -[d_gen _]/(dom_gen fp k) batch_map // Hb.
have [Hs1 Hs2] := Hcs chs bchs.
have Es1 : size chs = size (ip_constraints props') by rewrite Hc (hn_props' HH) /= size_map.
have key : comp chs bchs = C chs bchs <-> condition chs.
  have := @C37_two_densities F fp Hok w props props' trace ws a Hw Hsup Hinst Hws Ha Hsat chs bchs Es1 (comp chs bchs) Hs1.
  by rewrite Ea1 Ea2 => /(_ Hs2 _ _ _ _ Hb'); rewrite size_map.
split=> [/key -> //|Hno s Hu Hall].
have Hne : comp chs bchs - C chs bchs != 0.
  by rewrite subr_eq0; apply/negP => /eqP /key.
have Hsz : (size (comp chs bchs - C chs bchs)%R <= D * n)%N.
  rewrite (leq_trans (size_add _ _)) // geq_max size_opp Hs1.
  have := @comp_of_size F fp Hok w props props' trace ws a Hw Hsup Hinst Hws Ha chs bchs.
  by rewrite Ea2.
rewrite -ltnS prednK; last by apply: leq_trans Hsz; rewrite size_poly_gt0.
apply: leq_trans (max_poly_roots Hne _ Hu) Hsz.
by apply/allP => z /Hall Ez; rewrite rootE hornerD hornerN Ez subrr.
Qed.
End Completeness.

(** Two densities on four rows, three CPUs: the hypotheses of the theorems above hold. *)
Example C40_densities_ex :
  [/\ supported_but_density two_densities, satisfied two_densities (sq_trace 3), right_shape two_densities (sq_trace 3),
      cpus_ok 3 two_densities 4 &
      is_ok (prover_new f257 two_densities 4 1 3) && is_ok (verifier_new f257 two_densities 4)] /\
  batch_by_density (ip_constraints two_densities) =
    [:: (Dense 0 1, [:: sq_constraint 0 1]); (Dense 1 1, [:: sq_constraint 1 1])].
Proof.
split; last by [].
split; [exact: two_supported | exact: two_satisfied | by vm_compute | | by vm_cast_no_check (erefl true)].
by rewrite /cpus_ok /two_densities /sq_props /= !big_cons big_nil.
Qed.

Print Assumptions C37_exact.
Print Assumptions C37_right_iff.
Print Assumptions C37_two_densities.
Print Assumptions C40_any_densities.
Print Assumptions C40_two_densities.
