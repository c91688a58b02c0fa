(** Properties C64 and C65: the prover on any witness of the right shape. *)
From Coq Require Import NArith Lia.
From mathcomp Require Import all_ssreflect all_algebra.
From Verif Require Import M_Base M_Worker M_Field M_Domain M_Fft M_Poly M_Bytes M_Transcript M_Merkle M_Fri.
From Verif Require Import M_Challenge M_Air M_Arp M_Ali M_Verifier M_Prover.
From Verif Require Import Spec SpecPoly SpecFri SpecAir SpecStark SpecMany SpecSound P_Base P_Fft P_Domain P_Poly P_Lde P_PolyOps P_Wf P_Bytes P_Merkle P_Fri P_Air P_Arp.
From Verif Require Import P_Vals P_Maps P_Ali P_AliG P_AliMany P_Comp P_Honest P_Gz P_Deep P_Stark P_Sound P_SoundDeep P_Few P_Run.
From Verif Require Import Instances Prop_Hash Prop_Fri Prop_Air Prop_Arp Prop_Ali Prop_Stark Prop_Verify Prop_Sound Prop_Claims Prop_SoundGame.

Set Implicit Arguments.
Unset Strict Implicit.
Unset Printing Implicit Defensive.
Import GRing.Theory.
Local Open Scope ring_scope.

Section Comp.
Variables (F : fieldType) (fp : ff_params F).
Hypothesis Hok : ff_ok fp.
Notation S := (ff_S fp).
Notation gen := (ff_gen fp).

(** Interpolation on a coset. *)
Definition on_coset K (f : F -> F) : {poly F} :=
  poly_of (ifft_vec fp K [seq f x | x <- points fp K gen]) \Po (gen^-1 *: 'X).

Lemma on_cosetP K (f : F -> F) : (K <= S)%N -> gen != 0 ->
  (size (on_coset K f) <= 2 ^ K)%N /\ {in points fp K gen, f =1 horner (on_coset K f)}.
Proof.
move=> HK Hg; rewrite /on_coset; set vals := map f _.
have Hv : size vals = (2 ^ K)%N by rewrite size_map size_points.
set q := poly_of (ifft_vec fp K vals); split.
  apply: leq_trans (_ : size q <= _)%N; last by rewrite (leq_trans (size_poly_of _)) // size_ifft_vec.
  case: (eqVneq q 0) => [->|Hq]; first by rewrite comp_poly0.
  have [->|Hs] := posnP (size (q \Po (gen^-1 *: 'X))); first exact: leq0n.
  have := size_comp_poly_leq q (gen^-1 *: 'X); rewrite size_scale ?invr_eq0 // size_polyX muln1.
  by rewrite prednK // size_poly_gt0.
move=> x /(nthP 0) [i]; rewrite size_points => Hi <-.
have Hn : nth 0 (points fp K gen) i = gen * dom_gen fp K ^+ i by rewrite nth_mkseq.
rewrite horner_comp !hornerE Hn mulKf //.
have := ifft_vecK Hok Hv HK => /(congr1 (fun s => nth 0 s i)).
by rewrite nth_evals // mul1r -/q => ->; rewrite (nth_map 0) ?size_points // Hn.
Qed.

Variable w : worker.
Hypothesis Hw : (0 < w)%N.
Variables (props props' : instance_properties F) (trace : seq (seq F)) (k d : nat).
Let wc := [seq ifft_vec fp k v | v <- trace].
Hypothesis HH : honest fp props props' trace k d wc.
Variable a : ali_instance F.
Hypothesis Ha : from_arp fp props' w = Ok a.
Hypothesis Hcpu : lde_cpus_ok w (2 ^ d).
Let cs' := ip_constraints props'.
Let bs := ip_boundary_constraints props'.
Let G := dom_gen fp k.
Let ps := [seq poly_of c | c <- wc].

(** The polynomial that the prover computes, for any number of densities. *)
Lemma any_comp : exists comp : seq (F * F) -> seq (F * F) -> {poly F},
  (forall chs bchs, (size (comp chs bchs) <= 2 ^ (k + d))%N) /\
  (forall chs bchs, {in points fp (k + d) gen, forall x, (comp chs bchs).[x] =
     accumulated G (2 ^ k) (2 ^ d) ps x 0 (batch_by_density cs') chs + boundary_quotients G (2 ^ d) ps x bs bchs}) /\
  forall (H : hash_fun) (decode : digest -> F), (forall d, bytes_to_field fp d = Ok (decode d)) -> forall t,
  calculate_g fp H a t (map (std fp Coefficients k) wc) w =
  Ok (std fp Coefficients (k + d)
        (mkseq (fun i => (comp (stream_pairs H decode t (size cs'))
            (stream_pairs H decode (stream_state H t (size cs').*2) (size bs)))`_i) (2 ^ (k + d))),
      stream_state H t (size cs' + size bs).*2).
Proof.
have Hkd := honest_kd Hok Hw HH Ha.
have Hg0 : gen != 0 by case: Hok.
pose f chs bchs := g_many d wc G (2 ^ k) (batch_by_density cs') chs bs bchs.
have Hc chs bchs := on_cosetP (f chs bchs) Hkd Hg0.
exists (fun chs bchs => on_coset (k + d) (f chs bchs)); split=> [chs bchs|]; first by case: (Hc chs bchs).
split=> [chs bchs x Hx|H decode Hdec t]; first by case: (Hc chs bchs) => _ <-.
have Haf : ali_for fp props' a := from_arp_inv Hok Hw Ha.
have Ek : up_log 2 (ip_num_rows props') = k by rewrite (hn_props' HH) up_expnK.
have Emax : max_degree cs' = (2 ^ d)%N by exact: (honest_maxdeg HH).
have EK : up_log 2 (2 ^ k * max_degree cs') = (k + d)%N by rewrite Emax -expnD up_expnK.
have := @calculate_g_many F fp H decode Hok Hdec w Hw k d wc Hkd Hcpu (hn_sizes HH) a G (2 ^ k) _ _ _ t _ (batch_by_density cs') bs.
rewrite batch_size; apply.
- by rewrite (af_max Haf).
- by rewrite (af_constraints Haf) Ek EK.
- by rewrite (af_coset Haf) Ek EK.
- by rewrite (af_properties Haf) (hn_props' HH).
- by rewrite (af_masks Haf) (hn_regs HH).
- rewrite (af_masks Haf) -/cs' -/bs.
  have H1 : all (fun c => c_degree c <= 2 ^ d)%N cs' by rewrite -Emax max_degree_all.
  have H2 : all (fun c => all (fun u => uni_mask u \in masks_of cs' bs) (c_unis c)) cs'.
    have := all_masks_of (mem (masks_of cs' bs)) cs' bs; rewrite (introT allP) //.
    by move/esym/andP => [].
  have H3 := all_and3 (hn_fit HH) H1 H2.
  rewrite (batch_all (c_fit d (masks_of cs' bs))).
  by apply: sub_all H3 => c /and3P [/andP [_ H4] H5 H6]; rewrite /c_fit H5 H4 H6.
- by move=> dn Hdn; have [s [sp [-> _ _]]] := af_divisors Haf Hdn; rewrite Ek -/cs' EK (hn_props' HH).
- by rewrite (af_batches Haf).
- by rewrite (af_properties Haf).
- have Hr row : row \in map (@b_at_row F) bs ->
     im_get (a_boundary_divisors a) row = Some (vf fp (k + d) gen (fun x => (x - G ^+ row)^-1)).
    by move/(af_boundary Haf) => -[_]; rewrite Ek EK.
  have := hn_bfit HH; rewrite -[ip_boundary_constraints props]/(ip_boundary_constraints (Props (2 ^ k) (size wc) (map (mask_constraint (dom_gen fp k)) (ip_constraints props)) (ip_boundary_constraints props))) -(hn_props' HH) -/bs.
  elim: bs Hr => //= b l IH Hr /andP [/andP [H1 H2] Hl]; split.
    split; [by case: (b_register b) H1 | by move: H2; case: (b_value b) | by apply: Hr; rewrite mem_head].
  by apply: IH => // row Hrow; apply: Hr; rewrite in_cons Hrow orbT.
- by case: (Hc (stream_pairs H decode t (size cs')) (stream_pairs H decode (stream_state H t (size cs').*2) (size bs))).
- by case: (Hc (stream_pairs H decode t (size cs')) (stream_pairs H decode (stream_state H t (size cs').*2) (size bs))).
Qed.
End Comp.

(** * C64 *)
Section C64.
Variables (F : fieldType) (fp : ff_params F).
Hypothesis Hok : ff_ok fp.
Notation S := (ff_S fp).

(** One column per register and one value per row. *)
Definition right_shape (props : instance_properties F) (trace : seq (seq F)) : bool :=
  [&& (0 < size trace)%N, size trace == ip_num_registers props & all (fun c => size c == ip_num_rows props) trace].

(** Numbers of CPUs for which the extensions are right (C09). *)
Definition cpus_ok (w : worker) (props : instance_properties F) (lde : nat) : bool :=
  (w == 1%N) || (lde < 2 * w)%N && (\max_(c <- ip_constraints props) c_degree c < 2 * w)%N.

Lemma shape_setup w props lde out P trace :
  (0 < w)%N -> supported_but_density props -> prover_new fp props lde out w = Ok P -> right_shape props trace -> is_pow2 lde ->
  exists k d l props' a, let wc := [seq ifft_vec fp k c | c <- trace] in
  [/\ lde = (2 ^ l)%N, P = Prover props' a lde out w, from_instance fp props = Ok props', from_arp fp props' w = Ok a &
   [/\ honest fp props props' trace k d wc, all (fun c => size c == (2 ^ k)%N) trace &
       calculate_witness_polys fp props' w trace = Ok (map (std fp Coefficients k) wc)]].
Proof.
move=> Hw Hsup HP /and3P [H0 /eqP Hr Hc] /is_pow2P [l El]; subst lde.
move: HP; rewrite /prover_new => HP; have [props' Hinst {}HP] := bind_Ok HP.
have [a Ha [EP]] := bind_Ok HP; subst P.
have [k Hn] : exists k, ip_num_rows props = (2 ^ k)%N by case/and5P: Hsup => /is_pow2P.
have Hk : (k <= S)%N.
  by move: Hinst; rewrite from_instanceE Hn up_expnK //; case: ltnP.
have Ep : ip_num_registers props' = ip_num_registers props /\ ip_num_rows props' = ip_num_rows props.
  by move: Hinst; rewrite from_instanceE; case: ltnP => // _; case: ifP => // _ [<-].
have Hall : all (fun c : seq F => size c == (2 ^ k)%N) trace by rewrite -Hn.
have := calculate_witness_std Hok Hw props' H0 Hall Hk; rewrite Ep.1 Ep.2 Hr Hn !eqxx /= => Hws.
have [k' [d [HH Hall' Ews]]] := honest_setup Hok Hw Hsup Hinst Hws.
have Ek : k' = k by apply/eqP; rewrite -(eqn_exp2l k' k (isT : (1 < 2)%N)) -(hn_rows HH) Hn.
subst k'; exists k, d, l, props', a; split=> //; split=> //.
by rewrite Hws Ews.
Qed.

Lemma cpus_split w props lde d : cpus_ok w props lde -> \max_(c <- ip_constraints props) c_degree c = (2 ^ d)%N ->
  lde_cpus_ok w (2 ^ d) /\ lde_cpus_ok w lde.
Proof. by rewrite /cpus_ok /lde_cpus_ok => Hc <-; case/orP: Hc => [->|/andP [-> ->]] //; rewrite !orbT. Qed.

Lemma density_fits w props props' trace k d a : (0 < w)%N ->
  honest fp props props' trace k d [seq ifft_vec fp k c | c <- trace] -> from_arp fp props' w = Ok a -> ranges_fit props.
Proof.
move=> Hw HH Ha; have Haf : ali_for fp props' a := from_arp_inv Hok Hw Ha.
apply/(all_nthP c_default) => i Hi; set c := nth _ _ _.
have [|s [sp [Ed Hs _ _]]] := @af_divisors _ _ _ _ Haf (c_density c); last first.
  by rewrite Ed (hn_rows HH); move: Hs; rewrite (hn_props' HH).
rewrite batch_keys (hn_props' HH) has_map; apply/(has_nthP c_default); exists i => //=.
Qed.

Variable H : hash_fun.
Hypothesis Hdec : forall d, exists x, bytes_to_field fp d = Ok x.
Let decode (d : digest) : F := if bytes_to_field fp d is Ok x then x else 0.
Let HdecP d : bytes_to_field fp d = Ok (decode d).
Proof. by rewrite /decode; have [x ->] := Hdec d. Qed.

(** On a witness of the right shape, whether it satisfies the instance or not, the
    prover does not panic.  It returns an error if the point [z] that the transcript
    gives after its commitments lies in the extended domain of the composition
    polynomial, and a proof with these commitments otherwise. *)
Theorem C64_prover_outcome w props lde out P v trace :
  (0 < w)%N -> supported_but_density props -> cpus_ok w props lde ->
  prover_new fp props lde out w = Ok P -> verifier_new fp props lde = Ok v -> right_shape props trace ->
  is_pow2 lde -> (1 < lde)%N -> is_pow2 out -> (out < ip_num_rows props)%N -> (ff_num_bits fp <? 256)%num ->
  (exists D, domain_new fp (d_size (v_constraints_domain v) * lde) = Ok D) ->
  exists f_roots g_root z, drawn_z fp H v f_roots g_root = Ok z /\
  if z ^+ (d_size (v_constraints_domain v) * lde) == 1 then prove fp H P trace = Err
  else exists2 pf, prove fp H P trace = Ok pf & pr_f_iop_roots pf = f_roots /\ pr_g_iop_root pf = g_root.
Proof.
move=> Hw Hsup Hcpus HP Hv Hsh Hlde Hl1 Hout Hon Hbits [D HD].
have [k [d [l [props' [a [El EP Hinst Ha [HH Hall Hws]]]]]]] := shape_setup Hw Hsup HP Hsh Hlde.
subst P lde; have Hsupd := Hsup; have Htr : (0 < size trace)%N by case/and3P: Hsh.
have [Hcpu Hcpul] := cpus_split Hcpus (hn_max HH).
have [_ [k' [d' Hf]]] := supported_fit Hok Hsupd (density_fits Hw HH Ha) Hv.
have Ek : k' = k by apply/eqP; rewrite -(eqn_exp2l k' k (isT : (1 < 2)%N)) -(ft_props_rows Hf) (hn_rows HH).
subst k'; have [comp [Hcs [Hcv Hcg]]] := any_comp Hok Hw HH Ha Hcpu.
have {}Hcg := Hcg H decode HdecP.
have [[Ei Ed Ec Ecd Em] [Eb Elf]] := P_Run.honest_verifier HH Hinst Hv.
have Edk : d_size (v_constraints_domain v) = (2 ^ (k + d))%N by rewrite Ecd.
rewrite Edk -expnD in HD *.
have HS : (k + d + l <= S)%N.
  move: HD; rewrite domain_newE up_expnK //; by case: ltnP.
have HK : (k + l <= S)%N by apply: leq_trans HS; rewrite leq_add2r leq_addr.
have Hk1 : (0 < k)%N by have := hn_1k HH; case: (k).
have HK1 : (0 < k + l)%N by rewrite addn_gt0 Hk1.
have HK2 : (0 < k + d + l)%N by rewrite !addn_gt0 Hk1.
have Hl : (0 < l)%N by move: Hl1; case: (l).
pose fr := P_Run.f_roots fp H trace k l.
pose gr := P_Run.g_root fp H decode props' trace k d l comp.
pose z := P_Run.run_z fp H decode props' trace k d l comp.
exists fr, gr, z; split.
  rewrite /drawn_z /transcript_new Hbits bind_ok -/(P_Run.t_f fp H trace k l).
  have Hbc : size (flatten [seq db.2 | db <- v_batches v]) = size (ip_constraints props').
    by rewrite Eb batch_size.
  rewrite (challenge_pairsE H HdecP) bind_ok (challenge_pairsE H HdecP) bind_ok Hbc Ei stream_stateD -doubleD.
  by rewrite (get_challengeE H HdecP) bind_ok.
have -> := P_Run.proveE Hok HdecP Hw out HH Htr Ha Hcpul HS Hcs Hcg Hws erefl.
have Hroots : all (fun m : mask_properties F => if m.2 is Mask mk then mk ^+ (2 ^ k) == 1 else false)
    (masks_of (ip_constraints props') (ip_boundary_constraints props')) by rewrite -Em; exact: (ft_roots Hf).
have -> := P_Run.z_okE H decode Hok trace HS comp Hroots; rewrite Hbits /= -/z; case: eqP => //= Hz.
rewrite /P_Run.finish.
set h1 := P_Run.h1_pol _ _ _ _ _ _ _ _ _; set h2 := P_Run.h2_pol _ _ _ _ _ _ _ _ _.
have V1 := vf_values h1 HK; have V2 := vf_values h2 HS.
have N1 : size (p_coeffs (vf fp (k + l) 1 (horner h1))) = (2 ^ (k + l))%N by rewrite size_map size_points.
have N2 : size (p_coeffs (vf fp (k + d + l) 1 (horner h2))) = (2 ^ (k + d + l))%N by rewrite size_map size_points.
have Hout0 : (0 < out)%N by case/is_pow2P: Hout => o ->; rewrite expn_gt0.
have Hlo : (1 < 2 ^ l * out)%N by apply: leq_trans Hl1 _; rewrite leq_pmulr.
have Hb1 : (1 < 2 ^ l * out < size (p_coeffs (vf fp (k + l) 1 (horner h1))))%N.
  by rewrite N1 Hlo expnD mulnC ltn_pmul2r ?expn_gt0 // -(hn_rows HH).
have Hb2 : (1 < 2 ^ l * out < size (p_coeffs (vf fp (k + d + l) 1 (horner h2))))%N.
  case/andP: Hb1 => -> H1 /=; apply: leq_trans H1 _; rewrite N1 N2 leq_exp2l // leq_add2r; exact: leq_addr.
have [p1 Hp1] := C28_prover_total H Hok Hw V1.1 Hlde Hout Hb1 Hdec.
have [p2 Hp2] := C28_prover_total H Hok Hw V2.1 Hlde Hout Hb2 Hdec.
rewrite Hp1 Hp2 !bind_ok.
have [r1 ->] := get_roots_ok Hok Hw V1.1 Hp1; have [r2 ->] := get_roots_ok Hok Hw V2.1 Hp2; rewrite !bind_ok.
have Hidx K (b : digest) : (0 < K)%N -> exists2 i, bytes_to_challenge_index b (2 ^ K) (2 ^ l) = Ok i & (i < 2 ^ K)%N.
  move=> HK0; have [|||||i [-> Hi _ _]] := @C32_challenge_index b (2 ^ K) (2 ^ l); last by exists i.
  - by rewrite size_tuple.
  - by rewrite expn_gt0.
  - by rewrite oddX eqn0Ngt HK0.
  - by rewrite expn_gt0.
  - by rewrite oddX eqn0Ngt Hl.
rewrite /get_challenge_bytes.
match goal with |- context [bytes_to_challenge_index ?b (2 ^ (k + l)) _] => have [i1 -> Hi1] := Hidx (k + l)%N b HK1 end.
rewrite bind_ok.
match goal with |- context [bytes_to_challenge_index ?b (2 ^ (k + d + l)) _] => have [i2 -> Hi2] := Hidx (k + d + l)%N b HK2 end.
rewrite bind_ok.
have S1 : (size h1 <= 2 ^ (k + l) %/ 2 ^ l)%N.
  rewrite expnD mulnK ?expn_gt0 // -[X in (_ <= X)%N]prednK ?expn_gt0 //; apply: leq_trans (leqnSn _).
  apply: size_deep_h1; rewrite all_map prednK ?expn_gt0 //; apply: sub_all (hn_sizes HH) => c /eqP <-; exact: size_poly_of.
have S2 : (size h2 <= 2 ^ (k + d + l) %/ 2 ^ l)%N.
  rewrite expnD mulnK ?expn_gt0 // -[X in (_ <= X)%N]prednK ?expn_gt0 //; apply: leq_trans (leqnSn _).
  apply: size_deep_quotient; rewrite prednK ?expn_gt0 //; exact: Hcs.
have [pf1 -> _] : exists2 pr, produce_proof fp H p1 (vf fp (k + l) 1 (horner h1)) i1 = Ok pr & True.
  have [||pr Hpr _] := @C29_acceptance F fp H Hok w _ h1 (2 ^ l) out p1 i1 Hw V1 _ Hp1; rewrite ?N1 //.
  by exists pr.
have [pf2 -> _] : exists2 pr, produce_proof fp H p2 (vf fp (k + d + l) 1 (horner h2)) i2 = Ok pr & True.
  have [||pr Hpr _] := @C29_acceptance F fp H Hok w _ h2 (2 ^ l) out p2 i2 Hw V2 _ Hp2; rewrite ?N2 //.
  by exists pr.
rewrite !bind_ok.
have -> : mapM (fun c => iop_query fp H (vtree fp H (k + l) (P_Run.fvals fp k l c)) i1 (P_Run.fvals fp k l c))
    [seq ifft_vec fp k c | c <- trace] =
  Ok [seq hquery fp H (k + l) (P_Run.fvals fp k l c) i1 | c <- [seq ifft_vec fp k c | c <- trace]].
  elim: (map _ trace) => //= c s ->.
  by rewrite iop_query_vtree ?size_fvals ?bind_ok.
rewrite bind_ok iop_query_vtree ?size_gvals // bind_ok.
by eexists; [reflexivity | ].
Qed.

(** Witnesses of another shape do not give a proof: no columns and columns of
    different lengths make the prover panic, another number of columns or of rows is
    an error. *)
Theorem C64_shapes w props lde out P trace :
  (0 < w)%N -> prover_new fp props lde out w = Ok P -> (ff_num_bits fp <? 256)%num -> ~~ right_shape props trace ->
  prove fp H P trace =
  if (0 < size trace)%N && all (fun c => size c == size (nth [::] trace 0)) trace then Err else Panic.
Proof.
move=> Hw; rewrite /prover_new => HP Hbits Hsh; have [props' Hinst {}HP] := bind_Ok HP.
have [a Ha [<-]] := bind_Ok HP.
have Ep : ip_num_registers props' = ip_num_registers props /\ ip_num_rows props' = ip_num_rows props.
  by move: Hinst; rewrite from_instanceE; case: ltnP => // _; case: ifP => // _ [<-].
rewrite /prove /transcript_new Hbits bind_ok /calculate_witness_polys [p_arp _]/=.
case: posnP => [/size0nil -> //|H0]; rewrite (get_nth [::] H0) bind_ok /=.
rewrite (eq_all (a2 := fun c : seq F => size c == size (nth [::] trace 0))); last by move=> c; rewrite eq_sym.
case: ifP => //= Hall; rewrite Ep.1 Ep.2.
case: eqP => //= Hr; case: eqP => //= Hn.
by move: Hsh; rewrite /right_shape H0 Hr eqxx -Hn Hall.
Qed.
End C64.

(** * C65 *)
Section C65.
Variables (F : fieldType) (fp : ff_params F).
Hypothesis Hok : ff_ok fp.
Notation S := (ff_S fp).

(** What the prover adds up at a point, for any witness and any number of densities
    (SpecMany.v). *)
Definition prover_value (props props' : instance_properties F) (g : F) (ws : seq (hpoly F Coefficients)) (x : F)
    (chs bchs : seq (F * F)) : F :=
  let D := \max_(c <- ip_constraints props) c_degree c in
  accumulated g (ip_num_rows props) D (polys_of ws) x 0 (batch_by_density (ip_constraints props')) chs +
  boundary_quotients g D (polys_of ws) x (ip_boundary_constraints props') bchs.

(** Final degree one.  For a witness of the right shape there is a polynomial for all
    challenges of the constraints, which depends on the witness and not on the hash
    function nor on the point z, such that a proof for the witness is accepted exactly
    if the value that the verifier calculates from the true openings at z is the value of
    this polynomial at z.  The polynomial is the one of degree below (largest degree) x
    (rows) that has the values [prover_value] on the coset of the constraints domain. *)
Theorem C65_exact w props lde P v trace :
  (0 < w)%N -> supported_but_density props -> cpus_ok w props lde ->
  prover_new fp props lde 1 w = Ok P -> verifier_new fp props lde = Ok v -> right_shape props trace -> is_pow2 lde ->
  exists props' ws, [/\ from_instance fp props = Ok props', calculate_witness_polys fp props' w trace = Ok ws &
  exists2 comp : seq (F * F) -> seq (F * F) -> {poly F},
    forall chs bchs, (size (comp chs bchs) <= (\max_(c <- ip_constraints props) c_degree c) * ip_num_rows props)%N /\
      forall i, (i < (\max_(c <- ip_constraints props) c_degree c) * ip_num_rows props)%N ->
      let x := ff_gen fp * d_gen (v_constraints_domain v) ^+ i in
      (comp chs bchs).[x] = prover_value props props' (d_gen (v_column_domain v)) ws x chs bchs &
    forall (H : hash_fun) pf, (forall d, exists x, bytes_to_field fp d = Ok x) -> prove fp H P trace = Ok pf ->
    exists ch FD GD, [/\ draw_challenges fp H v pf = Ok (ch, FD, GD),
      [/\ size (ch_constraints ch) = size (ip_constraints props),
          size (ch_boundary ch) = size (ip_boundary_constraints props) & ch_z ch ^+ ip_num_rows props != 1],
      pr_f_at_z_m pf = true_openings v ws (ch_z ch) &
      verify fp H v pf = Ok true <->
      calculate_g_at_z v (ch_constraints ch) (ch_boundary ch) (true_openings v ws (ch_z ch)) (ch_z ch) =
        Ok (comp (ch_constraints ch) (ch_boundary ch)).[ch_z ch]]].
Proof.
move=> Hw Hsup Hcpus HP Hv Hsh Hlde.
have [k [d [l [props' [a [El EP Hinst Ha [HH Hall Hws]]]]]]] := shape_setup Hok Hw Hsup HP Hsh Hlde.
subst P lde; have Hsupd := Hsup; have Htr : (0 < size trace)%N by case/and3P: Hsh.
have [Hcpu Hcpul] := cpus_split Hcpus (hn_max HH).
have [_ [k' [d' Hf]]] := supported_fit Hok Hsupd (density_fits Hok Hw HH Ha) Hv.
have Ek : k' = k by apply/eqP; rewrite -(eqn_exp2l k' k (isT : (1 < 2)%N)) -(ft_props_rows Hf) (hn_rows HH).
subst k'; have [comp [Hcs [Hcv Hcg0]]] := any_comp Hok Hw HH Ha Hcpu.
exists props', (map (std fp Coefficients k) [seq ifft_vec fp k c | c <- trace]); split=> //.
have Eps : polys_of (map (std fp Coefficients k) [seq ifft_vec fp k c | c <- trace]) =
           map (@poly_of F) [seq ifft_vec fp k c | c <- trace].
  by rewrite /polys_of -!map_comp; apply: eq_map.
exists comp => [chs bchs|H pf Hdec Hpf].
  rewrite (hn_max HH) (hn_rows HH) -expnD addnC; split=> // i Hi x.
  have [[_ _ Ec Ecd _] _] := P_Run.honest_verifier HH Hinst Hv.
  rewrite Hcv; last by apply/mapP; exists i; rewrite ?mem_iota // /x Ecd.
  by rewrite /prover_value (hn_max HH) (hn_rows HH) Ec Eps.
pose decode (d : digest) : F := if bytes_to_field fp d is Ok x then x else 0.
have HdecP e : bytes_to_field fp e = Ok (decode e) by rewrite /decode; have [x ->] := Hdec e.
have {Hcg0} Hcg := Hcg0 H decode HdecP.
have [[Ei Ed Ec Ecd Em] [Eb Elf]] := P_Run.honest_verifier HH Hinst Hv.
have HS : (k + d + l <= S)%N.
  have := Hpf; rewrite /prove [p_worker _]/= [p_arp _]/= [p_ali _]/= [p_lde_factor _]/= => H0.
  have [t Ht {}H0] := bind_Ok H0; have [ws' Hws' {}H0] := bind_Ok H0.
  have [fl Hfl {}H0] := bind_Ok H0; have [fo Hfo {}H0] := bind_Ok H0; have [fr Hfr {}H0] := bind_Ok H0.
  have [gt Hg {}H0] := bind_Ok H0; case: gt Hg H0 => gp t' Hg H0; have [gl Hgl _] := bind_Ok H0.
  move: Hws' Hg; rewrite Hws => -[<-]; rewrite Hcg => -[Eg _].
  by move: Hgl; rewrite -Eg vf_lde ?(honest_kd Hok Hw HH Ha) ?size_mkseq //; case: ifP.
have HK : (k + l <= S)%N by apply: leq_trans HS; rewrite leq_add2r leq_addr.
have := P_Run.proveE Hok HdecP Hw 1 HH Htr Ha Hcpul HS Hcs Hcg Hws erefl.
rewrite Hpf; case Hbits: (ff_num_bits fp <? 256)%num => //; case: ifP => // Hz /esym Hfin.
have [p1 [p2 [i1 [i2 [pf1 [pf2 Hfd]]]]]] := P_Run.finish_inv Hok HdecP Hw HH Htr HS Hinst Hv Hbits Hfin.
have Eto z : true_openings v (map (std fp Coefficients k) [seq ifft_vec fp k c | c <- trace]) z =
    [seq (column_poly (map (@poly_of F) [seq ifft_vec fp k c | c <- trace]) m.1).[shifted m.2 z] |
      m <- masks_of (ip_constraints props') (ip_boundary_constraints props')].
  by rewrite /true_openings Eps Em.
have Hzt := P_Run.z_trace Hok HH HS Hz.
set chs := P_Run.run_chs fp H decode props' trace k l in Hfd *.
set bchs := P_Run.run_bchs fp H decode props' trace k l in Hfd *.
set z := P_Run.run_z fp H decode props' trace k d l comp in Hzt Hfd *.
have Ecs : size (ip_constraints props') = size (ip_constraints props) by rewrite (hn_props' HH) /= size_map.
have Ebs : ip_boundary_constraints props' = ip_boundary_constraints props by rewrite (hn_props' HH).
have Sc : size chs = size (ip_constraints props) by rewrite size_mkseq Ecs.
have Sb : size bchs = size (ip_boundary_constraints props) by rewrite size_mkseq Ebs.
have Hdr := P_Run.fi_draw Hfd.
match type of Hdr with _ = Ok (?c, ?f, ?g) => exists c, f, g end.
split; [exact: Hdr | split; [exact: Sc | exact: Sb | by rewrite (hn_rows HH)] | |].
  by rewrite (P_Run.fi_vals Hfd) Eto.
rewrite /= Eto.
have [y Hy] : exists y, calculate_g_at_z v chs bchs (P_Run.run_vals fp H decode props' trace k d l comp) z = Ok y.
  rewrite /P_Run.run_vals -Em.
  eexists; apply: (@calculate_g_at_zP F fp Hok (map (@poly_of F) [seq ifft_vec fp k c | c <- trace]) k z (hn_k HH) Hzt v (ft_masks Hf) (ft_col Hf) chs bchs).
  - by rewrite (ft_max Hf) expn_gt0.
  - exact: (ft_rows Hf).
  - exact: (ft_batches Hf).
  - exact: (ft_bounds Hf).
  - by rewrite Eb batch_size Sc Ecs.
  - by rewrite Ei Sb Ebs.
rewrite -/(P_Run.run_vals fp H decode props' trace k d l comp) Hy.
rewrite (P_Run.verify_finished HH Hinst Hv Hz Hfd Hy).
have Hk1 : (0 < k)%N by have := hn_1k HH; case: (k).
set h1 := P_Run.h1_pol _ _ _ _ _ _ _ _ _ in Hfd *.
have V1 := vf_values h1 HK; have V2 := vf_values (P_Run.h2_pol fp H decode props' trace k d l comp) HS.
set h2 := P_Run.h2_pol _ _ _ _ _ _ _ _ _ in V2.
have Hl : (0 < l)%N.
  have [K [e [r [u [[_ _ _ Ee Er] [h _ _ _]]]]]] := by_values_inv Hok Hw V1.1 (P_Run.fi_by1 Hfd).
  move: h; move/eqP: Er; rewrite -{1}(expn0 2) eqn_exp2l // => /eqP <-.
  by move/eqP: Ee; rewrite eqn_exp2l // addn0 => /eqP <-.
have Hodd K i : (0 < K)%N -> (exists s : digest, bytes_to_challenge_index s (2 ^ K) (2 ^ l) = Ok i) -> odd i.
  move=> HK0 [s]; have [|||||j [-> _ Hj _] [<-] //] := @C32_challenge_index s (2 ^ K) (2 ^ l).
  - by rewrite size_tuple.
  - by rewrite expn_gt0.
  - by rewrite oddX eqn0Ngt HK0.
  - by rewrite expn_gt0.
  - by rewrite oddX eqn0Ngt Hl.
have S1 : (size h1 <= 2 ^ (k + l) %/ 2 ^ l)%N.
  rewrite expnD mulnK ?expn_gt0 // -[X in (_ <= X)%N]prednK ?expn_gt0 //; apply: leq_trans (leqnSn _).
  apply: size_deep_h1; rewrite all_map prednK ?expn_gt0 //; apply: sub_all (hn_sizes HH) => c /eqP <-; exact: size_poly_of.
have S2 : (size h2 <= 2 ^ (k + d + l) %/ 2 ^ l)%N.
  rewrite expnD mulnK ?expn_gt0 // -[X in (_ <= X)%N]prednK ?expn_gt0 //; apply: leq_trans (leqnSn _).
  apply: size_deep_quotient; rewrite prednK ?expn_gt0 //; exact: Hcs.
have N1 : size (p_coeffs (vf fp (k + l) 1 (horner h1))) = (2 ^ (k + l))%N by rewrite size_map size_points.
have N2 : size (p_coeffs (vf fp (k + d + l) 1 (horner h2))) = (2 ^ (k + d + l))%N by rewrite size_map size_points.
have C1 := @C29_complete_partial F fp H Hok w _ h1 (2 ^ l) p1 pf1 i1 Hw V1; rewrite N1 in C1.
have C2 := @C29_complete_partial F fp H Hok w _ h2 (2 ^ l) p2 pf2 i2 Hw V2; rewrite N2 in C2.
have HK1 : (0 < k + l)%N by rewrite addn_gt0 Hk1.
have HK2 : (0 < k + d + l)%N by rewrite !addn_gt0 Hk1.
have := C1 S1 (P_Run.fi_by1 Hfd) (Hodd _ _ HK1 (P_Run.fi_idx1 Hfd)) (P_Run.fi_lt1 Hfd) (P_Run.fi_prod1 Hfd).
have Ho2 := Hodd _ _ HK2 (P_Run.fi_idx2 Hfd).
have := C2 S2 (P_Run.fi_by2 Hfd) Ho2 (P_Run.fi_lt2 Hfd) (P_Run.fi_prod2 Hfd).
have Hlt2 := P_Run.fi_lt2 Hfd.
rewrite !nth_vdef ?(P_Run.fi_lt1 Hfd) // => E2 E1; rewrite E1 bind_ok /=.
have A2 := @C29_acceptance F fp H Hok w _ h2 (2 ^ l) 1 p2 i2 Hw V2; rewrite N2 in A2.
have [pr] := A2 S2 (P_Run.fi_by2 Hfd) Hlt2; rewrite (P_Run.fi_prod2 Hfd) => -[<-] /(_ Ho2) [b [_ Hacc]].
have Hx : dom_gen fp (k + d + l) ^+ i2 - P_Run.run_z fp H decode props' trace k d l comp != 0.
  case/andP: Hz => _ /allP; apply; apply/mapP; exists i2; rewrite ?mul1r // mem_iota; exact: Hlt2.
have Eh2 : h2.[dom_gen fp (k + d + l) ^+ i2] =
    ((P_Run.g_pol fp H decode props' trace k l comp).[dom_gen fp (k + d + l) ^+ i2] -
     (P_Run.g_pol fp H decode props' trace k l comp).[P_Run.run_z fp H decode props' trace k d l comp]) *
    (dom_gen fp (k + d + l) ^+ i2 - P_Run.run_z fp H decode props' trace k d l comp)^-1.
  exact: deep_quotientE.
have Hfin2 := (Hacc _).1 E2; rewrite nth_vdef // in Hfin2.
split=> [Hver|[Ey]].
  have [] := (Hacc _).1 Hver; rewrite nth_vdef // Eh2 => Heq _; congr Ok.
  have Hinv : (dom_gen fp (k + d + l) ^+ i2 - P_Run.run_z fp H decode props' trace k d l comp)^-1 != 0 by rewrite invr_eq0.
  by have /(mulIf Hinv)/addrI/oppr_inj := Heq.
by rewrite Ey -/(P_Run.g_pol fp H decode props' trace k l comp) -Eh2.
Qed.
End C65.

(** A witness that does not satisfy the instance.  Of the |F|^(2N + 1) choices of the
    challenges for the N constraints and of the point z no more than
    |F|^(2N) ((D+1)n + 1) are bad, and whatever the hash function is, a proof from the
    prover is accepted only if the transcript gives bad ones. *)
Section Wrong.
Variables (F : finFieldType) (fp : ff_params F).
Hypothesis Hok : ff_ok fp.

Lemma answers_few w lde props props' trace ws v :
  let N := (size (ip_constraints props) + size (ip_boundary_constraints props))%N in
  (0 < w)%N -> supported_but_density props -> ranges_fit props -> reads_fit props trace ->
  from_instance fp props = Ok props' -> calculate_witness_polys fp props' w trace = Ok ws ->
  verifier_new fp props lde = Ok v -> ~ satisfied props trace ->
  few (#|F| ^ (2 * N).-1) (fun c : seq (F * F) * seq (F * F) =>
    [/\ size c.1 = size (ip_constraints props), size c.2 = size (ip_boundary_constraints props) &
        answers props v ws c.1 c.2]).
Proof.
move=> N Hw Hsup Hfit Hreads Hinst Hws Hv Hno.
pose nc := size (ip_constraints props).
pose P (L : seq (F * F)) := answers props v ws (take nc L) (drop nc L).
apply: (@few_map _ _ (fun c => c.1 ++ c.2) _ _ (fun L => size L = N /\ P L)).
- move=> [c b] [c' b'] [/= Hc Hb _] [/= Hc' Hb' _] /eqP; rewrite eqseq_cat ?Hc //.
  by case/andP=> /eqP -> /eqP ->.
- by move=> [c b] [/= Hc Hb Ha]; rewrite /P -/nc take_size_cat // drop_size_cat // size_cat Hc Hb.
move=> s Hu Hs; apply: contraT => Hn; suff : False by [].
have Htwo j : (j < N)%N -> ~ ~ exists L a a', [/\ size L = N, a != a', P (with_alpha L j a) & P (with_alpha L j a')].
  move=> Hj Hnex; move/negP: Hn; apply; apply: (few_alpha Hj) Hs => // L a a' HL Ha Ha'.
  by apply/eqP; apply: contraT => Hne; case: Hnex; exists L, a, a'.
apply: (nn_all Htwo) => {}Htwo; apply: Hno.
have Hsw (L : seq (F * F)) j a : (j < size L)%N -> size (with_alpha L j a) = size L.
  by move=> Hj; rewrite size_set_nth (maxn_idPr _).
have Hsplit (L : seq (F * F)) : size L = N -> size (take nc L) = nc /\ size (drop nc L) = size (ip_boundary_constraints props).
  by move=> HL; rewrite size_takel ?HL ?leq_addr // size_drop HL /N addKn.
apply: (C56_all Hok Hw Hsup Hfit Hreads Hinst Hws Hv) => j Hj.
- have [|L [a [a' [HL Hne Ha Ha']]]] := Htwo j; first by rewrite (leq_trans Hj) // leq_addr.
  have [H1 H2] := Hsplit L HL; exists (take nc L), (drop nc L), a, a'; split=> //.
  + move: Ha; rewrite /P -{1 2}(cat_take_drop nc L) -with_alphaL ?H1 //.
    by rewrite take_size_cat ?drop_size_cat // Hsw ?H1.
  + move: Ha'; rewrite /P -{1 2}(cat_take_drop nc L) -with_alphaL ?H1 //.
    by rewrite take_size_cat ?drop_size_cat // Hsw ?H1.
have [|L [a [a' [HL Hne Ha Ha']]]] := Htwo (nc + j)%N; first by rewrite ltn_add2l.
have [H1 H2] := Hsplit L HL.
have EL b : with_alpha L (nc + j) b = take nc L ++ with_alpha (drop nc L) j b.
  by rewrite with_alphaR ?H2 // H1 cat_take_drop.
exists (take nc L), (drop nc L), a, a'; split=> //.
- by move: Ha; rewrite /P EL take_size_cat ?drop_size_cat.
- by move: Ha'; rewrite /P EL take_size_cat ?drop_size_cat.
Qed.

Theorem C65_wrong_witness w props lde P v trace :
  let n := ip_num_rows props in let D := \max_(c <- ip_constraints props) c_degree c in
  let N := (size (ip_constraints props) + size (ip_boundary_constraints props))%N in
  (0 < w)%N -> supported_but_density props -> cpus_ok w props lde ->
  prover_new fp props lde 1 w = Ok P -> verifier_new fp props lde = Ok v -> right_shape props trace -> is_pow2 lde ->
  reads_fit props trace -> ~ satisfied props trace ->
  exists2 bad : seq (F * F) * seq (F * F) * F -> Prop, few (#|F| ^ (2 * N) * (D.+1 * n + 1)) bad &
    forall (H : hash_fun) pf, (forall d, exists x, bytes_to_field fp d = Ok x) ->
    prove fp H P trace = Ok pf -> verify fp H v pf = Ok true ->
    exists ch FD GD, draw_challenges fp H v pf = Ok (ch, FD, GD) /\ bad (ch_constraints ch, ch_boundary ch, ch_z ch).
Proof.
move=> n D N Hw Hsup Hcpus HP Hv Hsh Hlde Hreads Hno.
have [props' [ws [Hinst Hws [comp Hcs0 Hacc]]]] := C65_exact Hok Hw Hsup Hcpus HP Hv Hsh Hlde.
have Hcs chs bchs : (size (comp chs bchs) <= D * n)%N := (Hcs0 chs bchs).1.
pose sizes (cb : seq (F * F) * seq (F * F)) := size cb.1 = size (ip_constraints props) /\
  size cb.2 = size (ip_boundary_constraints props).
pose hit (cb : seq (F * F) * seq (F * F)) z := z ^+ n != 1 /\
  calculate_g_at_z v cb.1 cb.2 (true_openings v ws z) z = Ok (comp cb.1 cb.2).[z].
pose A cb := answers props v ws cb.1 cb.2.
exists (fun c => sizes c.1 /\ hit c.1 c.2); last first.
  move=> H pf Hdec Hpf Hver; have [ch [FD [GD [Hdr [H1 H2 H3] _ [Hiff _]]]]] := Hacc H pf Hdec Hpf.
  by exists ch, FD, GD; split=> //; split; [split | split; [exact: H3 | exact: Hiff]].
have Hfit : ranges_fit props.
  have [k [d [l [p' [a [_ _ _ Ha [HH _ _]]]]]]] := shape_setup Hok Hw Hsup HP Hsh Hlde.
  exact: (density_fits Hok Hw HH Ha).
have Hsupd := Hsup.
have N0 : (0 < N)%N.
  have /and5P [_ _ /is_pow2P [d Hd] _ _] := Hsupd; rewrite /N.
  by case: (ip_constraints props) Hd => //; rewrite big_nil => /eqP; rewrite eq_sym expn_eq0.
pose P1 (c : seq (F * F) * seq (F * F) * F) := ((sizes c.1 /\ A c.1) /\ True)%type.
pose P2 (c : seq (F * F) * seq (F * F) * F) := (sizes c.1 /\ (~ A c.1 /\ hit c.1 c.2))%type.
have few1 : few (#|F| ^ (2 * N).-1 * #|F|) P1.
  apply: (@few_pair _ _ _ _ (fun cb => sizes cb /\ A cb) (fun _ _ => True)) => [|x _]; last exact: few_finite.
  apply: few_sub (answers_few Hw Hsupd Hfit Hreads Hinst Hws Hv Hno).
  by case=> a b [[H1 H2] H3]; split.
have few2 : few (#|F| ^ (2 * N) * (D.+1 * n)) P2.
  apply: (@few_pair _ _ _ _ sizes (fun cb z => ~ A cb /\ hit cb z)) => [|cb _]; first exact: few_pairs.
  apply: few_cond => HnA s Hu Hs; rewrite leqNgt; apply: contraT; rewrite negbK => Hlt; case: HnA.
  by exists (comp cb.1 cb.2), s; split=> //; exact: ltnW.
rewrite mulnDr muln1 addnC; rewrite -expnSr prednK ?muln_gt0 // in few1.
apply: (few_or few1 few2) => c [Hs Hh] Hn'.
have nn (X : Prop) : ~ ~ (X \/ ~ X) by move=> Hx; apply: (Hx); right=> x; apply: Hx; left.
by apply: (nn (A c.1)) => -[HA|HnA]; apply: Hn'; [left | right].
Qed.
End Wrong.

(** * Examples over the field with 257 elements: four rows, LDE factor 4, three CPUs,
    and a witness with a wrong last row. *)
Lemma one_ok : supported one_density.
Proof.
have H1 : single_density one_density by vm_compute.
by rewrite /supported one_supported H1.
Qed.

Lemma one_cpus : cpus_ok 3 one_density 4.
Proof. by rewrite /cpus_ok /one_density /sq_props /= !big_cons big_nil. Qed.

Lemma one_wrong : ~ satisfied one_density bad_trace.
Proof.
have Hbad : (cval (row_env bad_trace 2) (sq_constraint 0 1) != 0).
  by rewrite /cval /= !big_cons big_nil; vm_compute.
case=> _ Hc _; have [s [sp [[<- <-] _ Hrow]]] := Hc 0%N isT.
by have [_ E] := Hrow 2%N isT; move: Hbad; rewrite E eqxx.
Qed.

(** The hypotheses of [C64_prover_outcome] are met, and the proof for the wrong witness
    is made and rejected. *)
Example C64_ex : [/\ right_shape one_density bad_trace,
  is_ok (let* v := verifier_new f257 one_density 4 in domain_new f257 (d_size (v_constraints_domain v) * 4)),
  is_ok (prover_new f257 one_density 4 1 3), (ff_num_bits f257 <? 256)%num &
  rejected (end_to_end f257 toy_hash one_density bad_trace 4 1 3)].
Proof. by split; vm_cast_no_check (erefl true). Qed.

(** No more than |F|^4 (3*4 + 1) of the |F|^5 challenges let a proof for the wrong
    witness through. *)
Example C65_ex : exists P v, [/\ prover_new f257 one_density 4 1 3 = Ok P, verifier_new f257 one_density 4 = Ok v &
  exists2 bad : seq (Fin257 * Fin257) * seq (Fin257 * Fin257) * Fin257 -> Prop, few (#|Fin257| ^ 4 * 13) bad &
    forall (H : hash_fun) pf, prove f257 H P bad_trace = Ok pf -> verify f257 H v pf = Ok true ->
    exists ch FD GD, draw_challenges f257 H v pf = Ok (ch, FD, GD) /\ bad (ch_constraints ch, ch_boundary ch, ch_z ch)].
Proof.
have Hb : is_ok (prover_new f257 one_density 4 1 3) && is_ok (verifier_new f257 one_density 4) by vm_cast_no_check (erefl true).
have [P [v [EP Ev]]] : exists P v, prover_new f257 one_density 4 1 3 = Ok P /\ verifier_new f257 one_density 4 = Ok v.
  move: Hb; case: (prover_new _ _ _ _ _) => [P| |]; [|by []|by []].
  by case: (verifier_new _ _ _) => [v| |]; [move=> _; exists P, v| |].
exists P, v; split; [exact: EP | exact: Ev |].
have Hr : reads_fit one_density bad_trace by vm_compute.
have Hs : right_shape one_density bad_trace by vm_compute.
have [bad Hfew Hbad] := @C65_wrong_witness Fin257 f257 f257_ok 3 one_density 4 P v bad_trace isT one_supported one_cpus EP Ev Hs isT Hr one_wrong.
exists bad; last by move=> H pf; apply: Hbad; exact: Hdec257.
have ED : \max_(c <- ip_constraints one_density) c_degree c = 2%N by rewrite /one_density /sq_props /= !big_cons big_nil.
have EN : (2 * (size (ip_constraints one_density) + size (ip_boundary_constraints one_density)) = 4)%N by [].
have En : ((\max_(c <- ip_constraints one_density) c_degree c).+1 * ip_num_rows one_density + 1 = 13)%N by rewrite ED.
by rewrite -EN -En; exact: Hfew.
Qed.

Print Assumptions C64_prover_outcome.
Print Assumptions C64_shapes.
Print Assumptions C65_exact.
Print Assumptions C65_wrong_witness.
