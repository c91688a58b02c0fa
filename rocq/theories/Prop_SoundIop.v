(** Property C59: soundness of the checks of the verifier for arbitrary oracles:
    the constraint equation at [z] together with the DEEP checks. *)
From Coq Require Import NArith.
From mathcomp Require Import all_ssreflect all_algebra.
From Verif Require Import M_Base M_Worker M_Field M_Domain M_Fft M_Poly M_Bytes M_Transcript M_Merkle M_Fri.
From Verif Require Import M_Challenge M_Air M_Arp M_Ali M_Verifier M_Prover.
From Verif Require Import Spec SpecPoly SpecFri SpecAir SpecStark SpecSound P_Base P_Fft P_Domain P_Poly P_Lde P_PolyOps P_Wf P_Bytes P_Merkle P_Fri P_Air P_Arp.
From Verif Require Import P_Vals P_Maps P_Ali P_AliG P_Comp P_Honest P_Gz P_Deep P_Stark P_Sound P_SoundDeep.
From Verif Require Import Instances Prop_Hash Prop_Fri Prop_Air Prop_Arp Prop_Ali Prop_Sound Prop_SoundDeep.

Set Implicit Arguments.
Unset Strict Implicit.
Unset Printing Implicit Defensive.
Import GRing.Theory.
Local Open Scope ring_scope.

Section Tools.
Variable F : fieldType.

(** Polynomials that agree with one function at most positions are equal. *)
Lemma almost_unique (I : seq nat) (om : F) (L : nat) (f : nat -> F) (p q : {poly F}) (N e e' : nat) :
  L.-primitive_root om -> uniq I -> all (fun i => i < L)%N I -> (N + e + e' <= size I)%N ->
  (size p <= N)%N -> (size q <= N)%N ->
  almost I e (fun i => f i = p.[om ^+ i]) -> almost I e' (fun i => f i = q.[om ^+ i]) -> p = q.
Proof.
move=> Hom Hu HL HN Hp Hq [bad Hb E] [bad' Hb' E'].
pose J := [seq i <- I | i \notin bad ++ bad'].
have HJ i : i \in J -> [/\ i \in I, i \notin bad & i \notin bad'].
  by rewrite mem_filter mem_cat negb_or => /andP [/andP [-> ->] ->].
have Huz : uniq [seq om ^+ i | i <- J].
  rewrite map_inj_in_uniq ?filter_uniq // => i j /HJ [Hi _ _] /HJ [Hj _ _] /eqP.
  by rewrite (eq_prim_root_expr Hom) !modn_small ?(allP HL) // => /eqP.
apply: (agree_eq Hp Hq Huz); last first.
  by move=> x /mapP [i /HJ [Hi H1 H2] ->]; rewrite -E // -E'.
rewrite size_map -(leq_add2r (size (bad ++ bad'))).
apply: (@leq_trans (size I)); first by apply: leq_trans HN; rewrite size_cat -addnA leq_add2l leq_add.
rewrite -size_cat; apply: uniq_leq_size => // i Hi; rewrite mem_cat mem_filter Hi andbT.
by case: (i \in bad ++ bad').
Qed.

Lemma almost_cat (I : seq nat) e e' (Q Q' : nat -> Prop) : almost I e Q -> almost I e' Q' ->
  almost I (e + e') (fun i => Q i /\ Q' i).
Proof.
move=> [b Hb H] [b' Hb' H']; exists (b ++ b'); first by rewrite size_cat leq_add.
by move=> i Hi; rewrite mem_cat negb_or => /andP [H1 H2]; split; [apply: H | apply: H'].
Qed.

Lemma almost_sub (I : seq nat) e (Q Q' : nat -> Prop) : almost I e Q ->
  (forall idxs : seq nat, (forall i, i \in idxs -> i \in I /\ Q i) -> forall i, i \in idxs -> Q' i) -> almost I e Q'.
Proof.
move=> [b Hb H] Hsub; exists b => // i Hi Hib; apply: (Hsub [:: i]); last by rewrite inE.
by move=> j; rewrite inE => /eqP ->; split=> //; apply: H.
Qed.

Lemma seq_choice (A : Type) (a0 : A) (Q : nat -> A -> Prop) R : (forall r, (r < R)%N -> exists a, Q r a) ->
  exists s : seq A, size s = R /\ forall r, (r < R)%N -> Q r (nth a0 s r).
Proof.
elim: R => [|R IH] H; first by exists [::].
have [r Hr|s [Hs HQ]] := IH; first by apply: H; apply: ltnW.
have [a Ha] := H R (leqnn _); exists (rcons s a); rewrite size_rcons Hs; split=> // r.
by rewrite ltnS leq_eqVlt nth_rcons Hs => /orP [/eqP ->|Hr]; rewrite ?ltnn ?eqxx // Hr; apply: HQ.
Qed.
End Tools.

Section C59.
Variables (F : fieldType) (fp : ff_params F).
Hypothesis Hok : ff_ok fp.

(** What the verifier sees at one point [z].  [f i] are the values of the column
    oracles at position [i] of the domain [FD], [g i] those of the oracle of the
    composition polynomial on [GD]; these are arbitrary.  The prover claims openings
    [vals].  The verifier computes [y] from them.  For each mask [j] and two values of
    its coefficient, the simulated values of h1 are those of a polynomial of degree
    below [n] at all but [ef] of the positions [If]; the simulated values of h2 are
    those of a polynomial of degree below [N] at all but [eg] of the positions [Ig]. *)
Definition accepted_at (v : verifier F) (FD GD : domain F) (If Ig : seq nat) (ef eg n N : nat)
    (f : nat -> seq F) (g : nat -> F) (chs bchs : seq (F * F)) (z : F) : Prop :=
  let M := size (v_all_masks v) in
  exists (vals : seq F) (y : F), [/\ size vals = M, calculate_g_at_z v chs bchs vals z = Ok y,
    (forall j, (j < M)%N -> exists (alphas : seq F) (a a' : F) (h h' : {poly F}),
       [/\ size alphas = M, a != a', (size h <= n)%N, (size h' <= n)%N &
        almost If ef (fun i => simulate_h1 v (set_nth 0 alphas j a) i FD (f i) vals z = Ok h.[d_gen FD ^+ i]) /\
        almost If ef (fun i => simulate_h1 v (set_nth 0 alphas j a') i FD (f i) vals z = Ok h'.[d_gen FD ^+ i])]) &
    exists2 h2 : {poly F}, (size h2 <= N)%N &
      almost Ig eg (fun i => simulate_h2 i GD (g i) z y = Ok h2.[d_gen GD ^+ i])].

(** The prover has an oracle [g] for the challenges [chs], [bchs] that is accepted at
    (D+1)n + 1 points. *)
Definition accepted (props : instance_properties F) (v : verifier F) (FD GD : domain F) (If Ig : seq nat) (ef eg : nat)
    (f : nat -> seq F) (chs bchs : seq (F * F)) : Prop :=
  let n := ip_num_rows props in let D := \max_(c <- ip_constraints props) c_degree c in
  exists (g : nat -> F) (zs : seq F), [/\ uniq zs, (D.+1 * n + 1 <= size zs)%N &
    forall z, z \in zs -> z ^+ n != 1 /\ accepted_at v FD GD If Ig ef eg n (D * n) f g chs bchs z].

Section Setup.
Variables (lde : nat) (props props' : instance_properties F) (v : verifier F).
Variables (sf sg : nat) (FD GD : domain F) (If Ig : seq nat) (ef eg : nat) (f : nat -> seq F).
Hypothesis Hsup : supported_but_density props.
Hypothesis Hfit : ranges_fit props.
Hypothesis Hregs : (0 < ip_num_registers props)%N.
Hypothesis Hinst : from_instance fp props = Ok props'.
Hypothesis Hv : verifier_new fp props lde = Ok v.
Hypothesis HFD : domain_new fp sf = Ok FD.
Hypothesis HGD : domain_new fp sg = Ok GD.
Hypothesis HIf : uniq If && all (fun i => i < d_size FD)%N If.
Hypothesis HIg : uniq Ig && all (fun i => i < d_size GD)%N Ig.

Let n := ip_num_rows props.
Let D := \max_(c <- ip_constraints props) c_degree c.
Let R := ip_num_registers props.
Let G := d_gen (v_column_domain v).
Hypothesis Hef : (n.+1 + 2 * ef + 2 * ef <= size If)%N.
Hypothesis Heg : ((D * n).+1 + eg + eg <= size Ig)%N.

Lemma dom_prim_root s (X : domain F) : domain_new fp s = Ok X -> (d_size X).-primitive_root (d_gen X).
Proof. by case/(domain_new_dom (F := F)) => k Hk ->; apply: (dom_gen_prim Hok). Qed.

(** Any polynomials give a trace of the right shape. *)
Definition trace_of (ps : seq {poly F}) : seq (seq F) := [seq mkseq (fun i => p.[G ^+ i]) n | p <- ps].

Lemma trace_ws (ps : seq {poly F}) : size ps = R -> exists ws, calculate_witness_polys fp props' 1 (trace_of ps) = Ok ws.
Proof.
move=> Hs; have /and5P [/is_pow2P [k Hk] _ _ _ _] := Hsup.
move: Hinst; rewrite from_instanceE Hk up_expnK //; case: ltnP => // HkS; case: ifP => // _ [Ep].
have Hn : d_size (dom fp k) = n by rewrite /n Hk.
have Hd : domain_new fp n = Ok (dom fp k) by rewrite /n Hk domain_newE up_expnK // ltnNge HkS.
have H0 : (0 < size (trace_of ps))%N by rewrite size_map Hs.
have Hall : all (fun c => size c == n) (trace_of ps) by apply/allP => c /mapP [p _ ->]; rewrite size_mkseq.
have [HD _] := C35_witness_polynomials Hok props' (isT : (0 < 1)%N) H0 Hall Hd Hn.
have [||ws [Hws _]] := HD; last by exists ws.
- by rewrite -Ep /= size_map.
- by rewrite -Ep /= /n Hk.
Qed.

Lemma masks_ok : all (mask_ok R) (v_all_masks v).
Proof.
have [ws Hws] := trace_ws (size_nseq R (0 : {poly F})).
have [k [d [HH Hall Ews]]] := honest_setup Hok (isT : (0 < 1)%N) Hsup Hinst Hws.
have := hn_regs HH; rewrite !size_map size_nseq.
suff -> : v_all_masks v = masks_of (ip_constraints props') (ip_boundary_constraints props') by [].
move: Hinst Hv; rewrite from_instanceE verifier_newE (hn_rows HH) up_expnK //.
by case: ltnP => // _; case: ifP => // _ [<-]; case: ltnP => // _ [<-].
Qed.

(** A position oracle that is close to a polynomial of degree at most n. *)
Definition follows (r : nat) (p : {poly F}) : Prop := almost If (2 * ef) (fun i => nth 0 (f i) r = p.[d_gen FD ^+ i]).
Definition used (r : nat) : Prop := exists m, (Reg r, m) \in v_all_masks v.

Lemma accepted_column g chs bchs z : accepted_at v FD GD If Ig ef eg n (D * n) f g chs bchs z ->
  exists vals y, [/\ size vals = size (v_all_masks v), calculate_g_at_z v chs bchs vals z = Ok y,
    (forall j r m, (j < size (v_all_masks v))%N -> nth (Reg 0, Mask 0) (v_all_masks v) j = (Reg r, Mask m) ->
       exists p : {poly F}, [/\ (size p <= n.+1)%N, p.[m * z] = nth 0 vals j & follows r p]) &
    exists p : {poly F}, [/\ (size p <= (D * n).+1)%N, p.[z] = y & almost Ig eg (fun i => g i = p.[d_gen GD ^+ i])]].
Proof.
move=> [vals [y [Hs Hg Hc [h2 Hh2 [b Hb E]]]]]; exists vals, y; split=> //.
  move=> j r m Hj Em; have [al [a [a' [h [h' [Hal Ha Hh Hh' [[b1 Hb1 E1] [b2 Hb2 E2]]]]]]]] := Hc j Hj.
  have [|p [Hp Ep Hi]] := @C57_columns _ v FD f vals al z j r m a a' h h' n [seq i <- If | i \notin b1 ++ b2] Hj Em Hs Hal Ha Hh Hh'.
    move=> i; rewrite mem_filter mem_cat negb_or => /andP [/andP [H1 H2] H3]; split; [exact: E1 | exact: E2].
  exists p; split=> //; exists (b1 ++ b2); first by rewrite size_cat mul2n -addnn leq_add.
  by move=> i Hi1 Hi2; apply: Hi; rewrite mem_filter Hi2.
have [|p [Hp Ep Hi]] := @C57_composition _ GD g z y h2 (D * n) [seq i <- Ig | i \notin b] Hh2.
  by move=> i; rewrite mem_filter => /andP [H1 H2]; apply: E.
exists p; split=> //; exists b => // i Hi1 Hi2; apply: Hi; by rewrite mem_filter Hi2.
Qed.

Lemma accepted_answers ps chs bchs : size ps = R -> all (fun p : {poly F} => size p <= n + 1)%N ps ->
  (forall r, used r -> follows r (nth 0 ps r)) ->
  accepted props v FD GD If Ig ef eg f chs bchs -> answers_of 1 props v ps chs bchs.
Proof.
move=> Hs Hps Hf [g [zs [Hu Hz Hacc]]].
have [z0 Hz0] : exists z, z \in zs.
  by case: zs Hz {Hu Hacc} => [|z zs]; [rewrite addn1 | exists z; rewrite inE eqxx].
have [_ /accepted_column [_ [_ [_ _ _ [g0 [Hg0 _ Hgc]]]]]] := Hacc z0 Hz0.
exists g0, zs; split=> //; first by rewrite addn1.
move=> z /Hacc [Hz1 /accepted_column [vals [y [Hsv Hy Hcol [p [Hp Epy Hpc]]]]]]; split=> //.
have /andP [HuIg HIgl] := HIg; have /andP [HuIf HIfl] := HIf.
rewrite -(almost_unique (dom_prim_root HGD) HuIg HIgl Heg Hp Hg0 Hpc Hgc) Epy -Hy; congr calculate_g_at_z.
apply: (@eq_from_nth _ 0) => [|j]; rewrite size_map // => Hj.
rewrite (nth_map (Reg 0, Mask 0)) //.
have := all_nthP (Reg 0, Mask 0) masks_ok j Hj; case Em: (nth _ _ j) => [[?|r|?|?] [?|m]] //= Hr.
have [q [Hq <- Hqf]] := Hcol j r m Hj Em; congr (_.[_]).
have Hur : used r by exists (Mask m); rewrite -Em mem_nth.
apply: (almost_unique (dom_prim_root HFD) HuIf HIfl Hef _ Hq (Hf r Hur) Hqf).
by rewrite -addn1; apply: (all_nthP 0 Hps); rewrite Hs.
Qed.

Lemma accepted_polys chs bchs : accepted props v FD GD If Ig ef eg f chs bchs ->
  exists ps : seq {poly F}, [/\ size ps = R, all (fun p : {poly F} => size p <= n + 1)%N ps &
    forall r, used r -> follows r (nth 0 ps r)].
Proof.
move=> [g [zs [Hu Hz Hacc]]].
have [z0 Hz0] : exists z, z \in zs.
  by case: zs Hz {Hu Hacc} => [|z zs]; [rewrite addn1 | exists z; rewrite inE eqxx].
have [_ /accepted_column [vals [y [_ _ Hcol _]]]] := Hacc z0 Hz0.
pose Q r (p : {poly F}) := (size p <= n + 1)%N /\ (used r -> follows r p).
have [|ps [Hs HQ]] := @seq_choice {poly F} 0 Q R.
  move=> r Hr; have [/hasP [mk Hmk /eqP Em]|Hno] := boolP (has (fun mk => mk.1 == Reg r) (v_all_masks v)); last first.
    exists 0; split; first by rewrite size_poly0.
    by case=> m Hm; case/negP: Hno; apply/hasP; exists (Reg r, m).
  have := allP masks_ok _ Hmk; case: mk Hmk Em => r0 [?|m] Hmk /= Em; rewrite Em // /mask_ok /= => _.
  have Hj : (index (r0, Mask m) (v_all_masks v) < size (v_all_masks v))%N by rewrite index_mem.
  have [|p [Hp _ Hpf]] := Hcol _ r m Hj; first by rewrite nth_index // Em.
  by exists p; rewrite /Q addn1.
have Hu' r : used r -> (r < R)%N.
  by case=> m /(allP masks_ok); rewrite /mask_ok /=; case: m.
exists ps; split=> //; first by apply/(all_nthP 0) => r; rewrite Hs => /HQ [].
by move=> r Hr; have [_] := HQ r (Hu' r Hr); apply.
Qed.
End Setup.

(** Traces of one shape are read alike. *)
Lemma c_in_trace_shape (t t' : seq (seq F)) i c : map size t = map size t' -> c_in_trace t i c = c_in_trace t' i c.
Proof.
move=> E; have Es : size t = size t' by rewrite -(size_map size) E size_map.
have En r : size (nth [::] t r) = size (nth [::] t' r).
  have [Hr|Hr] := ltnP r (size t); last by rewrite !nth_default -?Es.
  by rewrite -!(nth_map _ 0%N size) -?Es // E.
have Hu u : u_in_trace t i u = u_in_trace t' i u.
  by rewrite /u_in_trace; case: (ut_register u) => // r; case: (ut_steps u) => // d; rewrite Es En.
apply: eq_all => -[u|p] /=; [exact: Hu | exact: eq_all].
Qed.

(** The whole check.  Let [f] be arbitrary oracles for the columns.  If for the
    coefficient of every constraint and of every boundary constraint there are two
    values for which a prover is accepted, there is a trace that satisfies the
    instance, and polynomials of degree at most [n] that take the values of the trace
    on the trace domain and from which the columns that the verifier reads differ at
    no more than [2*ef] of the positions [If]. *)
Theorem C59_iop_soundness lde props props' v sf sg FD GD If Ig ef eg f :
  let n := ip_num_rows props in let D := \max_(c <- ip_constraints props) c_degree c in
  let R := ip_num_registers props in
  supported_but_density props -> ranges_fit props -> reads_fit props (nseq R (nseq n 0)) -> (0 < R)%N ->
  from_instance fp props = Ok props' -> verifier_new fp props lde = Ok v ->
  domain_new fp sf = Ok FD -> domain_new fp sg = Ok GD ->
  uniq If && all (fun i => i < d_size FD)%N If -> uniq Ig && all (fun i => i < d_size GD)%N Ig ->
  (n.+1 + 2 * ef + 2 * ef <= size If)%N -> ((D * n).+1 + eg + eg <= size Ig)%N ->
  let chs_ok chs := size chs = size (ip_constraints props) in
  let bchs_ok bchs := size bchs = size (ip_boundary_constraints props) in
  let acc := accepted props v FD GD If Ig ef eg f in
  (forall j, (j < size (ip_constraints props))%N -> exists chs bchs a a', [/\ chs_ok chs, bchs_ok bchs, a != a',
     acc (with_alpha chs j a) bchs & acc (with_alpha chs j a') bchs]) ->
  (forall j, (j < size (ip_boundary_constraints props))%N -> exists chs bchs a a', [/\ chs_ok chs, bchs_ok bchs, a != a',
     acc chs (with_alpha bchs j a) & acc chs (with_alpha bchs j a')]) ->
  exists (trace : seq (seq F)) (ps : seq {poly F}), [/\ satisfied props trace,
    size ps = R /\ size trace = R,
    forall r, (r < R)%N -> (size (nth 0 ps r)%R <= n.+1)%N /\
      nth [::] trace r = [seq (nth 0 ps r).[d_gen (v_column_domain v) ^+ i] | i <- iota 0 n] &
    forall r m, (Reg r, m) \in v_all_masks v ->
      almost If (2 * ef) (fun i => nth 0 (f i) r = (nth 0 ps r).[d_gen FD ^+ i])].
Proof.
move=> n D R Hsup Hfit Hreads HR Hinst Hv HFD HGD HIf HIg Hef Heg chs_ok bchs_ok acc Hc Hb.
have Hc0 : (0 < size (ip_constraints props))%N.
  have /and5P [_ _ /is_pow2P [d Hd] _ _] := Hsup.
  by case: (ip_constraints props) Hd => //; rewrite big_nil => /eqP; rewrite eq_sym expn_eq0.
have [chs0 [bchs0 [a0 [a0' [_ _ _ A0 _]]]]] := Hc 0%N Hc0.
have [ps [Hs Hps Hfol]] := accepted_polys Hsup HR Hinst Hv A0.
set G := d_gen (v_column_domain v).
have [ws Hws] := trace_ws v Hsup HR Hinst Hs.
pose trace := trace_of props v ps.
have Hst : size trace = R by rewrite size_map.
have Hsps : size ps = size trace by rewrite Hst.
have Enth r : (r < R)%N -> nth [::] trace r = mkseq (fun i => (nth 0 ps r).[G ^+ i]) n.
  by move=> Hr; rewrite /trace /trace_of (nth_map 0) ?Hs.
have Hval r i : (r < size trace)%N -> (i < n)%N -> (nth 0 ps r).[G ^+ i] = (nth [::] trace r)`_i.
  by rewrite Hst => Hr Hi; rewrite Enth // nth_mkseq.
have H01 : (0 < 1)%N by [].
have ans chs bchs : acc chs bchs -> answers_of 1 props v ps chs bchs.
  exact: (accepted_answers Hsup HR Hinst Hv HFD HGD HIf HIg Hef Heg Hs Hps Hfol).
exists trace, ps; split.
- apply: satisfied_from => //.
  + have Eshape : map size trace = map size (nseq R (nseq n (0 : F))).
      by rewrite map_nseq size_nseq -[R]Hs /trace /trace_of; elim: (ps) => //= p s ->; rewrite size_mkseq.
    move: Hreads => /andP [H1 H2]; rewrite /reads_fit H2 andbT; apply: sub_all H1 => c.
    case: (c_density c) => // s sp /allP H1; apply/allP => i Hi.
    by rewrite (c_in_trace_shape _ _ Eshape) H1.
  + by rewrite Hst.
  + by move=> r; rewrite Hst => Hr; rewrite Enth // size_mkseq.
  + move=> j Hj; have [chs [bchs [a [a' [H2 H3 H4 /ans H5 /ans H6]]]]] := Hc j Hj.
    exact: (constraint_sound Hok H01 Hsup Hfit Hinst Hws Hv (leqnn 1) Hsps Hps Hval H2 H3 Hj H4 H5 H6).
  move=> j Hj; have [chs [bchs [a [a' [H2 H3 H4 /ans H5 /ans H6]]]]] := Hb j Hj.
  exact: (boundary_sound Hok H01 Hsup Hfit Hinst Hws Hv (leqnn 1) Hsps Hps Hval H2 H3 Hj H4 H5 H6).
- by split.
- move=> r Hr; split; first by rewrite -addn1; apply: (all_nthP 0 Hps); rewrite Hs.
  by rewrite Enth.
by move=> r m Hm; apply: Hfol; exists m.
Qed.

(** Conversely the prover who has a satisfying trace is accepted for all
    challenges, whatever the positions, at all points outside of the domains. *)
Theorem C59_honest w lde props props' trace ws v sf sg FD GD If Ig ef eg zs chs bchs :
  let n := ip_num_rows props in let D := \max_(c <- ip_constraints props) c_degree c in
  (0 < w)%N -> supported_but_density props -> ranges_fit props ->
  from_instance fp props = Ok props' -> calculate_witness_polys fp props' w trace = Ok ws ->
  verifier_new fp props lde = Ok v -> satisfied props trace ->
  domain_new fp sf = Ok FD -> domain_new fp sg = Ok GD ->
  all (fun i => i < d_size FD)%N If -> all (fun i => i < d_size GD)%N Ig ->
  uniq zs -> (D.+1 * n + 1 <= size zs)%N ->
  (forall z, z \in zs -> [/\ z ^+ n != 1, z ^+ d_size GD != 1 &
     forall r m, (r, Mask m) \in v_all_masks v -> (m * z) ^+ d_size FD != 1]) ->
  size chs = size (ip_constraints props) -> size bchs = size (ip_boundary_constraints props) ->
  accepted props v FD GD If Ig ef eg (fun i => [seq p.[d_gen FD ^+ i] | p <- polys_of ws]) chs bchs.
Proof.
move=> n D Hw Hsup Hfit Hinst Hws Hv Hsat HFD HGD HIf HIg Hu Hz Hzs Hs Hb.
have [k [d [HH Hall EG [En ED Hn1]]]] := setup Hok Hw Hsup Hinst Hws Hv.
have [kk [dd [HH' _ Ews]]] := honest_setup Hok Hw Hsup Hinst Hws.
have Ekk : kk = k by apply/eqP; rewrite -(eqn_exp2l _ _ (isT : (1 < 2)%N)) -(hn_rows HH) -(hn_rows HH').
rewrite {kk}Ekk {HH'} in HH' Ews.
pose wc := [seq ifft_vec fp k t | t <- trace].
have Eps : polys_of ws = [seq poly_of c | c <- wc] by rewrite Ews /polys_of -!map_comp; apply: eq_map.
have [Hsp Hps _] := honest_polys Hok Hw Hsup Hinst Hws Hv; rewrite addn0 in Hps.
set gp := comp_of props props' (d_gen (v_column_domain v)) ws chs bchs.
have Hgp : (size gp <= D * n)%N.
  rewrite /gp /comp_of -/n -/D; apply: (size_composition (G_prim Hok Hw Hsup Hinst Hws Hv)) => //.
  - by rewrite /D ED expn_gt0.
  - by apply/(all_nthP c_default) => i /(in_fit Hok Hw Hsup Hfit Hinst Hws Hv) [H2 -> ->]; case: (c_density _) H2.
exists (fun i => gp.[d_gen GD ^+ i]), zs; split=> // z /Hzs [Hz1 HzG HzF]; split=> //.
have Hmok : all (mask_ok (size wc)) (v_all_masks v).
  have := hn_regs HH; rewrite -/wc.
  suff -> : v_all_masks v = masks_of (ip_constraints props') (ip_boundary_constraints props') by [].
  move: Hinst Hv; rewrite from_instanceE verifier_newE (hn_rows HH) up_expnK //.
  by case: ltnP => // _; case: ifP => // _ [<-]; case: ltnP => // _ [<-].
have [K HK EK] := domain_new_dom HFD; have [Kg HKg EKg] := domain_new_dom HGD.
rewrite {}EK {}EKg in HzG HzF HIf HIg *.
exists [seq (column_poly (polys_of ws) m.1).[shifted m.2 z] | m <- v_all_masks v], gp.[z].
split; first by rewrite size_map.
- apply: (C38_verifier_value Hok Hw Hsup Hsat Hfit Hinst Hws Hv) => //.
    by rewrite Hs (hn_props' HH) /= size_map.
  by rewrite (boundaries' Hok Hw Hsup Hinst Hws Hv).
- move=> j Hj; exists (nseq (size (v_all_masks v)) 0), 0, 1.
  exists (deep_h1 (polys_of ws) (v_all_masks v) z (set_nth 0 (nseq (size (v_all_masks v)) 0) j 0)).
  exists (deep_h1 (polys_of ws) (v_all_masks v) z (set_nth 0 (nseq (size (v_all_masks v)) 0) j 1)).
  have Hps1 : all (fun p : {poly F} => size p <= n.+1)%N (polys_of ws) by apply: sub_all Hps => p /leqW.
  have Hsim al i : i \in If -> simulate_h1 v al i (dom fp K) [seq p.[d_gen (dom fp K) ^+ i] | p <- polys_of ws]
      [seq (column_poly (polys_of ws) m.1).[shifted m.2 z] | m <- v_all_masks v] z =
      Ok (deep_h1 (polys_of ws) (v_all_masks v) z al).[d_gen (dom fp K) ^+ i].
    move=> Hi; rewrite Eps; apply: simulate_h1P => //; last 2 first.
    - exact: (allP HIf).
    - by rewrite -map_comp.
    apply/allP => -[r m] Hm; have := allP Hmok _ Hm; case: r m Hm => [?|r|?|?] [?|m] //= Hm _.
    rewrite /avoids /=; apply/allP => x /mapP [i0 _ ->]; rewrite subr_eq0; apply: contra (HzF _ _ Hm) => /eqP <-.
    by rewrite mul1r -exprM mulnC exprM (prim_expr_order (dom_gen_prim Hok HK)) expr1n.
  split; [by rewrite size_nseq | by rewrite eq_sym oner_neq0 | exact: size_deep_h1 | exact: size_deep_h1 |].
  by split; exists [::] => // i Hi _; apply: Hsim.
exists (deep_quotient gp z); first by apply: size_deep_quotient; apply: leqW.
exists [::] => // i Hi _.
have := @simulate_h2P F fp Kg (mkseq (nth 0 gp) (size gp)) z i HKg; rewrite coeffs_of_poly //; apply; last exact: (allP HIg).
apply/allP => x /mapP [i0 _ ->]; rewrite subr_eq0; apply: contra HzG => /eqP <-.
by rewrite mul1r -exprM mulnC exprM (prim_expr_order (dom_gen_prim Hok HKg)) expr1n.
Qed.
End C59.

(** All hypotheses of both theorems hold for an instance over the field of 257
    elements with n = 4 rows and D = 2, all positions of LDE domains of 16 points, two
    wrong positions for the columns and three for the composition polynomial. *)
Definition zs59 : seq F257 := [seq i%:R | i <- [:: 3; 5; 6; 7; 9; 10; 11; 12; 13; 14; 15; 17; 18]%N].

Example C59_ex : exists props' ws v,
  let f i := [seq p.[d_gen (dom f257 4) ^+ i] | p <- polys_of ws] in
  [/\ from_instance f257 two_densities = Ok props', calculate_witness_polys f257 props' 1 (sq_trace 3) = Ok ws,
      verifier_new f257 two_densities 4 = Ok v,
      [/\ supported_but_density two_densities, ranges_fit two_densities,
          reads_fit two_densities (nseq 1 (nseq 4 0)) & domain_new f257 16 = Ok (dom f257 4)] &
      [/\ (5 + 2 * 2 + 2 * 2 <= size (iota 0 16))%N, ((2 * 4).+1 + 3 + 3 <= size (iota 0 16))%N &
      forall chs bchs, size chs = 2%N -> size bchs = 1%N ->
        accepted two_densities v (dom f257 4) (dom f257 4) (iota 0 16) (iota 0 16) 2 3 f chs bchs]].
Proof.
have Hb : built two_densities (sq_trace 3) = Ok tt by vm_compute.
have [props' [ws [v [H1 H2 H3]]]] := builtP Hb; exists props', ws, v => f.
have Hr : ranges_fit two_densities by vm_compute.
have Hrd : reads_fit two_densities (nseq 1 (nseq 4 0)) by vm_compute.
have Hd : domain_new f257 16 = Ok (dom f257 4) by rewrite domain_newE.
split; [exact: H1 | exact: H2 | exact: H3 | by split; [exact: two_supported | | |] |].
split; [by rewrite size_iota | by rewrite size_iota |] => chs bchs Hs Hbs.
have Hu : uniq zs59 by vm_compute.
have Hz : all (fun z : F257 => (z ^+ 4 != 1) && (z ^+ 16 != 1)) zs59 by vm_compute.
have Hm : if verifier_new f257 two_densities 4 is Ok u then
  all (fun m : mask_properties F257 => all (fun z => shifted m.2 z ^+ 16 != 1) zs59) (v_all_masks u) else false by vm_compute.
rewrite H3 in Hm.
have Hi : all (fun i => i < 16)%N (iota 0 16) by [].
have Hsz : ((\max_(c <- ip_constraints two_densities) c_degree c).+1 * ip_num_rows two_densities + 1 <= size zs59)%N.
  by rewrite two_max.
apply: (C59_honest f257_ok 2 3 (isT : (0 < 1)%N) two_supported Hr H1 H2 H3 two_satisfied Hd Hd Hi Hi Hu Hsz _ Hs Hbs).
move=> z Hzz; have /andP [Hz4 Hz16] := allP Hz z Hzz; split; [exact: Hz4 | exact: Hz16 |] => r m Hrm.
by have /allP Hm' := allP Hm (r, Mask m) Hrm; exact: (Hm' z Hzz).
Qed.

Print Assumptions C59_iop_soundness.
Print Assumptions C59_honest.
