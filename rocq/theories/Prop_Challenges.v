(** Property C44: the verifier draws the challenges of the prover. *)
From Coq Require Import NArith.
From mathcomp Require Import all_ssreflect all_algebra.
From Verif Require Import M_Base M_Worker M_Field M_Domain M_Fft M_Poly M_Bytes M_Transcript M_Merkle M_Fri.
From Verif Require Import M_Challenge M_Air M_Arp M_Ali M_Verifier M_Prover M_ProverLog.
From Verif Require Import Spec SpecPoly SpecAir SpecStark P_Base P_Fft P_Domain P_Poly P_Lde P_PolyOps P_Wf P_Bytes P_Merkle P_Fri P_Air P_Arp.
From Verif Require Import P_Vals P_Maps P_Ali P_AliG P_Comp P_Honest P_Stark.
From Verif Require Import Instances Prop_Hash Prop_Air Prop_Arp Prop_Ali Prop_Verify Prop_Malformed.

Set Implicit Arguments.
Unset Strict Implicit.
Unset Printing Implicit Defensive.
Import GRing.Theory.
Local Open Scope ring_scope.

(** * The log does not change the prover *)
Definition omap A B (f : A -> B) (x : outcome A) : outcome B := let* y := x in Ok (f y).

Lemma omap_bind A B C (x : outcome A) (f : A -> outcome B) (h : B -> C) :
  omap h (bind x f) = bind x (fun y => omap h (f y)).
Proof. by case: x. Qed.

Lemma bind_omap A B C (x : outcome A) (f : A -> B) (g : B -> outcome C) : bind (omap f x) g = bind x (g \o f).
Proof. by case: x. Qed.

Lemma foldM_erase A B C (f : B -> A -> outcome B) (f' : C -> A -> outcome C) (er : C -> B) s c :
  (forall c x, f (er c) x = omap er (f' c x)) -> foldM f (er c) s = omap er (foldM f' c s).
Proof. by move=> E; elim: s c => //= x s IH c; rewrite E /omap; case: (f' c x) => //= c'. Qed.

Section Erase.
Variables (F : fieldType) (fp : ff_params F) (H : hash_fun).

Definition er4 A B C D (x : A * B * C * D) : A * B * C := x.1.

Lemma g_constraint_erase a w masked g st c :
  g_constraint fp H a w masked g (er4 st) c = omap (@er4 _ _ _ _) (g_constraint_log fp H a w masked g st c).
Proof.
case: st => [[[b t] ch] log] /=; rewrite /er4 /=; case: ifP => //= _; rewrite !omap_bind.
apply: eq_bind => -[al t1]; rewrite !omap_bind; apply: eq_bind => -[be t2]; rewrite !omap_bind.
apply: eq_bind => adj; rewrite !omap_bind; apply: eq_bind => -[v ch1]; rewrite !omap_bind.
by apply: eq_bind => v1; rewrite !omap_bind; apply: eq_bind => v2.
Qed.

Lemma g_batch_erase a w masked st db :
  g_batch fp H a w masked (er4 st) db = omap (@er4 _ _ _ _) (g_batch_log fp H a w masked st db).
Proof.
case: st => [[[g t] ch] log]; rewrite /g_batch /g_batch_log /er4 [(_, _, _, _).1]/= omap_bind.
rewrite -[(g, t, ch)]/(er4 (g, t, ch, log)) (foldM_erase _ _ (g_constraint_erase a w masked g)) bind_omap.
apply: eq_bind => -[[[b t1] ch1] log1] /=; rewrite omap_bind; apply: eq_bind => d; rewrite omap_bind.
by apply: eq_bind => v; rewrite omap_bind; apply: eq_bind.
Qed.

Definition er3 A B C (x : A * B * C) : A * B := x.1.
Lemma g_boundary_erase a w ws st b :
  g_boundary fp H a w ws (er3 st) b = omap (@er3 _ _ _) (g_boundary_log fp H a w ws st b).
Proof.
case: st => [[g t] log]; rewrite /g_boundary /g_boundary_log /er3 /= omap_bind.
apply: eq_bind => -[al t1]; rewrite !omap_bind; apply: eq_bind => -[be t2].
by do 11! [rewrite !omap_bind; apply: eq_bind => ?].
Qed.

Lemma calculate_g_erase a t ws w :
  calculate_g fp H a t ws w = omap (fun x => x.1.1) (calculate_g_log fp H a t ws w).
Proof.
rewrite /calculate_g /calculate_g_log; case: ifP => // _; rewrite omap_bind; apply: eq_bind => g.
rewrite omap_bind; apply: eq_bind => m.
have := foldM_erase (a_batches a) (g, t, [::], [::]) (g_batch_erase a w m); rewrite {1}/er4 [(_, _, _, _).1]/= => ->.
rewrite omap_bind bind_omap.
apply: eq_bind => -[[[g1 t1] ch1] log1] /=.
have := foldM_erase (ip_boundary_constraints (a_properties a)) (g1, t1, [::]) (g_boundary_erase a w ws).
rewrite {1}/er3 [(_, _, _).1]/= => ->; rewrite omap_bind bind_omap.
by apply: eq_bind => -[[g2 t2] ch2] /=; rewrite omap_bind; apply: eq_bind.
Qed.

Definition er5 A B C D E (x : A * B * C * D * E) : A * B * C * D := x.1.
Lemma deep_mask_erase ps ls n w z st m :
  deep_mask fp H ps ls n w z (er5 st) m = omap (@er5 _ _ _ _ _) (deep_mask_log fp H ps ls n w z st m).
Proof.
case: st => [[[[h vals] dv] t] log]; rewrite /deep_mask /deep_mask_log /er5 /= omap_bind.
apply: eq_bind => mk; rewrite omap_bind; apply: eq_bind => r; rewrite omap_bind; apply: eq_bind => f.
rewrite omap_bind; apply: eq_bind => -[d dv']; rewrite omap_bind; apply: eq_bind => l; rewrite omap_bind.
apply: eq_bind => -[al t']; rewrite omap_bind; apply: eq_bind => l'; rewrite omap_bind.
by apply: eq_bind.
Qed.

Lemma calculate_deep_erase a ps ls g gl t w :
  calculate_deep fp H a ps ls g gl t w = omap (fun x => x.1.1) (calculate_deep_log fp H a ps ls g gl t w).
Proof.
rewrite /calculate_deep /calculate_deep_log omap_bind; apply: eq_bind => -[z t1].
rewrite omap_bind; apply: eq_bind => l0; rewrite omap_bind; apply: eq_bind => h1.
have := foldM_erase (a_all_masks a) (h1, [::], [::], t1, [::]) (deep_mask_erase ps ls (p_size l0) w z).
rewrite {1}/er5 [(_, _, _, _, _).1]/= => ->; rewrite omap_bind bind_omap; apply: eq_bind => -[[[[h2 vals] dv] t2] log] /=.
by do 4! [rewrite omap_bind; apply: eq_bind => ?].
Qed.

(** Without the log it is the prover of the model. *)
Theorem prove_erase P witness : prove fp H P witness = omap fst (prove_log fp H P witness).
Proof.
rewrite /prove /prove_log; do 5! [rewrite omap_bind; apply: eq_bind => ?].
rewrite calculate_g_erase bind_omap omap_bind; apply: eq_bind => -[[[g t] chs] bchs] /=.
do 3! [rewrite omap_bind; apply: eq_bind => ?].
rewrite calculate_deep_erase bind_omap omap_bind; apply: eq_bind => -[[[[[[h1 h2] vals] gz] t'] z] al] /=.
by do 10! [rewrite omap_bind; apply: eq_bind => ?].
Qed.
End Erase.

Section C44.
Variables (F : fieldType) (fp : ff_params F) (H : hash_fun).
Hypothesis Hok : ff_ok fp.
Notation S := (ff_S fp).
Variable w : worker.
Hypothesis Hw : (0 < w)%N.

(** A step that keeps the domain and the length. *)
Definition same_shape P (p q : hpoly F P) : Prop :=
  exists2 c, q = with_coeffs P p c & size c = size (p_coeffs p).

Lemma same_shape_refl P (p : hpoly F P) : same_shape p p.
Proof. by exists (p_coeffs p) => //; case: p. Qed.
Lemma same_shape_trans P (p q r : hpoly F P) : same_shape p q -> same_shape q r -> same_shape p r.
Proof. by case=> c -> Hc [c' -> Hc']; exists c' => //; rewrite Hc'. Qed.
Lemma same_shape_size P (p q : hpoly F P) : same_shape p q -> p_size q = p_size p.
Proof. by case=> c -> Hc; rewrite /p_size /= Hc. Qed.
Lemma same_shape_wf P (p q : hpoly F P) : same_shape p q -> wf_poly fp p -> wf_poly fp q.
Proof. by case=> c -> Hc [h1 h2 h3 h4]; split; rewrite /= ?Hc. Qed.

Lemma add_assign_shape (p q r : hpoly F Values) : add_assign p w q = Ok r -> same_shape p r.
Proof.
rewrite /add_assign; case: eqP => // E [<-]; eexists; first by [].
by rewrite par_zip_eq // size_map size_zip -[size (p_coeffs q)]E minnn.
Qed.
Lemma mul_assign_shape (p q r : hpoly F Values) : mul_assign p w q = Ok r -> same_shape p r.
Proof.
rewrite /mul_assign; case: eqP => // E [<-]; eexists; first by [].
by rewrite par_zip_eq // size_map size_zip -[size (p_coeffs q)]E minnn.
Qed.
Lemma add_constant_shape (p : hpoly F Values) c : same_shape p (add_constant p w c).
Proof. by rewrite /add_constant; eexists; first by []; rewrite par_eachE // size_map. Qed.

(** Every challenge pair that the prover uses is drawn as the verifier does. *)
Definition pair_step A (st : seq (F * F) * transcript) (_ : A) : outcome (seq (F * F) * transcript) :=
  let: (chs, t) := st in
  let* '(alpha, t) := get_challenge fp H t in
  let* '(beta, t) := get_challenge fp H t in
  Ok (rcons chs (alpha, beta), t).

Lemma g_constraint_draw a masked g b t ch log c st' :
  g_constraint_log fp H a w masked g (b, t, ch, log) c = Ok st' ->
  same_shape b st'.1.1.1 /\ pair_step (log, t) c = Ok (st'.2, st'.1.1.2).
Proof.
rewrite /g_constraint_log /pair_step; case: ifP => // _ E.
have [[al t1] E1 {}E] := bind_Ok E; rewrite E1 bind_ok; have [[be t2] E2 {}E] := bind_Ok E; rewrite E2 bind_ok.
have [adj _ {}E] := bind_Ok E; have [[v ch1] _ {}E] := bind_Ok E; have [v1 _ {}E] := bind_Ok E.
by have [v2 /add_assign_shape Hv [<-]] := bind_Ok E.
Qed.

Lemma g_constraints_draw a masked g b t ch log cs st' :
  foldM (g_constraint_log fp H a w masked g) (b, t, ch, log) cs = Ok st' ->
  same_shape b st'.1.1.1 /\ foldM (@pair_step _) (log, t) cs = Ok (st'.2, st'.1.1.2).
Proof.
elim: cs b t ch log => [|c cs IH] b t ch log; first by case=> <-; split=> //; apply: same_shape_refl.
rewrite !foldM_cons => E; have [[[[b1 t1] ch1] log1] E1 {}E] := bind_Ok E.
have [h1 ->] := g_constraint_draw E1; rewrite bind_ok /=; have [h2 ->] := IH _ _ _ _ E.
by split=> //; apply: same_shape_trans h2.
Qed.

Lemma g_batches_draw a masked g t ch log dbs st' :
  foldM (g_batch_log fp H a w masked) (g, t, ch, log) dbs = Ok st' ->
  same_shape g st'.1.1.1 /\ foldM (@pair_step _) (log, t) (flatten [seq db.2 | db <- dbs]) = Ok (st'.2, st'.1.1.2).
Proof.
elim: dbs g t ch log => [|db dbs IH] g t ch log; first by case=> <-; split=> //; apply: same_shape_refl.
rewrite foldM_cons [flatten _]/= foldM_cat => E; have [[[[g1 t1] ch1] log1] E1 {}E] := bind_Ok E.
have [h2 Hr] := IH _ _ _ _ E.
move: E1; rewrite /g_batch_log => E1; have [[[[b2 t2] ch2] log2] E2 {}E1] := bind_Ok E1.
have [_ ->] := g_constraints_draw E2; have [dv _ {}E1] := bind_Ok E1; have [m _ {}E1] := bind_Ok E1.
have [v /add_assign_shape Hv [E3 E4 _ E5]] := bind_Ok E1.
rewrite bind_ok /= E4 E5 Hr; split=> //; apply: same_shape_trans h2; rewrite -E3 //.
Qed.

Lemma g_boundaries_draw a ws g t log bs st' :
  foldM (g_boundary_log fp H a w ws) (g, t, log) bs = Ok st' ->
  same_shape g st'.1.1 /\ foldM (@pair_step _) (log, t) bs = Ok (st'.2, st'.1.2).
Proof.
elim: bs g t log => [|b bs IH] g t log; first by case=> <-; split=> //; apply: same_shape_refl.
rewrite !foldM_cons => E; have [[[g1 t1] log1] E1 {}E] := bind_Ok E; have [h2 Hr] := IH _ _ _ E.
move: E1; rewrite /g_boundary_log => E1; rewrite {1}/pair_step.
have [[al u1] -> {}E1] := bind_Ok E1; rewrite bind_ok; have [[be u2] -> {}E1] := bind_Ok E1; rewrite bind_ok.
have [x1 _ {}E1] := bind_Ok E1; have [x2 _ {}E1] := bind_Ok E1; have [x3 _ {}E1] := bind_Ok E1.
have [x4 _ {}E1] := bind_Ok E1; have [x5 _ {}E1] := bind_Ok E1; have [x6 _ {}E1] := bind_Ok E1.
have [x7 _ {}E1] := bind_Ok E1; have [x8 _ {}E1] := bind_Ok E1; have [x9 _ {}E1] := bind_Ok E1.
have [x10 _ {}E1] := bind_Ok E1; have [v /add_assign_shape Hv [E3 E4 E5]] := bind_Ok E1.
rewrite bind_ok /= E4 E5 Hr; split=> //; apply: same_shape_trans h2; rewrite -E3 //.
Qed.

Definition mask_step A (st : seq F * transcript) (_ : A) : outcome (seq F * transcript) :=
  let: (chs, t) := st in
  let* '(alpha, t) := get_challenge fp H t in
  Ok (rcons chs alpha, t).

Lemma deep_masks_draw ps ls n z h vals dv t log ms st' :
  foldM (deep_mask_log fp H ps ls n w z) (h, vals, dv, t, log) ms = Ok st' ->
  same_shape h st'.1.1.1.1 /\ foldM (@mask_step _) (log, t) ms = Ok (st'.2, st'.1.2).
Proof.
elim: ms h vals dv t log => [|m ms IH] h vals dv t log; first by case=> <-; split=> //; apply: same_shape_refl.
rewrite !foldM_cons => E; have [[[[[h1 vals1] dv1] t1] log1] E1 {}E] := bind_Ok E; have [h2 Hr] := IH _ _ _ _ _ E.
move: E1; rewrite /deep_mask_log => E1; rewrite {1}/mask_step.
have [x1 _ {}E1] := bind_Ok E1; have [x2 _ {}E1] := bind_Ok E1; have [x3 _ {}E1] := bind_Ok E1.
have [[x4 x5] _ {}E1] := bind_Ok E1; have [x6 _ {}E1] := bind_Ok E1; have [[al u1] -> {}E1] := bind_Ok E1; rewrite bind_ok.
have [x7 _ {}E1] := bind_Ok E1; have [v /add_assign_shape Hv [E3 _ _ E4 E5]] := bind_Ok E1.
rewrite bind_ok /= E4 E5 Hr; split=> //; apply: same_shape_trans h2; rewrite -E3 //.
Qed.

(** The length of the LDE, for every CPU count. *)
Lemma lde_size (p : hpoly F Coefficients) f q : wf_poly fp p -> lde fp p w f = Ok q ->
  [/\ wf_poly fp q, is_pow2 f & p_size q = (p_size p * f)%N].
Proof.
case/wfE => k [c [-> Hc Hk]]; case: (boolP (is_pow2 f)) => [/is_pow2P [e ->]|Hf].
  case: (posnP e) => [->|He].
    rewrite /lde /lde_using_multiple_cosets eqxx (fft_std Hok) // => -[<-].
    by split=> //; [apply: wf_std => //; rewrite size_evals | rewrite /p_size /= size_evals Hc muln1].
  rewrite (lde_exact Hok) //; case: leqP => // HS [<-].
  by split=> //; [apply: wf_std => //; rewrite size_mkseq | rewrite /p_size /= size_mkseq Hc expnD].
rewrite /lde /lde_using_multiple_cosets; case: eqP Hf => [->|_ Hf]; first by [].
by rewrite (negbTE Hf).
Qed.

Lemma witness_shape props trace ws k f : calculate_witness_polys fp props w trace = Ok ws ->
  ip_num_rows props = (2 ^ k)%N -> (k <= S)%N -> get ws 0 = Ok f -> wf_poly fp f /\ p_size f = (2 ^ k)%N.
Proof.
move=> Hws En Hk Hf; have Hws' := Hws; move: Hws'; rewrite /calculate_witness_polys => E.
have [c0 Hc0 {}E] := bind_Ok E; move: E; case: ifP => // Hall; case: eqP => // Er; case: eqP => // Ec _.
have [H0 _] := get_Ok [::] Hc0.
have [|||X _] := @C35_witness_polynomials _ fp Hok w props trace (2 ^ k) (dom fp k) Hw H0.
- by apply: sub_all Hall => c; rewrite Ec En eq_sym.
- by rewrite domain_new_pow.
- by [].
have [|ps [Eps [Hsz Hp]]] := X Er; first by rewrite En.
move: Eps; rewrite Hws => -[Eps]; rewrite -Eps in Hp; have [_ Ef] := get_Ok (HPoly Coefficients [::] 0 0 0 0 0) Hf.
by have [h1 h2 _ _] := Hp 0%N H0; rewrite Ef.
Qed.

Lemma new_for_size_shape K : (K <= S)%N -> exists2 p, new_for_size fp Values (2 ^ K) = Ok p &
  wf_poly fp p /\ p_size p = (2 ^ K)%N.
Proof.
move=> HK; rewrite /new_for_size; have := from_vec_wf Hok Values (nseq (2 ^ K) (0 : F)).
rewrite size_nseq up_expnK // ltnNge HK => -[p Hp [h1 h2]]; exists p => //; split=> //.
by rewrite /p_size h2 subnn cats0 size_nseq.
Qed.

Lemma icoset_shape (p : hpoly F Values) q : wf_poly fp p -> icoset_fft p w = Ok q ->
  wf_poly fp q /\ p_size q = p_size p.
Proof.
case/wfE => k [c [-> Hc Hk]]; case: (Hok) => _ Hg _.
have [c' + [Hc' _]] := icoset_std Hok Hw Hc Hk Hg; rewrite /icoset_fft /icoset_fft_for_generator [p_geninv _]/= => -> -[<-].
by split; [apply: wf_std | rewrite /p_size /= Hc Hc'].
Qed.

(** C44. Whenever the prover finishes, the verifier for the same instance
    exists and draws from the proof the challenges and query indices that the
    prover has drawn. *)
Theorem C44_challenges props lde out P witness pf chs :
  prover_new fp props lde out w = Ok P -> prove_log fp H P witness = Ok (pf, chs) ->
  prove fp H P witness = Ok pf /\
  exists v D1 D2, verifier_new fp props lde = Ok v /\ draw_challenges fp H v pf = Ok (chs, D1, D2).
Proof.
move=> HP Hpf; have E : prove fp H P witness = Ok pf by rewrite prove_erase Hpf.
split=> //; have [Hpow _] := C54_no_proof_partial HP E.
case/is_pow2P: (Hpow) => k Ek.
have HP' := HP; move: HP'; rewrite /prover_new from_instanceE Ek up_expnK //.
case: ltnP => // Hk; case: ifP => // Hst; rewrite bind_ok => HP'.
have [ali Hali {}HP'] := bind_Ok HP'; case: HP' => EP.
have Haf := from_arp_inv Hok Hw Hali.
set props' := Props _ _ _ _ in Hali EP Haf.
move: Hpf; rewrite /prove_log -EP /=.
case Et: (transcript_new fp) => [t| |] //; rewrite bind_ok => Hpf.
have [ws Hws {}Hpf] := bind_Ok Hpf; have [ls Hls {}Hpf] := bind_Ok Hpf.
have [os Hos {}Hpf] := bind_Ok Hpf; have [rs Hrs {}Hpf] := bind_Ok Hpf.
have [[[[gp t1] cl] bl] Hg {}Hpf] := bind_Ok Hpf; have [gl Hgl {}Hpf] := bind_Ok Hpf.
have [go Hgo {}Hpf] := bind_Ok Hpf; have [gr Hgr {}Hpf] := bind_Ok Hpf.
have [[[[[[[h1 h2] vals] gz] t2] z] al] Hd {}Hpf] := bind_Ok Hpf.
have [p1 Hp1 {}Hpf] := bind_Ok Hpf; have [p2 Hp2 {}Hpf] := bind_Ok Hpf.
have [r1 Hr1 {}Hpf] := bind_Ok Hpf; have [r2 Hr2 {}Hpf] := bind_Ok Hpf.
move: Hpf; rewrite /get_challenge_bytes => Hpf.
have [i1 Hi1 {}Hpf] := bind_Ok Hpf; have [i2 Hi2 {}Hpf] := bind_Ok Hpf.
have [q1 Hq1 {}Hpf] := bind_Ok Hpf; have [q2 Hq2 {}Hpf] := bind_Ok Hpf.
have [fq _ {}Hpf] := bind_Ok Hpf; have [gq _ [Epf Echs]] := bind_Ok Hpf => {Hpf}.
(* the composition polynomial *)
move: Hg; rewrite /calculate_g_log (af_constraints Haf) (af_batches Haf) (af_properties Haf); case: ifP => // _.
rewrite [ip_num_rows _]/= up_expnK //; set Kc := up_log 2 _.
have HKc : (Kc <= S)%N by have := af_K Haf; rewrite [ip_num_rows _]/= up_expnK.
have [g0 -> [Hg0 Eg0]] := new_for_size_shape HKc; rewrite bind_ok => Hg.
have [mk Hmk {}Hg] := bind_Ok Hg; have [[[[g1 u1] ch1] cl'] Hg1 {}Hg] := bind_Ok Hg.
have [[[g2 u2] bl'] Hg2 {}Hg] := bind_Ok Hg; have [gp' Hgp [Egp Eu2 Ecl Ebl]] := bind_Ok Hg => {Hg}.
rewrite {}Egp {}Eu2 {}Ecl {}Ebl in Hgp Hg1 Hg2.
have [s1 D1] := g_batches_draw Hg1; have [s2 D2] := g_boundaries_draw Hg2.
have s12 := same_shape_trans s1 s2; have [Hgp1 Egp] := icoset_shape (same_shape_wf s12 Hg0) Hgp.
rewrite (same_shape_size s12) Eg0 in Egp; have [Hgl1 Hlde Egl] := lde_size Hgp1 Hgl.
(* the DEEP polynomials *)
move: Hd; rewrite /calculate_deep_log => Hd; have [[z' u3] Hz {}Hd] := bind_Ok Hd.
have [l0 Hl0 {}Hd] := bind_Ok Hd; have [h0 Hh0 {}Hd] := bind_Ok Hd.
have [[[[[h1' vals'] dv] u4] al'] Hms {}Hd] := bind_Ok Hd; have [lq _ {}Hd] := bind_Ok Hd.
have [lv _ {}Hd] := bind_Ok Hd; have [lv' _ {}Hd] := bind_Ok Hd; have [h2' Hh2 {}Hd] := bind_Ok Hd.
case: Hd => Eh1 Eh2 _ _ Eu4 Ez Eal; rewrite {}Eh1 {}Eal {}Eu4 {}Ez in Hms Hz; rewrite {}Eh2 in Hh2.
case/is_pow2P: (Hlde) => l El.
pose dc : hpoly F Coefficients := HPoly Coefficients [::] 0 0 0 0 0.
have [Hls0 El0] := get_Ok (HPoly Values [::] 0 0 0 0 0) Hl0.
have Hws0 : (0 < size ws)%N by rewrite -(mapM_size Hls).
have := mapM_nth dc (HPoly Values [::] 0 0 0 0 0) Hls Hws0; rewrite -El0 => Hlde0.
have [Hf0 Ef0] := witness_shape Hws (erefl _) Hk (get_nth dc Hws0).
have [Hl0w _ El0s] := lde_size Hf0 Hlde0; rewrite Ef0 El -expnD in El0s; rewrite Egp El -expnD in Egl.
have HKl Q (p : hpoly F Q) j : wf_poly fp p -> p_size p = (2 ^ j)%N -> (j <= S)%N.
  case/wfE => j' [c [-> Hc Hj']]; rewrite /p_size /= Hc => /eqP; rewrite eqn_exp2l // => /eqP <- //.
have [h0' Eh0 [Hh0w Eh0s]] := new_for_size_shape (HKl _ _ _ Hl0w El0s).
rewrite El0s Eh0 in Hh0; case: Hh0 => Eh0'; rewrite {}Eh0' {Eh0} in Hh0w Eh0s.
have [s3 D3] := deep_masks_draw Hms.
have s4 := same_shape_trans (add_constant_shape gl _) (mul_assign_shape Hh2).
have Hh1w := same_shape_wf s3 Hh0w; have Hh2w := same_shape_wf s4 Hgl1.
have Eh1s := same_shape_size s3; have Eh2s := same_shape_size s4; rewrite /= in Eh1s.
rewrite Eh0s in Eh1s; rewrite Egl in Eh2s.
(* some constraint has a degree *)
have Hmax : (0 < \max_(c <- ip_constraints props) c_degree c)%N.
  have [K2 [e [r [u [[Eh2 Hu _ Ee _] [_ Hlt _ _]]]]]] := by_values_inv Hok Hw Hh2w Hp2.
  move: Eh2s Ee; rewrite Eh2 /p_size /= Hu El => /eqP; rewrite eqn_exp2l // => /eqP EK /eqP; rewrite eqn_exp2l // => /eqP Ee.
  rewrite lt0n; apply/eqP => E0; move: Hlt; rewrite EK -Ee /Kc mask_max E0 muln0 up_log0 add0n ltnNge leq_addr //.
have [v Hv] := C45_verifier_exists Hok Hw Hmax HP.
have [[Em Eb Ec _ [_ Ei _]] [_ /(_ (or_introl Hmax)) Ecd]] := C45_same_precomputation_partial Hok Hw HP Hv.
have Elf : v_lde_factor v = lde.
  by move: Hv; rewrite verifier_newE; case: ifP => // _; case: ifP => // _; case: ifP => // _ [<-].
rewrite -EP /= in Em Eb Ec Ei Ecd; rewrite (af_masks Haf) in Em; rewrite (af_batches Haf) in Eb.
rewrite (af_column Haf) in Ec; rewrite (af_constraints Haf) [ip_num_rows _]/= up_expnK // -/Kc in Ecd.
exists v, (dom fp (k + l)), (dom fp (Kc + l)); split=> //.
rewrite /draw_challenges Et bind_ok Em Eb Ec Ei Ecd Elf -Epf /=.
rewrite /= (af_masks Haf) in D1 D2 D3.
rewrite /challenge_pairs D1 bind_ok D2 bind_ok Hz bind_ok /mask_challenges D3 bind_ok.
rewrite (by_values_roots Hok Hw Hh1w Hp1 Hr1) bind_ok (by_values_roots Hok Hw Hh2w Hp2 Hr2) bind_ok.
rewrite (produce_finals Hq1) (produce_finals Hq2).
rewrite Eh1s in Hi1; rewrite Eh2s in Hi2.
have Em1 : (2 ^ up_log 2 (2 ^ k) * lde)%N = (2 ^ (k + l))%N by rewrite up_expnK // El -expnD.
have Em2 : (2 ^ Kc * lde)%N = (2 ^ (Kc + l))%N by rewrite El -expnD.
rewrite Em1 Em2 domain_new_pow ?(HKl _ _ _ Hl0w) // bind_ok domain_new_pow ?(HKl _ _ _ Hgl1) // bind_ok.
by rewrite Hi1 bind_ok Hi2 bind_ok -Echs.
Qed.
End C44.

(** A finished run with its challenges. *)
Definition drawn_ok (F : fieldType) (fp : ff_params F) (H : hash_fun) props trace lde out w : bool :=
  is_ok (let* P := prover_new fp props lde out w in prove_log fp H P trace).
Example C44_ex : drawn_ok f257 toy_hash one_density (sq_trace 3) 4 1 2.
Proof. vm_cast_no_check (erefl true). Qed.

Print Assumptions prove_erase.
Print Assumptions C44_challenges.
