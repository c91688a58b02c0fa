(** Property C27: exactly when the two FRI provers agree, on every number of CPUs. *)
From Coq Require Import NArith Lia.
From mathcomp Require Import all_ssreflect all_algebra.
From Verif Require Import M_Base M_Worker M_Field M_Domain M_Fft M_Poly M_Bytes M_Merkle M_Fri.
From Verif Require Import Spec SpecPoly SpecHash SpecFri.
From Verif Require Import P_Base P_Fft P_Domain P_Poly P_Lde P_PolyOps P_Wf P_Bytes P_Merkle P_Fri.
From Verif Require Import Instances Prop_Hash Prop_Fft Prop_LdeExact Prop_Fri.

Set Implicit Arguments.
Unset Strict Implicit.
Unset Printing Implicit Defensive.
Import GRing.Theory.
Local Open Scope ring_scope.

Section Exact.
Variables (F : fieldType) (fp : ff_params F) (H : hash_fun).
Hypothesis Hok : ff_ok fp.
Local Notation S := (ff_S fp).
Local Notation std := (std fp).
Variable w : worker.
Hypothesis Hw : (0 < w)%N.
Local Notation layer := (layer fp H).
Local Notation clayer := (clayer fp H).
Local Notation chals := (chals fp H).
Local Notation vchal := (vchal fp H).
Local Notation vchal_ok := (vchal_ok fp H).
Local Notation layer_ok := (layer_ok fp H).
Local Notation vtree := (vtree fp H).
Local Notation vroot := (vroot fp H).
Local Notation coeff_state_at := (coeff_state_at fp H).
Local Notation honest_proto := (honest_proto fp H).
Local Notation resize_vals := (resize_vals Hok).

(** The extension of one polynomial is right. *)
Lemma lde_right c k e : size c = (2 ^ k)%N -> (k + e <= S)%N ->
  lde fp (std Coefficients k c) w (2 ^ e) =
    Ok (std Values (k + e) (evals (poly_of c) 1 (dom_gen fp (k + e)) (2 ^ (k + e)))) <->
  lde_cpus_ok w (2 ^ e) \/ (size (poly_of c) <= 1)%N.
Proof.
move=> Hc HS; have Hk : (k <= S)%N by apply: leq_trans (leq_addr _ _) HS.
case: (boolP (lde_cpus_ok w (2 ^ e))) => [Hcpu|Hno].
  by rewrite (lde_std Hok Hw Hc Hk Hcpu) HS; split=> // _; left.
case: (posnP e) => [E|He].
  by move: Hno; rewrite E /lde_cpus_ok expn0 (leq_trans (_ : 1 < 2 * 1)%N) ?orbT // leq_mul2l.
rewrite (lde_exact Hok Hw Hc Hk He) HS; split=> [E|[//|Hsz]]; last first.
  by congr (Ok (std Values _ _)); apply: eq_map => i; apply: constant_evals.
right; move: Hno; rewrite /lde_cpus_ok negb_or -leqNgt => /andP [Hw1 Hf].
have Ev := congr1 (fun r => if r is Ok p then p_coeffs p else [::]) E; rewrite /= in Ev.
set ch := get_chunk_size w (2 ^ e).
have Ech : ch = (2 ^ e %/ w)%N.
  by rewrite /ch /get_chunk_size ltnNge (leq_trans _ Hf) // leq_pmull.
have Hch : (2 <= ch)%N by rewrite Ech leq_divRL.
have Hche : (ch < 2 ^ e)%N.
  by rewrite Ech ltn_Pdiv // ?expn_gt0 // ltn_neqAle eq_sym Hw1.
apply: (@same_on_cosets _ fp Hok c k e 1 1%N ch) => //; [exact: oner_neq0 | by rewrite Hch |].
move=> t Ht.
have Hi : (ch + 2 ^ e * t < 2 ^ (k + e))%N.
  rewrite expnD; apply: (@leq_trans (2 ^ e * t.+1)); first by rewrite mulnS ltn_add2r.
  by rewrite mulnC leq_mul2r Ht orbT.
have := congr1 (fun s => s`_(ch + 2 ^ e * t)) Ev; rewrite nth_mkseq // nth_evals //.
have Em : ((ch + 2 ^ e * t) %% 2 ^ e = ch)%N by rewrite addnC mulnC modnMDl modn_small.
have Ed : ((ch + 2 ^ e * t) %/ 2 ^ e = t)%N by rewrite addnC mulnC divnMDl ?expn_gt0 // divn_small // addn0.
have Ei : 1 * dom_gen fp (k + e) ^+ (ch + 2 ^ e * t) = 1 * dom_gen fp (k + e) ^+ ch * dom_gen fp k ^+ t.
  by rewrite -(coset_index _ _ HS) Em Ed.
rewrite Ei Em Ed /coset_exp -/ch divnn modnn addn0 (ltn_trans _ Hch) //.
by rewrite !mul1r.
Qed.

(** If the extensions of the layers are right, the provers agree (the proof
    of P_Fri.v, from a weaker hypothesis). *)
Section Coeffs.
Variables (K D e : nat) (c : seq F).
Hypothesis HD : (D + e = K)%N.
Hypothesis HK : (K <= S)%N.
Hypothesis Hc : size c = (2 ^ D)%N.
Let g := dom_gen fp K.
Let v := evals (poly_of c) 1 g (2 ^ K).
Hypothesis clayer_lde : forall i, (0 < i <= D)%N ->
  (let* p := from_coeffs fp (clayer K g v c i) in lde fp p w (2 ^ e)) =
  Ok (std Values (K - i) (layer K g v i)).



Lemma by_coeffs_stepP i j : (i < D)%N ->
  by_coeffs_step fp H w (2 ^ e) (coeff_state_at K D g v c i) j =
  if (i.+1 < K)%N && layer_ok K g v i.+1 then Ok (coeff_state_at K D g v c i.+1) else Panic.
Proof.
move=> Hi; have HDK : (D <= K)%N by rewrite -HD leq_addr.
have HiK := leq_trans Hi HDK.
have HKi : (2 ^ (D - i) = 2 ^ (D - i.+1) * 2)%N by rewrite -expnSr subnSK.
have HKi2 : (2 ^ (D - i) %/ 2 = 2 ^ (D - i.+1))%N by rewrite HKi mulnK.
rewrite /by_coeffs_step [fs_slice _]/= [fs_next_size _]/= [fs_challenge _]/= HKi2.
rewrite (fold_coeffsE Hw) ?(@size_clayer _ _ _ _ _ _ D) ?(ltnW Hi) // bind_eq.
rewrite -/(clayer K g v c i.+1).
have := @clayer_lde i.+1 (Hi : (0 < i.+1 <= D)%N); case: (from_coeffs _ _) => //= q ->; rewrite bind_eq.
have Hv : size v = (2 ^ K)%N by rewrite size_evals.
have Hs := size_layer fp H g Hv HiK; rewrite [p_coeffs _]/=.
case: (ltnP i.+1 K) => HiK'; last first.
  have E : (K - i.+1 = 0)%N by apply/eqP; rewrite subn_eq0.
  have -> : tree_create fp H w (layer K g v i.+1) = Panic.
    by move: Hs; rewrite E; case: (layer _ _ _ _) => [|x [|]].
  by [].
have HL : (0 < K - i.+1)%N by rewrite subn_gt0.
rewrite (tree_createP fp H Hw Hs HL) bind_eq -/(vtree _ _) get_root_vtree // bind_eq.
rewrite challenge_vtree // /layer_ok; case: ifP => // Hch; rewrite bind_eq.
by rewrite /coeff_state_at !mkseqSr.
Qed.

Lemma by_coeffs_loop i : (i <= D)%N ->
  foldM (by_coeffs_step fp H w (2 ^ e)) (coeff_state_at K D g v c 0) (iota 0 i) =
  if ((i == 0)%N || (i < K)%N) && all (layer_ok K g v) (iota 1 i)
  then Ok (coeff_state_at K D g v c i) else Panic.
Proof.
elim: i => [|i IH] Hi //.
rewrite iotaSr foldM_rcons IH ?(ltnW Hi) // iotaSr_from all_rcons add1n.
have HiK : (i < K)%N by apply: leq_trans Hi _; rewrite -HD leq_addr.
by rewrite HiK orbT /=; case Ha: (all _ _); rewrite ?andbF //= by_coeffs_stepP // andbT.
Qed.

Lemma through_exact r :
  proof_from_lde_through_coefficients fp H (std Values K v) (2 ^ e) (2 ^ r) w =
  proof_from_lde_by_values fp H (std Values K v) (2 ^ e) (2 ^ r) w.
Proof.
have Hv : size v = (2 ^ K)%N by rewrite size_evals.
have HeK : (e <= K)%N by rewrite -HD leq_addl.
have HDe : (K - e = D)%N by rewrite -HD addnK.
rewrite by_values_exact // -/g /proof_from_lde_through_coefficients.
rewrite /p_size [p_coeffs _]/= Hv.
case: (posnP K) => [E|HK0].
  have -> : tree_create fp H w v = Panic by move: Hv; rewrite E; case: (v) => [|x [|]].
  by rewrite E ltn0 andbF.
rewrite (tree_createP fp H Hw Hv HK0) bind_eq -/(vtree K v) !is_pow2_exp divn_pow2 // HDe.
case: (leqP r D) => Hr; last first.
  rewrite (@divn_small (2 ^ D)) ?ltn_exp2l // log2_floor0 /= [(_ < K)%N]ltnNge.
  have -> : (K <= e + r)%N by rewrite -HD addnC leq_add2l ltnW.
  by rewrite andbF.
have Em : (K - (e + r) = D - r)%N by rewrite subnDA HDe.
have Her : (e + r <= K)%N by rewrite -HD addnC leq_add2r.
rewrite divn_pow2 // log2_floor_pow bind_eq (ifft_std Hok Hw) // bind_eq.
rewrite [p_coeffs _]/= challenge_vtree // Em; set m := (D - r)%N.
have Eall : all (layer_ok K g v) (iota 0 m.+1) = vchal_ok K v && all (layer_ok K g v) (iota 1 m).
  by rewrite /= {1}/layer_ok subn0.
have Ec : take (2 ^ D) (ifft_vec fp K v) = c.
  by have := @P_Fri.resize_vals _ fp Hok D e c Hc; rewrite HD -/g -/v => ->.
rewrite Ec Hc Eall; case Hch: (vchal_ok K v); last by rewrite andbF.
rewrite andTb bind_eq.
have -> : FriState [::] [::] [:: vchal K v] [::] (vchal K v) (2 ^ D %/ 2)%N c = coeff_state_at K D g v c 0.
  by rewrite /coeff_state_at /mkseq /layer /= !subn0.
rewrite by_coeffs_loop ?leq_subr //.
have Hm0 : (0 < m)%N = (e + r < K)%N by rewrite /m subn_gt0 -HD addnC ltn_add2r.
case: (posnP m) => [E0|Hm1].
  have HerK : (e + r < K)%N = false by rewrite -Hm0 E0.
  by rewrite HerK andbF; case: (_ && _) => //=; rewrite E0.
have HmK : (m < K)%N = (0 < e + r)%N by rewrite /m -Em ltn_subrL HK0 andbT.
rewrite HmK -Hm0 Hm1 orFb andbT.
case Hc2: (_ && _) => //; case/andP: Hc2 => Her0 Ha.
rewrite bind_eq [fs_challenges _]/= pop_rcons bind_eq [fs_roots _]/=.
rewrite -{1}(prednK Hm1) mkseqSr pop_rcons bind_eq prednK //.
have Hl : size (clayer K g v c m) = (2 ^ r)%N by rewrite (@size_clayer _ _ _ _ _ _ D) ?leq_subr // subKn.
rewrite size_chals eqxx size_mkseq eqxx size_mkseq eqxx [fs_slice _]/= Hl eqxx.
have EmK : (K - m = e + r)%N by rewrite /m -Em subKn.
rewrite /honest_proto Em -/m HDe.
congr (Ok (FriPrototype _ _ _ _ _ _ _ _ _)).
  by rewrite /= EmK.
have HmD : (m <= D)%N by rewrite leq_subr.
rewrite {2}/v layer_evals ?(leq_trans HmD) ?HDe //; last by rewrite -HD leq_addr.
rewrite -/g -/v -(@poly_of_clayer _ _ _ _ _ _ D) // EmK.
rewrite [(e + r)%N]addnC resize_vals //.
by rewrite addnC (leq_trans Her).
Qed.
End Coeffs.
(** * C27 *)
(** Folding a constant gives a constant. *)
Lemma fold_poly_const (b : F) (f : {poly F}) : (size f <= 1)%N -> (size (fold_poly b f) <= 1)%N.
Proof. by move=> Hf; apply: leq_trans (size_poly _ _) Hf. Qed.

(** The layers already computed are kept. *)
Lemma coeffs_values lde_factor st s st' : foldM (by_coeffs_step fp H w lde_factor) st s = Ok st' ->
  exists t, fs_values st' = fs_values st ++ t.
Proof.
elim: s st => [|x s IH] st /=; first by case=> <-; exists [::]; rewrite cats0.
move=> E; have [st1 E1 {}E] := bind_Ok E; have [t ->] := IH _ E; move: E1; rewrite /by_coeffs_step => E1.
have [nc _ {}E1] := bind_Ok E1; have [np _ {}E1] := bind_Ok E1; have [nv _ {}E1] := bind_Ok E1.
have [iop _ {}E1] := bind_Ok E1; have [r _ {}E1] := bind_Ok E1; have [ch _ [<-]] := bind_Ok E1.
by exists (nv :: t); rewrite /= cat_rcons.
Qed.

(** The first layer of the prover that goes through the coefficients. *)
Lemma through_first K D e r c v proto : (D + e = K)%N -> (K <= S)%N -> size c = (2 ^ D)%N ->
  v = evals (poly_of c) 1 (dom_gen fp K) (2 ^ K) -> (0 < K)%N -> (r < D)%N ->
  proof_from_lde_through_coefficients fp H (std Values K v) (2 ^ e) (2 ^ r) w = Ok proto ->
  (let* p := from_coeffs fp (clayer K (dom_gen fp K) v c 1) in lde fp p w (2 ^ e)) =
  Ok (nth (std Values 0 [::]) (fpt_values proto) 0).
Proof.
move=> HD HK Hc Ev HK0 Hr; have Hv : size v = (2 ^ K)%N by rewrite Ev size_evals.
have HeK : (e <= K)%N by rewrite -HD leq_addl.
have HDe : (K - e = D)%N by rewrite -HD addnK.
rewrite /proof_from_lde_through_coefficients /p_size [p_coeffs _]/= Hv.
rewrite (tree_createP fp H Hw Hv HK0) bind_eq -/(vtree K v) !is_pow2_exp divn_pow2 // HDe.
rewrite divn_pow2 ?(ltnW Hr) // log2_floor_pow bind_eq (ifft_std Hok Hw) // bind_eq.
rewrite [p_coeffs _]/= challenge_vtree //.
have -> : take (2 ^ D) (ifft_vec fp K v) = c.
  by rewrite Ev -HD; apply: resize_vals => //; rewrite HD.
case: (vchal_ok K v) => //; rewrite bind_eq Hc.
have -> : (D - r = (D - r).-1.+1)%N by rewrite prednK // subn_gt0.
have HD1 : (2 ^ D %/ 2 = 2 ^ D.-1)%N by case: (D) Hr => // d _; rewrite expnS mulKn.
move=> E; have [st Est {}E] := bind_Ok E.
have [ch _ {}E] := bind_Ok E; have [rt _ {}E] := bind_Ok E.
have Ef : fpt_values proto = fs_values st.
  by move: E; do 4![case: ifP => // _]; case=> <-.
rewrite {}Ef; move: Est; rewrite [iota _ _]/= [foldM _ _ _]/= => Est.
have [st1 E1 {}Est] := bind_Ok Est; have [t ->] := coeffs_values Est; move: E1; rewrite /by_coeffs_step => E1.
have [nc Enc {}E1] := bind_Ok E1; have [np Enp {}E1] := bind_Ok E1; have [nv Env {}E1] := bind_Ok E1.
have [iop _ {}E1] := bind_Ok E1; have [rr _ {}E1] := bind_Ok E1; have [ch' _ [<-]] := bind_Ok E1.
move: Enc; rewrite /= HD1 (fold_coeffsE Hw); last first.
  by rewrite Hc; case: (D) Hr => // d _; rewrite expnSr.
case=> Enc; rewrite subn0 {1}/P_Fri.layer /= in Enp *.
by rewrite Enc Enp.
Qed.

(** When the prover that folds the values returns a prototype, the one that
    goes through the coefficients returns the same exactly when there is one
    CPU, or the factor is below twice the number of CPUs, or already the first
    folded polynomial is a constant. *)
Theorem C27_exact P f lde_factor output proto :
  values_of fp P f -> (size f <= size (p_coeffs P) %/ lde_factor)%N ->
  proof_from_lde_by_values fp H P lde_factor output w = Ok proto ->
  proof_from_lde_through_coefficients fp H P lde_factor output w = Ok proto <->
  [\/ w = 1%N, (lde_factor < 2 * w)%N | (size (fold_poly (head 0%R (fpt_challenges proto)) f) <= 1)%N].
Proof.
move=> [Hwf Hv] Hf Hpr; have [K [e [r [v [[EP Hs HK El Er] [h1 h2 h3 Epr]]]]]] := by_values_inv Hok Hw Hwf Hpr.
move: Hf Hv Hpr; rewrite {}EP {}El {}Er /= Hs => Hf Hv Hpr {Hwf}.
have HeK : (e <= K)%N by apply: leq_trans (leq_addr r e) (ltnW h2).
rewrite divn_pow2 // in Hf; have HD : (K - e + e = K)%N by rewrite subnK.
set D := (K - e)%N in HD Hf; set c := mkseq (nth 0 f) (2 ^ D).
have Hc : size c = (2 ^ D)%N by rewrite size_mkseq.
have Ec : poly_of c = f by apply: coeffs_of_poly.
have Ev : v = evals (poly_of c) 1 (dom_gen fp K) (2 ^ K) by rewrite Ec.
have HrD : (r < D)%N by rewrite /D ltn_subRL.
have HD0 : (0 < D)%N by apply: leq_ltn_trans HrD.
have HK0 : (0 < K)%N by apply: leq_ltn_trans h2.
have HDK : (D <= K)%N by apply: leq_subr.
have Ech : head 0 (fpt_challenges proto) = vchal K v.
  rewrite -nth0 -(@nth_take 1) // Epr /honest_proto /P_Fri.honest_proto /= take_chals ?subn_gt0 //=.
  by rewrite subn0.
have Efold : fold_poly (head 0 (fpt_challenges proto)) f = fold_polys (chals K (dom_gen fp K) v 1) f.
  by rewrite Ech /= subn0.
have Hlde i : (0 < i <= D)%N ->
    (let* p := from_coeffs fp (clayer K (dom_gen fp K) v c i) in lde fp p w (2 ^ e)) =
      Ok (std Values (K - i) (layer K (dom_gen fp K) v i)) <->
    lde_cpus_ok w (2 ^ e) \/ (size (fold_polys (chals K (dom_gen fp K) v i) f) <= 1)%N.
  case/andP=> _ Hi; have Hsc := size_clayer fp H K (dom_gen fp K) v Hc Hi.
  have HDS : (D - i <= S)%N by apply: leq_trans (leq_subr _ _) (leq_trans HDK HK).
  rewrite (from_coeffs_pow Hok Hsc HDS) bind_eq.
  have E : (D - i + e = K - i)%N by rewrite -HD addnC addnBA // addnC.
  have -> : layer K (dom_gen fp K) v i =
      evals (poly_of (clayer K (dom_gen fp K) v c i)) 1 (dom_gen fp (K - i)) (2 ^ (K - i)).
    rewrite (poly_of_clayer _ _ _ _ _ Hc Hi) {2}Ev; rewrite {1}Ev.
    by rewrite layer_evals // (leq_trans Hi).
  rewrite -E (lde_right Hsc) ?E ?(leq_trans (leq_subr _ _) HK) //.
  by rewrite (poly_of_clayer _ _ _ _ _ Hc Hi) Ec.
rewrite Efold; split=> [Ht|Hor].
  have := through_first HD HK Hc Ev HK0 HrD Ht.
  have -> : nth (std Values 0 [::]) (fpt_values proto) 0 = std Values (K - 1) (layer K (dom_gen fp K) v 1).
    by rewrite Epr /= nth_mkseq // subn_gt0.
  case/(Hlde 1%N) => [//|/orP [/eqP|]|]; by constructor.
rewrite -Hpr Ev; apply: (through_exact HD HK Hc) => i Hi.
rewrite -Ev; apply/(Hlde i Hi); case: Hor => [E|E|E]; [by left; rewrite /lde_cpus_ok E|by left; rewrite /lde_cpus_ok E orbT|right].
case: i Hi => // i _; elim: i => [//|i IH].
by rewrite [chals _ _ _ _]/= -/(chals _ _ _ i.+1) fold_polys_rcons; apply: fold_poly_const.
Qed.
End Exact.

(** Two CPUs, factor 4: x^2 is folded to x, so the provers disagree; the
    constant 1 is folded to a constant, so they agree. *)
Definition is_ok A (r : outcome A) : bool := if r is Ok _ then true else false.
Definition ex_const : hpoly F257 Values := std f257 Values 4 (nseq 16 1).

Lemma fold_X2 (F : fieldType) (b : F) : ~ (size (fold_poly b 'X^2) <= 1)%N.
Proof.
move=> /leq_sizeP/(_ 1%N isT); rewrite coef_poly size_polyXn /= !coefXn /= mulr0 addr0.
by move/eqP; rewrite oner_eq0.
Qed.

Example C27_ex_exact :
  (exists proto, [/\ values_of f257 ex_powers 'X^2,
     proof_from_lde_by_values f257 toy_hash ex_powers 4 1 2 = Ok proto &
     proof_from_lde_through_coefficients f257 toy_hash ex_powers 4 1 2 <> Ok proto]) /\
  (exists proto, [/\ values_of f257 ex_const 1,
     proof_from_lde_by_values f257 toy_hash ex_const 4 1 2 = Ok proto &
     proof_from_lde_through_coefficients f257 toy_hash ex_const 4 1 2 = Ok proto]).
Proof.
split.
  have HP : values_of f257 ex_powers 'X^2.
    by rewrite /ex_powers -evals_X2; apply: (std_values_of 'X^2 f257_ok).
  have Hf : (size ('X^2 : {poly F257}) <= size (p_coeffs ex_powers) %/ 4)%N.
    by rewrite size_polyXn size_powers.
  have : is_ok (proof_from_lde_by_values f257 toy_hash ex_powers 4 1 2) by vm_compute.
  case E: (proof_from_lde_by_values _ _ _ _ _ _) => [proto| |]; [move=> _|discriminate|discriminate].
  exists proto; split; [exact HP | exact (erefl _) | move=> Ht].
  have [h _] := C27_exact f257_ok (isT : (0 < 2)%N) HP Hf E; move: (h Ht); clear=> -[| |]; [discriminate | discriminate | exact: fold_X2].
have HP : values_of f257 ex_const 1.
  have -> : ex_const = std f257 Values 4 (evals 1 1 (dom_gen f257 4) (2 ^ 4)).
    congr (std f257 Values 4 _); apply: (@eq_from_nth _ 0); first by rewrite size_nseq size_evals.
    move=> i; rewrite size_nseq => Hi; rewrite nth_nseq Hi nth_evals //.
    by rewrite -polyC1 hornerC.
  exact: (std_values_of 1 f257_ok).
have Hf : (size (1%R : {poly F257}) <= size (p_coeffs ex_const) %/ 4)%N by rewrite size_poly1 size_nseq.
have : is_ok (proof_from_lde_by_values f257 toy_hash ex_const 4 1 2) by vm_compute.
case E: (proof_from_lde_by_values _ _ _ _ _ _) => [proto| |]; [move=> _|discriminate|discriminate].
exists proto; split; [exact HP | exact (erefl _) | ].
have [_ h] := C27_exact f257_ok (isT : (0 < 2)%N) HP Hf E; apply h; apply Or33; clear.
by apply: fold_poly_const; rewrite size_poly1.
Qed.

Print Assumptions C27_exact.
Print Assumptions C27_ex_exact.
