(** The ALI step: divisors, precomputation and the composition polynomial. *)
From Coq Require Import NArith.
From mathcomp Require Import all_ssreflect all_algebra.
From Verif Require Import M_Base M_Worker M_Field M_Domain M_Fft M_Poly M_Bytes M_Transcript M_Air M_Arp M_Ali M_Verifier.
From Verif Require Import Spec SpecAir SpecStark P_Base P_Fft P_Domain P_Poly P_Lde P_PolyOps P_Air P_Arp P_Vals P_Maps.

Set Implicit Arguments.
Unset Strict Implicit.
Unset Printing Implicit Defensive.
Import GRing.Theory.
Local Open Scope ring_scope.

(** * Divisors *)
Section Divisor.
Variable F : fieldType.

Lemma dense_degreeE size s sp n : (n <= size)%N ->
  dense_divisor_degree size s sp n = if (s + sp <= n)%N then Ok (n - s - sp)%N else Panic.
Proof.
move=> Hn; rewrite /dense_divisor_degree /usub.
case: (leqP s size) => Hs /=; last first.
  by rewrite ifN // -ltnNge (leq_ltn_trans Hn) // (leq_trans Hs) // leq_addr.
rewrite Hn /=; case: (leqP s n) => Hsn; last first.
  rewrite ifN; last by rewrite -ltnNge ltn_sub2l // (leq_trans Hsn).
  by rewrite ifN // -ltnNge (leq_trans Hsn) // leq_addr.
rewrite leq_sub2l //=.
have -> : (size - s - (size - n) = n - s)%N by rewrite subnAC subKn.
by rewrite leq_subRL.
Qed.

Lemma geometricE (start g : F) n : geometric start g n = mkseq (fun i => start * g ^+ i) n.
Proof.
rewrite /geometric (_ : mapacc _ _ _ = mapacc (fun u (_ : F) => (u * g, u)) (start * g ^+ 0) (nseq n 0)).
  rewrite (@mapacc_geo _ _ _ _ (fun i => start * g ^+ i) (fun i _ => start * g ^+ i)) ?mapi_nseq //.
  by move=> j x; rewrite exprSr mulrA.
by rewrite mulr1.
Qed.

Lemma dense_rootsE (g : F) size s sp n : (sp <= n)%N ->
  dense_roots g size s sp n = Ok [seq g ^+ i | i <- iota 0 s ++ iota (n - sp) (size - (n - sp))].
Proof.
move=> H; rewrite /dense_roots /usub H /= !geometricE map_cat; congr (Ok (_ ++ _)).
  by apply: eq_map => i; rewrite mul1r.
have -> m : iota (n - sp) m = [seq (n - sp + i)%N | i <- iota 0 m] by rewrite -iotaDl addn0.
rewrite -map_comp; apply: eq_map => i /=.
by rewrite exprD.
Qed.

Lemma foldl_roots (x v : F) rs : foldl (fun d r => d * (x - r)) v rs = v * \prod_(r <- rs) (x - r).
Proof. by elim: rs v => [|r rs IH] v /=; rewrite ?big_nil ?mulr1 // IH big_cons mulrA. Qed.

Lemma iota_split a b N : (a <= b)%N -> (b <= N)%N ->
  iota 0 N = iota 0 a ++ iota a (b - a) ++ iota b (N - b).
Proof.
move=> Hab Hb; rewrite -{1}(subnKC (leq_trans Hab Hb)) iotaD add0n; congr (_ ++ _).
have -> : (N - a = (b - a) + (N - b))%N by rewrite addnC addnBA // subnK.
by rewrite iotaD subnKC.
Qed.

Lemma dense_row_iota s sp n : (s + sp <= n)%N ->
  [seq i <- iota 0 n | dense_row s sp n i] = iota s (n - sp - s).
Proof.
move=> H; have Hsp : (sp <= n)%N by apply: leq_trans H; rewrite leq_addl.
have Hs : (s <= n - sp)%N by rewrite leq_subRL // addnC.
have -> : iota 0 n = iota 0 s ++ iota s (n - sp - s) ++ iota (n - sp) sp.
  by rewrite (iota_split Hs (leq_subr _ _)) subKn.
rewrite !filter_cat -[RHS]cat0s; congr (_ ++ _); last rewrite -[RHS]cats0; last congr (_ ++ _).
- rewrite (eq_in_filter (a2 := pred0)) ?filter_pred0 // => i.
  by rewrite mem_iota add0n /= /dense_row => /ltn_geF ->.
- apply/all_filterP/allP => i; rewrite mem_iota /dense_row subnKC // => /andP [-> /=].
  by rewrite ltn_subRL addnC.
- rewrite (eq_in_filter (a2 := pred0)) ?filter_pred0 // => i.
  rewrite mem_iota /dense_row subnK // => /andP [Hi _]; apply/negbTE; rewrite negb_and orbC -leqNgt.
  by rewrite addnC -leq_subLR Hi.
Qed.

Lemma divisorE (g : F) s sp n : (s + sp <= n)%N ->
  divisor g s sp n = \prod_(i <- iota s (n - sp - s)) ('X - (g ^+ i)%:P).
Proof. by move=> H; rewrite /divisor -big_filter dense_row_iota. Qed.

(** X^N - 1 is the divisor times the product over the other roots. *)
Lemma divisor_split (g : F) N s sp n : N.-primitive_root g -> (n <= N)%N -> (s + sp <= n)%N ->
  divisor g s sp n * \prod_(i <- iota 0 s ++ iota (n - sp) (N - (n - sp))) ('X - (g ^+ i)%:P) = 'X^N - 1.
Proof.
move=> Hg Hn H; have Hsp : (sp <= n)%N by apply: leq_trans H; rewrite leq_addl.
have Hs : (s <= n - sp)%N by rewrite leq_subRL // addnC.
have HN : (n - sp <= N)%N by apply: leq_trans Hn; rewrite leq_subr.
rewrite divisorE // big_cat /= mulrCA mulrA -(factor_Xn_sub_1 Hg) /index_iota subn0.
have -> : iota 0 N = iota 0 s ++ iota s (n - sp - s) ++ iota (n - sp) (N - (n - sp)).
  exact: iota_split.
by rewrite !big_cat /= mulrA.
Qed.

Lemma divisor_root (g : F) N s sp n i : N.-primitive_root g -> (n <= N)%N -> (i < N)%N ->
  root (divisor g s sp n) (g ^+ i) = dense_row s sp n i.
Proof.
move=> Hg Hn Hi; rewrite /divisor rootE horner_prod.
rewrite prodf_seq_eq0; apply/hasP/idP => [[j]|H].
  rewrite mem_iota add0n /= => Hj /andP [Hd]; rewrite !hornerE subr_eq0.
  rewrite (eq_prim_root_expr Hg) !modn_small ?(leq_trans Hj) // => /eqP -> //.
exists i; last by rewrite H !hornerE subrr eqxx.
rewrite mem_iota add0n /=; case/andP: H => _; apply: leq_ltn_trans; exact: leq_addr.
Qed.

Lemma size_divisor (g : F) s sp n : (s + sp <= n)%N -> size (divisor g s sp n) = (n - sp - s).+1.
Proof.
by move=> H; rewrite divisorE // -(big_map (fun i => g ^+ i) xpredT (fun x => 'X - x%:P)) size_prod_XsubC size_map size_iota.
Qed.

Lemma divisor_monic (g : F) s sp n : divisor g s sp n \is monic.
Proof. by apply: monic_prod => i _; apply: monicXsubC. Qed.

(** The value computed by prover and verifier. *)
Lemma inverse_divisorE (g x : F) N s sp n : N.-primitive_root g -> (n <= N)%N -> (s + sp <= n)%N ->
  x ^+ N - 1 != 0 ->
  (x ^+ N - 1)^-1 * \prod_(r <- [seq g ^+ i | i <- iota 0 s ++ iota (n - sp) (N - (n - sp))]) (x - r) =
  (divisor g s sp n).[x]^-1.
Proof.
move=> Hg Hn H Hx; rewrite big_map; set R := \prod_(i <- _) _.
have E : x ^+ N - 1 = (divisor g s sp n).[x] * R.
  have /(congr1 (horner^~ x)) := divisor_split Hg Hn H.
  rewrite hornerM hornerD hornerN hornerC hornerXn => <-; congr (_ * _).
  by rewrite horner_prod; apply: eq_bigr => i _; rewrite !hornerE.
move: Hx; rewrite E mulf_eq0 negb_or => /andP [H1 H2].
by rewrite invfM -mulrA mulVf // mulr1.
Qed.
End Divisor.

Section Divisor2.
Variables (F : fieldType) (fp : ff_params F).
Hypothesis Hok : ff_ok fp.
Notation gen := (ff_gen fp).
Notation S := (ff_S fp).

Definition dom k := Domain (2 ^ k) k (dom_gen fp k).

(** The verifier's inverse divisor at a point. *)
Lemma inverse_divisor_atE x k s sp n : (k <= S)%N -> (n <= 2 ^ k)%N ->
  inverse_divisor_at x (dom k) s sp n =
  if (s + sp <= n)%N then
    if x ^+ (2 ^ k) == 1 then Err else Ok ((divisor (dom_gen fp k) s sp n).[x]^-1, (n - s - sp)%N)
  else Panic.
Proof.
move=> Hk Hn; rewrite /inverse_divisor_at /= dense_degreeE //; case: ifP => // H.
rewrite bind_ok /inverse subr_eq0; case: eqP => //= /eqP Hx.
rewrite dense_rootsE ?(leq_trans (leq_addl s sp)) // bind_ok foldl_roots inverse_divisorE ?subr_eq0 //.
exact: dom_gen_prim.
Qed.

Variable w : worker.
Hypothesis Hw : (0 < w)%N.

Lemma par_coset K (f : F -> F -> F) c : size c = (2 ^ K)%N ->
  par_chunks w (fun i chunk c =>
     mapacc (fun x v => (x * dom_gen fp K, f x v)) (dom_gen fp K ^+ (i * chunk) * gen) c) c =
  [seq f xv.1 xv.2 | xv <- zip (points fp K gen) c].
Proof.
move=> Hc; rewrite (@par_chunks_mapi _ _ _ _ (fun i v => f (gen * dom_gen fp K ^+ i) v)) //; last first.
  move=> i k s; rewrite (@mapacc_geo _ _ _ _ (fun j => dom_gen fp K ^+ j * gen)
     (fun j v => f (gen * dom_gen fp K ^+ j) v)) // => j x.
  by rewrite exprSr mulrAC [gen * _]mulrC.
rewrite (mapi_as_mkseq _ _ 0) Hc.
apply: (@eq_from_nth _ 0); first by rewrite size_mkseq size_map size_zip size_points Hc minnn.
rewrite size_mkseq => i Hi; rewrite nth_mkseq // (nth_map (0, 0)) ?size_zip ?size_points ?Hc ?minnn //.
by rewrite nth_zip ?size_points ?Hc //= nth_mkseq.
Qed.

(** The prover's inverse divisor on a coset. *)
Lemma inverse_divisor_in_cosetE K k s sp n : (k <= S)%N -> (K <= S)%N -> (n <= 2 ^ k)%N ->
  inverse_divisor_in_coset fp (dom k) (dom K) s sp n w =
  if (s + sp <= n)%N then
    if all (fun x => x ^+ (2 ^ k) - 1 != 0) (points fp K gen) then
      Ok (vf fp K gen (fun x => (divisor (dom_gen fp k) s sp n).[x]^-1), (n - s - sp)%N)
    else Err
  else Panic.
Proof.
move=> Hk HK Hn; rewrite /inverse_divisor_in_coset /= dense_degreeE //; case: ifP => // H.
rewrite bind_ok dense_rootsE ?(leq_trans (leq_addl s sp)) // bind_ok (vf_zero Hok gen) // bind_ok.
have E f g : with_coeffs Values (vf fp K gen f) (par_chunks w (fun i chunk c =>
     mapacc (fun x v => (x * dom_gen fp K, g x v)) (dom_gen fp K ^+ (i * chunk) * gen) c)
     (p_coeffs (vf fp K gen f))) = vf fp K gen (fun x => g x (f x)).
  rewrite par_coset ?size_map ?size_iota //.
  rewrite -[LHS]/(std fp Values K _) /vf; congr (std _ _ _ _).
  by elim: (points _ _ _) => //= x s' ->.
rewrite (E _ (fun x _ => x ^+ (2 ^ k) - 1)) vf_inv //; case: ifP => // Hall.
rewrite bind_ok E; congr (Ok (_, _)); apply: vf_ext => x Hx.
rewrite foldl_roots inverse_divisorE //; last by move/allP: Hall; apply.
exact: dom_gen_prim.
Qed.

(** A coset avoids the subgroup exactly when the shift is outside of the
    domain. *)
Lemma coset_avoids k d : (k + d <= S)%N ->
  all (fun x => x ^+ (2 ^ k) - 1 != 0) (points fp (k + d) gen) = (gen ^+ (2 ^ (k + d)) != 1).
Proof.
move=> HK; set G := dom_gen fp (k + d).
have HG : (2 ^ (k + d)).-primitive_root G by apply: dom_gen_prim.
have HGk : (2 ^ d).-primitive_root (G ^+ (2 ^ k)).
  rewrite /G addnC dom_gen_sub ?(addnC d) //; apply: dom_gen_prim => //.
  by rewrite (leq_trans _ HK) // leq_addl.
apply/idP/idP => [/allP Hall|Hg].
  apply/eqP => Hg.
  have : (gen ^+ (2 ^ k)) ^+ (2 ^ d) = 1 by rewrite -exprM -expnD.
  case/(prim_rootP HGk) => i Hi.
  have Hd : (0 < 2 ^ d)%N by rewrite expn_gt0.
  set j := ((2 ^ d - i) %% 2 ^ d)%N.
  have Hj : (i + j)%N = 0 %[mod 2 ^ d] by rewrite modnDmr subnKC ?modnn ?mod0n // ltnW.
  have E : (gen * G ^+ j) ^+ (2 ^ k) = 1.
    rewrite exprMn Hi [X in _ * X]exprAC -exprD; apply/eqP; rewrite -(expr0 (G ^+ (2 ^ k))).
    by rewrite (eq_prim_root_expr HGk); apply/eqP.
  have := Hall (gen * G ^+ j); rewrite E subrr eqxx => Hn; suff: false by []; apply: Hn.
  apply/mapP; exists j => //.
  by rewrite mem_iota add0n /= expnD (leq_trans (ltn_pmod _ Hd)) // leq_pmull // expn_gt0.
apply/allP => x /mapP [i _ ->]; rewrite subr_eq0; apply/eqP => Hx.
case/eqP: Hg; have : (gen * G ^+ i) ^+ (2 ^ (k + d)) = 1 by rewrite expnD exprM Hx expr1n.
by rewrite exprMn [(G ^+ i) ^+ _]exprAC (prim_expr_order HG) expr1n mulr1.
Qed.
End Divisor2.

Lemma up_log_mulpow k m : (0 < m)%N -> up_log 2 (2 ^ k * m) = (k + up_log 2 m)%N.
Proof.
move=> Hm; case: (leqP m 1) => Hm1.
  have -> : m = 1%N by case: m Hm Hm1 => [|[]].
  by rewrite muln1 up_expnK // up_log1 addn0.
have /andP [H1 H2] := up_log_bounds (isT : (1 < 2)%N) Hm1.
have H0 : (0 < up_log 2 m)%N by rewrite up_log_gt0.
rewrite -(prednK H0) in H1 H2 *; rewrite addnS; apply: up_log_eq => //.
by rewrite expnD ltn_pmul2l ?expn_gt0 // H1 /= -addnS expnD leq_pmul2l ?expn_gt0.
Qed.

(** * Precomputation *)
Section FromArp.
Variables (F : fieldType) (fp : ff_params F).
Hypothesis Hok : ff_ok fp.
Notation gen := (ff_gen fp).
Notation S := (ff_S fp).
Variable w : worker.
Hypothesis Hw : (0 < w)%N.
Variable props : instance_properties F.

Let cs := ip_constraints props.
Let bs := ip_boundary_constraints props.
Let n := ip_num_rows props.
Let k := up_log 2 n.
Let m := max_degree cs.
Let K := up_log 2 (2 ^ k * m).
Let G := dom_gen fp k.

(** What [from_arp] computes. *)
Record ali_for (a : ali_instance F) : Prop := AliFor {
  af_k : (k <= S)%N;
  af_K : (K <= S)%N;
  af_properties : a_properties a = props;
  af_max : a_max_power a = m;
  af_column : a_column_domain a = dom fp k;
  af_constraints : a_constraints_domain a = dom fp K;
  af_masks : a_all_masks a = masks_of cs bs;
  af_batches : a_batches a = batch_by_density cs;
  af_coset : pc_coset (a_precomputations a) = points fp K gen;
  af_divisors : forall d, d \in map fst (batch_by_density cs) -> exists s sp,
    [/\ d = Dense s sp, (s + sp <= n)%N, all (fun x => x ^+ (2 ^ k) - 1 != 0) (points fp K gen) &
        im_get (a_divisors a) d = Some (vf fp K gen (fun x => (divisor G s sp n).[x]^-1))];
  af_boundary : forall row, row \in map (@b_at_row F) bs ->
    all (fun x => x - G ^+ row != 0) (points fp K gen) /\
    im_get (a_boundary_divisors a) row = Some (vf fp K gen (fun x => (x - G ^+ row)^-1)) }.

Lemma n_le : (n <= 2 ^ k)%N. Proof. exact: next_pow2_ge. Qed.

Let div_of (d : density) : outcome (hpoly F Values) :=
  if d is Dense s sp then
    let* '(p, _) := inverse_divisor_in_coset fp (dom fp k) (dom fp K) s sp n w in Ok p
  else Panic.
Let bdiv_of (row : nat) : outcome (hpoly F Values) :=
  let* v := (let* q := linear_poly fp (G ^+ row) in
             coset_evaluate_at_domain_for_degree_one fp q w (2 ^ K)) in batch_inversion v w.

Lemma bind_assoc A B C (x : outcome A) (f : A -> outcome B) (g : B -> outcome C) :
  (let* y := (let* z := x in f z) in g y) = (let* z := x in let* y := f z in g y).
Proof. by case: x. Qed.

Lemma steps_mem : foldl (fun s b => set_insert s (b_at_row b)) [::] bs =i map (@b_at_row F) bs.
Proof.
move=> row; rewrite -[RHS]orFb -[false]/(row \in [::]) -mem_set_inserts.
by elim: bs [::] => //= b bs' IH s.
Qed.

Lemma from_arpE : from_arp fp props w =
  if (S < k)%N then Err else if (S < K)%N then Err else
  let* divisors := foldM (fun m d => let* v := div_of d in Ok (im_insert m d v)) [::]
                     (map fst (batch_by_density cs)) in
  let* bdivisors := foldM (fun m row => let* v := bdiv_of row in Ok (im_insert m row v)) [::]
                     (foldl (fun s b => set_insert s (b_at_row b)) [::] bs) in
  Ok (ALI props m (dom fp k) (dom fp K) (masks_of cs bs)
        (foldl (fun s b => set_insert s (b_register b)) [::] bs) divisors bdivisors (batch_by_density cs)
        (Precomputed (powers (dom_gen fp K) (2 ^ K)) (points fp K gen) (powers (dom_gen fp K)^-1 (2 ^ K %/ 2)))).
Proof.
rewrite /from_arp -/cs -/bs -/n -/m domain_newE -/k; case: ltnP => // Hk; rewrite bind_ok.
rewrite domain_newE [d_size _]/= -/K; case: ltnP => // HK; rewrite bind_ok.
rewrite (precomputeE fp Hw) /=; last exact: dom_gen_neq0.
rewrite masks_ofE foldM_map.
have -> : [seq gen * x | x <- powers (dom_gen fp K) (2 ^ K)] = points fp K gen.
  by rewrite /powers /points /mkseq -map_comp.
set X := foldM _ _ _; set Y := foldM _ _ (batch_by_density cs).
have -> : X = Y.
  apply: eq_foldM => b [[s sp|? ? ?|?] ?] //=; rewrite /div_of -/(dom fp k) -/(dom fp K).
  by case: (inverse_divisor_in_coset _ _ _ _ _ _ _) => [[]| |].
case: Y => // divs; rewrite !bind_ok.
set X' := foldM _ _ _; set Y' := foldM _ _ _.
have -> // : X' = Y'.
apply: eq_foldM => b row; rewrite /bdiv_of /= -/G; case: (linear_poly _ _) => //= q.
by case: (coset_evaluate_at_domain_for_degree_one _ _ _ _).
Qed.

Lemma div_ofE d : (k <= S)%N -> (K <= S)%N -> div_of d =
  if d is Dense s sp then
    if (s + sp <= n)%N then
      if all (fun x => x ^+ (2 ^ k) - 1 != 0) (points fp K gen) then
        Ok (vf fp K gen (fun x => (divisor G s sp n).[x]^-1))
      else Err
    else Panic
  else Panic.
Proof.
move=> Hk HK; case: d => // s sp; rewrite /div_of inverse_divisor_in_cosetE ?n_le //.
by case: ifP => // _; case: ifP.
Qed.

Lemma bdiv_ofE row : (K <= S)%N -> bdiv_of row =
  if (1 <= S)%N && all (fun x => x - G ^+ row != 0) (points fp K gen) then
    Ok (vf fp K gen (fun x => (x - G ^+ row)^-1))
  else Err.
Proof.
move=> HK; rewrite /bdiv_of; case: (boolP (1 <= S)%N) => HS; last by rewrite linear_polyN.
by rewrite vf_linear // bind_ok vf_inv.
Qed.

Lemma from_arp_inv a : from_arp fp props w = Ok a -> ali_for a.
Proof.
rewrite from_arpE; case: ltnP => // Hk; case: ltnP => // HK.
case E1: (foldM _ _ (map fst _)) => [divs| |] //; rewrite bind_ok.
case E2: (foldM _ _ _) => [bdivs| |] //; rewrite bind_ok => -[<-]; split=> //.
- move=> d Hd; have := im_build_mem E1 d; rewrite Hd => -[v] Ev Eg; move: Ev.
  rewrite div_ofE //; case: d {Hd} Eg => // s sp Eg.
  case: ifP => // Hs; case: ifP => // Hall [Ev]; exists s, sp; split=> //.
  by rewrite Ev.
- move=> row Hrow; have := im_build_mem E2 row; rewrite steps_mem Hrow => -[v] Ev Eg; move: Ev.
  by rewrite bdiv_ofE //; case: ifP => // /andP [_ Hall] [Ev]; rewrite Ev.
Qed.

Lemma from_arp_total : (k <= S)%N -> (K <= S)%N ->
  all (fun c => if c_density c is Dense s sp then s + sp <= n else false)%N cs ->
  (cs = [::] \/ all (fun x => x ^+ (2 ^ k) - 1 != 0) (points fp K gen)) ->
  (forall row, row \in map (@b_at_row F) bs ->
     (1 <= S)%N && all (fun x => x - G ^+ row != 0) (points fp K gen)) ->
  exists a, from_arp fp props w = Ok a.
Proof.
move=> Hk HK Hd Hav Hb; rewrite from_arpE ltnNge Hk ltnNge HK /=.
have [|divs ->] := @im_build_total _ _ div_of (map fst (batch_by_density cs)) [::].
  move=> d; rewrite batch_keys => H; rewrite div_ofE //.
  have H1 : is_true (if d is Dense s sp then s + sp <= n else false)%N.
    elim: (cs) H Hd => //= c cs' IH /orP [/eqP <- /andP [+ _] //|H1 /andP [_ H2]]; exact: IH.
  case: d H H1 => // s sp H ->.
  case: Hav => [E|->]; first by rewrite E in H.
  by eexists.
rewrite bind_ok.
have [|bdivs ->] := @im_build_total _ _ bdiv_of (foldl (fun s b => set_insert s (b_at_row b)) [::] bs) [::].
  move=> row; rewrite steps_mem => /Hb H; rewrite bdiv_ofE // H; by eexists.
by rewrite bind_ok; eexists.
Qed.
End FromArp.
