(** Pointwise arithmetic, padding, batch inversion and related operations of
    src/polynomials/mod.rs and src/precomputations/mod.rs. *)
From mathcomp Require Import all_ssreflect all_algebra.
From Verif Require Import M_Base M_Worker M_Field M_Domain M_Fft M_Poly Spec
  P_Base P_Fft P_Domain P_Poly P_Lde.

Set Implicit Arguments.
Unset Strict Implicit.
Unset Printing Implicit Defensive.
Import GRing.Theory.
Local Open Scope ring_scope.

(** * Chunks of a vector rebuilt chunk by chunk *)
Lemma mkseqS A (f : nat -> A) n : mkseq f n.+1 = f 0%N :: mkseq (fun i => f i.+1) n.
Proof. by rewrite /mkseq /= -[iota 1 n]/(iota (1 + 0) n) iotaDl -map_comp. Qed.

Lemma chunk_at_flatten A (G : nat -> seq A) k n i : (0 < k)%N -> (i < ceil_div n k)%N ->
  (forall j, (j < ceil_div n k)%N -> size (G j) = minn k (n - j * k)) ->
  chunk_at k (flatten (mkseq G (ceil_div n k))) i = G i.
Proof.
move=> Hk Hi Hs; rewrite /chunk_at; set m := ceil_div n k in Hi Hs *.
have Hfull : forall j, (j.+1 < m)%N -> size (G j) = k.
  move=> j Hj; rewrite Hs ?(ltn_trans _ Hj) //; apply/minn_idPl.
  have := ceil_div_lt Hk Hj; rewrite mulSn => /ltnW H.
  by rewrite -(leq_add2r (j * k)) subnK // (leq_trans (leq_addl k _) H).
have Hd : forall j, (j <= i)%N -> drop (j * k) (flatten (mkseq G m)) = flatten (mkseq (fun l => G (j + l)%N) (m - j)).
  elim=> [|j IH] Hj; first by rewrite drop0 subn0.
  rewrite mulSn -drop_drop IH ?(ltnW Hj) //.
  rewrite -subnSK ?(ltn_trans Hj Hi) // mkseqS /= addn0 drop_cat Hfull ?(leq_ltn_trans Hj Hi) //.
  rewrite ltnn subnn drop0; congr flatten; apply: eq_mkseq => l; by rewrite addnS addSn.
rewrite Hd // -subnSK // mkseqS /= addn0 take_cat Hs //.
case: (ltnP k (minn k (n - i * k))) => [|_]; first by rewrite ltnNge geq_minl.
case: (leqP m i.+1) => Hm.
  have -> : (m - i.+1 = 0)%N by apply/eqP.
  by rewrite /= cats0.
have <- := Hs _ Hi; rewrite Hfull // subnn take0 cats0 //.
Qed.

Lemma chunks_flatten A (G : nat -> seq A) k n : (0 < k)%N ->
  (forall j, (j < ceil_div n k)%N -> size (G j) = minn k (n - j * k)) ->
  size (flatten (mkseq G (ceil_div n k))) = n ->
  chunks k (flatten (mkseq G (ceil_div n k))) = mkseq G (ceil_div n k).
Proof.
move=> Hk Hs Hn; rewrite /chunks Hn.
apply: (@eq_from_nth _ [::]); rewrite !size_mkseq // => i Hi.
by rewrite !nth_mkseq // chunk_at_flatten.
Qed.

Section Ops.
Variables (F : fieldType) (fp : ff_params F).
Hypothesis Hok : ff_ok fp.
Notation gen := (ff_gen fp).
Notation S := (ff_S fp).
Notation std := (std fp).
Variable w : worker.
Hypothesis Hw : (0 < w)%N.

(** * Batch inversion *)
Lemma foldl_mul (s : seq F) x : foldl *%R x s = x * \prod_(y <- s) y.
Proof.
elim: s x => [|y s IH] x /=; first by rewrite big_nil mulr1.
by rewrite IH big_cons mulrA.
Qed.

Lemma running_rcons (s : seq F) x st :
  mapacc (fun s x => (s * x, s * x)) st (rcons s x) =
  rcons (mapacc (fun s x => (s * x, s * x)) st s) (st * (\prod_(y <- s) y) * x).
Proof.
elim: s st => [|y s IH] st /=; first by rewrite big_nil mulr1.
by rewrite IH big_cons mulrA.
Qed.

Notation running := (mapacc (fun s x => (s * x, s * x)) 1).

Lemma pass2_chunk (c : seq F) : all (fun x => x != 0) c ->
  rev (mapacc (fun s (ag : F * F) => (s * ag.1, ag.2 * s)) (\prod_(y <- c) y)^-1
              (zip (rev c) (rcons (behead (rev (running c))) 1))) = [seq x^-1 | x <- c].
Proof.
elim/last_ind: c => [|c x IH] //; rewrite all_rcons => /andP [Hx Hc].
rewrite running_rcons !rev_rcons /= map_rcons.
have Hp : \prod_(y <- c) y != 0.
  elim: (c) Hc => [|y s IHs] /=; first by rewrite big_nil oner_eq0.
  by move=> /andP [H1 H2]; rewrite big_cons mulf_neq0 // IHs.
have Epr : \prod_(y <- rcons c x) y = (\prod_(y <- c) y) * x.
  by rewrite -cats1 big_cat big_seq1.
have Es : (\prod_(y <- rcons c x) y)^-1 * x = (\prod_(y <- c) y)^-1.
  by rewrite Epr invfM -mulrA mulVf // mulr1.
have Ex : (\prod_(y <- c) y) * (\prod_(y <- rcons c x) y)^-1 = x^-1.
  by rewrite Epr invfM mulrA divff // mul1r.
case/lastP: c IH Hc Hp Epr Es Ex => [|c z] IH Hc Hp Epr Es Ex.
  by rewrite /= big_nil in Ex *; rewrite mul1r in Ex; rewrite mul1r Ex.
rewrite running_rcons [rev (rcons (running c) _)]rev_rcons rcons_cons /= mul1r.
have -> : (\prod_(y <- c) y) * z = \prod_(y <- rcons c z) y by rewrite -cats1 big_cat big_seq1.
rewrite Ex Es rev_cons; congr rcons.
rewrite -(IH Hc); congr rev.
by rewrite running_rcons (rev_rcons (running c)).
Qed.

Lemma prod_neq0 (s : seq F) : (\prod_(y <- s) y != 0) = all (fun x => x != 0) s.
Proof.
elim: s => [|y s IH] /=; first by rewrite big_nil oner_eq0.
by rewrite big_cons mulf_eq0 negb_or IH.
Qed.

Lemma all_chunk_at A (P : pred A) k s i : all P s -> all P (chunk_at k s i).
Proof.
rewrite /chunk_at -{1}(cat_take_drop (i * k) s) all_cat => /andP [_].
by rewrite -{1}(cat_take_drop k (drop _ s)) all_cat => /andP [].
Qed.

Lemma batch_inversion_vecP (a : seq F) :
  batch_inversion_vec a w = if all (fun x => x != 0) a then Ok [seq x^-1 | x <- a] else Err.
Proof.
rewrite /batch_inversion_vec; set n := size a; set ch := get_chunk_size w n.
set nt := get_num_spawned_threads w n.
have Hch : (0 < ch)%N by apply: chunk_size_gt0.
have Hnt : nt = ceil_div n ch by apply: num_spawned_chunks.
have Hsc : size (chunks ch a) = nt by rewrite size_chunks.
set pass1 := map _ _.
have E1 : pass1 = [seq (running c, \prod_(y <- c) y) | c <- chunks ch a].
  rewrite -[in RHS](zip_iota_full Hsc) -map_comp; apply: eq_map => -[c i] /=.
  by rewrite foldl_mul mul1r.
have Hs1 : size pass1 = nt by rewrite E1 size_map.
have Eg : unzip1 pass1 = mkseq (fun i => running (chunk_at ch a i)) (ceil_div n ch).
  by rewrite E1 /unzip1 -map_comp /chunks /mkseq -map_comp.
have Es : unzip2 pass1 = mkseq (fun i => \prod_(y <- chunk_at ch a i) y) nt.
  by rewrite E1 /unzip2 -map_comp /chunks /mkseq -map_comp Hnt.
have Hgs : size (flatten (unzip1 pass1)) = n.
  rewrite Eg /n -[in RHS](flatten_chunks a Hch) !size_flatten /shape /chunks; congr sumn.
  rewrite /mkseq -!map_comp; apply: eq_map => i /=; by rewrite size_mapacc.
rewrite Hgs subnn cats0 Hs1 subnn cats0 foldl_mul mul1r Es.
have Eprod : \prod_(y <- mkseq (fun i => \prod_(y <- chunk_at ch a i) y) nt) y = \prod_(y <- a) y.
  rewrite -[in RHS](flatten_chunks a Hch) /chunks -/n -Hnt /mkseq.
  elim: (iota 0 nt) => [|i s IH] /=; first by rewrite !big_nil.
  by rewrite big_cons big_cat /= IH.
have Hall := prod_neq0 a.
rewrite Eprod /inverse; case: eqP Hall => [_ <- //|/eqP H0 Hall]; rewrite -Hall /=.
congr Ok.
set subinv := mkseq _ nt.
have Esub : subinv = mkseq (fun i => (\prod_(y <- chunk_at ch a i) y)^-1) nt.
  rewrite /subinv; apply: (@eq_from_nth _ 0); rewrite !size_mkseq // => i Hi.
  rewrite !nth_mkseq // enumerate_mkseq.
  have Hpi : \prod_(y <- chunk_at ch a i) y != 0.
    by rewrite prod_neq0 all_chunk_at // -Hall.
  pose P j := \prod_(y <- chunk_at ch a j) y.
  have Hf : forall x s, foldl (fun tmp jp => if i == jp.1 then tmp else tmp * jp.2) x
                     [seq (j, P j) | j <- s] = x * \prod_(j <- s | j != i) P j.
    move=> x s; elim: s x => [|j s IH] x /=; first by rewrite big_nil mulr1.
    rewrite IH big_cons eq_sym; case: eqP => //= _; by rewrite mulrA.
  rewrite /mkseq Hf.
  have -> : \prod_(y <- a) y = P i * \prod_(j <- iota 0 nt | j != i) P j.
    rewrite -Eprod /mkseq big_map (bigD1_seq i) ?iota_uniq //= mem_iota //.
  rewrite -Eprod /mkseq big_map (bigD1_seq i) ?iota_uniq ?mem_iota //= -/(P i) in H0.
  have := H0; rewrite mulf_eq0 negb_or => /andP [Hi0 Hr0].
  by rewrite invfM -mulrA mulVf // mulr1.
have Ech : chunks ch (flatten (unzip1 pass1)) = unzip1 pass1.
  rewrite Eg; apply: chunks_flatten => //; last by rewrite -Eg.
  by move=> j Hj; rewrite size_mapacc size_chunk_at.
rewrite Ech Eg Esub -Hnt [chunks ch a]/chunks -/n -Hnt !zip_mkseq //.
rewrite -/(mkseq _ _).
rewrite (_ : flatten _ = [seq x^-1 | x <- a]); first by rewrite size_map drop_size cats0.
rewrite -[in RHS](flatten_chunks a Hch) map_flatten /chunks -/n -Hnt; congr flatten.
rewrite /mkseq -!map_comp; apply: eq_map => i /=.
apply: pass2_chunk.
by rewrite all_chunk_at // -Hall.
Qed.

(** * Pointwise operations *)
Lemma mul_assignE k a b : size a = size b ->
  mul_assign (std Values k a) w (std Values k b) =
  Ok (std Values k [seq x.1 * x.2 | x <- zip a b]).
Proof. by move=> H; rewrite /mul_assign /p_size /= H eqxx par_zip_eq. Qed.

Lemma zip_evals (op : F -> F -> F) (p q r : {poly F}) h g n :
  (forall x, op p.[x] q.[x] = r.[x]) ->
  [seq op x.1 x.2 | x <- zip (evals p h g n) (evals q h g n)] = evals r h g n.
Proof.
move=> H; rewrite /evals; elim: (iota 0 n) => [|i s IH] //=.
by rewrite H IH.
Qed.

Lemma mul_assign_evals k (p q : {poly F}) h g n :
  mul_assign (std Values k (evals p h g n)) w (std Values k (evals q h g n)) =
  Ok (std Values k (evals (p * q) h g n)).
Proof.
rewrite mul_assignE ?size_evals // (zip_evals (r := p * q)) // => x.
by rewrite hornerM.
Qed.

(** * Polynomial from roots *)
Lemma root_product_rcons (rs : seq F) r : root_product (rcons rs r) =
  (if size (root_product rs) == 0%N then [:: - r; 1]
   else [seq q.2 - q.1 * r | q <- zip (root_product rs) (0 :: root_product rs)]
        ++ drop (size (root_product rs)) (0 :: root_product rs)).
Proof. by rewrite /root_product foldl_rcons. Qed.

Lemma root_productP (rs : seq F) : (0 < size rs)%N ->
  size (root_product rs) = (size rs).+1 /\ poly_of (root_product rs) = roots_poly rs.
Proof.
elim/last_ind: rs => [|rs r IH] // _; rewrite root_product_rcons size_rcons.
have Er : roots_poly (rcons rs r) = roots_poly rs * ('X - r%:P).
  by rewrite /roots_poly -cats1 big_cat big_seq1.
case: (posnP (size rs)) => [/size0nil ->|Hrs].
  split=> //=; rewrite /roots_poly big_seq1; apply/polyP => i.
  by rewrite coef_poly_of coefB coefX coefC; case: i => [|[|i]] //=; rewrite ?nth_nil ?subr0 ?sub0r.
have [Hs Hp] := IH Hrs; rewrite Hs; set s := root_product rs in Hs Hp *.
set t := zip s (0 :: s).
have Ht : size t = (size rs).+1 by rewrite size_zip /= Hs (minn_idPl (leqnSn _)).
rewrite /=.
have Hsz : size ([seq q.2 - q.1 * r | q <- t] ++ drop (size rs) s) = (size rs).+2.
  by rewrite size_cat size_map Ht size_drop Hs subSn // subnn addn1.
split=> //; apply/polyP => i; rewrite coef_poly_of Er -Hp mulrC mulrBl coefB coefXM mulrC.
rewrite coefMC !coef_poly_of nth_cat size_map Ht.
case: ltnP => Hi.
  rewrite (nth_map (0, 0)) ?Ht // nth_zip_cond -/t Ht Hi /=.
  by case: i Hi.
rewrite nth_drop [X in _ - X * _]nth_default ?Hs // mul0r subr0.
by case: i Hi => [|i] // Hi /=; rewrite subSS subnKC.
Qed.

Lemma roots_poly_size (rs : seq F) : size (roots_poly rs) = (size rs).+1.
Proof. by rewrite /roots_poly size_prod_XsubC. Qed.

(** The CPU counts for which no chunk of roots needs a wrongly computed
    extension (see [lde_cpus_ok]). *)
Definition from_roots_cpus_ok (n : nat) : bool :=
  let ch := get_chunk_size w n in
  all (fun i => lde_cpus_ok w (2 ^ up_log 2 n.+1 %/ 2 ^ up_log 2 (minn ch (n - i * ch)).+1))
      (iota 0 (ceil_div n ch)).

Lemma from_rootsP (rs : seq F) : (0 < size rs)%N -> from_roots_cpus_ok (size rs) ->
  if (S < up_log 2 (size rs).+1)%N then from_roots fp rs w = Err
  else exists2 c, from_roots fp rs w = Ok (std Coefficients (up_log 2 (size rs).+1) c) &
         size c = (2 ^ up_log 2 (size rs).+1)%N /\ poly_of c = roots_poly rs.
Proof.
move=> Hn Hcpu; rewrite /from_roots addn1 domain_newE; case: ltnP => //= HS.
set n := size rs in Hn Hcpu HS *; set K := up_log 2 n.+1 in HS *; set ch := get_chunk_size w n.
set nt := get_num_spawned_threads w n.
have Hch : (0 < ch)%N by apply: chunk_size_gt0.
have Hnt : nt = ceil_div n ch by apply: num_spawned_chunks.
have Hsc : size (chunks ch rs) = nt by rewrite size_chunks.
set st := map _ _.
have Est : st = mkseq (fun i => root_product (chunk_at ch rs i)) nt.
  have -> : st = map (@root_product F) (map fst (zip (chunks ch rs) (iota 0 nt))) by rewrite -map_comp.
  rewrite zip_iota_full //.
  by rewrite /chunks /mkseq -map_comp Hnt.
have Hst : size st = nt by rewrite Est size_mkseq.
rewrite Hst subnn cats0 Est.
set f := (X in foldM X).
have Hnt0 : (0 < nt)%N.
  rewrite Hnt lt0n; apply/eqP => E; have := ceil_div_mul n Hch.
  by rewrite E mul0n leqNgt Hn.
have HKn : (n < 2 ^ K)%N by rewrite up_logP.
have H : forall m, (m < nt)%N ->
  foldM f None (mkseq (fun i => root_product (chunk_at ch rs i)) m.+1) =
  Ok (Some (std Values K (evals (roots_poly (take (m.+1 * ch) rs)) 1 (dom_gen fp K) (2 ^ K)))).
  move=> m Hm.
  have Hstep : forall m, (m < nt)%N -> forall r,
     f r (root_product (chunk_at ch rs m)) =
     let t := std Values K (evals (roots_poly (chunk_at ch rs m)) 1 (dom_gen fp K) (2 ^ K)) in
     if r is Some res then let* r := mul_assign res w t in Ok (Some r) else Ok (Some t).
    move=> {m Hm} m Hm r.
    have Hcs : (0 < size (chunk_at ch rs m))%N.
      by rewrite size_chunk_at leq_min Hch /= subn_gt0; apply: ceil_div_lt; rewrite -?Hnt.
    have [Hrs Hrp] := root_productP Hcs.
    rewrite /f Hrs /=.
    set kt := up_log 2 (size (chunk_at ch rs m)).+1.
    have HktK : (kt <= K)%N.
      apply: leq_up_log; rewrite ltnS size_chunk_at.
      by apply: leq_trans (geq_minr _ _) (leq_subr _ _).
    rewrite /from_coeffs (from_vecE Hok) Hrs -/kt ltnNge (leq_trans HktK HS) /=.
    rewrite /p_size /= size_resize.
    rewrite div_pow2 // (lde_std Hok Hw) ?size_resize ?(leq_trans HktK HS) //; last first.
      move/allP: Hcpu => /(_ m); rewrite mem_iota /= add0n -/ch -Hnt Hm => /(_ isT).
      by rewrite -/K -/n -size_chunk_at -/kt div_pow2.
    by rewrite subnKC // HS /= poly_of_resize ?Hrs ?up_logP // Hrp.
  elim: m Hm => [|m IH] Hm.
    by rewrite /= Hstep //= mul1n /chunk_at mul0n drop0.
  rewrite /mkseq iotaSr map_rcons foldM_rcons -/(mkseq _ _) IH ?(ltnW Hm) //= Hstep //=.
  rewrite mul_assign_evals /=; congr (Ok (Some (std _ _ (evals _ _ _ _)))).
  by rewrite [in RHS]take_chunk /roots_poly big_cat.
have := H nt.-1; rewrite prednK // => -> //=.
rewrite take_oversize ?Hnt ?ceil_div_mul //.
pose c := mkseq (fun i => (roots_poly rs)`_i) (2 ^ K).
have Hc : poly_of c = roots_poly rs.
  apply/polyP => i; rewrite coef_poly_of; case: (ltnP i (2 ^ K)) => Hi; first by rewrite nth_mkseq.
  by rewrite !nth_default ?size_mkseq // roots_poly_size (leq_trans _ Hi).
have Hcs : size c = (2 ^ K)%N by rewrite size_mkseq.
exists c => //; rewrite -Hc (ifft_std Hok) ?size_evals // (ifft_vec_evals Hok) //.
Qed.

Lemma from_roots_nil : from_roots fp [::] w = Panic.
Proof.
rewrite /from_roots domain_newE.
case: ltnP => [|_]; first by rewrite /up_log /= ltn0.
rewrite /= /chunks /= /get_num_spawned_threads Hw /=.
by rewrite /ceil_div /=; case: (get_chunk_size w 0) => [|k]; rewrite ?div0n ?mod0n.
Qed.

(** * Padding *)
Lemma set_domain_pow P k c k' c' : (k' <= S)%N ->
  set_domain fp (std P k c) c' (2 ^ k') = Ok (std P k' c').
Proof.
move=> Hk; rewrite /set_domain domain_new_pow //=.
by rewrite !inverse_neq0 ?dom_gen_neq0 //; apply: (pow2_neq0 Hok).
Qed.

Lemma pad_by_factorE P k c e : size c = (2 ^ k)%N -> (k <= S)%N ->
  pad_by_factor fp (std P k c) (2 ^ e) =
  if (k + e <= S)%N then Ok (std P (k + e) (resize 0 (2 ^ (k + e)) c)) else Err.
Proof.
move=> Hc Hk; rewrite /pad_by_factor pow2_eq1; case: eqP => [->|_].
  by rewrite addn0 Hk resize_full.
rewrite next_pow2_pow eqxx /= Hc -expnD; case: ifP => H; first exact: set_domain_pow.
by rewrite /set_domain domain_newE up_expnK // ltnNge H.
Qed.

Lemma pad_by_factor_bad P (p : hpoly F P) f : ~~ is_pow2 f -> pad_by_factor fp p f = Err.
Proof.
rewrite /pad_by_factor; case: eqP => [->|_]; first by rewrite (is_pow2_exp 0).
rewrite /is_pow2 negb_and negbK; case: (posnP f) => [-> _|H] /=.
  by rewrite /next_pow2.
by rewrite eq_sym => ->.
Qed.

Lemma pad_to_sizeE P k c e : size c = (2 ^ k)%N -> (k <= S)%N ->
  pad_to_size fp (std P k c) (2 ^ e) =
  if (k <= e <= S)%N then Ok (std P e (resize 0 (2 ^ e) c)) else Err.
Proof.
move=> Hc Hk; rewrite /pad_to_size /= Hc ltn_exp2l // ltnNge; case: (leqP k e) => //= Hke.
rewrite next_pow2_pow eqxx /=; case: leqP => H; first exact: set_domain_pow.
by rewrite /set_domain domain_newE up_expnK // H.
Qed.

(** * Linear polynomials on a domain *)
Lemma eval_degree_oneE start (c0 c1 : F) n :
  eval_degree_one fp start (std Coefficients 1 [:: c0; c1]) w n =
  if (S < up_log 2 n)%N then Err
  else Ok (std Values (up_log 2 n)
             (evals (c0%:P + c1 *: 'X) start (dom_gen fp (up_log 2 n)) (2 ^ up_log 2 n))).
Proof.
rewrite /eval_degree_one /= domain_newE; case: ltnP => //= H.
set K := up_log 2 n; set G := dom_gen fp K.
rewrite (@par_chunks_mapi _ _ _ _ (fun i _ => c1 * (G ^+ i * start) + c0)) //; last first.
  move=> i k s; rewrite (@mapacc_geo _ _ _ _ (fun j => G ^+ j * start)
     (fun j _ => c1 * (G ^+ j * start) + c0)) // => j x.
  by rewrite exprSr mulrAC.
rewrite mapi_nseq (from_values_pow Hok (size_mkseq _ _)) //; congr (Ok (std _ _ _)).
by apply: eq_map => i; rewrite hornerD hornerC hornerZ hornerX addrC [start * _]mulrC.
Qed.

(** * Precomputed tables *)
Lemma powers_tableE (g : F) n : powers_table w g n = powers g n.
Proof.
rewrite /powers_table (@par_chunks_mapi _ _ _ _ (fun i _ => g ^+ i)) ?mapi_nseq // => i k s.
by rewrite (@mapacc_geo _ _ _ _ (fun j => g ^+ j) (fun j _ => g ^+ j)) // => j x; rewrite exprSr.
Qed.

Lemma precomputeE (d : domain F) : d_gen d != 0 ->
  precompute fp d w = Ok (Precomputed (powers (d_gen d) (d_size d))
     [seq gen * x | x <- powers (d_gen d) (d_size d)]
     (powers (d_gen d)^-1 (d_size d %/ 2))).
Proof.
move=> H; rewrite /precompute inverse_neq0 //= !powers_tableE; congr (Ok (Precomputed _ _ _)).
by rewrite (par_eachE Hw); apply: eq_map => x; rewrite mulrC.
Qed.
End Ops.
