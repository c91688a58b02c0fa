(** Properties C12 - C18: operations on polynomials. *)
From mathcomp Require Import all_ssreflect all_algebra.
From Verif Require Import M_Base M_Worker M_Field M_Domain M_Fft M_Poly M_PolyUtils Spec SpecPoly.
From Verif Require Import P_Base P_Fft P_Domain P_Poly P_Lde P_PolyOps P_PolyUtils P_Wf Instances.

Set Implicit Arguments.
Unset Strict Implicit.
Unset Printing Implicit Defensive.
Import GRing.Theory.
Local Open Scope ring_scope.

Section Ops.
Variables (F : fieldType) (fp : ff_params F) (w : worker).
Hypotheses (Hok : ff_ok fp) (Hw : (0 < w)%N).

(** C12: batch inversion. *)
Theorem C12_batch_inversion (p : hpoly F Values) :
  if all (fun x => x != 0) (p_coeffs p) then
    exists2 q, batch_inversion p w = Ok q &
      same_domain p q /\ p_coeffs q = [seq x^-1 | x <- p_coeffs p]
  else batch_inversion p w = Err.
Proof.
rewrite /batch_inversion batch_inversion_vecP //; case: (all _ _) => //=.
by eexists.
Qed.

(** C13: value at a point; sum over consecutive powers with any arrival order
    of the partial sums. *)
Theorem C13_evaluate_at (p : hpoly F Coefficients) (x : F) : wf_poly fp p ->
  evaluate_at p w x = (poly_of (p_coeffs p)).[x].
Proof. by case/wfE => k [c [-> Hc Hk]]; rewrite evaluate_atP. Qed.

Theorem C13_consecutive_powers (c : seq F) (a b : F) (arrived : seq F) :
  perm_eq arrived (consequitive_parts w c a b) ->
  evaluate_at_consequitive_powers arrived = \sum_(i < size c) c`_i * (a * b ^+ i).
Proof.
move=> H; rewrite (evaluate_arrived H) consequitive_parts_sum //.
rewrite (poly_of_horner _ (leqnn _)) big_mkord big_distrr /=.
by apply: eq_bigr => i _; rewrite mulrCA.
Qed.

(** C14: entrywise operations; the domain data do not change. *)
Theorem C14_unary P (p : hpoly F P) (g : F) :
  [/\ same_domain p (scale p w g), same_domain p (negate p w) & same_domain p (p_distribute_powers p w g)] /\
  [/\ p_coeffs (scale p w g) = [seq x * g | x <- p_coeffs p],
      p_coeffs (negate p w) = [seq - x | x <- p_coeffs p],
      size (p_coeffs (p_distribute_powers p w g)) = size (p_coeffs p) &
      forall i, (p_coeffs (p_distribute_powers p w g))`_i = (p_coeffs p)`_i * g ^+ i].
Proof.
split; split=> //=; rewrite ?par_eachE // distribute_powersE ?size_mapi // => i.
case: (ltnP i (size (p_coeffs p))) => Hi; first by rewrite (nth_mapi _ 0).
by rewrite !nth_default ?size_mapi // mul0r.
Qed.

Theorem C14_unary_values (p : hpoly F Values) (g : F) (e : nat) :
  [/\ same_domain p (add_constant p w g), same_domain p (M_Poly.pow p w e) & same_domain p (square p w)] /\
  [/\ p_coeffs (add_constant p w g) = [seq x + g | x <- p_coeffs p],
      p_coeffs (M_Poly.pow p w e) = [seq x ^+ e | x <- p_coeffs p] &
      p_coeffs (square p w) = [seq x ^+ 2 | x <- p_coeffs p]].
Proof.
split; split=> //=; rewrite ?par_eachE //; rewrite /M_Poly.pow; case: eqP => //= [->|_]; rewrite par_eachE //.
Qed.

(** The same operations on plain vectors; [a + b c] needs equal lengths. *)
Theorem C14_vectors (a b : seq F) (c : F) :
  mul_polynomial_by_scalar w a c = [seq x * c | x <- a] /\
  if size a == size b then
    exists2 r, mul_add_polynomials w a b c = Ok r &
      size r = size a /\ forall i, r`_i = a`_i + b`_i * c
  else mul_add_polynomials w a b c = Panic.
Proof.
split; first exact: mul_polynomial_by_scalarE.
case: eqP => [Hs|/eqP/negPf Hs]; last by rewrite /mul_add_polynomials Hs.
rewrite mul_add_polynomialsE //; eexists; first by reflexivity.
have Hz : size (zip a b) = size a by rewrite size_zip -Hs minnn.
split=> [|i]; first by rewrite size_map Hz.
case: (ltnP i (size a)) => Hi; first by rewrite (nth_map (0, 0)) ?Hz // nth_zip.
by rewrite !nth_default ?mul0r ?addr0 ?size_map ?Hz // -Hs.
Qed.

Theorem C14_binary_values (p q : hpoly F Values) (g : F) :
  if size (p_coeffs p) == size (p_coeffs q) then
   [/\ add_assign p w q = Ok (with_coeffs Values p [seq x.1 + x.2 | x <- zip (p_coeffs p) (p_coeffs q)]),
       sub_assign p w q = Ok (with_coeffs Values p [seq x.1 - x.2 | x <- zip (p_coeffs p) (p_coeffs q)]),
       mul_assign p w q = Ok (with_coeffs Values p [seq x.1 * x.2 | x <- zip (p_coeffs p) (p_coeffs q)]) &
       add_assign_scaled p w q g =
         Ok (with_coeffs Values p [seq x.1 + x.2 * g | x <- zip (p_coeffs p) (p_coeffs q)])]
  else [/\ add_assign p w q = Panic, sub_assign p w q = Panic, mul_assign p w q = Panic &
           add_assign_scaled p w q g = Panic].
Proof.
rewrite /add_assign /sub_assign /mul_assign /add_assign_scaled /p_size.
by case: eqP => // E; rewrite !par_zip_eq.
Qed.

Theorem C14_binary_coefficients (p q : hpoly F Coefficients) (g : F) :
  let P := poly_of (p_coeffs p) in let Q := poly_of (p_coeffs q) in
  if (size (p_coeffs q) <= size (p_coeffs p))%N then
   exists a s m, [/\ add_assign_c p w q = Ok a, sub_assign_c p w q = Ok s,
     add_assign_scaled_c p w q g = Ok m &
     [/\ same_domain p a, same_domain p s & same_domain p m] /\
     [/\ poly_of (p_coeffs a) = P + Q, poly_of (p_coeffs s) = P - Q &
         poly_of (p_coeffs m) = P + g *: Q] /\
     [/\ size (p_coeffs a) = size (p_coeffs p), size (p_coeffs s) = size (p_coeffs p) &
         size (p_coeffs m) = size (p_coeffs p)]]
  else [/\ add_assign_c p w q = Panic, sub_assign_c p w q = Panic &
           add_assign_scaled_c p w q g = Panic].
Proof.
rewrite /= /add_assign_c /sub_assign_c /add_assign_scaled_c /p_size.
case: leqP => // H; rewrite !par_zipE //.
have Hs f : size (zip_upd f (p_coeffs p) (p_coeffs q)) = size (p_coeffs p) :> nat.
  by rewrite /zip_upd size_cat size_map size_zip size_drop (minn_idPr _) // subnKC.
have Hn (f : F -> F -> F) i : f 0 0 = 0 -> (forall x, f x 0 = x) ->
    (zip_upd f (p_coeffs p) (p_coeffs q))`_i = f (p_coeffs p)`_i (p_coeffs q)`_i.
  move=> f00 fx0; case: (ltnP i (size (p_coeffs q))) => Hi.
    rewrite /zip_upd nth_cat size_map size_zip (minn_idPr _) // Hi.
    by rewrite (nth_map (0, 0)) ?size_zip ?(minn_idPr _) // nth_zip_cond size_zip (minn_idPr _) // Hi.
  rewrite [X in f _ X]nth_default // fx0 /zip_upd nth_cat size_map size_zip (minn_idPr _) //.
  by rewrite ltnNge Hi /= nth_drop subnKC.
eexists; eexists; eexists; split=> //; split=> //; split; split; rewrite /= ?Hs //; apply/polyP => i.
- by rewrite coefD !coef_poly_of Hn ?addr0 // => x; rewrite addr0.
- by rewrite coefB !coef_poly_of Hn ?subr0 // => x; rewrite subr0.
- by rewrite coefD coefZ !coef_poly_of Hn ?mul0r ?addr0 // => [|x]; rewrite ?mul0r ?addr0 // mulrC.
Qed.

(** Operations keep objects consistent. *)
Theorem C14_keeps_consistent P (p q : hpoly F P) : wf_poly fp p -> same_domain p q ->
  size (p_coeffs q) = size (p_coeffs p) -> wf_poly fp q.
Proof.
by case=> H1 H2 H3 H4 [E1 E2 E3 E4 E5] Es; split; rewrite ?Es -?E1 -?E2 -?E3 -?E4 -?E5.
Qed.

(** C15: the polynomial with given roots.  Full statement: *)
Definition C15_statement (c : nat) (roots : seq F) : Prop :=
  if size roots is 0 then from_roots fp roots c = Panic
  else if (2 ^ ff_S fp < (size roots).+1)%N then from_roots fp roots c = Err
  else exists2 p, from_roots fp roots c = Ok p &
         wf_poly fp p /\ poly_of (p_coeffs p) = \prod_(x <- roots) ('X - x%:P).

(** It holds whenever no chunk of roots has to be extended by a factor of at
    least twice the CPUs; only a short last chunk can need that. *)
Lemma from_roots_cond n : (0 < n)%N ->
  let r := (n %% (n %/ w))%N in
  [\/ w = 1%N, (n < w)%N, r = 0%N | (2 ^ up_log 2 n.+1 < 2 * w * 2 ^ up_log 2 r.+1)%N] ->
  from_roots_cpus_ok w n.
Proof.
move=> Hn r Hc; rewrite /from_roots_cpus_ok; set ch := get_chunk_size w n.
have Hch : (0 < ch)%N by apply: chunk_size_gt0.
have Hup : (2 ^ up_log 2 n.+1 <= 2 * n)%N.
  case E: (up_log 2 n.+1) => [|K]; first by rewrite expn0 (leq_trans Hn) // leq_pmull.
  rewrite expnS leq_mul2l /= leqNgt; apply/negP => Hlt.
  by have := @up_log_min 2 n.+1 K isT Hlt; rewrite E ltnn.
have Hchw : (n < w * ch.+1)%N.
  rewrite /ch /get_chunk_size; case: (ltnP n w) => H; first by rewrite (leq_trans H) // leq_pmulr.
  by rewrite mulnC -ltn_divLR.
have Hfull : lde_cpus_ok w (2 ^ up_log 2 n.+1 %/ 2 ^ up_log 2 ch.+1).
  rewrite /lde_cpus_ok; apply/orP; right; rewrite ltn_divLR ?expn_gt0 //.
  apply: leq_ltn_trans Hup _; rewrite -mulnA ltn_mul2l /=; apply: leq_trans Hchw _.
  by rewrite leq_mul2l up_logP ?orbT.
apply/allP => i; rewrite mem_iota add0n => /andP [_ Hi].
case: (leqP ch (n - i * ch)) => Hsz //.
have Hlt := ceil_div_lt Hch Hi.
have Er : (n - i * ch = n %% ch)%N.
  rewrite {1}(divn_eq n ch); suff -> : (n %/ ch = i)%N by rewrite addKn.
  apply/eqP; rewrite eqn_leq leq_divRL // (ltnW Hlt) andbT -ltnS ltn_divLR // mulSn.
  by rewrite addnC -ltn_subLR ?(ltnW Hlt).
rewrite Er.
have Hw1 : (n < w)%N -> (n %% ch = 0)%N by rewrite /ch /get_chunk_size => ->; rewrite modn1.
have E2 : (w <= n)%N -> (n %% ch = r)%N by rewrite /r /ch /get_chunk_size leqNgt => /negbTE ->.
case: (ltnP n w) => Hnw.
  by rewrite -{}Er in Hw1; move: Hlt; rewrite -subn_gt0 Hw1.
case: Hc => [->|H|H|H].
- by rewrite /lde_cpus_ok.
- by rewrite ltnNge Hnw in H.
- by move: Hlt; rewrite -subn_gt0 Er E2 // H.
rewrite E2 // /lde_cpus_ok ltn_divLR ?expn_gt0 // H orbT //.
Qed.

Theorem C15_from_roots_partial (roots : seq F) :
  let n := size roots in let r := (n %% (n %/ w))%N in
  [\/ w = 1%N, (n < w)%N, r = 0%N | (2 ^ up_log 2 n.+1 < 2 * w * 2 ^ up_log 2 r.+1)%N] ->
  C15_statement w roots.
Proof.
move=> n r Hc; rewrite /C15_statement.
case E: (size roots) => [|m]; first by rewrite (size0nil E) from_roots_nil.
have Hn : (0 < size roots)%N by rewrite E.
have := from_rootsP Hok Hw Hn (from_roots_cond Hn Hc); rewrite E.
have Hle : (m.+2 <= 2 ^ up_log 2 m.+2)%N by apply: up_logP.
case: (ltnP (ff_S fp) (up_log 2 m.+2)) => HS.
  move=> ->; case: ltnP => // H; have := @up_log_min 2 m.+2 _ isT H.
  by rewrite leqNgt HS.
rewrite ltnNge (leq_trans Hle) ?leq_exp2l //= => -[c -> [Hsz Hp]].
by eexists; first by []; split; first exact: wf_std.
Qed.

(** C16: Lagrange interpolation; the result is unique by [C16_unique]. *)
Theorem C16_interpolate (points : seq (F * F)) :
  if (2 <= size points)%N && uniq [seq xy.1 | xy <- points] then
    exists c, [/\ interpolate points = Ok (Some c), size c = size points &
      forall x y, (x, y) \in points -> (poly_of c).[x] = y]
  else interpolate points = Panic.
Proof.
case: (leqP 2 (size points)) => Hn /=; last exact: interpolate_few.
case: ifP => Hu; last by apply: interpolate_dup; rewrite /distinct_x Hu.
case: (interpolateP Hn Hu) => c [E Hs Hc]; exists c; split=> // x y.
by case/(nthP (0, 0)) => k Hk Ek; have := Hc k Hk; rewrite Ek.
Qed.

Theorem C16_unique (points : seq (F * F)) (p q : {poly F}) :
  uniq [seq xy.1 | xy <- points] ->
  (size p <= size points)%N -> (size q <= size points)%N ->
  (forall x y, (x, y) \in points -> p.[x] = y) ->
  (forall x y, (x, y) \in points -> q.[x] = y) -> p = q.
Proof.
move=> Hu Hp Hq H1 H2; apply: (interp_uniq Hu Hp Hq) => -[x y] Hxy /=.
by rewrite (H1 _ _ Hxy) (H2 _ _ Hxy).
Qed.

(** C17: constructors, padding and trimming. *)
Theorem C17_constructors P (s : seq F) :
  if (size s <= 2 ^ ff_S fp)%N then
    exists2 p, from_vec fp P s = Ok p &
     [/\ wf_poly fp p, exists z, p_coeffs p = s ++ nseq z 0,
         (forall j, (size s <= 2 ^ j)%N -> (size (p_coeffs p) <= 2 ^ j)%N) &
         poly_of (p_coeffs p) = poly_of s]
  else from_vec fp P s = Err.
Proof.
have := from_vec_wf Hok P s.
have Hle : (size s <= 2 ^ up_log 2 (size s))%N by case: (posnP (size s)) => [-> //|H]; apply: up_logP.
case: (ltnP (ff_S fp) (up_log 2 (size s))) => HS.
  by move=> ->; case: leqP => // H; have := @up_log_min 2 _ _ isT H; rewrite leqNgt HS.
rewrite (leq_trans Hle) ?leq_exp2l // => -[p -> [Hwf Hc]]; exists p => //; split=> //.
- by eexists; exact: Hc.
- by move=> j Hj; rewrite Hc size_cat size_nseq subnKC // leq_exp2l // up_log_min.
by rewrite Hc; apply: poly_of_eq => i; rewrite nth_cat nth_nseq if_same; case: ltnP => // H; rewrite nth_default.
Qed.

Theorem C17_from_coeffs_from_values (s : seq F) (n : nat) P :
  [/\ from_coeffs fp s = from_vec fp Coefficients s, from_values fp s = from_vec fp Values s &
      new_for_size fp P n = from_vec fp P (nseq n 0)].
Proof. by []. Qed.

Theorem C17_pad_by_factor P (p : hpoly F P) (f : nat) : wf_poly fp p ->
  if is_pow2 f && (size (p_coeffs p) * f <= 2 ^ ff_S fp)%N then
    exists2 q, pad_by_factor fp p f = Ok q &
     [/\ wf_poly fp q, size (p_coeffs q) = (size (p_coeffs p) * f)%N &
         forall i, (p_coeffs q)`_i = (p_coeffs p)`_i]
  else pad_by_factor fp p f = Err.
Proof.
case/wfE => k [c [-> Hc Hk]]; case: (boolP (is_pow2 f)) => [/is_pow2P [e ->]|H] /=; last first.
  exact: pad_by_factor_bad.
rewrite Hc -expnD leq_exp2l // pad_by_factorE //; case HS: (k + e <= ff_S fp)%N => //; eexists; first by [].
split=> /=; rewrite ?size_resize //; first by apply: wf_std => //; rewrite size_resize.
move=> i; rewrite nth_resize; case: ltnP => // H; rewrite nth_default // Hc.
by apply: leq_trans H; rewrite leq_exp2l // leq_addr.
Qed.

Theorem C17_pad_to_size P (p : hpoly F P) (n : nat) : wf_poly fp p ->
  if [&& is_pow2 n, (size (p_coeffs p) <= n)%N & (n <= 2 ^ ff_S fp)%N] then
    exists2 q, pad_to_size fp p n = Ok q &
     [/\ wf_poly fp q, size (p_coeffs q) = n & forall i, (p_coeffs q)`_i = (p_coeffs p)`_i]
  else pad_to_size fp p n = Err.
Proof.
case/wfE => k [c [-> Hc Hk]]; case: (boolP (is_pow2 n)) => [/is_pow2P [e ->]|H] /=.
  rewrite Hc !leq_exp2l // pad_to_sizeE //; case HS: (k <= e <= ff_S fp)%N => //; have /andP [Hke HeS] := HS; eexists; first by [].
  split=> /=; rewrite ?size_resize //; first by apply: wf_std => //; rewrite size_resize.
  move=> i; rewrite nth_resize; case: ltnP => // H; rewrite nth_default // Hc.
  by apply: leq_trans H; rewrite leq_exp2l.
rewrite /pad_to_size /= Hc; case: ltnP => // Hn; case: eqP => // E; move: H.
by rewrite /is_pow2 -E eqxx andbT -lt0n (leq_trans _ Hn) // expn_gt0.
Qed.

Theorem C17_trim P (p : hpoly F P) (d : nat) : wf_poly fp p ->
  exists2 q, trim_to_degree p d = Ok q &
    [/\ wf_poly fp q, same_domain p q, size (p_coeffs q) = size (p_coeffs p) &
        forall i, (p_coeffs q)`_i = if (i <= d)%N then (p_coeffs p)`_i else 0].
Proof. exact: trim_wf. Qed.

(** C18: values of a degree one polynomial. *)
Theorem C18_degree_one (p : hpoly F Coefficients) (n : nat) : wf_poly fp p ->
  if size (p_coeffs p) != 2%N then
    evaluate_at_domain_for_degree_one fp p w n = Panic /\
    coset_evaluate_at_domain_for_degree_one fp p w n = Panic
  else match domain_new fp n with
  | Ok d => exists v u,
     [/\ evaluate_at_domain_for_degree_one fp p w n = Ok v,
         coset_evaluate_at_domain_for_degree_one fp p w n = Ok u, wf_poly fp v, wf_poly fp u &
         p_coeffs v = evals (poly_of (p_coeffs p)) 1 (d_gen d) (d_size d) /\
         p_coeffs u = evals (poly_of (p_coeffs p)) (ff_gen fp) (d_gen d) (d_size d)]
  | _ => evaluate_at_domain_for_degree_one fp p w n = Err /\
         coset_evaluate_at_domain_for_degree_one fp p w n = Err
  end.
Proof.
case/wfE => k [c [-> Hc Hk]] /=; case: eqP => [E|E] /=; last first.
  rewrite /evaluate_at_domain_for_degree_one /coset_evaluate_at_domain_for_degree_one.
  by rewrite /eval_degree_one /= (introF eqP E).
have Ek : k = 1%N by apply/eqP; rewrite -(eqn_exp2l k 1 (isT : 1 < 2)%N) -Hc E.
case: c E Hc => [|c0 [|c1 [|]]] //= _ _; rewrite {}Ek.
rewrite /evaluate_at_domain_for_degree_one /coset_evaluate_at_domain_for_degree_one.
have -> : poly_of [:: c0; c1] = c0%:P + c1 *: 'X.
  apply/polyP => i; rewrite coef_poly_of coefD coefZ coefX coefC.
  by case: i => [|[|i]] /=; rewrite ?nth_nil ?mulr0 ?mulr1 ?addr0 ?add0r.
rewrite !eval_degree_oneE // domain_newE; case: ltnP => // HS /=.
eexists; eexists; split; first by []; first by []; last by [].
- by apply: wf_std => //; rewrite size_evals.
- by apply: wf_std => //; rewrite size_evals.
Qed.
End Ops.

(** C15 refuted: seven roots on two CPUs (chunks of 3, 3 and 1 root). *)
Definition ex_roots : seq F257 := [seq i%:R | i <- iota 1 7].
Definition coeffs_nat P (o : outcome (hpoly F257 P)) : option (seq nat) :=
  if o is Ok p then Some (nats (p_coeffs p)) else None.
Theorem C15_refuted : C15_statement f257 1 ex_roots /\ ~ C15_statement f257 2 ex_roots.
Proof.
have H1 : C15_statement f257 1 ex_roots.
  by apply: (C15_from_roots_partial f257_ok) => //; apply: Or41.
split=> // H2; move: H1 H2; rewrite /C15_statement.
have -> : size ex_roots = 7%N by [].
rewrite (_ : (2 ^ ff_S f257 < 8)%N = false); last by vm_compute.
move=> [p Ep [Hp E1]] [q Eq [Hq E2]].
have E : poly_of (p_coeffs p) = poly_of (p_coeffs q) by rewrite E1 E2.
have : (p_coeffs p)`_0 = (p_coeffs q)`_0 by rewrite -(coef_poly_of (p_coeffs p)) E coef_poly_of.
have : z257_nat (if from_roots f257 ex_roots 1 is Ok p then (p_coeffs p)`_0 else 0 : F257) !=
       z257_nat (if from_roots f257 ex_roots 2 is Ok p then (p_coeffs p)`_0 else 0 : F257).
  by vm_compute.
by rewrite Ep Eq => /eqP H /(congr1 z257_nat).
Qed.

Definition ex_vals : hpoly F257 Values := P_Poly.std f257 Values 2 [:: 10%:R; 255%:R; 2%:R; 7%:R].
Definition ex_coef : hpoly F257 Coefficients := P_Poly.std f257 Coefficients 2 [:: 1; 2%:R; 3%:R; 4%:R].
Lemma ex_coef_wf : wf_poly f257 ex_coef. Proof. by apply: wf_std. Qed.

Example C12_ex : coeffs_nat (batch_inversion ex_vals 3) = Some [:: 180; 128; 129; 147]%N.
Proof. by vm_compute. Qed.
Example C13_ex : z257_nat (evaluate_at ex_coef 3 5%:R : F257) = 72%N /\
  z257_nat (evaluate_at_consequitive_powers
     (rev (consequitive_parts 2 (p_coeffs ex_coef) 2%:R 5%:R)) : F257) = 144%N.
Proof. by split; vm_compute. Qed.
Example C14_ex_vectors : mul_add_polynomials 2 [:: 1; 2; 3 : F257] [:: 4; 5; 6] 0 = Ok [:: 1; 2; 3].
Proof. by vm_compute. Qed.
Example C14_ex : coeffs_nat (mul_assign ex_vals 3 ex_vals) = Some [:: 100; 4; 4; 49]%N.
Proof. by vm_compute. Qed.
(** 6 roots on 2 CPUs: the chunk of 3 roots divides 6 *)
Example C15_ex : (6 %% (6 %/ 2) = 0)%N /\
  coeffs_nat (from_roots f257 [seq i%:R | i <- iota 1 2] 2) = Some [:: 2; 254; 1; 0]%N.
Proof. by split; vm_compute. Qed.
Example C16_ex :
  (if interpolate [:: (1 : F257, 3%:R); (2%:R, 7%:R); (3%:R, 13%:R)] is Ok (Some c)
   then nats c else [::]) = [:: 1; 1; 1]%N.
Proof. by vm_compute. Qed.
Example C17_ex :
  coeffs_nat (let* p := from_coeffs f257 [:: 1; 2%:R; 3%:R] in
              let* p := pad_by_factor f257 p 2 in trim_to_degree p 1) = Some [:: 1; 2; 0; 0; 0; 0; 0; 0]%N.
Proof. by vm_compute. Qed.
Example C18_ex :
  coeffs_nat (let* p := from_coeffs f257 [:: 1; 2%:R] in
              evaluate_at_domain_for_degree_one f257 p 3 4) = Some [:: 3; 226; 256; 33]%N.
Proof. by vm_compute. Qed.

Print Assumptions C12_batch_inversion.
Print Assumptions C13_evaluate_at.
Print Assumptions C13_consecutive_powers.
Print Assumptions C14_unary.
Print Assumptions C14_unary_values.
Print Assumptions C14_vectors.
Print Assumptions C14_binary_values.
Print Assumptions C14_binary_coefficients.
Print Assumptions C14_keeps_consistent.
Print Assumptions C15_from_roots_partial.
Print Assumptions C15_refuted.
Print Assumptions C16_interpolate.
Print Assumptions C16_unique.
Print Assumptions C17_constructors.
Print Assumptions C17_from_coeffs_from_values.
Print Assumptions C17_pad_by_factor.
Print Assumptions C17_pad_to_size.
Print Assumptions C17_trim.
Print Assumptions C18_degree_one.
