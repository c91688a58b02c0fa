(** Correctness of src/utils/poly.rs. *)
From mathcomp Require Import all_ssreflect all_algebra.
From Verif Require Import M_Base M_Worker M_Field M_PolyUtils Spec P_Base P_Domain P_Poly.

Set Implicit Arguments.
Unset Strict Implicit.
Unset Printing Implicit Defensive.
Import GRing.Theory.
Local Open Scope ring_scope.

Section PolyUtils.
Variable F : fieldType.

Lemma consequitive_parts_sum w (c : seq F) a g : (0 < w)%N ->
  \sum_(x <- consequitive_parts w c a g) x = a * (poly_of c).[g].
Proof.
move=> Hw; rewrite /consequitive_parts; set ch := get_chunk_size w _.
have Hch : (0 < ch)%N by apply: chunk_size_gt0.
rewrite poly_of_sum -(chunks_mapi _ c Hch).
rewrite (_ : mapi _ (chunks ch c) = [seq a * \sum_(y <- s) y |
    s <- mapi (fun i ck => mapi (fun j x => x * g ^+ (i * ch + j)) ck) (chunks ch c)]).
  elim: (mapi _ _) => [|s t IH] /=; first by rewrite !big_nil mulr0.
  by rewrite big_cons big_cat /= IH mulrDr.
rewrite map_mapi; apply: eq_mapi => i s _.
have : forall x s, foldl (fun ap p => (ap.1 + p * ap.2, ap.2 * g)) (x, g ^+ (i * ch) * a) s =
    (x + a * \sum_(y <- mapi (fun j b => b * g ^+ (i * ch + j)) s) y, g ^+ (i * ch + size s) * a).
  move=> x {}s; elim/last_ind: s => [|s y IH]; first by rewrite big_nil mulr0 addr0 addn0.
  rewrite foldl_rcons IH /= size_rcons addnS exprSr -cats1 mapi_cat big_cat /= mulrDr addrA.
  rewrite mapi_cons big_cons big_nil addr0 addn0; congr (_ + _, _); last by rewrite mulrAC.
  by rewrite mulrA mulrC mulrA.
by move=> -> /=; rewrite add0r.
Qed.

Lemma evaluate_arrived (s t : seq F) : perm_eq s t ->
  evaluate_at_consequitive_powers s = \sum_(x <- t) x.
Proof.
move=> H; rewrite /evaluate_at_consequitive_powers foldl_add add0r.
exact: perm_big.
Qed.

(** * Interpolation *)
Definition step_inv n (st : seq F * F * nat) (x_k : F) (xs : seq F) : Prop :=
  [/\ size st.1.1 = n, (if xs is [::] then st.1.1 = nseq n 0 else poly_of st.1.1 = roots_poly xs),
      st.1.2 = \prod_(x <- xs) (x_k - x) & st.2 = (if xs is [::] then 0%N else 1%N)].

Lemma contribution_stepP n st x_k xs x : ((size xs).+1 < n)%N -> step_inv n st x_k xs ->
  step_inv n (contribution_step n st x_k x) x_k (rcons xs x).
Proof.
case: st => [[c d] m] Hn [/= Hs Hp Hd Hm]; rewrite /step_inv /contribution_step Hm.
have Hd' : d * (x_k - x) = \prod_(x0 <- rcons xs x) (x_k - x0).
  by rewrite Hd -cats1 big_cat big_seq1.
have Er : roots_poly (rcons xs x) = roots_poly xs * ('X - x%:P).
  by rewrite /roots_poly -cats1 big_cat big_seq1.
case: xs Hn Hp Hd Hm Hd' Er => [|y xs] Hn Hp Hd Hm Hd' Er.
  split=> //=.
    by rewrite !size_set_nth Hs (maxn_idPr _) // (maxn_idPr _) // (leq_trans _ Hn).
  rewrite /roots_poly big_seq1; apply/polyP => i; rewrite coef_poly_of coefB coefX coefC.
  rewrite !nth_set_nth /= !nth_set_nth /= Hp !nth_nseq !if_same.
  by case: i => [|[|i]] /=; rewrite ?mulr0n ?mulr1n ?add0r ?oppr0 ?addr0.
move: Hd' Er; rewrite rcons_cons => Hd' Er; split=> //=.
  by rewrite size_map size_zip size_take size_map /= Hs ltnSn minnn.
rewrite Er -Hp; apply/polyP => i; rewrite coef_poly_of mulrC mulrBl coefB coefXM mulrC coefMC.
rewrite !coef_poly_of; case: (ltnP i n) => Hi.
  rewrite (nth_map (0, 0)) ?nth_zip_cond ?size_zip ?size_take ?size_map /= Hs ltnSn minnn Hi //=.
  rewrite nth_take // (nth_map 0) ?Hs //; by case: i Hi.
rewrite [RHS](_ : _ = 0); last first.
  rewrite [X in _ - X * _]nth_default ?Hs // mul0r subr0; case: i Hi => [|i] Hi //=.
  case: (ltnP i n) => Hi2; last by rewrite nth_default // Hs.
  rewrite -coef_poly_of Hp nth_default // /roots_poly size_prod_XsubC /=.
  by move: Hn; rewrite /= => Hn; rewrite -ltnS (leq_trans Hn).
by rewrite nth_default // size_map size_zip size_take size_map /= Hs ltnSn minnn.
Qed.

Definition others (points : seq (F * F)) (k : nat) : seq F :=
  [seq p.2.1 | p <- enumerate points & p.1 != k].

Lemma contribution_foldP n k x_k (l : seq (nat * (F * F))) st xs :
  (size xs + size [seq p <- l | p.1 != k] < n)%N -> step_inv n st x_k xs ->
  step_inv n (foldl (fun st jp => let: (j, (x_j, _)) := jp in
                 if j == k then st else contribution_step n st x_k x_j) st l) x_k
    (xs ++ [seq p.2.1 | p <- l & p.1 != k]).
Proof.
elim: l st xs => [|[j [x y]] l IH] st xs Hn H; first by rewrite cats0.
move: Hn => /=; case: eqP => Hj /= Hn; first exact: IH.
rewrite -cat_rcons; apply: IH; last first.
  by apply: contribution_stepP => //; apply: leq_trans Hn; rewrite addnS ltnS ltnS leq_addr.
by rewrite size_rcons addSnnS.
Qed.

Lemma enumerate_filter_size (T : Type) (s : seq T) k : (k < size s)%N ->
  size [seq p <- enumerate s | p.1 != k] = (size s).-1.
Proof.
move=> Hk; have E : [seq p.1 | p <- enumerate s & p.1 != k] = [seq i <- iota 0 (size s) | i != k].
  rewrite -(filter_map fst (fun i => i != k)) -/(unzip1 _) unzip1_zip // size_iota //.
rewrite -(size_map fst) E -rem_filter ?iota_uniq // size_rem ?size_iota //.
by rewrite mem_iota.
Qed.

Lemma nth_enumerate (T : Type) (d : T) (s : seq T) i : (i < size s)%N ->
  nth (0%N, d) (enumerate s) i = (i, nth d s i).
Proof. by move=> Hi; rewrite nth_zip ?size_iota // nth_iota. Qed.

Lemma size_enumerate (T : Type) (s : seq T) : size (enumerate s) = size s.
Proof. by rewrite size_zip size_iota minnn. Qed.

Lemma mem_others points k m : (m < size points)%N -> m != k ->
  (nth (0, 0) points m).1 \in others points k.
Proof.
move=> Hm Hk; apply/mapP; exists (m, nth (0, 0) points m) => //=.
rewrite mem_filter Hk /= -(nth_enumerate (0, 0) Hm); apply: mem_nth.
by rewrite size_enumerate.
Qed.

Lemma others_memP points k x : x \in others points k ->
  exists2 m, (m < size points)%N & m != k /\ x = (nth (0, 0) points m).1.
Proof.
case/mapP => -[m p]; rewrite mem_filter /= => /andP [Hm Hin] ->.
case/(nthP (0%N, (0, 0))): Hin => i; rewrite size_enumerate => Hi.
by rewrite nth_enumerate // => -[E <-]; move: Hm; rewrite -E => Hm; exists i.
Qed.

Definition lagrange (points : seq (F * F)) (kp : nat * (F * F)) : {poly F} :=
  roots_poly (others points kp.1) *
  ((\prod_(x <- others points kp.1) (kp.2.1 - x))^-1 * kp.2.2)%:P.

Definition interp_step (points : seq (F * F)) := fun coeffs kp =>
      let: (k, (x_k, y_k)) := kp in
      let: (contribution, denominator, _) :=
        foldl (fun st jp => let: (j, (x_j, _)) := jp in
                 if j == k then st else contribution_step (size points) st x_k x_j)
              (nseq (size points) 0, 1, 0%N) (enumerate points) in
      let* denominator := unwrap (inverse denominator) in
      Ok [seq q.1 + q.2 * denominator * y_k | q <- zip coeffs contribution].

Lemma interp_stepP points k coeffs : (2 <= size points)%N -> (k < size points)%N ->
  size coeffs = size points ->
  let p := nth (0, 0) points k in
  let d := \prod_(x <- others points k) (p.1 - x) in
  if d == 0 then interp_step points coeffs (k, p) = Panic else
  exists c, [/\ interp_step points coeffs (k, p) = Ok c, size c = size points &
     poly_of c = poly_of coeffs + lagrange points (k, p)].
Proof.
move=> Hn Hk Hs p d; rewrite /interp_step.
case Ep: p => [x_k y_k].
have Hsz := enumerate_filter_size Hk.
have := @contribution_foldP (size points) k x_k (enumerate points)
  (nseq (size points) 0, 1, 0%N) [::].
rewrite Hsz add0n (prednK (leq_trans _ Hn)) // leqnn => /(_ isT).
have Hi : step_inv (size points) (nseq (size points) 0, 1, 0%N) x_k [::].
  by split; rewrite //= ?size_nseq ?big_nil.
move=> /(_ Hi); case: (foldl _ _ _) => [[c d'] m] [/= Hc Hp Hd Hm].
have Ed : d' = d by rewrite Hd /d Ep.
rewrite Ed /inverse; case: eqP => [//|/eqP Hd0] /=.
exists [seq q.1 + q.2 * d^-1 * y_k | q <- zip coeffs c]; split=> //.
  by rewrite size_map size_zip Hs Hc minnn.
apply/polyP => i; rewrite coefD !coef_poly_of /lagrange coefMC /=.
have -> : roots_poly (others points k) = poly_of c.
  have : size (others points k) = (size points).-1 by rewrite size_map.
  move: Hp; rewrite -/(others points k); case: (others points k) => //=.
  by move=> _ H0; exfalso; move: (Hn) H0; case: (size points) => [|[]].
rewrite coef_poly_of; case: (ltnP i (size points)) => Hi'.
  rewrite (nth_map (0, 0)) ?size_zip ?Hs ?Hc ?minnn // nth_zip ?Hs ?Hc //=.
  by rewrite -/d /d Ep /= mulrA.
by rewrite !nth_default ?size_map ?size_zip ?Hs ?Hc ?minnn // mul0r addr0.
Qed.


Definition distinct_x (points : seq (F * F)) := uniq [seq p.1 | p <- points].

Lemma denom_neq0 points k : distinct_x points -> (k < size points)%N ->
  \prod_(x <- others points k) ((nth (0, 0) points k).1 - x) != 0.
Proof.
move=> Hu Hk; rewrite prodf_seq_neq0; apply/allP => x Hx /=; rewrite subr_eq0.
case/others_memP: Hx => m Hm [Hmk ->].
rewrite -!(nth_map _ 0 fst) //; apply: contra Hmk.
by rewrite nth_uniq ?size_map // eq_sym.
Qed.

Lemma denom_eq0 points : ~~ distinct_x points ->
  exists2 k, (k < size points)%N &
   \prod_(x <- others points k) ((nth (0, 0) points k).1 - x) = 0.
Proof.
move/(uniqPn 0) => [i [j [Hij Hj E]]]; rewrite size_map in Hj.
exists j => //; have Hi := ltn_trans Hij Hj.
rewrite (nth_map (0, 0)) // (nth_map (0, 0)) // in E.
have Hin : (nth (0, 0) points i).1 \in others points j.
  by apply: mem_others => //; rewrite neq_ltn Hij.
apply/eqP; rewrite prodf_seq_eq0; apply/hasP; exists (nth (0, 0) points i).1 => //=.
by rewrite E subrr.
Qed.

Lemma enumerate_take (points : seq (F * F)) m : (m < size points)%N ->
  take m.+1 (enumerate points) = rcons (take m (enumerate points)) (m, nth (0, 0) points m).
Proof.
move=> Hm; rewrite (take_nth (0%N, (0, 0))) ?size_enumerate //.
by rewrite nth_enumerate.
Qed.

Lemma interp_prefix points m : (2 <= size points)%N -> (m <= size points)%N ->
  if [forall k : 'I_m, \prod_(x <- others points k) ((nth (0, 0) points k).1 - x) != 0] then
  exists c, [/\ foldM (interp_step points) (nseq (size points) 0) (take m (enumerate points)) = Ok c,
     size c = size points & poly_of c = \sum_(k < m) lagrange points (val k, nth (0, 0) points k)]
  else foldM (interp_step points) (nseq (size points) 0) (take m (enumerate points)) = Panic.
Proof.
move=> Hn; elim: m => [|m IH] Hm.
  case: forallP => [_|[]]; last by case.
  exists (nseq (size points) 0); split; rewrite ?size_nseq ?take0 ?big_ord0 //.
  by apply/polyP => i; rewrite coef_poly_of nth_nseq if_same coef0.
rewrite enumerate_take // -cats1 foldM_cat.
have := IH (ltnW Hm); case: forallP => [Hall [c [-> Hs Hp]]|Hno ->]; last first.
  case: forallP => // Hall; case: Hno => k; exact: (Hall (widen_ord (leqnSn m) k)).
rewrite /bind -/(bind _ _) /foldM.
have := interp_stepP Hn Hm Hs; cbv zeta; case: eqP => [Hd ->|/eqP Hd [c' [-> Hs' Hp']]] /=.
  by case: forallP => // /(_ ord_max); rewrite /= Hd eqxx.
case: forallP => [_|[]]; last first.
  move=> k; case: (unliftP ord_max k) => [j ->|->] //=.
  by rewrite /bump leqNgt ltn_ord; apply: (Hall j).
by exists c'; split=> //; rewrite Hp' Hp big_ord_recr.
Qed.

Lemma interpolate_foldE points : interpolate points =
  (check! (2 <= size points)%N ;;
   let* c := foldM (interp_step points) (nseq (size points) 0) (enumerate points) in Ok (Some c)).
Proof. by []. Qed.

Lemma interpolateP points : (2 <= size points)%N -> distinct_x points ->
  exists c, [/\ interpolate points = Ok (Some c), size c = size points &
    forall k, (k < size points)%N ->
      (poly_of c).[(nth (0, 0) points k).1] = (nth (0, 0) points k).2].
Proof.
move=> Hn Hu; rewrite interpolate_foldE Hn.
have := interp_prefix Hn (leqnn _); rewrite take_oversize ?size_enumerate //.
case: forallP => [_ [c [-> Hs Hp]]|[]]; last by move=> k; apply: denom_neq0.
exists c; split=> // k Hk; rewrite Hp horner_sum (bigD1 (Ordinal Hk)) //= big1 ?addr0.
  rewrite /lagrange /= hornerM hornerC /roots_poly horner_prod.
  under eq_bigr do rewrite hornerXsubC.
  by rewrite mulrA divff ?mul1r // denom_neq0.
move=> [j Hj] /= Hjk; rewrite /lagrange /= hornerM.
suff -> : (roots_poly (others points j)).[(nth (0, 0) points k).1] = 0 by rewrite mul0r.
apply/rootP; rewrite /roots_poly root_prod_XsubC; apply: mem_others => //.
by rewrite eq_sym; move: Hjk; rewrite -val_eqE.
Qed.

Lemma interpolate_dup points : ~~ distinct_x points -> interpolate points = Panic.
Proof.
move=> Hu; rewrite interpolate_foldE; case: ifP => // Hn.
have := interp_prefix Hn (leqnn _); rewrite take_oversize ?size_enumerate //.
case: forallP => [Hall|_ -> //]; case: (denom_eq0 Hu) => k Hk E.
by have := Hall (Ordinal Hk); rewrite /= E eqxx.
Qed.

Lemma interpolate_few (points : seq (F * F)) : (size points < 2)%N -> interpolate points = Panic.
Proof. by move=> H; rewrite interpolate_foldE leqNgt H. Qed.

Lemma mul_polynomial_by_scalarE w (a : seq F) b : (0 < w)%N ->
  mul_polynomial_by_scalar w a b = [seq x * b | x <- a].
Proof. by move=> Hw; rewrite /mul_polynomial_by_scalar par_chunks_map. Qed.

Lemma mul_add_polynomialsE w (a b : seq F) c : (0 < w)%N -> size a = size b ->
  mul_add_polynomials w a b c = Ok [seq q.1 + q.2 * c | q <- zip a b].
Proof. by move=> Hw Hs; rewrite /mul_add_polynomials Hs eqxx -{1}Hs par_zip_eq. Qed.

(** Uniqueness: two polynomials of degree below the number of points with the
    same values at distinct points coincide. *)
Lemma interp_uniq (points : seq (F * F)) (p q : {poly F}) : distinct_x points ->
  (size p <= size points)%N -> (size q <= size points)%N ->
  (forall xy, xy \in points -> p.[xy.1] = q.[xy.1]) -> p = q.
Proof.
move=> Hu Hp Hq H; apply/eqP; rewrite -subr_eq0; apply/eqP.
apply: (@roots_geq_poly_eq0 _ _ [seq xy.1 | xy <- points]) => //.
  apply/allP => x /mapP [xy Hxy ->]; apply/rootP; by rewrite hornerD hornerN H // subrr.
rewrite size_map (leq_trans (size_add _ _)) // size_opp geq_max Hp //.
Qed.
End PolyUtils.
