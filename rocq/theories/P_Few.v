(** Counting with [few] (SpecSound.v). *)
From mathcomp Require Import all_ssreflect all_algebra.
From Verif Require Import SpecSound.

Set Implicit Arguments.
Unset Strict Implicit.
Unset Printing Implicit Defensive.

Lemma few_le (A : eqType) a b (P : A -> Prop) : a <= b -> few a P -> few b P.
Proof. by move=> H Hf s Hu /(Hf s Hu) /leq_trans; apply. Qed.

Lemma few_sub (A : eqType) a (P Q : A -> Prop) : (forall x, Q x -> P x) -> few a P -> few a Q.
Proof. by move=> H Hf s Hu HQ; apply: Hf => // x /HQ /H. Qed.

(** Elements in one of two small sets, classically. *)
Lemma few_or (A : eqType) a b (P Q R : A -> Prop) : few a P -> few b Q ->
  (forall x, R x -> ~ ~ (P x \/ Q x)) -> few (a + b) R.
Proof.
move=> HP HQ HR s Hu Hs; apply: contraT => Hn; suff : False by [].
have : ~ ~ exists t u : seq A, [/\ size t + size u = size s, uniq (t ++ u), {subset t ++ u <= s},
   forall x, x \in t -> P x & forall x, x \in u -> Q x].
  elim: s Hu Hs {Hn} => [|x s IH] /= => [_ _|/andP [Hx Hu] Hs] Hno; first by apply: Hno; exists [::], [::].
  apply: (IH Hu) => [y Hy|[t [u [E1 E2 E3 E4 E5]]]]; first by apply: Hs; rewrite inE Hy orbT.
  have Hxn : x \notin t ++ u by apply: contra Hx => /E3.
  apply: (HR x); first by apply: Hs; rewrite mem_head.
  case=> Hp; apply: Hno.
  - exists (x :: t), u; split; [by rewrite /= addSn E1 | by rewrite /= Hxn | | | exact: E5].
    + by move=> y /=; rewrite inE => /orP [/eqP ->|/E3 Hy]; rewrite inE ?eqxx // Hy orbT.
    + by move=> y; rewrite inE => /orP [/eqP ->|/E4].
  - exists t, (x :: u); split; [by rewrite /= addnS E1 | | | exact: E4 |].
    + by rewrite (uniq_catC t) /= mem_cat orbC -mem_cat Hxn uniq_catC.
    + by move=> y; rewrite mem_cat inE orbCA -mem_cat => /orP [/eqP ->|/E3 Hy]; rewrite inE ?eqxx // Hy orbT.
    + by move=> y; rewrite inE => /orP [/eqP ->|/E5].
apply=> -[t [u [E1]]]; rewrite cat_uniq => /and3P [Ht _ Huu] _ E4 E5.
by move/negP: Hn; apply; rewrite -E1; apply: leq_add; [apply: HP | apply: HQ].
Qed.

(** Pairs whose second element is in a small set that depends on the first. *)
Lemma few_pair (A B : eqType) a b (P : A -> Prop) (Q : A -> B -> Prop) : few a P -> (forall x, P x -> few b (Q x)) ->
  few (a * b) (fun p : A * B => P p.1 /\ Q p.1 p.2).
Proof.
move=> HP HQ s Hu Hs.
pose fs := undup (map fst s).
have Hfs : size fs <= a.
  by apply: HP; [exact: undup_uniq | move=> x; rewrite mem_undup => /mapP [p /Hs [H1 _] ->]].
have -> : size s = \sum_(x <- fs) size [seq p <- s | p.1 == x].
  rewrite -sum1_size (eq_bigr (fun x => \sum_(p <- s | p.1 == x) 1)); last by move=> x _; rewrite -sum1_size big_filter.
  rewrite (exchange_big_dep xpredT) //= big_seq [RHS]big_seq; apply: eq_bigr => p Hp.
  rewrite sum1_count (@eq_count _ _ (pred1 p.1)); last by move=> x /=; rewrite eq_sym.
  by rewrite count_uniq_mem ?undup_uniq // mem_undup map_f.
apply: leq_trans (leq_mul Hfs (leqnn b)).
rewrite mulnC -sum1_size big_distrr /= big_seq [X in _ <= X]big_seq; apply: leq_sum => x.
rewrite mem_undup => /mapP [p0 /Hs [Hp0 _] Ex]; rewrite muln1 -(size_map snd).
apply: (HQ x); first by rewrite Ex.
- rewrite map_inj_in_uniq ?filter_uniq // => -[p1 p2] [q1 q2]; rewrite !mem_filter /= => /andP [/eqP -> _] /andP [/eqP -> _] -> //.
- by move=> y /mapP [p]; rewrite mem_filter => /andP [/eqP <- /Hs [_ ?] ->].
Qed.

(** A map to a finite type that is injective on a set. *)
Lemma few_inj (A : eqType) (B : finType) (f : A -> B) (P : A -> Prop) :
  (forall x y, P x -> P y -> f x = f y -> x = y) -> few #|B| P.
Proof.
move=> Hf s Hu Hs; rewrite -(size_map f) cardE; apply: uniq_leq_size => [|b _]; last by rewrite mem_enum.
by rewrite map_inj_in_uniq // => x y /Hs Hx /Hs Hy; apply: Hf.
Qed.

Section Lists.
Variables (A : finType) (a0 : A).

(** All lists of a given length. *)
Lemma few_lists m : few (#|A| ^ m) (fun s : seq A => size s = m).
Proof.
rewrite -card_tuple; apply: (@few_inj _ _ (fun s => [tuple nth a0 s i | i < m])) => x y Hx Hy Exy.
apply: (@eq_from_nth _ a0) => [|i]; rewrite Hx // => Hi.
by have := congr1 (fun t : m.-tuple A => tnth t (Ordinal Hi)) Exy; rewrite !tnth_mktuple.
Qed.

(** A list without its element [j]. *)
Definition without (j : nat) (s : seq A) : seq A := take j s ++ drop j.+1 s.

Lemma size_without j s : j < size s -> size (without j s) = (size s).-1.
Proof.
move=> Hj; rewrite size_cat size_takel ?(ltnW Hj) // size_drop -[in RHS](subnKC Hj) addSn /=.
by [].
Qed.

Lemma without_set j s a : j < size s -> without j (set_nth a0 s j a) = without j s.
Proof.
move=> Hj; rewrite set_nthE Hj /without take_size_cat ?size_takel ?(ltnW Hj) //; congr (_ ++ _).
by rewrite drop_cat size_takel ?(ltnW Hj) // ltnNge leqnSn /= subSnn /= drop0.
Qed.

Lemma without_eq j s t : j < size s -> size s = size t -> without j s = without j t -> t = set_nth a0 s j (nth a0 t j).
Proof.
move=> Hj Hst /eqP; rewrite /without eqseq_cat; last by rewrite !size_takel -?Hst ?(ltnW Hj).
case/andP => /eqP E1 /eqP E2; rewrite set_nthE Hj E1 E2.
by rewrite -{1}(cat_take_drop j t) -drop_nth ?cat_take_drop -?Hst.
Qed.

(** Lists of length [m] of which no two differ in element [j] only. *)
Lemma few_coordinate m j (P : seq A -> Prop) : j < m ->
  (forall s a a', size s = m -> P (set_nth a0 s j a) -> P (set_nth a0 s j a') -> a = a') ->
  few (#|A| ^ m.-1) (fun s => size s = m /\ P s).
Proof.
move=> Hj HP s Hu Hs; rewrite -(size_map (without j)); apply: (few_lists (m := m.-1)).
  rewrite map_inj_in_uniq // => x y /Hs [Hx Px] /Hs [Hy Py] Exy.
  have Hjx : j < size x by rewrite Hx.
  have Ex : x = set_nth a0 x j (nth a0 x j).
    by rewrite set_nthE Hjx -drop_nth // cat_take_drop.
  have Ey : y = set_nth a0 x j (nth a0 y j) by apply: without_eq => //; rewrite Hx Hy.
  by rewrite Ex Ey; congr set_nth; apply: (HP x) => //; rewrite -?Ex -?Ey.
by move=> x /mapP [y /Hs [Hy _] ->]; rewrite size_without ?Hy.
Qed.
End Lists.
