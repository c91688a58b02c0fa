(** Properties C19 - C25: Merkle commitments and the transcript. *)
From Coq Require Import NArith Lia.
From mathcomp Require Import all_ssreflect all_algebra.
From Verif Require Import M_Base M_Worker M_Field M_Bytes M_Transcript M_Merkle SpecHash.
From Verif Require Import P_Base P_Domain P_Bytes P_Merkle P_Lucas Instances.

Set Implicit Arguments.
Unset Strict Implicit.
Unset Printing Implicit Defensive.
Import GRing.Theory.
Local Open Scope nat_scope.

Lemma all_or n (P : nat -> Prop) (Q : Prop) : (forall i, i < n -> P i \/ Q) ->
  (forall i, i < n -> P i) \/ Q.
Proof.
elim: n => [|n IH] Hi; first by left.
case: IH => [i Hin|Hn|]; [exact: Hi (ltnW Hin) | | by right].
case: (Hi n (ltnSn n)) => [Hp|]; [left=> i | by right].
by rewrite ltnS leq_eqVlt => /orP [/eqP ->|/Hn].
Qed.

Section Merkle.
Variables (F : fieldType) (fp : ff_params F) (H : hash_fun).

(** C19: completeness.  A vector of length 2^L, L >= 1, can be committed to;
    every position inside it can be queried, the answer is the value at that
    position with a path of length L, and it verifies. *)
Theorem C19_merkle_complete (w : worker) (leafs : seq F) (L : nat) :
  0 < w -> 0 < L -> size leafs = 2 ^ L ->
  exists t root, [/\ tree_create fp H w leafs = Ok t, get_root t = Ok root &
    forall i, if i < 2 ^ L then
        exists2 q, iop_query fp H t i leafs = Ok q &
          [/\ q_index q = i, q_value q = nth 0%R leafs i, size (q_path q) = L & verify_query fp H q root]
      else iop_query fp H t i leafs = Panic].
Proof.
move=> Hw HL Hs; exists (Tree (2 ^ L) (pref H (leaf_hashes fp H leafs) L L)).
set hs := leaf_hashes fp H leafs; have Hhs : size hs = 2 ^ L by rewrite size_map.
exists (nth zero_digest (lvl H hs L) 0); split; first exact: tree_createP.
  by rewrite /get_root; apply: pref_root.
move=> i; rewrite /iop_query /=; case: ltnP => Hi //.
rewrite (get_nth 0%R) ?Hs // get_pathP //=; eexists; first by [].
split=> //=; first by rewrite size_mkseq.
rewrite /verify_query tree_verifyE /=.
have -> : hash_leaf fp H (nth 0%R leafs i) = nth zero_digest hs i by rewrite (nth_map 0%R) ?Hs.
by rewrite (auth_climb H Hhs Hi (leqnn L)) divn_small.
Qed.

(** Lengths that are not a power of two, and lengths 0 and 1, panic. *)
Theorem C19_other_lengths (w : worker) (leafs : seq F) :
  size leafs < 2 \/ (forall k, size leafs <> 2 ^ k) -> tree_create fp H w leafs = Panic.
Proof.
case: (boolP (is_pow2 (size leafs))) => [|Hn _]; last exact: tree_create_bad.
case/is_pow2P => k E [Hs|/(_ k)]; last by rewrite E.
by case: leafs Hs {E} => [|x [|]].
Qed.

Hypothesis Hrep : ff_repr_ok fp.

(** C20: two accepted openings at one index with paths of one length. *)
Theorem C20_opening_binding root i v1 v2 p1 p2 : size p1 = size p2 ->
  tree_verify fp H root v1 p1 i -> tree_verify fp H root v2 p2 i ->
  (v1 = v2 /\ p1 = p2) \/
  collision_among H (opening_inputs fp H v1 p1 i ++ opening_inputs fp H v2 p2 i).
Proof.
move=> Hs; rewrite !tree_verifyE => /eqP E1 /eqP E2; set xs := _ ++ _.
have S1 : {subset opening_inputs fp H v1 p1 i <= xs} by move=> y Hy; rewrite mem_cat Hy.
have S2 : {subset opening_inputs fp H v2 p2 i <= xs} by move=> y Hy; rewrite mem_cat Hy orbT.
have P1 : {subset path_inputs H (hash_leaf fp H v1) i p1 <= xs} by move=> y Hy; apply: S1; rewrite inE Hy orbT.
have P2 : {subset path_inputs H (hash_leaf fp H v2) i p2 <= xs} by move=> y Hy; apply: S2; rewrite inE Hy orbT.
case: (climb_same Hs P1 P2 (etrans E1 (esym E2))) => [[Eh Ep]|]; last by right.
by case: (hash_leaf_inj Hrep (S1 _ (mem_head _ _)) (S2 _ (mem_head _ _)) Eh) => [->|]; [left | right].
Qed.

(** C21: the root binds the vector (its length too), and an accepted opening of
    the root of a committed vector carries the committed value. *)
Theorem C21_opening_of_vector w leafs t root v path i :
  0 < w -> tree_create fp H w leafs = Ok t -> get_root t = Ok root ->
  tree_verify fp H root v path i ->
  (2 ^ size path = size leafs /\ v = nth 0%R leafs (i %% size leafs)) \/
  collision_among H (tree_inputs fp H leafs ++ opening_inputs fp H v path i).
Proof.
move=> Hw Ht Hr Hv.
case: (boolP (is_pow2 (size leafs))) => [/is_pow2P [L E]|Hn]; last by rewrite tree_create_bad in Ht.
have HL : 0 < L by case: L E Ht => // E; case: leafs E => [|x [|]].
move: Ht Hr; rewrite (tree_createP fp H Hw E) // => -[<-].
rewrite /get_root pref_root //; last by rewrite size_map.
case=> Er; case: (opening_tree Hrep E _ (esym Er) Hv) => // [|[E1 E2]]; first by right.
by left; rewrite E E1.
Qed.

Theorem C21_root_binds_vector w1 w2 leafs1 leafs2 t1 t2 root :
  0 < w1 -> 0 < w2 ->
  tree_create fp H w1 leafs1 = Ok t1 -> tree_create fp H w2 leafs2 = Ok t2 ->
  get_root t1 = Ok root -> get_root t2 = Ok root ->
  leafs1 = leafs2 \/ collision_among H (tree_inputs fp H leafs1 ++ tree_inputs fp H leafs2).
Proof.
move=> Hw1 Hw2 H1 H2 R1 R2.
case: (boolP (is_pow2 (size leafs1))) => [/is_pow2P [L E]|Hn]; last by rewrite tree_create_bad in H1.
have HL : 0 < L by case: L E H1 => // E; case: leafs1 E => [|x [|]].
move: H1 R1; rewrite (tree_createP fp H Hw1 E) // => -[<-].
have Hhs : size (leaf_hashes fp H leafs1) = 2 ^ L by rewrite size_map.
rewrite /get_root pref_root // => -[Er].
have Hall i : i < size leafs1 ->
  (size leafs1 = size leafs2 /\ nth 0%R leafs1 i = nth 0%R leafs2 (i %% size leafs2)) \/
  collision_among H (tree_inputs fp H leafs1 ++ tree_inputs fp H leafs2).
  rewrite E => Hi.
  have E4 : tree_verify fp H root (nth 0%R leafs1 i) (auth_path H (leaf_hashes fp H leafs1) L i) i.
    rewrite tree_verifyE; apply/eqP; have := auth_climb H Hhs Hi (leqnn L).
    by rewrite /leaf_hashes (nth_map 0%R) ?E // divn_small // Er.
  case: (C21_opening_of_vector Hw2 H2 R2 E4) => [[E5 E6]|Hc]; last right.
    by left; rewrite -E5 size_mkseq; split=> //; rewrite E6 -E5 size_mkseq.
  apply: collision_sub Hc => y; rewrite mem_cat => /orP Hy; rewrite mem_cat; apply/orP.
  by case: Hy => [|/(honest_inputs E Hi)]; [right | left].
case: (all_or Hall) => [Hc|]; last by right.
left; have [Es _] : size leafs1 = size leafs2 /\ nth 0%R leafs1 0 = nth 0%R leafs2 (0 %% size leafs2).
  by apply: Hc; rewrite E expn_gt0.
apply: (eq_from_nth (x0 := 0%R)) => // i Hi.
by case: (Hc i Hi) => _ ->; rewrite modn_small // -Es.
Qed.

(** C22.  The full statement: an opening accepted at two indices has been
    accepted at one. *)
Definition C22_statement : Prop := forall root v path i j,
  tree_verify fp H root v path i -> tree_verify fp H root v path j -> i = j.

(** It fails for every hash function: the index is only read modulo 2^length. *)
Theorem C22_index_not_checked root v path i k :
  tree_verify fp H root v path (i + k * 2 ^ size path) = tree_verify fp H root v path i.
Proof.
rewrite !tree_verifyE; congr (_ == _); move: (hash_leaf _ _ _) => h.
elim: path h i => [|el p IH] h i; first by [].
have -> : i + k * 2 ^ size (el :: p) = k * 2 ^ size p * 2 + i by rewrite /= expnSr mulnA addnC.
by rewrite /climb /= divnMDl // oddD oddM andbF addFb addnC -!/(climb _ _ _ _) IH.
Qed.

Theorem C22_refuted : ~ C22_statement.
Proof.
move=> /(_ (hash_leaf fp H 0%R) 0%R [::] 0 1); rewrite !tree_verifyE /= eqxx => Hn.
by have := Hn isT isT.
Qed.

(** What holds: against the root of a committed vector of length n, the path
    length is the one of the vector and the index modulo n is the position of
    the value; for indices inside the vector two accepted openings with the
    same path are at one position, unless the vector has equal hashes there. *)
Theorem C22_position_partial w leafs t root v path i j :
  0 < w -> tree_create fp H w leafs = Ok t -> get_root t = Ok root ->
  i < size leafs -> j < size leafs -> uniq leafs ->
  tree_verify fp H root v path i -> tree_verify fp H root v path j ->
  i = j \/ collision_among H (tree_inputs fp H leafs ++ opening_inputs fp H v path i ++ opening_inputs fp H v path j).
Proof.
move=> Hw Ht Hr Hi Hj Hu /(C21_opening_of_vector Hw Ht Hr) [[_ E1]|Hc]; last first.
  by right; apply: collision_sub Hc => y; rewrite !mem_cat => /orP [] ->; rewrite ?orbT.
move=> /(C21_opening_of_vector Hw Ht Hr) [[_ E2]|Hc]; last first.
  by right; apply: collision_sub Hc => y; rewrite !mem_cat => /orP [] ->; rewrite ?orbT.
rewrite !modn_small // in E1 E2.
by left; apply/eqP; rewrite -(nth_uniq 0%R Hi Hj Hu) -E1 -E2.
Qed.
End Merkle.

(** C23.  The full statement, for every prime field. *)
Definition C23_statement : Prop := forall (F : fieldType) (fp : ff_params F) (d : digest),
  ff_repr_ok fp -> ff_constants fp ->
  exists2 x, bytes_to_field fp d = Ok x & (ff_repr fp x < 2 ^ ff_capacity fp)%num.

(** It holds for the fields whose bit length is neither 0 nor 1 modulo 64 ... *)
Theorem C23_hash_to_field_partial (F : fieldType) (fp : ff_params F) (d : digest) :
  ff_repr_ok fp -> ff_constants fp -> (2 <= ff_num_bits fp mod 64)%num ->
  exists2 x, bytes_to_field fp d = Ok x & (ff_repr fp x < 2 ^ ff_capacity fp)%num.
Proof. by move=> Hr Hc Hb; apply: bytes_to_field_ok. Qed.

(** ... and for no other field. *)
Theorem C23_condition_necessary (F : fieldType) (fp : ff_params F) :
  ff_constants fp -> (ff_num_bits fp mod 64 < 2)%num ->
  exists d, bytes_to_field fp d = Panic.
Proof. by move=> Hc Hb; exists ones_digest; apply: bytes_to_field_panics. Qed.

(** Such a field exists: integers modulo 2^64 - 2^32 + 1. *)
Theorem C23_refuted : ~ C23_statement.
Proof.
move=> Hst; have [p Hp Ep] : exists2 p, prime p & N.of_nat p = goldilocks.
  by exists (N.to_nat goldilocks); [exact: goldilocks_prime | exact: N2Nat.id].
pose fp := @prime_params p 0 1%R 1%R 2.
have Hc : ff_constants fp by split; rewrite /= ?Ep.
have Hr : ff_repr_ok fp by apply: prime_repr_ok; rewrite ?Ep.
have [x] := Hst _ fp ones_digest Hr Hc.
by rewrite bytes_to_field_panics //= Ep.
Qed.

(** The challenge derived from a Merkle root uses the same map. *)
Theorem C23_root_challenge (F : fieldType) (fp : ff_params F) (t : tree) :
  get_challenge_scalar_from_root fp t = let* root := get_root t in bytes_to_field fp root.
Proof. by []. Qed.

Section Transcript.
Variables (F : fieldType) (fp : ff_params F) (H : hash_fun).

Definition commit (t : transcript) (m : message F) : transcript :=
  match m with
  | MBytes b => commit_bytes t b
  | MField x => commit_field_element fp t x
  end.

(** C24.  The full statement: different message sequences are absorbed as
    different byte strings. *)
Definition C24_statement : Prop := forall ms1 ms2 : seq (message F),
  foldl commit [::] ms1 = foldl commit [::] ms2 -> ms1 = ms2.

Theorem C24_refuted : ~ C24_statement.
Proof.
pose b := to_byte 0.
by move=> /(_ [:: MBytes F [:: b; b]] [:: MBytes F [:: b]; MBytes F [:: b]] erefl).
Qed.

Lemma commitE t m : commit t m = t ++ encoding fp m.
Proof. by case: m. Qed.

Lemma commitsE t ms : foldl commit t ms = t ++ flatten [seq encoding fp m | m <- ms].
Proof. by elim: ms t => [|m ms IH] t /=; rewrite ?cats0 // IH commitE catA. Qed.

Hypothesis Hrep : ff_repr_ok fp.

Lemma repr_bound x : (ff_repr fp x < 256 ^ N.of_nat (8 * ff_limbs fp))%num.
Proof.
case: Hrep => -[Hr _] _ _ Hm _.
have -> : (256 ^ N.of_nat (8 * ff_limbs fp) = 2 ^ (64 * N.of_nat (ff_limbs fp)))%num.
  rewrite -[256%num]/(2 ^ 8)%num -N.pow_mul_r; congr (2 ^ _)%num.
  by rewrite -[8 * _]/(Nat.mul 8 _) Nat2N.inj_mul N.mul_assoc.
apply: N.lt_trans Hm; have := Hr x; rewrite /from_repr; case: N.ltb_spec => //.
Qed.

Lemma encoding_inj m1 m2 : same_shape m1 m2 -> encoding fp m1 = encoding fp m2 -> m1 = m2.
Proof.
case: m1 m2 => [b1|x1] [b2|x2] //= _; first by move=> ->.
move/(can_inj revK)/le_bytes_inj => /(_ (repr_bound x1) (repr_bound x2)) E.
case: Hrep => -[Hr _] _ _ _ _; have := Hr x1; rewrite E Hr; by case=> ->.
Qed.

Lemma size_encoding m1 m2 : same_shape m1 m2 -> size (encoding fp m1) = size (encoding fp m2).
Proof. by case: m1 m2 => [b1|x1] [b2|x2] //= => [/eqP|]; rewrite // !size_rev !size_le_bytes. Qed.

(** What holds: sequences of one shape (same kinds, same lengths) that are
    absorbed as the same bytes are equal. *)
Theorem C24_same_shape_partial (ms1 ms2 : seq (message F)) : all2 (@same_shape F) ms1 ms2 ->
  foldl commit [::] ms1 = foldl commit [::] ms2 -> ms1 = ms2.
Proof.
rewrite !commitsE /=; elim: ms1 ms2 => [|m1 ms1 IH] [|m2 ms2] //= /andP [Hs Hall] /eqP.
rewrite eqseq_cat ?(size_encoding Hs) // => /andP [/eqP E1 /eqP E2].
by rewrite (encoding_inj Hs E1) (IH ms2 Hall E2).
Qed.

(** Sequences of field elements are framed, whatever their lengths. *)
Theorem C24_field_elements_partial (xs ys : seq F) :
  foldl (commit_field_element fp) [::] xs = foldl (commit_field_element fp) [::] ys -> xs = ys.
Proof.
have E zs : foldl (commit_field_element fp) [::] zs = foldl commit [::] [seq MField x | x <- zs].
  by elim: zs [::] => //= z zs IH t; rewrite IH.
rewrite !E => Hst; have Hsz : size xs = size ys.
  move/(congr1 size): Hst; rewrite !commitsE /= !size_flatten /shape -!map_comp.
  have Es zs : sumn [seq (size \o encoding fp) (MField x) | x <- zs] = size zs * (8 * ff_limbs fp).
    by elim: zs => //= z zs ->; rewrite size_rev size_le_bytes mulSn.
  rewrite /= in Es; rewrite /comp in Es *; rewrite !Es => /eqP.
  case: Hrep => _ _ _ _ /andP [Hl _].
  by rewrite eqn_mul2r muln_eq0 /= (gtn_eqF Hl) /= => /eqP.
have Hall : all2 (@same_shape F) [seq MField x | x <- xs] [seq MField x | x <- ys].
  by elim: xs ys Hsz {Hst} => [|x xs IH] [|y ys] //= [/IH].
have := C24_same_shape_partial Hall Hst.
by elim: xs ys {Hst Hall Hsz} => [|x xs IH] [|y ys] //= [-> /IH ->].
Qed.

(** C25: a run of the transcript returns the challenges and the final state. *)
Fixpoint run (t : transcript) (h : seq (event F)) : outcome (seq F * transcript) :=
  match h with
  | [::] => Ok ([::], t)
  | Commit m :: h => run (commit t m) h
  | Draw :: h =>
      let* r := get_challenge fp H t in
      let* r2 := run r.2 h in
      Ok (r.1 :: r2.1, r2.2)
  end.

Definition added (s : bytes) (e : event F) : bytes :=
  match e with Commit m => encoding fp m | Draw => tval (H s) end.

Lemma absorbs_rcons h e s : absorbs fp H (rcons h e) s ->
  exists2 s', absorbs fp H h s' & s = s' ++ added s' e.
Proof.
move E: (rcons h e) => h' Hs; case: h' s / Hs E => [|h' s m Hs|h' s Hs].
- by case: h.
- by case/rcons_inj => -> ->; exists s.
- by case/rcons_inj => -> ->; exists s.
Qed.

Lemma absorbs_nilE s : absorbs fp H [::] s -> s = [::].
Proof. by move E: [::] => h Hs; case: h s / Hs E => // -[]. Qed.

Lemma absorbs_fun h s1 s2 : absorbs fp H h s1 -> absorbs fp H h s2 -> s1 = s2.
Proof.
elim/last_ind: h s1 s2 => [|h e IH] s1 s2; first by move=> /absorbs_nilE -> /absorbs_nilE ->.
by case/absorbs_rcons => r1 R1 ->; case/absorbs_rcons => r2 R2 ->; rewrite (IH _ _ R1 R2).
Qed.

Lemma absorbs_ex h : exists s, absorbs fp H h s.
Proof.
elim/last_ind: h => [|h [m|] [s Hs]]; first by exists [::]; constructor.
- by eexists; apply: absorbs_commit Hs.
- by eexists; apply: absorbs_draw Hs.
Qed.

Lemma run_absorbs h0 s0 h cs t : absorbs fp H h0 s0 -> run s0 h = Ok (cs, t) ->
  [/\ absorbs fp H (h0 ++ h) t, size cs = count (@is_draw F) h &
   forall h1 h2, h = h1 ++ Draw F :: h2 -> exists2 s, absorbs fp H (h0 ++ h1) s &
     bytes_to_field fp (H s) = Ok (nth 0%R cs (count (@is_draw F) h1))].
Proof.
elim: h h0 s0 cs t => [|e h IH] h0 s0 cs t Hs /=.
  by case=> <- <-; rewrite cats0; split=> // -[].
case: e => [m|].
  move=> Hr; have Hs' : absorbs fp H (rcons h0 (Commit m)) (commit s0 m).
    by rewrite commitE; constructor.
  have [H1 H2 H3] := IH _ _ _ _ Hs' Hr; rewrite cat_rcons in H1; split=> // -[|e h1] h2 //= [<- /H3].
  by rewrite cat_rcons.
rewrite /get_challenge; case Ec: (bytes_to_field fp (H s0)) => [v||] //=.
case Er: (run _ _) => [[cs' t']||] //= [<- <-].
have Hs' := absorbs_draw Hs.
have [H1 H2 H3] := IH _ _ _ _ Hs' Er; rewrite cat_rcons in H1; split=> //=; first by rewrite H2.
case=> [|e h1] h2 /=; first by move=> _; exists s0; rewrite ?cats0.
by case=> <- /H3; rewrite cat_rcons.
Qed.

(** Each challenge is the hash, mapped to the field, of everything committed
    and drawn before it. *)
Theorem C25_challenge_is_hash_of_history h cs t : run [::] h = Ok (cs, t) ->
  [/\ absorbs fp H h t, size cs = count (@is_draw F) h &
   forall h1 h2, h = h1 ++ Draw F :: h2 -> exists2 s, absorbs fp H h1 s &
     bytes_to_field fp (H s) = Ok (nth 0%R cs (count (@is_draw F) h1))].
Proof. exact: (run_absorbs (absorbs_nil fp H)). Qed.

(** A transcript never gets stuck when hashing into the field cannot fail. *)
Theorem C25_total h : (forall d, exists x, bytes_to_field fp d = Ok x) ->
  exists cs t, run [::] h = Ok (cs, t).
Proof.
move=> Hd; elim: h [::] => [|[m|] h IH] t /=; first by exists [::], t.
  exact: IH.
rewrite /get_challenge; case: (Hd (H t)) => x -> /=.
by case: (IH (t ++ H t)) => cs [t' ->] /=; eexists _, _.
Qed.

(** What is hashed for two challenges of one history is different. *)
Theorem C25_fresh_inputs h h2 s1 s2 : absorbs fp H h s1 -> absorbs fp H (h ++ Draw F :: h2) s2 ->
  size s1 < size s2 /\ s1 <> s2.
Proof.
move=> H1 H2; suff Hlt : size s1 < size s2 by split=> // E; rewrite E ltnn in Hlt.
elim/last_ind: h2 s2 H2 => [|h2 e IH] s2 H2.
  rewrite cats1 in H2; rewrite (absorbs_fun H2 (absorbs_draw H1)) size_cat size_tuple.
  by rewrite -{1}(addn0 (size s1)) ltn_add2l.
rewrite -rcons_cons -rcons_cat in H2; case/absorbs_rcons: H2 => s3 H3 ->.
by apply: leq_trans (IH s3 H3) _; rewrite size_cat leq_addr.
Qed.

(** Two histories of one shape that differ hash different byte strings at their
    next challenge; if the drawn digests agree there is a collision. *)
Theorem C25_challenges_bind_history h1 h2 s1 s2 : all2 (@event_shape F) h1 h2 ->
  absorbs fp H h1 s1 -> absorbs fp H h2 s2 -> H s1 = H s2 -> h1 = h2 \/ collision_among H [:: s1; s2].
Proof.
move=> Hsh H1 H2 Eh; case: (eqVneq s1 s2) => [Es|/eqP Hn]; last by right; exists s1, s2; rewrite !inE !eqxx orbT.
left; rewrite {Eh}.
have [Hsz Hev] : size h1 = size h2 /\ forall i, i < size h1 -> event_shape (nth (Draw F) h1 i) (nth (Draw F) h2 i).
  elim: h1 h2 Hsh {H1 H2} => [|e1 h1 IH] [|e2 h2] //= /andP [He /IH [-> Hi]].
  by split=> // -[|i] //= /Hi.
have Hall k : k <= size h1 -> forall t1 t2, absorbs fp H (take k h1) t1 -> absorbs fp H (take k h2) t2 ->
   size t1 = size t2 /\ (t1 = t2 -> take k h1 = take k h2).
  elim: k => [|k IH] Hk t1 t2; rewrite ?take0 //.
    by move=> A1 A2; rewrite (absorbs_fun A1 (absorbs_nil fp H)) (absorbs_fun A2 (absorbs_nil fp H)).
  have Hk2 : k < size h2 by rewrite -Hsz.
  rewrite (take_nth (Draw F) Hk) (take_nth (Draw F) Hk2) => A1 A2.
  have [r1 R1] := absorbs_ex (take k h1); have [r2 R2] := absorbs_ex (take k h2).
  have [IH1 IH2] := IH (ltnW Hk) r1 r2 R1 R2.
  case E1: (nth (Draw F) h1 k) (Hev k Hk) A1 => [m1|]; case E2: (nth (Draw F) h2 k) A2 => [m2|] //= A2 Hm A1.
    rewrite (absorbs_fun A1 (absorbs_commit m1 R1)) (absorbs_fun A2 (absorbs_commit m2 R2)).
    rewrite !size_cat IH1 (size_encoding Hm); split=> // /eqP; rewrite eqseq_cat // => /andP [/eqP Er /eqP Em].
    by rewrite (IH2 Er) (encoding_inj Hm Em).
  rewrite (absorbs_fun A1 (absorbs_draw R1)) (absorbs_fun A2 (absorbs_draw R2)).
  rewrite !size_cat IH1 !size_tuple; split=> // /eqP; rewrite eqseq_cat // => /andP [/eqP Er _].
  by rewrite (IH2 Er).
have := Hall (size h1) (leqnn _) s1 s2; rewrite {2 4}Hsz !take_size => /(_ H1 H2) [_ ->] //.
Qed.
End Transcript.

(** * Concrete cases *)
Definition toy_hash : hash_fun := fun s =>
  let h := foldl (fun acc (b : byte) => N.land (acc * 269 + N.of_nat b + 1) 16777215%num) 7%num s in
  to_digest (flatten (nseq 11 (le_bytes 3 h))).
Definition ex_leafs : seq F257 := [seq ((i * i + 5)%:R)%R | i <- iota 1 8].

(** Eight leaves on three CPUs: all positions can be opened and verified, and a
    wrong value at a position is rejected (no collision in sight). *)
Example C19_ex :
  (if tree_create f257 toy_hash 3 ex_leafs is Ok t then
     if get_root t is Ok root then
       all (fun i => if iop_query f257 toy_hash t i ex_leafs is Ok q
            then verify_query f257 toy_hash q root &&
                 ~~ verify_query f257 toy_hash (Query i (q_value q + 1)%R (q_path q)) root
            else false) (iota 0 8)
     else false
   else false) /\ size ex_leafs = 2 ^ 3.
Proof. by split; vm_compute. Qed.

(** C20-C22: the hypotheses are met by the root, values and paths of C19_ex. *)
Example C20_ex : exists root v path, [/\ tree_verify f257 toy_hash root v path 5, size path = 3 & ff_repr_ok f257].
Proof.
have [//|//||t [root [_ _ Hq]]] := @C19_merkle_complete _ f257 toy_hash 3 ex_leafs 3; first by rewrite size_map size_iota.
have := Hq 5 => /= -[q _ [E1 E2 E3 E4]].
exists root, (q_value q), (q_path q); split=> //; last exact: f257_repr_ok.
by rewrite /verify_query E1 in E4.
Qed.

(** Why the strings are listed in C20-C22, C25, C30 and C31: that two different
    strings with one hash exist somewhere is true of every hash function. *)
Lemma collisions_exist (H : hash_fun) : exists x y : bytes, x <> y /\ H x = H y.
Proof.
pose f (i : 'I_#|{: digest}|.+1) : digest := H (nseq i ord0).
have /injectivePn [i [j Hij E]] : ~~ injectiveb f.
  by apply/negP => /injectiveP /leq_card; rewrite card_ord ltnn.
exists (nseq i ord0), (nseq j ord0); split=> // /(congr1 size); rewrite !size_nseq => Eij.
by move/eqP: Hij; apply; apply: val_inj.
Qed.

(** The alternative "collision" is not always there: the strings hashed for this
    tree and for a (rejected) opening of a wrong value all have different hashes. *)
Lemma no_collision (H : hash_fun) xs : uniq [seq (H x : seq byte) | x <- undup xs] -> ~ collision_among H xs.
Proof.
move=> Hu [x [y [Hx Hy Hn E]]]; rewrite -!(mem_undup xs) in Hx Hy.
apply: Hn; rewrite -(nth_index x Hx) -(nth_index x Hy); congr nth; apply/eqP.
rewrite -(nth_uniq (H x : seq byte) _ _ Hu) ?size_map ?index_mem //.
by rewrite !(nth_map x) ?index_mem // !nth_index // E.
Qed.

Example C21_ex : ~ collision_among toy_hash
  (tree_inputs f257 toy_hash ex_leafs ++ opening_inputs f257 toy_hash 77%:R%R [:: to_digest [::]; to_digest [::]; to_digest [::]] 5).
Proof. by apply: no_collision; vm_compute. Qed.

Example C22_ex : uniq (nats ex_leafs).
Proof. by vm_compute. Qed.

(** C23: the test field (9 bits) meets the hypotheses; the field of
    C23_refuted (64 bits) shows they are needed. *)
Lemma f257_constants : ff_constants f257.
Proof. by []. Qed.

Example C23_ex : ff_repr_ok f257 /\ (2 <= ff_num_bits f257 mod 64)%num.
Proof. by split; [exact: f257_repr_ok|]. Qed.

Example C24_ex : all2 (@same_shape F257)
  [:: MBytes F257 [:: to_byte 1]; MField (3%:R : F257)%R] [:: MBytes F257 [:: to_byte 2]; MField (4%:R : F257)%R].
Proof. by []. Qed.

(** C25: a history with commits and draws runs, and yields two challenges. *)
Example C25_ex :
  (if run f257 toy_hash [::] [:: Commit (MBytes F257 [:: to_byte 1]); Draw F257; Commit (MField (9%:R : F257)%R); Draw F257]
   is Ok r then Some (nats r.1, size r.2) else None) = Some ([:: 7; 174], 73).
Proof. by vm_compute. Qed.

Print Assumptions C19_merkle_complete.
Print Assumptions C20_opening_binding.
Print Assumptions C21_opening_of_vector.
Print Assumptions C21_root_binds_vector.
Print Assumptions C22_position_partial.
Print Assumptions C22_refuted.
Print Assumptions C23_hash_to_field_partial.
Print Assumptions C23_condition_necessary.
Print Assumptions C23_refuted.
Print Assumptions C24_same_shape_partial.
Print Assumptions C24_field_elements_partial.
Print Assumptions C24_refuted.
Print Assumptions C25_challenge_is_hash_of_history.
Print Assumptions C25_fresh_inputs.
Print Assumptions C25_challenges_bind_history.
