(** Correctness of the Merkle tree. *)
From Coq Require Import NArith.
From mathcomp Require Import all_ssreflect all_algebra.
From Verif Require Import M_Base M_Worker M_Field M_Bytes M_Merkle SpecHash P_Base P_Domain P_Bytes.

Set Implicit Arguments.
Unset Strict Implicit.
Unset Printing Implicit Defensive.
Local Open Scope nat_scope.

Lemma bind_eq A B (x : A) (f : A -> outcome B) : bind (Ok x) f = f x.
Proof. by []. Qed.

Lemma mkseqSr A (f : nat -> A) n : mkseq f n.+1 = rcons (mkseq f n) (f n).
Proof. by rewrite /mkseq iotaSr map_rcons. Qed.

Section Merkle.
Variables (F : fieldType) (fp : ff_params F) (H : hash_fun).
Notation hash_node := (hash_node H).
Notation hash_leaf := (hash_leaf fp H).
Notation z := zero_digest.

(** One level up. *)
Definition pair_hash (s : seq digest) : seq digest :=
  mkseq (fun i => hash_node [:: nth z s (2 * i); nth z s (2 * i + 1)]) (size s %/ 2).

Lemma size_pair_hash s : size (pair_hash s) = size s %/ 2.
Proof. by rewrite size_mkseq. Qed.

Lemma chunks2 (s : seq digest) m : size s = m * 2 ->
  chunks 2 s = mkseq (fun i => [:: nth z s (2 * i); nth z s (2 * i + 1)]) m.
Proof.
move=> Hs; have Hc : ceil_div (size s) 2 = m by rewrite /ceil_div Hs mulnK // modnMl addn0.
apply: (@eq_from_nth _ [::]); rewrite /chunks !size_mkseq Hc // => i Hi.
rewrite !nth_mkseq //; apply: (@eq_from_nth _ z).
  rewrite size_chunk_at //= (minn_idPl _) // Hs -mulnBl -{1}(mul1n 2) leq_mul2r /=.
  by rewrite subn_gt0.
move=> j; rewrite size_chunk_at // => /leq_trans /(_ (geq_minl _ _)) Hj.
by rewrite nth_chunk_at //; case: j Hj => [|[|]] // _; rewrite mulnC ?addn0.
Qed.

Lemma hash_levelE w outputs inputs : 0 < w -> size outputs * 2 = size inputs ->
  hash_level H w outputs inputs = pair_hash inputs.
Proof.
move=> Hw Hs; rewrite /hash_level; set k := get_chunk_size w _.
have Hk : 0 < k by apply: chunk_size_gt0.
set m := size outputs in Hs *.
have Hc : ceil_div (size inputs) (k * 2) = ceil_div m k.
  by rewrite /ceil_div -Hs divnMr // -muln_modl // muln_eq0 orbF.
have -> : [seq [seq hash_node x.2 | x <- zip oi.1 (chunks 2 oi.2)]
    | oi <- zip (chunks k outputs) (chunks (k * 2) inputs)] =
    chunks k (pair_hash inputs).
  rewrite [chunks k outputs]/chunks [chunks (k * 2) inputs]/chunks [chunks k (pair_hash _)]/chunks size_pair_hash -Hs mulnK // Hs Hc zip_mkseq // /mkseq -map_comp.
  apply/eq_in_map => i; rewrite mem_iota add0n => /andP [_ Hi] /=.
  have Hb := ceil_div_lt Hk Hi.
  set r := minn k (m - i * k).
  have Hsz : size (chunk_at (k * 2) inputs i) = r * 2.
    by rewrite size_chunk_at // -Hs mulnA -mulnBl minnMl.
  rewrite (chunks2 Hsz).
  apply: (@eq_from_nth _ z).
    by rewrite size_map size_zip size_mkseq !size_chunk_at // size_pair_hash -Hs mulnK // minnn.
  move=> j; rewrite size_map size_zip size_mkseq size_chunk_at // -/m -/r minnn => Hj.
  have Hjk : j < k by apply: leq_trans Hj (geq_minl _ _).
  have Hij : i * k + j < m.
    by rewrite -ltn_subRL; apply: leq_trans Hj (geq_minr _ _).
  rewrite (nth_map (z, [::])) ?size_zip ?size_mkseq ?size_chunk_at // ?minnn //.
  rewrite nth_zip ?size_mkseq ?size_chunk_at //= nth_mkseq //.
  rewrite (nth_chunk_at z (pair_hash inputs) i Hjk) nth_mkseq -?Hs ?mulnK //.
  have H1 : 2 * j + 1 < k * 2 by rewrite addn1 mulnC -[_.+2]/(j.+1 * 2) leq_mul2r.
  have H0 : 2 * j < k * 2 by apply: ltn_trans H1; rewrite addn1.
  rewrite !nth_chunk_at //.
  have E : i * (k * 2) + 2 * j = 2 * (i * k + j) by rewrite mulnDr mulnA (mulnC _ 2).
  by rewrite addnA E.
rewrite flatten_chunks // drop_oversize ?cats0 // size_pair_hash -Hs mulnK //.
Qed.

(** * Levels of the tree over the hashed leaves [hs] of size 2^L *)
Definition lvl (hs : seq digest) (l : nat) : seq digest := iter l pair_hash hs.

Lemma size_lvl hs L l : size hs = 2 ^ L -> l <= L -> size (lvl hs l) = 2 ^ (L - l).
Proof.
move=> Hs; elim: l => [|l IH] Hl; first by rewrite subn0.
rewrite [lvl _ _]/(pair_hash (lvl hs l)) size_pair_hash IH; last exact: ltnW.
by rewrite -(subnSK Hl) expnS mulKn.
Qed.

Lemma lvlS hs L l i : size hs = 2 ^ L -> l < L -> i < 2 ^ (L - l.+1) ->
  nth z (lvl hs l.+1) i =
  hash_node [:: nth z (lvl hs l) (2 * i); nth z (lvl hs l) (2 * i + 1)].
Proof.
move=> Hs Hl Hi; rewrite [lvl _ l.+1]/(pair_hash (lvl hs l)) /pair_hash nth_mkseq //.
by rewrite (size_lvl Hs (ltnW Hl)) -(subnSK Hl) expnS mulKn.
Qed.

(** Node vector: zeros at 0, then the levels from the root down. *)
Fixpoint pref (hs : seq digest) (L k : nat) : seq digest :=
  if k is k'.+1 then pref hs L k' ++ lvl hs (L - k') else [:: z].

Fixpoint suff (hs : seq digest) (t : nat) : seq digest :=
  if t is t'.+1 then lvl hs t ++ suff hs t' else [::].

Lemma size_pref hs L k : size hs = 2 ^ L -> k <= L -> size (pref hs L k) = 2 ^ k.
Proof.
move=> Hs; elim: k => [|k IH] Hk //=.
by rewrite size_cat IH ?(ltnW Hk) // (size_lvl Hs) ?leq_subr // subKn ?(ltnW Hk) // addnn -mul2n expnS.
Qed.

Lemma pref_suff hs L d : d <= L -> pref hs L (L - d) ++ suff hs d = pref hs L L.
Proof.
elim: d => [|d IH] Hd; first by rewrite subn0 cats0.
rewrite -(IH (ltnW Hd)) -(subnSK Hd) /=.
by rewrite subKn // -catA.
Qed.

Lemma level_step_gen w lv rest k : 0 < w -> size lv = 2 * 2 ^ k ->
  level_step H w (nseq (2 * 2 ^ k) z ++ lv ++ rest, 2 * (2 * 2 ^ k)) =
  Ok (nseq (2 ^ k) z ++ pair_hash lv ++ lv ++ rest, 2 * 2 ^ k).
Proof.
move=> Hw Hs; rewrite /level_step mulKn //; set m := 2 ^ k in Hs *.
have T1 : take (2 * m) (nseq (2 * m) z ++ lv ++ rest) = nseq (2 * m) z.
  by rewrite take_size_cat // size_nseq.
have T2 : drop (2 * m) (take (2 * (2 * m)) (nseq (2 * m) z ++ lv ++ rest)) = lv.
  by rewrite catA take_size_cat ?drop_size_cat ?size_nseq // size_cat size_nseq Hs addnn -mul2n.
have T3 : drop (2 * m) (nseq (2 * m) z ++ lv ++ rest) = lv ++ rest.
  by rewrite drop_size_cat // size_nseq.
have T4 : nseq (2 * m) z = nseq m z ++ nseq m z by rewrite mul2n -addnn nseqD.
rewrite T1 T2 T3 size_nseq mulKn // T4 take_size_cat ?drop_size_cat ?size_nseq //.
rewrite Hs (mulnC m) eqxx is_pow2_exp hash_levelE ?size_nseq ?Hs 1?mulnC //.
Qed.

Lemma level_stepP w hs L t : 0 < w -> size hs = 2 ^ L -> t.+1 < L ->
  level_step H w (nseq (2 ^ (L - t.+1)) z ++ suff hs t.+1, 2 ^ (L - t)) =
  Ok (nseq (2 ^ (L - t.+2)) z ++ suff hs t.+2, 2 ^ (L - t.+1)).
Proof.
move=> Hw Hs Ht.
have E1 : 2 ^ (L - t) = 2 * 2 ^ (L - t.+1) by rewrite -(subnSK (ltnW Ht)) expnS.
have E2 : 2 ^ (L - t.+1) = 2 * 2 ^ (L - t.+2) by rewrite -(subnSK Ht) expnS.
rewrite E1 E2 [suff hs t.+1]/(lvl hs t.+1 ++ suff hs t) level_step_gen //.
by rewrite (size_lvl Hs (ltnW Ht)) E2.
Qed.

Definition leaf_hashes (leafs : seq F) := [seq hash_leaf x | x <- leafs].

Lemma log2_floor_pow L : log2_floor (2 ^ L) = Ok L.
Proof.
have [|k -> /andP [H1 H2]] := @log2_floorP (2 ^ L); first by rewrite expn_gt0.
by congr Ok; apply/eqP; rewrite eqn_leq -(leq_exp2l k L (isT : 1 < 2)) H1 -ltnS -(ltn_exp2l L _ (isT : 1 < 2)).
Qed.

Lemma tree_createP w leafs L : 0 < w -> size leafs = 2 ^ L -> 0 < L ->
  tree_create fp H w leafs = Ok (Tree (2 ^ L) (pref (leaf_hashes leafs) L L)).
Proof.
move=> Hw Hs HL; rewrite /tree_create Hs next_pow2_pow eqxx log2_floor_pow /= /usub HL /=.
rewrite par_chunks_map // -/(leaf_hashes leafs); set hs := leaf_hashes leafs.
have Hhs : size hs = 2 ^ L by rewrite size_map.
have E1 : 2 ^ L = 2 ^ (L - 1) + 2 ^ (L - 1) by rewrite addnn -mul2n -expnS subn1 prednK.
have D1 : 2 ^ L %/ 2 = 2 ^ (L - 1) by rewrite E1 addnn -mul2n mulKn.
have T4 : nseq (2 ^ L) z = nseq (2 ^ (L - 1)) z ++ nseq (2 ^ (L - 1)) z by rewrite -nseqD -E1.
rewrite size_nseq D1 T4 take_size_cat ?drop_size_cat ?size_nseq // Hhs.
have E2 : 2 ^ (L - 1) * 2 = 2 ^ L by rewrite E1 muln2 -addnn.
rewrite E2 eqxx is_pow2_exp hash_levelE ?size_nseq ?Hhs //.
have -> : nseq (2 ^ (L - 1)) z ++ pair_hash hs = nseq (2 ^ (L - 1)) z ++ suff hs 1.
  by rewrite /= cats0.
have Hfold : forall t, t < L ->
  foldM (fun st (_ : nat) => level_step H w st) (nseq (2 ^ (L - 1)) z ++ suff hs 1, 2 ^ L) (iota 0 t)
  = Ok (nseq (2 ^ (L - t.+1)) z ++ suff hs t.+1, 2 ^ (L - t)).
  elim=> [|t IH] Ht; first by rewrite subn0.
  by rewrite iotaSr foldM_rcons IH ?(ltnW Ht) // bind_eq level_stepP.
rewrite Hfold ?ltn_subrL ?HL // subn1 prednK // subnn /=.
have := @pref_suff hs L L (leqnn L); rewrite subnn => <- //.
Qed.

Lemma tree_create_one w (x : F) : tree_create fp H w [:: x] = Panic.
Proof. by []. Qed.

Lemma tree_create_bad w (leafs : seq F) : ~~ is_pow2 (size leafs) -> tree_create fp H w leafs = Panic.
Proof.
rewrite /is_pow2 negb_and negbK /tree_create => /orP [/eqP ->|] //.
by rewrite eq_sym => /negbTE ->.
Qed.

Lemma nth_pref hs L k i : size hs = 2 ^ L -> k < L -> i < 2 ^ k ->
  nth z (pref hs L L) (2 ^ k + i) = nth z (lvl hs (L - k)) i.
Proof.
move=> Hs Hk Hi; rewrite -(pref_suff hs (leq_subr k.+1 L)).
rewrite subKn //= -catA nth_cat (size_pref Hs) ?(ltnW Hk) //.
rewrite ltnNge leq_addr /= addKn nth_cat (size_lvl Hs) ?leq_subr // subKn ?(ltnW Hk) // Hi //.
Qed.

Lemma pref_root hs L : size hs = 2 ^ L -> 0 < L -> get (pref hs L L) 1 = Ok (nth z (lvl hs L) 0).
Proof.
move=> Hs HL; rewrite (get_nth z) ?(size_pref Hs) //; last by rewrite -{1}(expn0 2) ltn_exp2l.
by have := @nth_pref hs L 0 0 Hs HL isT; rewrite expn0 addn0 subn0 => ->.
Qed.

(** * Paths *)
Definition auth_path hs L i : seq digest :=
  mkseq (fun k => nth z (lvl hs k) (flip1 (i %/ 2 ^ k))) L.

Lemma flip1_lt i k : i < 2 ^ k.+1 -> flip1 i < 2 ^ k.+1.
Proof.
rewrite /flip1 => Hi; case: ifP => Ho; first by apply: leq_ltn_trans (leq_pred _) Hi.
rewrite ltn_neqAle Hi andbT; apply/eqP => E.
by have : odd (i.+1) = odd (2 ^ k.+1); [rewrite E | rewrite oddS Ho expnS oddM].
Qed.

Lemma get_pathP leafs L i : size leafs = 2 ^ L -> 0 < L -> i < 2 ^ L ->
  get_path fp H (Tree (2 ^ L) (pref (leaf_hashes leafs) L L)) i leafs =
  Ok (auth_path (leaf_hashes leafs) L i).
Proof.
move=> Hs HL Hi; rewrite /get_path /=; set hs := leaf_hashes leafs.
have Hhs : size hs = 2 ^ L by rewrite size_map.
rewrite (size_pref Hhs) // eqxx.
have EL : L = L.-1.+1 by rewrite prednK.
have Hf : flip1 i < 2 ^ L by rewrite EL; apply: flip1_lt; rewrite -EL.
rewrite (get_nth 0%R) ?Hs //=.
have D1 : 2 ^ L %/ 2 = 2 ^ L.-1 by rewrite {1}EL expnS mulKn.
rewrite D1 log2_floor_pow /=.
set f := (X in foldM X).
have Hfold : forall t, t < L ->
   foldM f ([:: hash_leaf (nth 0%R leafs (flip1 i))], pref hs L L, i %/ 2) (iota 0 t) =
   Ok (auth_path hs t.+1 i, pref hs L (L - t), i %/ 2 ^ t.+1).
  elim=> [|t IH] Ht.
    rewrite /= subn0 expn1 /auth_path /mkseq /= expn0 divn1 /hs (nth_map 0%R) ?Hs //.
  rewrite iotaSr foldM_rcons IH ?(ltnW Ht) // bind_eq /f.
  rewrite (size_pref Hhs) ?leq_subr //.
  have E : 2 ^ (L - t) %/ 2 = 2 ^ (L - t.+1) by rewrite -(subnSK (ltnW Ht)) expnS mulKn.
  rewrite E.
  have Ep : pref hs L (L - t) = pref hs L (L - t.+1) ++ lvl hs t.+1.
    by rewrite -(subnSK (ltnW Ht)) /= (subKn (ltnW Ht)).
  have Hsz : size (pref hs L (L - t.+1)) = 2 ^ (L - t.+1) by apply: size_pref => //; apply: leq_subr.
  rewrite Ep (drop_size_cat _ Hsz) (take_size_cat _ Hsz).
  rewrite (get_nth z); last first.
    rewrite (size_lvl Hhs (ltnW Ht)); have -> : L - t.+1 = (L - t.+2).+1 by rewrite subnSK.
    apply: flip1_lt; rewrite subnSK //.
    by rewrite ltn_divLR ?expn_gt0 // -expnD subnK // ltnW.
  rewrite bind_eq; congr (Ok (_, _, _)); last by rewrite -divnMA -expnSr.
  by rewrite /auth_path [mkseq _ t.+2]mkseqSr.
rewrite -/(leaf_hashes leafs) in Hfold.
by rewrite Hfold ?ltn_predL //= prednK.
Qed.

(** The hash computed from a leaf hash and a path. *)
Definition climb (h : digest) (i : nat) (path : seq digest) : digest * nat :=
  foldl (fun hi el => let: (hash, idx) := hi in
      (if odd idx then hash_node [:: el; hash] else hash_node [:: hash; el], idx %/ 2)) (h, i) path.

Lemma tree_verifyE root v path i :
  tree_verify fp H root v path i = ((climb (hash_leaf v) i path).1 == root).
Proof. by rewrite /tree_verify /climb; case: (foldl _ _ _). Qed.

Lemma climb_rcons h i p el : climb h i (rcons p el) =
  (let hp := (climb h i p).1 in
   if odd (i %/ 2 ^ size p) then hash_node [:: el; hp] else hash_node [:: hp; el],
   i %/ 2 ^ (size p).+1).
Proof.
have E : forall p, (climb h i p).2 = i %/ 2 ^ size p.
  elim/last_ind => [|q x IH]; first by rewrite expn0 divn1.
  rewrite /climb foldl_rcons -/(climb h i q) size_rcons; case: (climb h i q) IH => hh ii /= ->.
  by rewrite -divnMA -expnSr.
rewrite /climb foldl_rcons -/(climb h i p); have := E p; case: (climb h i p) => hh ii /= ->.
by rewrite -divnMA -expnSr.
Qed.

Lemma divn2_odd i : i = 2 * (i %/ 2) + odd i.
Proof. by rewrite {1}(divn_eq i 2) modn2 mulnC. Qed.

Lemma auth_climb hs L i t : size hs = 2 ^ L -> i < 2 ^ L -> t <= L ->
  (climb (nth z hs i) i (auth_path hs t i)).1 = nth z (lvl hs t) (i %/ 2 ^ t).
Proof.
move=> Hs Hi; elim: t => [|t IH] Ht; first by rewrite expn0 divn1.
rewrite /auth_path mkseqSr -/(auth_path hs t i) climb_rcons /= size_mkseq IH ?(ltnW Ht) //.
have Hd : i %/ 2 ^ t.+1 < 2 ^ (L - t.+1) by rewrite ltn_divLR ?expn_gt0 // -expnD subnK.
rewrite (lvlS Hs Ht Hd).
have E : i %/ 2 ^ t = 2 * (i %/ 2 ^ t.+1) + odd (i %/ 2 ^ t).
  by rewrite {1}(divn2_odd (i %/ 2 ^ t)) -divnMA -expnSr.
rewrite /flip1; case Ho: (odd (i %/ 2 ^ t)); rewrite Ho in E.
  by rewrite E addn1.
by rewrite E addn0 addn1.
Qed.

(** * Binding *)
Lemma collision_sub (xs ys : seq bytes) : {subset xs <= ys} -> collision_among H xs -> collision_among H ys.
Proof. by move=> Hs [x [y [Hx Hy Hn E]]]; exists x, y; split=> //; apply: Hs. Qed.

Lemma hash_nodeE (a b : digest) : hash_node [:: a; b] = H (tval a ++ tval b).
Proof. by rewrite /M_Merkle.hash_node /= cats0. Qed.

Lemma size_pair_inputs s : size (pair_inputs s) = size s %/ 2.
Proof.
have [m] := ubnP (size s); elim: m s => // m IH [|a [|b s]] //= Hm.
by rewrite IH; [rewrite -(addn2 (size s)) divnDr // addn1 | rewrite -ltnS ltnW].
Qed.

Lemma nth_pair_inputs s i : i < size s %/ 2 ->
  nth [::] (pair_inputs s) i = tval (nth z s (2 * i)) ++ tval (nth z s (2 * i + 1)).
Proof.
move: zero_digest => d; have [m] := ubnP (size s); elim: m s i => // m IH [|a [|b s]] [|i] Hm Hi; try by [].
have Hi' : i < size s %/ 2 by move: Hi; rewrite -[size _]/((size s).+2) -(addn2 (size s)) divnDr // addn1.
by rewrite mulnS /= IH // -ltnS ltnW.
Qed.

Lemma pair_hashE s : pair_hash s = [seq H x | x <- pair_inputs s].
Proof.
apply: (eq_from_nth (x0 := z)); rewrite size_pair_hash ?size_map ?size_pair_inputs // => i Hi.
by rewrite nth_mkseq // (nth_map [::]) ?size_pair_inputs // nth_pair_inputs // hash_nodeE.
Qed.

(** The input of a node of a tree. *)
Definition node_input (hs : seq digest) (l i : nat) : bytes :=
  tval (nth z (lvl hs l) (2 * i)) ++ tval (nth z (lvl hs l) (2 * i + 1)).

Lemma level_inputsP hs L M l j : size hs = 2 ^ L -> l < M -> M <= L -> j < 2 ^ (L - l.+1) ->
  node_input hs l j \in level_inputs H M hs.
Proof.
elim: M L l hs => // M IH L l hs Hs Hl HM Hj /=; rewrite -pair_hashE mem_cat.
case: L HM Hs Hj => // L HM Hs Hj.
case: l Hl Hj => [|l] Hl Hj; last first.
  apply/orP; right; rewrite /node_input /lvl iterSr -/(lvl _ _).
  by apply: (IH L) => //; rewrite size_pair_hash Hs expnS mulKn.
have Hj2 : j < size hs %/ 2 by rewrite Hs expnS mulKn //; move: Hj; rewrite subSS subn0.
apply/orP; left; rewrite /node_input /= -nth_pair_inputs //.
by apply: mem_nth; rewrite size_pair_inputs.
Qed.

Lemma path_inputs_rcons h i p el : path_inputs H h i (rcons p el) =
  rcons (path_inputs H h i p)
    (let hp := (climb h i p).1 in if odd (i %/ 2 ^ size p) then tval el ++ tval hp else tval hp ++ tval el).
Proof.
elim: p h i => [|e p IH] h i /=; first by rewrite expn0 divn1; case: odd.
rewrite IH /climb /= -!/(climb _ _ _) expnS divnMA; congr (_ :: rcons _ _).
by case: (odd i); rewrite ?hash_nodeE.
Qed.

Lemma auth_inputs hs L i t : size hs = 2 ^ L -> i < 2 ^ L -> t <= L ->
  {subset path_inputs H (nth z hs i) i (auth_path hs t i) <= level_inputs H L hs}.
Proof.
move=> Hs Hi; elim: t => [|t IH] Ht y //.
rewrite /auth_path mkseqSr -/(auth_path hs t i) path_inputs_rcons mem_rcons inE => /orP [/eqP ->|]; last first.
  exact: (IH (ltnW Ht)).
rewrite (auth_climb Hs Hi (ltnW Ht)) size_mkseq.
have Hd : i %/ 2 ^ t.+1 < 2 ^ (L - t.+1) by rewrite ltn_divLR ?expn_gt0 // -expnD subnK.
have E : i %/ 2 ^ t = 2 * (i %/ 2 ^ t.+1) + odd (i %/ 2 ^ t).
  by rewrite {1}(divn2_odd (i %/ 2 ^ t)) -divnMA -expnSr.
have := level_inputsP Hs Ht (leqnn L) Hd; rewrite /node_input /flip1.
by case Ho: (odd (i %/ 2 ^ t)); rewrite Ho in E; rewrite E ?addn1 ?addn0.
Qed.

(** The opening of a committed value hashes only what the tree has hashed. *)
Lemma honest_inputs leafs L i : size leafs = 2 ^ L -> i < 2 ^ L ->
  {subset opening_inputs fp H (nth 0%R leafs i) (auth_path (leaf_hashes leafs) L i) i <= tree_inputs fp H leafs}.
Proof.
move=> Hs Hi y; rewrite inE mem_cat => /orP [/eqP ->|Hy].
  by apply/orP; left; apply: (map_f (fun v => tval (encode_leaf fp v))); apply: mem_nth; rewrite Hs.
apply/orP; right; rewrite Hs trunc_expnK //.
have Hhs : size (leaf_hashes leafs) = 2 ^ L by rewrite size_map.
apply: (auth_inputs Hhs Hi (leqnn L)).
by rewrite /leaf_hashes (nth_map 0%R) ?Hs.
Qed.

Lemma mem_rcons_self (T : eqType) (s : seq T) x : x \in rcons s x.
Proof. by rewrite mem_rcons mem_head. Qed.

Section Among.
(** All hashes are those of byte strings in [xs]. *)
Variable xs : seq bytes.
Notation collision := (collision_among H xs).

Lemma hash_inj x y : x \in xs -> y \in xs -> H x = H y -> x = y \/ collision.
Proof. by move=> Hx Hy E; case: (eqVneq x y) => [->|/eqP Hn]; [left | right; exists x, y]. Qed.

Lemma hash_node2_inj (a b c d : digest) : tval a ++ tval b \in xs -> tval c ++ tval d \in xs ->
  hash_node [:: a; b] = hash_node [:: c; d] -> (a = c /\ b = d) \/ collision.
Proof.
rewrite !hash_nodeE => Hx Hy /(hash_inj Hx Hy) [|]; last by right.
move=> /eqP; rewrite eqseq_cat ?size_tuple // => /andP [/eqP E1 /eqP E2].
by left; split; apply: val_inj.
Qed.

Lemma leaf_node_collision v (a b : digest) : tval (encode_leaf fp v) \in xs -> tval a ++ tval b \in xs ->
  hash_leaf v = hash_node [:: a; b] -> collision.
Proof.
rewrite hash_nodeE => Hx Hy /(hash_inj Hx Hy) [|] // E.
have : size (encode_leaf fp v) = size (tval a ++ tval b) by rewrite E.
by rewrite (size_tuple (encode_leaf fp v)) size_cat !size_tuple.
Qed.

Lemma climb_tree hs L path h i k x : size hs = 2 ^ L ->
  (forall j, j < 2 ^ L -> exists2 v, nth z hs j = hash_leaf v & tval (encode_leaf fp v) \in xs) ->
  (forall l j, l < L -> j < 2 ^ (L - l.+1) -> node_input hs l j \in xs) ->
  {subset path_inputs H h i path <= xs} ->
  k <= L -> x < 2 ^ (L - k) ->
  (climb h i path).1 = nth z (lvl hs k) x ->
  collision \/ (size path <= k /\ h = nth z (lvl hs (k - size path)) (x * 2 ^ size path + i %% 2 ^ size path)).
Proof.
move=> Hs Hleaf Hnode; elim/last_ind: path k x => [|p el IH] k x Hp Hk Hx.
  by move=> /= ->; right; rewrite subn0 expn0 muln1 modn1 addn0.
move: Hp; rewrite path_inputs_rcons => Hp.
have Hp' : {subset path_inputs H h i p <= xs} by move=> y Hy; apply: Hp; rewrite mem_rcons inE Hy orbT.
have {Hp} := Hp _ (mem_rcons_self _ _).
rewrite climb_rcons /= size_rcons; case: k Hk Hx => [|k] Hk Hx.
  rewrite subn0 in Hx; case: (Hleaf x Hx) => v -> Hv Hin E; left.
  by case: ifP E Hin => _ /esym E Hin; apply: leaf_node_collision E.
rewrite (lvlS Hs Hk Hx) => Hin E.
have Hn := Hnode k x Hk Hx; rewrite /node_input in Hn.
set b := odd (i %/ 2 ^ size p) in E Hin.
have : (climb h i p).1 = nth z (lvl hs k) (2 * x + b) \/ collision.
  by move: E Hin; rewrite /b; case: odd => E Hin; case: (hash_node2_inj Hin Hn E) => [[E1 E2]|]; rewrite ?addn0; tauto.
case; last by left.
move=> E2; have Hx2 : 2 * x + b < 2 ^ (L - k).
  rewrite -(subnSK Hk) expnS; apply: leq_trans (_ : 2 * x.+1 <= _); last by rewrite leq_mul2l.
  by rewrite mulnS addnC ltn_add2r; case: (b).
case: (IH k (2 * x + b) Hp' (ltnW Hk) Hx2 E2) => [|[H1 H2]]; first by left.
right; split; first by rewrite ltnS.
rewrite subSS H2; congr (nth z _ _).
have Em : i %% 2 ^ (size p).+1 = b * 2 ^ size p + i %% 2 ^ size p.
  have Ei : i = (i %/ 2 ^ size p %/ 2) * 2 ^ (size p).+1 + (b * 2 ^ size p + i %% 2 ^ size p).
    by rewrite {1}(divn_eq i (2 ^ size p)) {1}(divn2_odd (i %/ 2 ^ size p)) -/b mulnDl -addnA expnS mulnCA mulnA.
  rewrite {1}Ei modnMDl modn_small //.
  rewrite expnS mul2n -addnn; apply: leq_ltn_trans (_ : 2 ^ size p + i %% 2 ^ size p < _).
    by rewrite leq_add2r /b; case: odd; rewrite ?mul1n.
  by rewrite ltn_add2l ltn_pmod // expn_gt0.
by rewrite Em mulnDl expnS addnA mulnCA mulnA.
Qed.

Lemma climb_same h1 h2 i p1 p2 : size p1 = size p2 ->
  {subset path_inputs H h1 i p1 <= xs} -> {subset path_inputs H h2 i p2 <= xs} ->
  (climb h1 i p1).1 = (climb h2 i p2).1 -> (h1 = h2 /\ p1 = p2) \/ collision.
Proof.
elim/last_ind: p1 p2 => [|p1 e1 IH]; elim/last_ind => [|p2 e2 _]; rewrite ?size_rcons //.
  by move=> _ _ _ /= ->; left.
case=> Hs; rewrite !path_inputs_rcons => S1 S2.
have S1' : {subset path_inputs H h1 i p1 <= xs} by move=> y Hy; apply: S1; rewrite mem_rcons inE Hy orbT.
have S2' : {subset path_inputs H h2 i p2 <= xs} by move=> y Hy; apply: S2; rewrite mem_rcons inE Hy orbT.
have {S1} := S1 _ (mem_rcons_self _ _); have {S2} := S2 _ (mem_rcons_self _ _).
rewrite !climb_rcons /= Hs.
case: odd => I2 I1 /(hash_node2_inj I1 I2) [[E1 E2]|]; try by right.
  by case: (IH _ Hs S1' S2' E2) => [[-> ->]|]; [left; rewrite E1 | right].
by case: (IH _ Hs S1' S2' E1) => [[-> ->]|]; [left; rewrite E2 | right].
Qed.
End Among.

Hypothesis Hrep : ff_repr_ok fp.

Lemma encode_leaf_inj : injective (encode_leaf fp).
Proof.
case: Hrep => _ Hinj Hraw _ /andP [_ Hl] x y /(congr1 val) /=.
have Hsz v : size (le_bytes (8 * ff_limbs fp) (ff_raw fp v)) <= 32.
  by rewrite size_le_bytes -[32]/(8 * 4) leq_mul2l.
rewrite !take_cat !ltnNge !Hsz /= => /eqP; rewrite eqseq_cat ?size_le_bytes // => /andP [/eqP E _].
apply: Hinj; apply: le_bytes_inj E.
  have -> : (256 ^ N.of_nat (8 * ff_limbs fp) = 2 ^ (64 * N.of_nat (ff_limbs fp)))%num.
    rewrite -[256%num]/(2 ^ 8)%num -N.pow_mul_r; congr (2 ^ _)%num.
    by rewrite -[8 * _]/(Nat.mul 8 _) Nat2N.inj_mul N.mul_assoc.
  exact: Hraw.
have -> : (256 ^ N.of_nat (8 * ff_limbs fp) = 2 ^ (64 * N.of_nat (ff_limbs fp)))%num.
  rewrite -[256%num]/(2 ^ 8)%num -N.pow_mul_r; congr (2 ^ _)%num.
  by rewrite -[8 * _]/(Nat.mul 8 _) Nat2N.inj_mul N.mul_assoc.
exact: Hraw.
Qed.

Lemma hash_leaf_inj xs x y : tval (encode_leaf fp x) \in xs -> tval (encode_leaf fp y) \in xs ->
  hash_leaf x = hash_leaf y -> x = y \/ collision_among H xs.
Proof.
move=> Hx Hy /(hash_inj Hx Hy) [E|]; last by right.
by left; apply: encode_leaf_inj; apply: val_inj.
Qed.

(** Any accepted opening of the root of [leafs]. *)
Lemma opening_tree leafs L root v path i : size leafs = 2 ^ L -> 0 < L ->
  root = nth z (lvl (leaf_hashes leafs) L) 0 ->
  tree_verify fp H root v path i ->
  collision_among H (tree_inputs fp H leafs ++ opening_inputs fp H v path i) \/
  (size path = L /\ v = nth 0%R leafs (i %% 2 ^ L)).
Proof.
move=> Hs HL ->; rewrite tree_verifyE => /eqP E.
set hs := leaf_hashes leafs in E; set xs := _ ++ _.
have Hhs : size hs = 2 ^ L by rewrite size_map.
have Hleaf j : j < 2 ^ L -> nth z hs j = hash_leaf (nth 0%R leafs j).
  by move=> Hj; rewrite (nth_map 0%R) ?Hs.
have Hlin j : j < 2 ^ L -> tval (encode_leaf fp (nth 0%R leafs j)) \in xs.
  move=> Hj; rewrite !mem_cat; apply/orP; left; apply/orP; left.
  by apply: (map_f (fun v => tval (encode_leaf fp v))); apply: mem_nth; rewrite Hs.
have Hnode l j : l < L -> j < 2 ^ (L - l.+1) -> node_input hs l j \in xs.
  move=> Hl Hj; rewrite !mem_cat; apply/orP; left; apply/orP; right.
  by rewrite Hs trunc_expnK //; apply: (level_inputsP Hhs).
have Hv : tval (encode_leaf fp v) \in xs by rewrite mem_cat inE eqxx orbT.
have Hpath : {subset path_inputs H (hash_leaf v) i path <= xs}.
  by move=> y Hy; rewrite mem_cat inE Hy !orbT.
case: (@climb_tree xs hs L path (hash_leaf v) i L 0 Hhs _ Hnode Hpath (leqnn L) _ E) => [j Hj|||].
- by exists (nth 0%R leafs j); [apply: Hleaf | apply: Hlin].
- by rewrite subnn.
- by left.
case=> Hp; rewrite mul0n add0n.
case Ed: (L - size path) => [|d].
  have EL : size path = L by apply/eqP; rewrite eqn_leq Hp -subn_eq0 Ed.
  have Hm : i %% 2 ^ L < 2 ^ L by rewrite ltn_pmod ?expn_gt0.
  rewrite EL Hleaf // => /(hash_leaf_inj Hv (Hlin _ Hm)) [->|]; last by left.
  by right.
have Hd : d < L by apply: leq_trans (leq_subr (size path) L); rewrite Ed.
have Hm : i %% 2 ^ size path < 2 ^ (L - d.+1).
  have -> : L - d.+1 = size path by rewrite -Ed subKn.
  by rewrite ltn_pmod ?expn_gt0.
rewrite (lvlS Hhs Hd Hm) => E2; left; apply: leaf_node_collision E2 => //.
exact: (Hnode _ _ Hd Hm).
Qed.
End Merkle.
