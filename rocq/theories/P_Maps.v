(** Insertion-ordered sets and maps, masks and batches (src/ali/mod.rs). *)
From Coq Require Import NArith.
From mathcomp Require Import all_ssreflect all_algebra.
From Verif Require Import M_Base M_Worker M_Field M_Domain M_Fft M_Poly M_Air M_Arp M_Ali.
From Verif Require Import P_Base P_Air P_Arp.

Set Implicit Arguments.
Unset Strict Implicit.
Unset Printing Implicit Defensive.
Import GRing.Theory.
Local Open Scope ring_scope.

Section Maps.
Variables (K : eqType) (V : Type).
Implicit Types (s : seq K) (m : seq (K * V)).

Lemma mem_set_insert s x y : (y \in set_insert s x) = (y == x) || (y \in s).
Proof.
rewrite /set_insert; case: ifP => H; last by rewrite mem_rcons inE.
by case: eqP => [->|].
Qed.

Lemma mem_set_inserts s l y : (y \in foldl (@set_insert K) s l) = (y \in s) || (y \in l).
Proof.
elim: l s => [|x l IH] s /=; first by rewrite orbF.
by rewrite IH mem_set_insert inE -orbA orbCA.
Qed.

Lemma uniq_set_inserts s l : uniq s -> uniq (foldl (@set_insert K) s l).
Proof.
elim: l s => [|x l IH] s //= Hs; apply: IH; rewrite /set_insert; case: ifP => // H.
by rewrite rcons_uniq H.
Qed.

Lemma im_get_insert m k v k' : im_get (im_insert m k v) k' = if k == k' then Some v else im_get m k'.
Proof.
elim: m => [|[k1 v1] m IH] //=; case: eqP => [->|Hk] /=; first by case: eqP.
rewrite IH; case: (k1 =P k') => // <-; by case: eqP => // E; case: Hk.
Qed.

Lemma im_build_mem (f : K -> outcome V) s m0 m :
  foldM (fun m k => let* v := f k in Ok (im_insert m k v)) m0 s = Ok m ->
  forall k, if k \in s then exists2 v, f k = Ok v & im_get m k = Some v else im_get m k = im_get m0 k.
Proof.
elim: s m0 => [|k1 s IH] m0 /=; first by case=> ->.
case E: (f k1) => [v| |] //= H k; have {H IH} := IH _ H k.
rewrite inE im_get_insert (eq_sym k); case: eqP => [<-|_] //=.
by case: ifP => // _ ->; exists v.
Qed.

Lemma im_build_total (f : K -> outcome V) s m0 :
  (forall k, k \in s -> exists v, f k = Ok v) ->
  exists m, foldM (fun m k => let* v := f k in Ok (im_insert m k v)) m0 s = Ok m.
Proof.
elim: s m0 => [|k1 s IH] m0 H /=; first by exists m0.
have [v ->] := H k1 (mem_head _ _); apply: IH => k Hk; apply: H; by rewrite inE Hk orbT.
Qed.
End Maps.

Lemma foldM_map A B C (f : B -> A -> outcome B) (g : C -> A) b s :
  foldM f b (map g s) = foldM (fun b c => f b (g c)) b s.
Proof. by elim: s b => //= x s IH b; case: (f b (g x)). Qed.

Section Masks.
Variable F : fieldType.
Implicit Types (c : constraint F) (cs : seq (constraint F)) (bs : seq (boundary_constraint F)).

Definition mask_list cs bs : seq (mask_properties F) :=
  flatten [seq [seq uni_mask u | u <- c_unis c] | c <- cs] ++ [seq (b_register b, Mask 1) | b <- bs].
Definition masks_of cs bs : seq (mask_properties F) := foldl (@set_insert _) [::] (mask_list cs bs).

Lemma masks_ofE cs bs :
  foldl (@get_mask_from_boundary_constraint F) (foldl (@get_masks_from_constraint F) [::] cs) bs =
  masks_of cs bs.
Proof.
rewrite /masks_of /mask_list foldl_cat; set s0 := foldl _ [::] cs; set s1 := foldl _ [::] (flatten _).
have -> : s0 = s1.
  rewrite {}/s0 {}/s1; elim: cs [::] => //= c cs IH s; rewrite foldl_cat IH; congr foldl.
  rewrite /get_masks_from_constraint /c_unis; elim: (c_terms c) s => //= t ts IHt s.
  rewrite map_cat foldl_cat IHt; congr foldl; case: t => [u|p] //=.
  by elim: (pt_terms p) s => //= u us IHu s.
by elim: bs s1 => //= b bs IH s.
Qed.

Lemma mem_masks_of cs bs m : (m \in masks_of cs bs) = (m \in mask_list cs bs).
Proof. by rewrite /masks_of mem_set_inserts. Qed.

Lemma uniq_masks_of cs bs : uniq (masks_of cs bs).
Proof. exact: uniq_set_inserts. Qed.

Lemma all_masks_of (P : pred (mask_properties F)) cs bs :
  all P (masks_of cs bs) =
  all (fun c => all (fun u => P (uni_mask u)) (c_unis c)) cs && all (fun b => P (b_register b, Mask 1)) bs.
Proof.
rewrite (eq_all_r (mem_masks_of cs bs)) /mask_list all_cat all_map; congr (_ && _).
by elim: cs => //= c cs IH; rewrite all_cat all_map IH.
Qed.

(** Batches. *)
Lemma batch_single d cs : (0 < size cs)%N -> all (fun c => c_density c == d) cs ->
  batch_by_density cs = [:: (d, cs)].
Proof.
rewrite /batch_by_density; case: cs => // c cs _ /= /andP [/eqP Hc Hcs]; rewrite Hc.
rewrite -[c :: cs]/([:: c] ++ cs).
elim: cs [:: c] Hcs => [|c1 cs IH] b; first by rewrite cats0.
by rewrite /= => /andP [/eqP Hc1 Hcs]; rewrite Hc1 eqxx IH // cat_rcons.
Qed.

Lemma batch_insert_keys m c d :
  (d \in map fst (batch_insert m c)) = (d == c_density c) || (d \in map fst m).
Proof.
elim: m => [|[d' b] m IH] /=; first by rewrite !inE orbF.
case: eqP => [->|_] /=; first by rewrite !inE; case: eqP.
by rewrite !inE IH orbCA.
Qed.

Lemma batch_keys cs d : (d \in map fst (batch_by_density cs)) = has (fun c => c_density c == d) cs.
Proof.
rewrite /batch_by_density -[RHS]orFb -[false]/(d \in map fst ([::] : seq (density * seq (constraint F)))).
elim: cs [::] => [|c cs IH] m; first by rewrite orbF.
rewrite [foldl _ _ _]/= IH batch_insert_keys /= [d == _]eq_sym.
by case: (_ == d); case: (_ \in _).
Qed.

Lemma batch_insert_all (P : pred (constraint F)) m c :
  all (fun db => all P db.2) (batch_insert m c) = all (fun db => all P db.2) m && P c.
Proof.
elim: m => [|[d' b] m IH] /=; first by rewrite !andbT.
case: eqP => [->|_] /=; first by rewrite all_rcons -andbA andbC.
by rewrite IH andbA.
Qed.

Lemma batch_all (P : pred (constraint F)) cs :
  all (fun db => all P db.2) (batch_by_density cs) = all P cs.
Proof.
rewrite /batch_by_density -[RHS]andTb -[true]/(all (fun db : density * seq (constraint F) => all P db.2) [::]).
elim: cs [::] => [|c cs IH] m; first by rewrite andbT.
by rewrite [foldl _ _ _]/= IH batch_insert_all /= andbA.
Qed.

(** The maximal degree. *)
Lemma max_degreeE cs : max_degree cs = \max_(c <- cs) c_degree c.
Proof.
have E m : foldl (fun m c => if (m < c_degree c)%N then c_degree c else m) m cs = maxn m (\max_(c <- cs) c_degree c).
  elim: cs m => [|c cs IH] m /=; first by rewrite big_nil maxn0.
  rewrite IH big_cons maxnA; congr maxn; by rewrite /maxn; case: ltnP.
by rewrite /max_degree E max0n.
Qed.

Lemma max_degree_all cs : all (fun c => c_degree c <= max_degree cs)%N cs.
Proof.
rewrite max_degreeE; elim: cs => //= c cs IH; rewrite big_cons leq_maxl /=.
by apply: sub_all IH => c' H; rewrite (leq_trans H) // leq_maxr.
Qed.
End Masks.
