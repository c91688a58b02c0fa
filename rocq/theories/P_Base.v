(** Lemmas about the basic vocabulary (chunks, loops, outcomes). *)
From mathcomp Require Import all_ssreflect.
From Verif Require Import M_Base M_Worker.

Set Implicit Arguments.
Unset Strict Implicit.
Unset Printing Implicit Defensive.

(** * Outcomes *)
Lemma bind_Ok A B (x : outcome A) (f : A -> outcome B) b :
  bind x f = Ok b -> exists2 a, x = Ok a & f a = Ok b.
Proof. by case: x => //= a e; exists a. Qed.

Lemma mapM_Ok A B (f : A -> outcome B) (g : A -> B) s :
  (forall x, f x = Ok (g x)) -> mapM f s = Ok (map g s).
Proof. by move=> H; elim: s => //= x s ->; rewrite H. Qed.

Lemma mapM_OkP (A : eqType) B (f : A -> outcome B) (g : A -> B) s :
  (forall x, x \in s -> f x = Ok (g x)) -> mapM f s = Ok (map g s).
Proof.
elim: s => //= x s IH H; rewrite H ?mem_head //= IH // => y ys.
by apply: H; rewrite in_cons ys orbT.
Qed.

Lemma mapM_size A B (f : A -> outcome B) s r : mapM f s = Ok r -> size r = size s.
Proof.
elim: s r => [|x s IH] r /=; first by case=> <-.
by case: (f x) => //= b; case E: (mapM f s) => //= [r'] [<-] /=; rewrite (IH _ E).
Qed.

Lemma mapM_nth A B (f : A -> outcome B) s r x0 y0 i :
  mapM f s = Ok r -> i < size s -> f (nth x0 s i) = Ok (nth y0 r i).
Proof.
elim: s r i => [|x s IH] r i //=.
case E: (f x) => [b||] //=; case E2: (mapM f s) => [r'||] //= [<-].
by case: i => [|i] //= Hi; apply: IH.
Qed.

Lemma get_nth A (x0 : A) s i : i < size s -> get s i = Ok (nth x0 s i).
Proof. by elim: s i => [|x s IH] [|i] //= Hi; apply: IH. Qed.

Lemma get_over A (s : seq A) i : size s <= i -> get s i = Panic.
Proof. by elim: s i => [|x s IH] [|i] //= Hi; apply: IH. Qed.

Lemma get_Ok A (x0 : A) s i x : get s i = Ok x -> i < size s /\ x = nth x0 s i.
Proof.
case: (ltnP i (size s)) => H; last by rewrite get_over.
by rewrite (get_nth x0 H) => -[<-].
Qed.

Lemma foldM_Ok A B (f : B -> A -> outcome B) (g : B -> A -> B) b s :
  (forall b a, f b a = Ok (g b a)) -> foldM f b s = Ok (foldl g b s).
Proof. by move=> H; elim: s b => //= x s IH b; rewrite H /= IH. Qed.

Lemma foldM_cat A B (f : B -> A -> outcome B) b s1 s2 :
  foldM f b (s1 ++ s2) = bind (foldM f b s1) (fun b' => foldM f b' s2).
Proof. by elim: s1 b => //= x s IH b; case: (f b x) => //= b'. Qed.

Lemma foldM_rcons A B (f : B -> A -> outcome B) b s x :
  foldM f b (rcons s x) = bind (foldM f b s) (fun b' => f b' x).
Proof. by rewrite -cats1 foldM_cat /=; case: foldM => //= b'; case: (f b' x). Qed.

(** * Indexed map *)
Lemma size_enumerate A (s : seq A) : size (enumerate s) = size s.
Proof. by rewrite /enumerate size_zip size_iota minnn. Qed.

Lemma nth_enumerate A (x0 : A) s i k : i < size s -> nth (k, x0) (enumerate s) i = (i, nth x0 s i).
Proof. by move=> Hi; rewrite /enumerate nth_zip ?size_iota // nth_iota. Qed.

Lemma size_mapi A B (f : nat -> A -> B) s : size (mapi f s) = size s.
Proof. by rewrite /mapi size_map size_enumerate. Qed.

Lemma nth_mapi A B (f : nat -> A -> B) s i x0 y0 :
  i < size s -> nth y0 (mapi f s) i = f i (nth x0 s i).
Proof.
move=> Hi; rewrite /mapi (nth_map (0, x0)) ?size_enumerate //.
by rewrite nth_enumerate.
Qed.

Lemma eq_mapi A B (f g : nat -> A -> B) s :
  (forall i x, i < size s -> f i x = g i x) -> mapi f s = mapi g s.
Proof.
case: s => [|x0 s] // H; apply: (@eq_from_nth _ (f 0 x0)); first by rewrite !size_mapi.
by rewrite size_mapi => i Hi; rewrite !(nth_mapi _ x0) // H.
Qed.

Lemma mapi_cons A B (f : nat -> A -> B) x s :
  mapi f (x :: s) = f 0 x :: mapi (fun i => f i.+1) s.
Proof.
rewrite /mapi /enumerate /= -[iota 1 _]/(iota (1 + 0) _) iotaDl; congr (_ :: _).
by move: (iota 0 _) => t; elim: t s => [|i t IH] [|y s] //=; rewrite IH.
Qed.

Lemma mapi_cat A B (f : nat -> A -> B) s t :
  mapi f (s ++ t) = mapi f s ++ mapi (fun i => f (size s + i)) t.
Proof.
elim: s f => [|x s IH] f; first by rewrite /=; apply: eq_mapi.
by rewrite cat_cons !mapi_cons IH.
Qed.

Lemma mapi_map A B C (f : nat -> B -> C) (g : A -> B) s :
  mapi f (map g s) = mapi (fun i x => f i (g x)) s.
Proof. by elim: s f => [|x s IH] f //; rewrite !mapi_cons IH. Qed.

Lemma map_mapi A B C (f : nat -> A -> B) (g : B -> C) s :
  map g (mapi f s) = mapi (fun i x => g (f i x)) s.
Proof. by elim: s f => [|x s IH] f //; rewrite !mapi_cons /= IH. Qed.

Lemma mapi_const A B (f : A -> B) s : mapi (fun _ => f) s = map f s.
Proof. by elim: s => [|x s IH] //=; rewrite mapi_cons IH. Qed.

Lemma mapi_nseq A B (f : nat -> A -> B) n x : mapi f (nseq n x) = mkseq (fun i => f i x) n.
Proof.
apply: (@eq_from_nth _ (f 0 x)); first by rewrite size_mapi size_nseq size_mkseq.
by rewrite size_mapi size_nseq => i Hi; rewrite (nth_mapi _ x) ?size_nseq // nth_nseq Hi nth_mkseq.
Qed.

Lemma mapi_mkseq A B (f : nat -> A -> B) n g :
  mapi f (mkseq g n) = mkseq (fun i => f i (g i)) n.
Proof.
case: n => [|n] //.
apply: (@eq_from_nth _ (f 0 (g 0))); first by rewrite size_mapi !size_mkseq.
by rewrite size_mapi size_mkseq => i Hi; rewrite (nth_mapi _ (g 0)) ?size_mkseq // !nth_mkseq.
Qed.

Lemma mapi_as_mkseq A B (f : nat -> A -> B) s x0 :
  mapi f s = mkseq (fun i => f i (nth x0 s i)) (size s).
Proof. by rewrite -{1}(mkseq_nth x0 s) mapi_mkseq. Qed.

Lemma mapacc_geo St A B (f : St -> A -> St * B) (g : nat -> St) (h : nat -> A -> B) i s :
  (forall j x, f (g j) x = (g j.+1, h j x)) ->
  mapacc f (g i) s = mapi (fun j x => h (i + j) x) s.
Proof.
move=> H; elim: s i => [|x s IH] i //=.
rewrite H IH mapi_cons addn0; congr (_ :: _).
by apply: eq_mapi => j y _; rewrite addSnnS.
Qed.

Lemma size_mapacc St A B (f : St -> A -> St * B) st s : size (mapacc f st s) = size s.
Proof. by elim: s st => [|x s IH] st //=; case: (f st x) => st' b /=; rewrite IH. Qed.

(** * Chunks *)
Lemma take_chunk A k (s : seq A) m : take (m.+1 * k) s = take (m * k) s ++ chunk_at k s m.
Proof. by rewrite /chunk_at mulSn addnC takeD. Qed.

Lemma flatten_chunks_mapi A B (f : nat -> A -> B) k s m :
  flatten (mkseq (fun i => mapi (fun j x => f (i * k + j) x) (chunk_at k s i)) m) =
  mapi f (take (m * k) s).
Proof.
elim: m => [|m IH]; first by rewrite mul0n take0.
rewrite /mkseq -addn1 iotaD map_cat flatten_cat -/(mkseq _ _) IH /= cats0 add0n addn1.
rewrite take_chunk mapi_cat; congr (_ ++ _).
case: (leqP (m * k) (size s)) => Hs.
  by apply: eq_mapi => j x _; rewrite size_takel.
by rewrite /chunk_at drop_oversize // ltnW.
Qed.

Lemma ceil_div_mul n k : 0 < k -> n <= ceil_div n k * k.
Proof.
move=> Hk; rewrite /ceil_div mulnDl {1}(divn_eq n k) leq_add2l.
by case: eqP => [->|_] //=; rewrite mul1n ltnW // ltn_pmod.
Qed.

Lemma chunks_mapi A B (f : nat -> A -> B) k s : 0 < k ->
  flatten (mapi (fun i c => mapi (fun j x => f (i * k + j) x) c) (chunks k s)) = mapi f s.
Proof.
move=> Hk; rewrite /chunks mapi_mkseq flatten_chunks_mapi take_oversize //.
exact: ceil_div_mul.
Qed.

Lemma flatten_chunks A k (s : seq A) : 0 < k -> flatten (chunks k s) = s.
Proof.
move=> Hk; rewrite -[RHS]map_id -mapi_const -(chunks_mapi _ s Hk); congr flatten.
by rewrite mapi_const -[LHS]map_id; apply: eq_map => c; rewrite mapi_const map_id.
Qed.

Lemma size_chunks A k (s : seq A) : size (chunks k s) = ceil_div (size s) k.
Proof. exact: size_mkseq. Qed.

Lemma size_chunk_at A k (s : seq A) i : size (chunk_at k s i) = minn k (size s - i * k).
Proof. by rewrite /chunk_at size_take size_drop /minn. Qed.

Lemma nth_chunk_at A (x0 : A) k s i j : j < k -> nth x0 (chunk_at k s i) j = nth x0 s (i * k + j).
Proof. by move=> Hj; rewrite /chunk_at nth_take // nth_drop. Qed.

(** * Worker *)
Lemma chunk_size_gt0 w n : 0 < w -> 0 < get_chunk_size w n.
Proof.
by move=> Hw; rewrite /get_chunk_size; case: (ltnP n w) => // H; rewrite divn_gt0.
Qed.

(** The number of chunks is what [get_num_spawned_threads] says. *)
Lemma num_spawned_chunks w n : 0 < w ->
  get_num_spawned_threads w n = ceil_div n (get_chunk_size w n).
Proof.
move=> Hw; rewrite /get_num_spawned_threads /get_chunk_size /ceil_div.
case: ltnP => H; first by rewrite divn1 modn1 addn0.
by case: eqP => _ /=; rewrite ?addn0 ?addn1.
Qed.

Lemma par_chunks_mapi A B w (task : nat -> nat -> seq A -> seq B) f s : 0 < w ->
  (forall i k c, task i k c = mapi (fun j x => f (i * k + j) x) c) ->
  par_chunks w task s = mapi f s.
Proof.
move=> Hw H; rewrite /par_chunks -(@chunks_mapi _ _ f (get_chunk_size w (size s))) ?chunk_size_gt0 //.
by congr flatten; apply: eq_mapi => i c _; rewrite H.
Qed.

Lemma par_chunks_map A B w (f : A -> B) s : 0 < w ->
  par_chunks w (fun _ _ c => map f c) s = map f s.
Proof.
move=> Hw; rewrite (@par_chunks_mapi _ _ _ _ (fun _ => f)) ?mapi_const // => i k c.
by rewrite mapi_const.
Qed.

Lemma zip_take_l A B (s : seq A) (t : seq B) : size t <= size s -> zip (take (size t) s) t = zip s t.
Proof. by elim: s t => [|x s IH] [|y t] //= H; rewrite IH. Qed.

Lemma mapM_mkseq A B (f : A -> outcome B) g h n :
  (forall i, i < n -> f (g i) = Ok (h i)) -> mapM f (mkseq g n) = Ok (mkseq h n).
Proof.
move=> H; rewrite /mkseq.
have : forall i, i \in iota 0 n -> f (g i) = Ok (h i) by move=> i; rewrite mem_iota => /H.
elim: (iota 0 n) => [|i s IH] //= H'; rewrite H' ?mem_head //= IH // => j js.
by apply: H'; rewrite in_cons js orbT.
Qed.

Lemma enumerate_mkseq A (g : nat -> A) n : enumerate (mkseq g n) = mkseq (fun i => (i, g i)) n.
Proof.
rewrite /enumerate size_mkseq /mkseq.
by elim: (iota 0 n) => [|i s IH] //=; rewrite IH.
Qed.

Lemma ceil_div_lt n k i : 0 < k -> i < ceil_div n k -> i * k < n.
Proof.
move=> Hk; rewrite /ceil_div; case: eqP => /= [e|/eqP e].
  by rewrite addn0 => H; rewrite (divn_eq n k) e addn0 ltn_pmul2r.
rewrite addn1 ltnS => H; apply: (@leq_ltn_trans (n %/ k * k)); first by rewrite leq_mul2r H orbT.
by rewrite {2}(divn_eq n k) -addn1 leq_add2l lt0n.
Qed.

Lemma par_chunksM_mapi A B w (task : nat -> nat -> seq A -> outcome (seq B)) f s : 0 < w ->
  (forall i k c, k = get_chunk_size w (size s) -> i * k + size c <= size s ->
     task i k c = Ok (mapi (fun j x => f (i * k + j) x) c)) ->
  par_chunksM w task s = Ok (mapi f s).
Proof.
move=> Hw H; rewrite /par_chunksM.
set k := get_chunk_size w (size s); have Hk : 0 < k by apply: chunk_size_gt0.
rewrite /chunks enumerate_mkseq.
rewrite (@mapM_mkseq _ _ _ _ (fun i => mapi (fun j x => f (i * k + j) x) (chunk_at k s i))) /=.
  by rewrite -(chunks_mapi f s Hk) /chunks mapi_mkseq.
move=> i Hi; apply: H => //; rewrite size_chunk_at.
have Hik := ceil_div_lt Hk Hi.
by rewrite -(subnKC (ltnW Hik)) leq_add2l geq_min (subnKC (ltnW Hik)) leqnn orbT.
Qed.

(** [par_zip] updates the common prefix. *)
Definition zip_upd A B (f : A -> B -> A) (p : seq A) (q : seq B) :=
  [seq f x.1 x.2 | x <- zip p q] ++ drop (size q) p.

Lemma zip_updE A B (f : A -> B -> A) b0 p q :
  zip_upd f p q = mapi (fun j x => if j < size q then f x (nth b0 q j) else x) p.
Proof.
rewrite /zip_upd; elim: p q => [|x p IH] [|y q] //=; first by rewrite mapi_const map_id.
by rewrite IH mapi_cons.
Qed.

Lemma zip_upd_nil A B (f : A -> B -> A) p : zip_upd f p [::] = p.
Proof. by rewrite /zip_upd; case: p. Qed.

Lemma zip_mkseq A B (f : nat -> A) (g : nat -> B) n m : m <= n ->
  zip (mkseq f n) (mkseq g m) = mkseq (fun i => (f i, g i)) m.
Proof.
move=> H; rewrite -zip_take_l ?size_mkseq //.
have -> : take m (mkseq f n) = mkseq f m.
  by rewrite /mkseq -map_take take_iota (minn_idPl H).
by rewrite /mkseq; elim: (iota 0 m) => [|i s IH] //=; rewrite IH.
Qed.

Lemma ceil_div_mono n m k : n <= m -> ceil_div n k <= ceil_div m k.
Proof.
case: k => [|k] H; first by rewrite /ceil_div !divn0 !modn0 !add0n; case: n H; case: m.
rewrite leqNgt; apply/negP => H2.
have := ceil_div_lt (ltn0Sn k) H2.
by rewrite ltnNge (leq_trans H) // ceil_div_mul.
Qed.

Lemma drop_mkseq A (f : nat -> A) n m : drop m (mkseq f n) = mkseq (fun i => f (m + i)) (n - m).
Proof. by rewrite /mkseq -map_drop drop_iota add0n -{1}[m]addn0 iotaDl -map_comp. Qed.

Lemma mkseq_split A (f : nat -> A) n m : m <= n ->
  mkseq f n = mkseq f m ++ mkseq (fun i => f (m + i)) (n - m).
Proof.
move=> H; rewrite -drop_mkseq -{1}(cat_take_drop m (mkseq f n)).
by rewrite /mkseq -map_take take_iota (minn_idPl H).
Qed.

Lemma par_zipE A B w el (f : A -> B -> A) (a : seq A) (b : seq B) : 0 < w ->
  size b <= size a -> par_zip w el f a b = zip_upd f a b.
Proof.
move=> Hw Hab; rewrite /par_zip; set k := get_chunk_size w el.
have Hk : 0 < k by apply: chunk_size_gt0.
rewrite size_chunks /chunks zip_mkseq ?ceil_div_mono // drop_mkseq.
rewrite /mkseq -[map _ (map _ _)]map_comp -/(mkseq _ _) -/(mkseq _ _).
have -> : mkseq (fun i => chunk_at k a (ceil_div (size b) k + i))
            (ceil_div (size a) k - ceil_div (size b) k)
        = mkseq (fun i => zip_upd f (chunk_at k a (ceil_div (size b) k + i))
                                    (chunk_at k b (ceil_div (size b) k + i)))
            (ceil_div (size a) k - ceil_div (size b) k).
  apply: eq_mkseq => i; rewrite [chunk_at k b _]/chunk_at drop_oversize ?zip_upd_nil //.
  by rewrite (leq_trans (ceil_div_mul (size b) Hk)) // leq_mul2r leq_addr orbT.
rewrite -(@mkseq_split _ (fun i => zip_upd f (chunk_at k a i) (chunk_at k b i)))
        ?ceil_div_mono //.
case: b Hab => [|b0 b'] Hab; last set b := b0 :: b'.
  rewrite zip_upd_nil -[RHS](flatten_chunks a Hk); congr flatten; apply: eq_mkseq => i.
  by rewrite [chunk_at k [::] _]/chunk_at zip_upd_nil.
rewrite (zip_updE f b0) -(chunks_mapi _ a Hk) /chunks mapi_mkseq; congr flatten.
apply: eq_mkseq => i; rewrite (zip_updE f b0).
case: (leqP k 0) => [|_]; first by rewrite leqNgt Hk.
apply: eq_mapi => j x; rewrite size_chunk_at => Hj.
have Hjk : j < k by apply: leq_trans Hj (geq_minl _ _).
by rewrite size_chunk_at leq_min Hjk /= ltn_subRL nth_chunk_at.
Qed.

Lemma par_zip_eq A B w el (f : A -> B -> A) (a : seq A) (b : seq B) : 0 < w ->
  size a = size b -> par_zip w el f a b = [seq f x.1 x.2 | x <- zip a b].
Proof. by move=> Hw H; rewrite par_zipE ?H // /zip_upd -H drop_size cats0. Qed.

(** * Powers of two *)
Lemma next_pow2_ge n : n <= next_pow2 n.
Proof. by rewrite /next_pow2 up_logP. Qed.

Lemma next_pow2_pow k : next_pow2 (2 ^ k) = 2 ^ k.
Proof. by rewrite /next_pow2 up_expnK. Qed.

Lemma is_pow2P n : reflect (exists k, n = 2 ^ k) (is_pow2 n).
Proof.
apply: (iffP andP) => [[_ /eqP <-]|[k ->]]; first by exists (up_log 2 n).
by rewrite next_pow2_pow eqxx -lt0n expn_gt0.
Qed.

Lemma is_pow2_exp k : is_pow2 (2 ^ k).
Proof. by apply/is_pow2P; exists k. Qed.

(** Least power of two above. *)
Lemma next_pow2_min n k : n <= 2 ^ k -> next_pow2 n <= 2 ^ k.
Proof. by move=> H; rewrite /next_pow2 leq_exp2l // up_log_min. Qed.

Lemma iotaSr n : iota 0 n.+1 = rcons (iota 0 n) n.
Proof. by rewrite -addn1 iotaD cats1. Qed.

Lemma foldl_iotaS B (f : B -> nat -> B) b n :
  foldl f b (iota 0 n.+1) = f (foldl f b (iota 0 n)) n.
Proof. by rewrite iotaSr foldl_rcons. Qed.
