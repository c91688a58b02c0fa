(** Proofs about the interleaving semantics: threads with disjoint slices give
    the same result in every schedule. *)
From mathcomp Require Import all_ssreflect.
From Verif Require Import M_Base M_Worker M_Sched P_Base.

Set Implicit Arguments.
Unset Strict Implicit.
Unset Printing Implicit Defensive.

(** [mapacc] with a step that may fail. *)
Fixpoint mapaccM St A B (f : St -> A -> outcome (St * B)) (st : St) (s : seq A) : outcome (seq B) :=
  if s is a :: s' then
    let* q := f st a in let* r := mapaccM f q.1 s' in Ok (q.2 :: r)
  else Ok [::].

Section Sched.
Variable A : Type.
Implicit Types (m : seq A) (sl : seq (nat * nat)) (p : prog A) (t : thread A) (c d e : config A).
Implicit Types (ts : seq (seq (nat * nat) * prog A)).

(** Cell [a] belongs to one of the slices. *)
Definition owns sl (a : nat) : bool := has (fun s => s.1 <= a < s.1 + s.2) sl.

(** No cell belongs to both. *)
Definition disjoint_slices sl sl' : Prop := forall a, owns sl a -> owns sl' a -> False.

(** ** Memory *)
Lemma size_store m a v : size (store m a v) = size m.
Proof. by elim: m a => [|x m IH] [|a] //=; rewrite IH. Qed.

Lemma get_store m a v b : get (store m a v) b = if a == b then (if b < size m then Ok v else Panic) else get m b.
Proof. elim: m a b => [|x m IH] [|a] [|b] //=; first by case: eqP.
by rewrite IH eqSS ltnS. Qed.

Lemma get_size m a : is_ok (get m a) = (a < size m).
Proof. by elim: m a => [|x m IH] [|a] //=; rewrite IH. Qed.

Lemma get_ok m a x : get m a = Ok x -> a < size m.
Proof. by move=> E; rewrite -get_size E. Qed.

Lemma get_err m a : get m a <> Err.
Proof. by elim: m a => [|x m IH] [|a] //=. Qed.

Lemma get_eq m m' : size m = size m' -> (forall a, get m a = get m' a) -> m = m'.
Proof.
elim: m m' => [|x m IH] [|x' m'] //= [Hs] H; have [->] := H 0.
by rewrite (IH m') // => a; apply: (H a.+1).
Qed.

Lemma store_comm m a v b u : a != b -> store (store m a v) b u = store (store m b u) a v.
Proof.
by elim: m a b => [|x m IH] [|a] [|b] //= H; rewrite IH.
Qed.

Lemma address_owns sl k i a : address sl k i = Some a -> owns sl a.
Proof.
rewrite /address; case E: (nth _ sl k) => [s l]; case: ltnP => // Hi [<-].
have Hk : k < size sl by case: (ltnP k (size sl)) => // H; rewrite nth_default // in E; case: E Hi => _ <-.
by apply/hasP; exists (s, l); rewrite /= ?leq_addr ?ltn_add2l // -E mem_nth.
Qed.

(** ** Running a task touches only its own slices *)
Lemma exec_store sl p m a v : ~~ owns sl a ->
  exec sl p (store m a v) = (let* m' := exec sl p m in Ok (store m' a v)).
Proof.
move=> Ha; elim: p m => [|//|k i f IH|k i u p IH] m //=.
- case E: (address sl k i) => [b|] //; have Hb := address_owns E.
  have Hab : a != b by apply: contraNneq Ha => ->.
  by rewrite get_store (negbTE Hab); case: (get m b) => //= x; rewrite IH.
case E: (address sl k i) => [b|] //; have Hb := address_owns E.
have Hab : a != b by apply: contraNneq Ha => ->.
by rewrite store_comm // IH.
Qed.

Lemma exec_get sl p m m' a : ~~ owns sl a -> exec sl p m = Ok m' -> get m' a = get m a.
Proof.
move=> Ha; elim: p m => [|//|k i f IH|k i u p IH] m /=; first by case=> <-.
- by case E: (address sl k i) => [b|] //; case: (get m b) => //= x; apply: IH.
case E: (address sl k i) => [b|] // /IH ->; rewrite get_store.
by case: eqP => // Eb; move: Ha; rewrite -Eb (address_owns E).
Qed.

Lemma exec_size sl p m m' : exec sl p m = Ok m' -> size m' = size m.
Proof.
elim: p m => [|//|k i f IH|k i u p IH] m /=; first by case=> <-.
- by case: (address sl k i) => [b|] //; case: (get m b) => //= x; apply: IH.
by case: (address sl k i) => [b|] // /IH ->; rewrite size_store.
Qed.

Lemma exec_err sl p m : exec sl p m <> Err.
Proof.
elim: p m => [|//|k i f IH|k i u p IH] m //=.
- by case: (address sl k i) => [b|] //; case E: (get m b) => [x| |] //=; move: (get_err E).
by case: (address sl k i) => [b|].
Qed.

(** ** Sequential completion of a scope in progress *)
Definition thread_exec m t : outcome (seq A) :=
  match t with Running sl p => exec sl p m | Finished => Ok m | Panicked => Panic end.

Definition thread_owns t : nat -> bool := if t is Running sl _ then owns sl else fun=> false.

Definition run_all (m : seq A) (l : seq (thread A)) : outcome (seq A) := foldM thread_exec m l.

Definition as_threads ts : seq (thread A) := [seq Running q.1 q.2 | q <- ts].

Definition all_threads c : seq (thread A) := threads c ++ as_threads (to_spawn c).

(** Every two threads of a list own different cells. *)
Fixpoint separate (l : seq (thread A)) : Prop :=
  if l is t :: l' then
    (forall u, List.In u l' -> forall a, thread_owns t a -> thread_owns u a -> False) /\ separate l'
  else True.

Lemma run_all_cons m t l : run_all m (t :: l) = (let* m' := thread_exec m t in run_all m' l).
Proof. by []. Qed.

Lemma run_all_err m l : run_all m l <> Err.
Proof.
elim: l m => [|t l IH] m //; rewrite run_all_cons.
case E: (thread_exec m t) => [m'| |] //=.

by case: t E => [sl p /exec_err| |].
Qed.

Lemma run_all_cat m l l' : run_all m (l ++ l') = (let* m' := run_all m l in run_all m' l').
Proof.
elim: l m => [|t l IH] m //; rewrite cat_cons !run_all_cons.
by case: (thread_exec m t) => //= m'.
Qed.

Lemma run_all_store l m a v : (forall t, List.In t l -> ~~ thread_owns t a) ->
  run_all (store m a v) l = (let* m' := run_all m l in Ok (store m' a v)).
Proof.
elim: l m => [|t l IH] m // H; rewrite !run_all_cons.
have H1 : ~~ thread_owns t a by apply: H; left.
have H2 : forall u, List.In u l -> ~~ thread_owns u a by move=> u Hu; apply: H; right.
case: t H1 {H} => [sl p| |] //= H1; last exact: IH.
by rewrite exec_store //; case: (exec sl p m) => //= m'; apply: IH.
Qed.

Lemma run_all_get l m m' a : (forall t, List.In t l -> ~~ thread_owns t a) ->
  run_all m l = Ok m' -> get m' a = get m a.
Proof.
elim: l m => [|t l IH] m H; first by case=> <-.
rewrite run_all_cons.
have H1 : ~~ thread_owns t a by apply: H; left.
have H2 : forall u, List.In u l -> ~~ thread_owns u a by move=> u Hu; apply: H; right.
case: t H1 {H} => [sl p| |] //= H1; last by apply: IH.
by case E: (exec sl p m) => [m1| |] //= /(IH _ H2) ->; apply: exec_get E.
Qed.

Lemma separate_in l1 t l2 : separate (l1 ++ t :: l2) ->
  forall a, thread_owns t a -> forall u, List.In u l1 -> ~~ thread_owns u a.
Proof.
elim: l1 => [|s l1 IH] //= [H1 H2] a Ha u [<-|Hu]; last exact: IH H2 a Ha u Hu.
by apply/negP=> Hs; apply: (H1 t _ a Hs Ha); apply/List.in_or_app; right; left.
Qed.

Lemma separate_sub l1 t t' l2 : (forall a, thread_owns t' a -> thread_owns t a) ->
  separate (l1 ++ t :: l2) -> separate (l1 ++ t' :: l2).
Proof.
move=> Hsub; elim: l1 => [|s l1 IH] /= [H1 H2]; split=> //; first by move=> u Hu a /Hsub; apply: H1.
- move=> u Hu0; case: (@List.in_app_or _ _ _ _ Hu0) => [Hu|[<-|Hu]] a Hs Ha.
  + by apply: (H1 u _ a Hs Ha); apply/List.in_or_app; left.
  + by apply: (H1 t _ a Hs (Hsub _ Ha)); apply/List.in_or_app; right; left.
  + by apply: (H1 u _ a Hs Ha); apply/List.in_or_app; right; right.
exact: IH.
Qed.

Lemma thread_step_owns t m t' m' : thread_step t m = Some (t', m') ->
  forall a, thread_owns t' a -> thread_owns t a.
Proof.
case: t => [sl p| |] //=; case: p => [|  |k i f|k i v p].
- by case=> <- _.
- by case=> <- _.
- case: (address sl k i) => [b|]; last by case=> <- _.
  by case: (get m b) => [x| |] [<- _].
by case: (address sl k i) => [b|] [<- _].
Qed.

(** A step of any thread does not change the sequential completion. *)
Lemma thread_step_run l1 t l2 m t' m' : separate (l1 ++ t :: l2) ->
  thread_step t m = Some (t', m') -> run_all m' (l1 ++ t' :: l2) = run_all m (l1 ++ t :: l2).
Proof.
move=> Hsep.
have Hpanic : forall m1, (let* m2 := run_all m1 l1 in Panic) = Panic :> outcome (seq A).
  by move=> m1; case E: (run_all m1 l1) => [x| |] //; move: (run_all_err E).
rewrite !run_all_cat; case: t Hsep => [sl p| |] // Hsep /=.
have Hfail : Some (Panicked, m) = Some (t', m') ->
    (forall m1, run_all m1 (Running sl p :: l2) = Panic) ->
    (let* m2 := run_all m' l1 in run_all m2 (t' :: l2)) =
    (let* m2 := run_all m l1 in run_all m2 (Running sl p :: l2)).
  by case=> <- <- H; case: (run_all m l1) => [m1| |] //; rewrite /= -/(run_all _ _) H.
case: p Hsep Hfail => [|  |k i f|k i v p] Hsep Hfail.
- by case=> <- <-.
- by move=> E; apply: (Hfail E).
- case Ea: (address sl k i) => [b|]; last first.
    by move=> E; apply: (Hfail E) => m1; rewrite /run_all /= Ea.
  have Hb : forall u, List.In u l1 -> ~~ thread_owns u b.
    by apply: (separate_in Hsep); apply: (address_owns Ea).
  have Hg m1 : run_all m l1 = Ok m1 -> get m1 b = get m b by apply: run_all_get.
  case Eg: (get m b) => [x| |].
  + case=> <- <-; case E: (run_all m l1) => [m1| |] //=.
    by rewrite /run_all /= Ea (Hg _ E) Eg.
  + by move: (get_err Eg).
  case=> <- <-; case E: (run_all m l1) => [m1| |] //=.
  by rewrite /run_all /= Ea (Hg _ E) Eg.
case Ea: (address sl k i) => [b|]; last first.
  by move=> E; apply: (Hfail E) => m1; rewrite /run_all /= Ea.
have Hb : forall u, List.In u l1 -> ~~ thread_owns u b.
  by apply: (separate_in Hsep); apply: (address_owns Ea).
case=> <- <-; rewrite run_all_store //.
by case E: (run_all m l1) => [m1| |] //=; rewrite /run_all /= Ea.
Qed.

Lemma step_invariant c d : step c d -> separate (all_threads c) ->
  separate (all_threads d) /\ run_all (mem d) (all_threads d) = run_all (mem c) (all_threads c).
Proof.
case=> [sl p ts th m|ts th1 t th2 m t' m' E]; rewrite /all_threads /=.
  by rewrite -catA.
rewrite -!catA !cat_cons => H; split; last exact: thread_step_run.
by apply: separate_sub H; apply: thread_step_owns E.
Qed.

Lemma steps_invariant c d : steps c d -> separate (all_threads c) ->
  separate (all_threads d) /\ run_all (mem d) (all_threads d) = run_all (mem c) (all_threads c).
Proof.
elim=> [//|{}c d0 e H _ IH] /(step_invariant H) [Hs E].
by have [? ->] := IH Hs.
Qed.

Lemma joined_result c : joined c -> run_all (mem c) (all_threads c) = scope_result c.
Proof.
case=> E1; rewrite /all_threads E1 /scope_result /= cats0 {E1}.
elim: (threads c) (mem c) => [|t l IH] m //.
by case: t => [sl p| |] //= H; rewrite run_all_cons /= ?IH.
Qed.

Lemma run_all_tasks ts m : run_all m (as_threads ts) = exec_all ts m.
Proof.
rewrite /run_all /exec_all; elim: ts m => [|[sl p] ts IH] m //=.
by case: (exec sl p m) => //=.
Qed.

(** ** Progress and termination *)
Lemma thread_progress t m : ~~ ended t -> exists t' m', thread_step t m = Some (t', m').
Proof.
case: t => [sl p| |] // _ /=; case: p => [|  |k i f|k i v p]; try by eexists; eexists.
- by case: (address sl k i) => [b|]; [case: (get m b) => [x| |]|]; eexists; eexists.
by case: (address sl k i) => [b|]; eexists; eexists.
Qed.

Lemma not_ended_split (th : seq (thread A)) : ~~ all (@ended A) th ->
  exists th1 t th2, th = th1 ++ t :: th2 /\ ~~ ended t.
Proof.
elim: th => [|t th IH] //=; case E: (ended t) => /=.
  by move=> /IH [th1 [u [th2 [-> Hu]]]]; exists (t :: th1), u, th2.
by move=> _; exists [::], t, th; rewrite E.
Qed.

Lemma step_progress c : joined c \/ exists d, step c d.
Proof.
case: c => [[|[sl p] ts] th m]; last by right; eexists; apply: StepSpawn.
case H: (all (@ended A) th); first by left.
have [|th1 [t [th2 [-> Ht]]]] := @not_ended_split th; first by rewrite H.
have [t' [m' E]] := thread_progress m Ht.
by right; eexists; apply: StepThread E.
Qed.

(** Every execution ends: no infinite sequence of steps. *)
Definition terminates c : Prop := Acc (fun d c => step c d) c.

Definition thread_lt t' t : Prop := exists m m', thread_step t m = Some (t', m').

Lemma thread_acc t : Acc thread_lt t.
Proof.
have H0 u : ended u -> Acc thread_lt u.
  by case: u => [//| |] _; constructor => u [m [m' /=]].
case: t => [sl p| |]; [|exact: H0|exact: H0].
elim: p => [||k i f IH|k i v p IH]; constructor=> u [m [m' /=]].
- by case=> <- _; apply: H0.
- by case=> <- _; apply: H0.
- case: (address sl k i) => [b|]; last by case=> <- _; apply: H0.
  by case: (get m b) => [x| |] [<- _]; [apply: IH|apply: H0|apply: H0].
by case: (address sl k i) => [b|] [<- _]; [apply: IH|apply: H0].
Qed.

Inductive list_lt : seq (thread A) -> seq (thread A) -> Prop :=
  ListLt th1 t' t th2 : thread_lt t' t -> list_lt (th1 ++ t' :: th2) (th1 ++ t :: th2).

Lemma list_acc (l : seq (thread A)) : Acc list_lt l.
Proof.
elim: l => [|t l IH]; first by constructor=> l' H; inversion H as [[|??]].
elim: (thread_acc t) l IH => {}t _ IHt l Hl.
elim: Hl => {}l Hl IHl; constructor=> l' H.
inversion H as [th1 t' t0 th2 Hlt E1 E2].
case: th1 E1 E2 H => [|u th1] /= E1 E2 _.
  by case: E2 => Et El; rewrite Et in Hlt; apply: (IHt _ Hlt); rewrite El; constructor.
case: E2 => -> El; apply: IHl; rewrite -El.
by constructor.
Qed.

Lemma config_acc ts (l : seq (thread A)) m : terminates (Config ts l m).
Proof.
elim: ts l m => [|q ts IH] l m.
  elim: (list_acc l) m => {}l _ IHl m; constructor=> d H.
  inversion H as [|ts th1 t th2 m1 t' m' E]; subst.
  by apply: IHl; constructor; exists m, m'.
elim: (list_acc l) m => {}l _ IHl m; constructor=> d H.
inversion H as [sl p ts' th m1|ts' th1 t th2 m1 t' m' E]; subst; first exact: IH.
by apply: IHl; constructor; exists m, m'.
Qed.
End Sched.

Section Layouts.
Variable A : Type.
Implicit Types (m c : seq A) (p : prog A) (ts : seq (seq (nat * nat) * prog A)).

(** ** Chunks *)
(** A task that owns the slice [c] of the memory works on [c]. *)
Lemma get_mid (pre c post : seq A) i : i < size c ->
  get (pre ++ c ++ post) (size pre + i) = get c i.
Proof.
move=> Hi; elim: pre => [|x pre IH] //=; rewrite add0n.
by elim: c i Hi => [|x c IH] [|i] //= Hi; apply: IH.
Qed.

Lemma store_mid (pre c post : seq A) i v : i < size c ->
  store (pre ++ c ++ post) (size pre + i) v = pre ++ store c i v ++ post.
Proof.
move=> Hi; elim: pre => [|x pre IH] /=; last by rewrite IH.
by rewrite add0n; elim: c i Hi => [|x c IH] [|i] //= Hi; rewrite IH.
Qed.

Definition exec_chunk p (c : seq A) : outcome (seq A) := exec [:: (0, size c)] p c.

Lemma exec_slice p (pre c post : seq A) :
  exec [:: (size pre, size c)] p (pre ++ c ++ post) =
  (let* c' := exec_chunk p c in Ok (pre ++ c' ++ post)).
Proof.
rewrite /exec_chunk; have [n Hn] : exists n, size c = n by exists (size c).
rewrite Hn.
elim: p c Hn => [|//|k i f IH|k i u p IH] c Hn //=.
- rewrite /address /=; case: k => [|k] /=; last by rewrite nth_nil.
  case: ltnP => // Hi; rewrite add0n get_mid ?Hn //.
  by case: (get c i) => //= x; rewrite IH.
rewrite /address /=; case: k => [|k] /=; last by rewrite nth_nil.
case: ltnP => // Hi; rewrite add0n store_mid ?Hn //.
by rewrite IH // size_store.
Qed.

Section ChunkTasks.
Variables (s : seq A) (chunk : nat) (body : nat -> nat -> nat -> prog A).
Hypothesis Hchunk : 0 < chunk.
Let task j := let q := chunk_slice (size s) chunk j in ([:: q], body j chunk q.2).
Let local (q : nat * seq A) := exec_chunk (body q.1 chunk (size q.2)) q.2.

Lemma exec_chunk_tasks j k (pre : seq A) : j + k = ceil_div (size s) chunk ->
  size pre = minn (j * chunk) (size s) ->
  exec_all [seq task i | i <- iota j k] (pre ++ drop (j * chunk) s) =
  (let* r := mapM local [seq (i, chunk_at chunk s i) | i <- iota j k] in Ok (pre ++ flatten r)).
Proof.
elim: k j pre => [|k IH] j pre Hj Hp.
  rewrite addn0 in Hj; rewrite /= drop_oversize //.
  by rewrite Hj ceil_div_mul.
have Hlt : j * chunk < size s by apply: ceil_div_lt; rewrite // -Hj -addn1 leq_add2l.
have Hp1 : size pre = j * chunk by rewrite Hp; apply/minn_idPl/ltnW.
rewrite /= {1}/exec_all /= /task /chunk_slice /= -/task -(size_chunk_at chunk s j).
rewrite -{1}Hp1 -[drop (j * chunk) s](cat_take_drop chunk) -/(chunk_at chunk s j) drop_drop.
rewrite exec_slice {1}/local /=.
case E: (exec_chunk _ _) => [c'| |] //=.
have Hc : size c' = size (chunk_at chunk s j) by rewrite (exec_size E).
rewrite -/(exec_all _ _) catA -mulSn IH ?addSnnS //.
  by case: (mapM _ _) => //= r; rewrite -catA.
rewrite size_cat Hp1 Hc size_chunk_at mulSn addnC.
by rewrite addn_minl subnK // ltnW.
Qed.
End ChunkTasks.

(** The whole loop is what the model's [par_chunksM] computes. *)
Lemma exec_par_chunks w (s : seq A) (body : nat -> nat -> nat -> prog A) : 0 < w ->
  exec_all (chunk_tasks w (size s) body) s =
  par_chunksM w (fun j chunk (c : seq A) => exec_chunk (body j chunk (size c)) c) s.
Proof.
move=> Hw; rewrite /chunk_tasks /par_chunksM /chunks enumerate_mkseq.
have := @exec_chunk_tasks s _ body (chunk_size_gt0 (size s) Hw) 0 _ [::] (erefl _).
by rewrite mul0n min0n drop0 => ->.
Qed.

(** ** Layouts with disjoint slices *)
Definition disjoint_tasks ts : Prop := forall i j q0, i < j < size ts ->
  disjoint_slices (nth q0 ts i).1 (nth q0 ts j).1.

Lemma disjoint_separate ts : disjoint_tasks ts -> separate (as_threads ts).
Proof.
elim: ts => [|q ts IH] //= H; split; last first.
  by apply: IH => i j d Hij; apply: (H i.+1 j.+1 d).
move=> u Hu a /= Ha Hb.
have [i Hi Ei] : exists2 i, i < size ts & u = Running (nth q ts i).1 (nth q ts i).2.
  elim: {IH H} ts Hu => [|q' ts IH] //= [<-|/IH [i Hi ->]]; first by exists 0.
  by exists i.+1.
by apply: (H 0 i.+1 q _ a Ha); rewrite //= ?ltnS //; rewrite Ei in Hb.
Qed.

Lemma chunk_slice_end n chunk j : j * chunk < n ->
  (chunk_slice n chunk j).1 + (chunk_slice n chunk j).2 = minn (j.+1 * chunk) n.
Proof. by move=> H; rewrite /= addn_minr subnKC ?(ltnW H) // mulSn addnC. Qed.

Lemma chunk_slice_lt n chunk i j a : 0 < chunk -> i < j ->
  a < (chunk_slice n chunk i).1 + (chunk_slice n chunk i).2 -> (chunk_slice n chunk j).1 <= a -> False.
Proof.
move=> Hc Hij /= H1 H2; move: (leq_ltn_trans H2 H1); rewrite ltnNge => /negP; apply.
apply: (@leq_trans (i * chunk + chunk)); first by rewrite leq_add2l geq_minl.
by rewrite addnC -mulSn leq_mul2r Hij orbT.
Qed.

Lemma chunk_tasks_disjoint w n (body : nat -> nat -> nat -> prog A) : 0 < w ->
  disjoint_tasks (chunk_tasks w n body).
Proof.
move=> Hw i j d; rewrite size_map size_iota => /andP [Hij Hj] a.
rewrite !(nth_map 0) ?size_iota ?(ltn_trans Hij) // !nth_iota ?(ltn_trans Hij) // !add0n.
rewrite /owns !has_seq1 -/(chunk_slice _ _ _) => /andP [_ H1] /andP [H2 _].
exact: chunk_slice_lt (chunk_size_gt0 n Hw) Hij H1 H2.
Qed.

Lemma cell_tasks_disjoint n (body : nat -> prog A) : disjoint_tasks (cell_tasks n body).
Proof.
move=> i j d; rewrite size_map size_iota => /andP [Hij Hj] a.
rewrite !(nth_map 0) ?size_iota ?(ltn_trans Hij) // !nth_iota ?(ltn_trans Hij) // !add0n.
rewrite /owns !has_seq1 /= !addn1 !ltnS -!eqn_leq => /eqP Ei /eqP Ej.
by move: Hij; rewrite Ei Ej ltnn.
Qed.

Lemma chunk_cell_tasks_disjoint w n n2 (body : nat -> nat -> nat -> prog A) : 0 < w ->
  disjoint_tasks (chunk_cell_tasks w n n2 body).
Proof.
move=> Hw i j d; rewrite size_map size_iota => /andP [Hij Hj] a.
rewrite !(nth_map 0) ?size_iota ?(ltn_trans Hij) // !nth_iota ?(ltn_trans Hij) // !add0n.
have Hc := chunk_size_gt0 n Hw; set chunk := get_chunk_size w n in Hc *.
have Hin k b : k < minn (ceil_div n chunk) n2 ->
    (chunk_slice n chunk k).1 <= b < (chunk_slice n chunk k).1 + (chunk_slice n chunk k).2 -> b < n.
  rewrite leq_min => /andP [Hk _] /andP [_ H]; apply: leq_trans H _.
  by rewrite chunk_slice_end ?geq_minr // ceil_div_lt.
rewrite /owns /= !orbF !addn1 !ltnS -!eqn_leq.
case/orP=> [Hi|/eqP <-]; case/orP=> [Hj'|/eqP E].
- by case/andP: Hi => _ H1; case/andP: Hj' => H2 _; apply: chunk_slice_lt Hc Hij H1 H2.
- by have := Hin i a (ltn_trans Hij Hj) Hi; rewrite -E ltnNge leq_addr.
- by have := Hin j _ Hj Hj'; rewrite ltnNge leq_addr.
by move/eqP: E; rewrite eqn_add2l => /eqP E; move: Hij; rewrite E ltnn.
Qed.

(** ** Loop bodies *)
Lemma get_cat_l (c1 : seq A) x c2 : get (c1 ++ x :: c2) (size c1) = Ok x.
Proof. by elim: c1. Qed.

Lemma store_cat_l (c1 : seq A) x c2 v : store (c1 ++ x :: c2) (size c1) v = c1 ++ v :: c2.
Proof. by elim: c1 => [|y c1 IH] //=; rewrite IH. Qed.

Lemma exec_loop_from St (f : St -> A -> outcome (St * A)) (c1 c2 : seq A) n st :
  n = size c1 + size c2 -> (forall st x, f st x <> Err) ->
  exec [:: (0, n)] (loop_from f (size c1) (size c2) st) (c1 ++ c2) =
  (let* r := mapaccM f st c2 in Ok (c1 ++ r)).
Proof.
move=> Hn He; elim: c2 c1 st Hn => [|x c2 IH] c1 st Hn //=.
rewrite /address /= Hn -[X in X < _]addn0 ltn_add2l /= add0n get_cat_l /=.
case E: (f st x) => [[st' y]| |] //=; last by move: (He _ _ E).
rewrite /address /= -[X in X < _]addn0 ltn_add2l /= add0n store_cat_l.
rewrite -cat_rcons -(size_rcons c1 y) -Hn IH ?size_rcons ?addSnnS //.
by case: (mapaccM f st' c2) => //= r; rewrite cat_rcons.
Qed.

Lemma exec_loop St (f : St -> A -> outcome (St * A)) st (c : seq A) :
  (forall st x, f st x <> Err) -> exec_chunk (loop f st (size c)) c = mapaccM f st c.
Proof.
move=> He; rewrite /exec_chunk /loop (@exec_loop_from _ f [::] c) //=.
by case: (mapaccM f st c).
Qed.

Lemma exec_accumulate St B (f : St -> A -> B -> St * A) ys st x :
  exec_chunk (accumulate f ys st) [:: x] =
  Ok [:: (foldl (fun q y => f q.1 q.2 y) (st, x) ys).2].
Proof.
rewrite /exec_chunk /=; elim: ys st x => [|y ys IH] st x //=.
by case E: (f st x y) => [st' x'] /=; rewrite IH.
Qed.

(** ** A chunk and a cell of a second vector *)
(** A task that owns [c] and [x] works on these. *)
Definition exec_chunk_cell p c (x : A) : outcome (seq A * A) :=
  let* m := exec [:: (0, size c); (size c, 1)] p (rcons c x) in
  Ok (take (size c) m, last x m).

Lemma exec_slices p (pre c mid post : seq A) x :
  exec [:: (size pre, size c); (size pre + size c + size mid, 1)] p (pre ++ c ++ mid ++ x :: post) =
  (let* q := exec_chunk_cell p c x in Ok (pre ++ q.1 ++ mid ++ q.2 :: post)).
Proof.
rewrite /exec_chunk_cell; have [n Hn] : exists n, size c = n by exists (size c).
rewrite Hn; suff H x0 : exec [:: (size pre, n); (size pre + n + size mid, 1)] p
      (pre ++ c ++ mid ++ x :: post) =
    (let* q := (let* m := exec [:: (0, n); (n, 1)] p (rcons c x) in Ok (take n m, last x0 m)) in
     Ok (pre ++ q.1 ++ mid ++ q.2 :: post)) by apply: H.
elim: p c x Hn => [|//|k i f IH|k i u p IH] c x Hn /=.
- by rewrite last_rcons -cats1 take_cat Hn ltnn subnn take0 cats0.
- rewrite /address /=; case: k => [|[|k]] /=; last by rewrite nth_nil.
  + case: ltnP => // Hi; rewrite add0n get_mid ?Hn // -cats1.
    rewrite -[c ++ [:: x]]/([::] ++ c ++ [:: x]) -[i in RHS]/(size (Nil A) + i) get_mid ?Hn //.
    by case: (get c i) => //= y; rewrite IH // cats1.
  + case: i => [|i] //=; rewrite !addn0.
    rewrite [in get _ _]catA [in get _ _]catA -[in get _ _]Hn -!size_cat get_cat_l /=.
    by rewrite -cats1 -Hn get_cat_l /= Hn IH // cats1.
rewrite /address /=; case: k => [|[|k]] /=; last by rewrite nth_nil.
+ case: ltnP => // Hi; rewrite add0n store_mid ?Hn // -cats1.
  rewrite -[c ++ [:: x]]/([::] ++ c ++ [:: x]) -[i in RHS]/(size (Nil A) + i) store_mid ?Hn //.
  by rewrite IH ?size_store // cats1.
+ case: i => [|i] //=; rewrite !addn0.
  rewrite [in store _ _]catA [in store _ _]catA -[in store _ _]Hn -!size_cat store_cat_l /=.
  by rewrite -!catA -cats1 -[in RHS]Hn store_cat_l /= Hn IH // cats1.
Qed.

Lemma exec_chunk_cell_size p c x q : exec_chunk_cell p c x = Ok q -> size q.1 = size c.
Proof.
rewrite /exec_chunk_cell; case E: (exec _ _ _) => [m| |] //= [<-] /=.
by rewrite size_takel // (exec_size E) size_rcons.
Qed.

Section ChunkCellTasks.
Variables (s : seq A) (chunk : nat) (body : nat -> nat -> nat -> prog A).
Hypothesis Hchunk : 0 < chunk.
Let task j := let q := chunk_slice (size s) chunk j in ([:: q; (size s + j, 1)], body j chunk q.2).
Let local (q : nat * (seq A * A)) :=
  exec_chunk_cell (body q.1 chunk (size q.2.1)) q.2.1 q.2.2.

Lemma exec_chunk_cell_tasks (xs : seq A) j (pre pre2 : seq A) : j + size xs = ceil_div (size s) chunk ->
  size pre = minn (j * chunk) (size s) -> size pre2 = j ->
  exec_all [seq task i | i <- iota j (size xs)] ((pre ++ drop (j * chunk) s) ++ pre2 ++ xs) =
  (let* r := mapM local (zip (iota j (size xs)) (zip [seq chunk_at chunk s i | i <- iota j (size xs)] xs)) in
   Ok ((pre ++ flatten (unzip1 r)) ++ pre2 ++ unzip2 r)).
Proof.
elim: xs j pre pre2 => [|x xs IH] j pre pre2 Hj Hp Hp2.
  rewrite addn0 in Hj; rewrite /= drop_oversize //.
  by rewrite Hj ceil_div_mul.
have Hlt : j * chunk < size s by apply: ceil_div_lt; rewrite // -Hj -addn1 leq_add2l.
have Hp1 : size pre = j * chunk by rewrite Hp; apply/minn_idPl/ltnW.
have Hd : size s + j = size pre + size (chunk_at chunk s j) + size (drop chunk (drop (j * chunk) s) ++ pre2).
  rewrite -{1}(cat_take_drop (j * chunk) s) size_cat size_takel ?(ltnW Hlt) // Hp1.
  by rewrite -{1}(cat_take_drop chunk (drop (j * chunk) s)) !size_cat -/(chunk_at _ _ _) Hp2 !addnA.
rewrite /= {1}/exec_all /= /task /chunk_slice /= -/task -(size_chunk_at chunk s j).
rewrite -{1}Hp1 -[drop (j * chunk) s](cat_take_drop chunk) -/(chunk_at chunk s j).
rewrite Hd -!catA [drop _ _ ++ pre2 ++ _]catA exec_slices {1}/local /=.
case E: (exec_chunk_cell _ _ _) => [q| |] //=.
have Hc := exec_chunk_cell_size E.
rewrite -/(exec_all _ _) -cat_rcons drop_drop -mulSn.
rewrite rcons_cat -!catA.
have := IH j.+1 (pre ++ q.1) (rcons pre2 q.2); rewrite -!catA => -> //.
- by case: (mapM _ _) => //= r; rewrite -!catA cat_rcons.
- by rewrite addSnnS.
- by rewrite size_cat Hp1 Hc size_chunk_at mulSn addnC addn_minl subnK // ltnW.
by rewrite size_rcons Hp2.
Qed.
End ChunkCellTasks.

Lemma mapM_map B C D (f : B -> C) (g : C -> outcome D) l : mapM g (map f l) = mapM (g \o f) l.
Proof. by elim: l => [|x l IH] //=; rewrite IH. Qed.

Lemma exec_par_chunk_cell w (s : seq A) (x : nat -> A) (body : nat -> nat -> nat -> prog A) : 0 < w ->
  let chunk := get_chunk_size w (size s) in
  let K := get_num_spawned_threads w (size s) in
  exec_all (chunk_cell_tasks w (size s) K body) (s ++ mkseq x K) =
  (let* r := mapM (fun i => exec_chunk_cell (body i chunk (size (chunk_at chunk s i)))
                              (chunk_at chunk s i) (x i)) (iota 0 K) in
   Ok (flatten (unzip1 r) ++ unzip2 r)).
Proof.
move=> Hw chunk K; have EK : K = ceil_div (size s) chunk by rewrite /K num_spawned_chunks.
have := @exec_chunk_cell_tasks s chunk body (chunk_size_gt0 _ Hw) (mkseq x K) 0 [::] [::].
rewrite size_mkseq mul0n min0n drop0 /= => H.
rewrite /chunk_cell_tasks -/chunk -EK minnn H //.
suff -> : zip (iota 0 K) (zip [seq chunk_at chunk s i | i <- iota 0 K] (mkseq x K)) =
   [seq (i, (chunk_at chunk s i, x i)) | i <- iota 0 K] by rewrite mapM_map.
by rewrite /mkseq; elim: (iota 0 K) => [|i l IH] //=; rewrite IH.
Qed.

(** ** One cell for every task *)
Lemma exec_cell_tasks (xs : seq A) (body : nat -> prog A) j (pre : seq A) : size pre = j ->
  exec_all [seq ([:: (i, 1)], body i) | i <- iota j (size xs)] (pre ++ xs) =
  (let* r := mapM (fun q => exec_chunk (body q.1) [:: q.2]) (zip (iota j (size xs)) xs) in
   Ok (pre ++ flatten r)).
Proof.
elim: xs j pre => [|x xs IH] j pre Hp //=.
rewrite /exec_all /= -{1}Hp.
rewrite (exec_slice (body j) pre [:: x] xs).
case E: (exec_chunk _ _) => [c| |] //=.
have Hc : size c = 1 by rewrite (exec_size E).
case: c E Hc => [|y [|??]] // E _ /=; rewrite -/(exec_all _ _) -cat_rcons IH ?size_rcons ?Hp //.
by case: (mapM _ _) => //= r; rewrite cat_rcons.
Qed.
End Layouts.
