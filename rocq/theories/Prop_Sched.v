(** Property C07: chunked worker loops are schedule independent. *)
From Coq Require Import NArith.
From mathcomp Require Import all_ssreflect all_algebra.
From Verif Require Import M_Base M_Worker M_Field M_Domain M_Fft M_Poly M_Fri M_Sched M_SchedLoops.
From Verif Require Import P_Base P_Sched Instances.

Set Implicit Arguments.
Unset Strict Implicit.
Unset Printing Implicit Defensive.
Import GRing.Theory.

(** * Specification *)
(** Whatever the order in which the calling thread spawns tasks [ts] and the
    spawned tasks take their steps on the memory [m]: the scope is never stuck
    and always ends, and each time with result [r]. *)
Definition every_schedule A (ts : seq (seq (nat * nat) * prog A)) (m : seq A)
    (r : outcome (seq A)) : Prop :=
  [/\ Acc (fun d c => step c d) (scope_start ts m),
      forall c, steps (scope_start ts m) c -> joined c \/ exists d, step c d,
      exists2 c, steps (scope_start ts m) c & joined c &
      forall c, steps (scope_start ts m) c -> joined c -> scope_result c = r].

(** Tasks without common cells. *)
Definition disjoint A (ts : seq (seq (nat * nat) * prog A)) : Prop :=
  forall i j t, i < j < size ts -> forall cell,
    ~ ((exists2 s, s \in (nth t ts i).1 & s.1 <= cell < s.1 + s.2) /\
       (exists2 s, s \in (nth t ts j).1 & s.1 <= cell < s.1 + s.2)).

(** * Every interleaving gives the result of running one task after the other *)
Lemma steps_trans A (c d e : config A) : steps c d -> steps d e -> steps c e.
Proof. by elim=> // {}c d0 d1 H _ IH /IH; apply: StepsStep. Qed.

Lemma reaches_joined A (c : config A) : exists2 d, steps c d & joined d.
Proof.
have := config_acc (to_spawn c) (threads c) (mem c).
rewrite /terminates; case: c => ts th m /=; elim=> {ts th m} c _ IH.
case: (step_progress c) => [H|[d Hd]]; first by exists c => //; apply: StepsRefl.
by have [e He Je] := IH d Hd; exists e => //; apply: StepsStep Hd He.
Qed.

Lemma disjointP A (ts : seq (seq (nat * nat) * prog A)) : disjoint ts <-> disjoint_tasks ts.
Proof.
by split=> H i j t Hij a; [move=> /hasP Hi /hasP Hj|case=> /hasP Hi /hasP Hj]; apply: (H i j t Hij a).
Qed.

Theorem C07_every_interleaving A (ts : seq (seq (nat * nat) * prog A)) (m : seq A) :
  disjoint ts -> every_schedule ts m (exec_all ts m).
Proof.
move=> /disjointP /disjoint_separate Hs; split.
- exact: config_acc.
- by move=> c _; apply: step_progress.
- exact: reaches_joined.
move=> c Hc Jc; rewrite -(joined_result Jc).
by have [|_ ->] := steps_invariant Hc; rewrite ?/all_threads //= run_all_tasks.
Qed.

(** * The chunks of a worker *)
(** [chunks_mut] cuts [n] elements into consecutive pieces that cover all of
    them, [get_num_spawned_threads] tasks are spawned, one for every piece, and no
    two share an element. *)
Theorem C07_chunks A w n (body : nat -> nat -> nat -> prog A) t : (0 < w)%N ->
  let ts := chunk_tasks w n body in
  let slice j := nth (0, 0) (nth t ts j).1 0 in
  [/\ size ts = get_num_spawned_threads w n,
      forall j, (j < size ts)%N -> (nth t ts j).1 = [:: slice j] /\ (0 < (slice j).2)%N,
      (0 < size ts)%N -> (slice 0).1 = 0,
      forall j, (j.+1 < size ts)%N -> (slice j.+1).1 = ((slice j).1 + (slice j).2)%N &
      (0 < size ts)%N -> ((slice (size ts).-1).1 + (slice (size ts).-1).2)%N = n] /\
  [/\ forall i, (i < n)%N ->
        exists j, (j < size ts)%N /\ ((slice j).1 <= i < (slice j).1 + (slice j).2)%N &
      disjoint ts].
Proof.
move=> Hw ts slice; have Hc := chunk_size_gt0 n Hw; set chunk := get_chunk_size w n in Hc.
have Hs : size ts = ceil_div n chunk by rewrite size_map size_iota.
have Ht j : (j < size ts)%N -> (nth t ts j).1 = [:: chunk_slice n chunk j].
  by move=> Hj; rewrite (nth_map 0%N) ?size_iota -?Hs // nth_iota -?Hs.
have Hsl j : (j < size ts)%N -> slice j = chunk_slice n chunk j by move=> /Ht; rewrite /slice => ->.
have Hlt j : (j < size ts)%N -> (j * chunk < n)%N by rewrite Hs; apply: ceil_div_lt.
have Hnext j : (j.+1 < size ts)%N -> (slice j.+1).1 = ((slice j).1 + (slice j).2)%N.
  move=> Hj; rewrite !Hsl ?(ltnW Hj) // chunk_slice_end; last by apply: Hlt; apply: ltnW.
  by apply/esym/minn_idPl/ltnW/Hlt.
have Hlast j : j.+1 = size ts -> ((slice j).1 + (slice j).2)%N = n.
  move=> Hj; have Hj' : (j < size ts)%N by rewrite -Hj.
  by rewrite Hsl // chunk_slice_end ?Hlt //; apply/minn_idPr; rewrite Hj Hs ceil_div_mul.
split; split.
- by rewrite Hs num_spawned_chunks.
- move=> j Hj; rewrite Hsl // Ht //; split=> //=.
  by rewrite leq_min Hc subn_gt0 Hlt.
- by move=> H; rewrite Hsl.
- exact: Hnext.
- by move=> H; apply: Hlast; rewrite prednK.
- move=> i Hi; exists (i %/ chunk)%N.
  have Hj : (i %/ chunk < size ts)%N.
    by rewrite Hs ltn_divLR // (leq_trans Hi) // ceil_div_mul.
  split=> //; rewrite Hsl // leq_trunc_div chunk_slice_end ?Hlt //= leq_min Hi andbT.
  by rewrite ltn_ceil.
by apply/disjointP/chunk_tasks_disjoint.
Qed.

(** A loop over chunks gives, in every schedule, what each task computes on its
    own chunk, put together in order. *)
Theorem C07_chunk_loop A w (s : seq A) (body : nat -> nat -> nat -> prog A) : (0 < w)%N ->
  every_schedule (chunk_tasks w (size s) body) s
    (par_chunksM w (fun j chunk c => exec [:: (0, size c)%N] (body j chunk (size c)) c) s).
Proof.
move=> Hw; rewrite -[par_chunksM _ _ _](exec_par_chunks s body Hw).
apply: C07_every_interleaving; exact/disjointP/chunk_tasks_disjoint.
Qed.

(** * The loops of the crate *)
Local Open Scope ring_scope.
Section Loops.
Variable F : fieldType.
Implicit Types (a b : seq F) (g : F).

Lemma mapaccM_total St (f : St -> F -> St * F) st a :
  mapaccM (total f) st a = Ok (mapacc f st a).
Proof. by elim: a st => [|x a IH] st //=; case: (f st x) => st' y /=; rewrite IH. Qed.

Lemma par_chunksM_ok A B w (task : nat -> nat -> seq A -> outcome (seq B)) f (s : seq A) :
  (forall i k c, task i k c = Ok (f i k c)) -> par_chunksM w task s = Ok (par_chunks w f s).
Proof.
move=> H; rewrite /par_chunksM /par_chunks /mapi.
suff -> : forall l, mapM (fun p => task p.1 (get_chunk_size w (size s)) p.2) l =
    Ok [seq f p.1 (get_chunk_size w (size s)) p.2 | p <- l] by [].
by elim=> [|q l IH] //=; rewrite H /= IH.
Qed.

Lemma par_chunksM_eq A B w (task task' : nat -> nat -> seq A -> outcome (seq B)) (s : seq A) :
  (forall i, task i (get_chunk_size w (size s)) (chunk_at (get_chunk_size w (size s)) s i) =
             task' i (get_chunk_size w (size s)) (chunk_at (get_chunk_size w (size s)) s i)) ->
  par_chunksM w task s = par_chunksM w task' s.
Proof.
move=> H; rewrite /par_chunksM /chunks enumerate_mkseq /mkseq; congr bind.
by elim: (iota _ _) => [|i l IH] //=; rewrite H IH.
Qed.

Lemma mapaccM_iota (f : nat -> outcome F) a i :
  mapaccM (fun idx _ => let* y := f idx in Ok (idx.+1, y)) i a =
  mapM (fun j => f (i + j)%N) (iota 0 (size a)).
Proof.
elim: a i => [|x a IH] i //=; rewrite addn0; case: (f i) => //= y; rewrite IH.
rewrite -[1%N]/(1 + 0)%N iotaDl.
suff -> : mapM (fun j => f (i.+1 + j)%N) (iota 0 (size a)) =
  mapM (fun j => f (i + j)%N) [seq (1 + j)%N | j <- iota 0 (size a)] by [].
by elim: (iota _ _) => [|j l IH'] //=; rewrite IH' addSnnS.
Qed.

(** src/fft/mod.rs:110-123. *)
Theorem C07_distribute_powers w a g : (0 < w)%N ->
  every_schedule (chunk_tasks w (size a) (distribute_powers_body g)) a
    (Ok (distribute_powers a w g)).
Proof.
move=> Hw; have := C07_chunk_loop a (distribute_powers_body g) Hw.
rewrite (@par_chunksM_ok _ _ _ _ (fun i chunk c => mapacc (fun u v => (u * g, v * u)) (g ^+ (i * chunk)%N) c)); first exact: id.
by move=> i k c; rewrite -/(exec_chunk _ c) exec_loop // mapaccM_total.
Qed.

(** The loops that treat the elements one by one: scale, negate, add_constant,
    square, pow and others (src/polynomials/mod.rs). *)
Theorem C07_each w a f : (0 < w)%N ->
  every_schedule (chunk_tasks w (size a) (each_body f)) a (Ok (par_each w f a)).
Proof.
move=> Hw; have := C07_chunk_loop a (each_body f) Hw.
rewrite (@par_chunksM_ok _ _ _ _ (fun _ _ c => map f c)); first exact: id.
move=> i k c; rewrite -/(exec_chunk _ c) exec_loop // mapaccM_total; congr Ok.
by elim: c => [|x c IH] //=; rewrite IH.
Qed.

(** add_assign, sub_assign, mul_assign and others on vectors of equal length. *)
Theorem C07_zip B w (f : F -> B -> F) a (b : seq B) : (0 < w)%N -> size a = size b ->
  every_schedule (chunk_tasks w (size a) (zip_body f b)) a (Ok (par_zip w (size a) f a b)).
Proof.
move=> Hw Hab; have := C07_chunk_loop a (zip_body f b) Hw.
set k := get_chunk_size w (size a).
rewrite (@par_chunksM_eq _ _ _ _ (fun i k c => Ok (zip_upd f c (chunk_at k b i)))).
  rewrite (@par_chunksM_ok _ _ _ _ (fun i k c => zip_upd f c (chunk_at k b i))); last by [].
  rewrite (par_zipE (size a) f Hw); last by rewrite Hab.
  suff : par_chunks w (fun i k0 c => zip_upd f c (chunk_at k0 b i)) a = zip_upd f a b by move=> ->.
  case: b Hab => [|b0 b'] Hab; first by rewrite (size0nil Hab) /par_chunks /chunks /ceil_div div0n mod0n.
  rewrite (zip_updE f b0) /par_chunks -/k -(chunks_mapi _ a (chunk_size_gt0 (size a) Hw)) /chunks.
  rewrite !mapi_mkseq; congr flatten; apply: eq_mkseq => i; rewrite (zip_updE f b0).
  apply: eq_mapi => j x; rewrite !size_chunk_at => Hj.
  have Hjk : (j < k)%N by apply: leq_trans Hj (geq_minl _ _).
  by rewrite leq_min Hjk /= ltn_subRL nth_chunk_at.
move=> i; rewrite -/k -/(exec_chunk _ _) exec_loop; last by move=> [|y bs] x.
have : size (chunk_at k a i) = size (chunk_at k b i) by rewrite !size_chunk_at Hab.
elim: (chunk_at k a i) (chunk_at k b i) => [|x c IH] [|y d] //= [H].
by rewrite IH // /zip_upd /= H !drop_size !cats0.
Qed.

(** src/fft/fft.rs:68-125: both scopes of [parallel_fft]. *)
Theorem C07_parallel_fft w a omega log_n log_cpus : (0 < w)%N -> (log_cpus <= log_n)%N ->
  size a = (2 ^ log_n)%N ->
  exists tmp r,
  [/\ every_schedule (cell_tasks (2 ^ log_cpus) (shuffle_body a omega log_n log_cpus))
        (nseq (2 ^ log_cpus) (nseq (2 ^ (log_n - log_cpus)) 0)) (Ok tmp),
      every_schedule (chunk_tasks w (size a) (unshuffle_body tmp log_cpus)) a (Ok r) &
      parallel_fft a w omega log_n log_cpus = Ok r].
Proof.
move=> Hw Hl Hs; set new_n := (log_n - log_cpus)%N.
pose sh j := shuffle xpredT a omega log_n new_n (2 ^ log_cpus) j.
have Hsh j : size (sh j) = (2 ^ new_n)%N.
  rewrite /sh /shuffle; set f := (fun te i => _); set st := ([::], 1).
  suff H l : size (foldl f st l).1 = (size st.1 + size l)%N by rewrite H size_iota.
  elim: l st => [|i l IH] st /=; first by rewrite addn0.
  by rewrite IH /f /= size_rcons addSnnS.
have [ser Eser] : exists ser, forall j, serial_fft (sh j) (omega ^+ (2 ^ log_cpus)%N) new_n = Ok (ser j).
  by eexists => j; rewrite /serial_fft Hsh eqxx; reflexivity.
exists [seq ser j | j <- iota 0 (2 ^ log_cpus)]; eexists; split.
- suff <- : exec_all (cell_tasks (2 ^ log_cpus) (shuffle_body a omega log_n log_cpus))
    (nseq (2 ^ log_cpus) (nseq (2 ^ new_n) 0)) = Ok [seq ser j | j <- iota 0 (2 ^ log_cpus)].
    by apply: C07_every_interleaving; apply/disjointP/cell_tasks_disjoint.
  have := @exec_cell_tasks _ (nseq (2 ^ log_cpus) (nseq (2 ^ new_n) 0))
            (shuffle_body a omega log_n log_cpus) 0 [::] (erefl _).
  rewrite size_nseq /cell_tasks => ->.
  suff H : forall l k, mapM (fun q => exec_chunk (shuffle_body a omega log_n log_cpus q.1) [:: q.2])
      (zip l (nseq (size l + k) (nseq (2 ^ new_n) 0))) = Ok [seq [:: ser j] | j <- l].
    by have := H (iota 0 (2 ^ log_cpus)) 0%N; rewrite size_iota addn0 => -> /=; rewrite flatten_map1.
  elim=> [|j l IH] k; first by case: (nseq _ _).
  rewrite addSn /= {1}/exec_chunk /= -/new_n -/(sh j) Eser /=.
  by rewrite IH.
- have := C07_chunk_loop a (unshuffle_body [seq ser j | j <- iota 0 (2 ^ log_cpus)] log_cpus) Hw.
  rewrite (@par_chunksM_ok _ _ _ _ (fun i chunk c =>
     mapacc (fun idx _ => (idx.+1, nth 0 (nth [::] [seq ser j | j <- iota 0 (2 ^ log_cpus)]
        (idx %% 2 ^ log_cpus)%N) (idx %/ 2 ^ log_cpus)%N)) (i * chunk)%N c)); first exact: id.
  by move=> i k c; rewrite -/(exec_chunk _ c) exec_loop // mapaccM_total.
rewrite /parallel_fft Hl -/new_n Hs leqnn.
suff -> : mapM (fun j => serial_fft (shuffle xpredT a omega log_n new_n (2 ^ log_cpus) j)
   (omega ^+ (2 ^ log_cpus)%N) new_n) (iota 0 (2 ^ log_cpus)) = Ok [seq ser j | j <- iota 0 (2 ^ log_cpus)].
  by rewrite /=; reflexivity.
by elim: (iota _ _) => [|j l IH] //=; rewrite -/(sh j) Eser IH.
Qed.

Lemma iota_loop w n (f : nat -> outcome F) : (0 < w)%N -> (forall i, f i <> Err) ->
  every_schedule (chunk_tasks w n (fun j chunk len =>
      loop (fun idx _ => let* y := f idx in Ok (idx.+1, y)) (j * chunk)%N len))
    (nseq n 0)
    (par_chunksM w (fun i chunk (c : seq F) => mapM (fun j => f (i * chunk + j)%N) (iota 0 (size c)))
      (nseq n 0)).
Proof.
move=> Hw He; have := C07_chunk_loop (nseq n (0 : F)) (fun j chunk len =>
      loop (fun idx _ => let* y := f idx in Ok (idx.+1, y)) (j * chunk)%N len) Hw.
rewrite size_nseq (@par_chunksM_eq _ _ _ _
  (fun i chunk (c : seq F) => mapM (fun j => f (i * chunk + j)%N) (iota 0 (size c)))); first exact: id.
move=> i; rewrite -/(exec_chunk _ _) exec_loop ?mapaccM_iota // => st x.
by case E: (f st) => [y| |] //; move: (He _ E).
Qed.

(** src/fri/fri_on_values.rs:60-105: one folding layer, also when an index is out
    of range (then the scope panics in every schedule). *)
Theorem C07_fold w (two_inv : F) omegas_inv stride challenge values next_domain_size :
  (0 < w)%N ->
  size values = (next_domain_size * 2)%N ->
  every_schedule (chunk_tasks w next_domain_size
      (fold_body two_inv omegas_inv stride challenge values next_domain_size))
    (nseq next_domain_size 0)
    (fold_layer w two_inv omegas_inv stride challenge values next_domain_size).
Proof.
move=> Hw Hs; rewrite /fold_layer Hs eqxx; apply: iota_loop => // i.
case: ltnP => // _; case E1: (get values _) => [x| |] //=; last by move: (get_err E1).
case E2: (get values _) => [y| |] //=; last by move: (get_err E2).
by case E3: (get omegas_inv _) => [z| |] //=; move: (get_err E3).
Qed.

(** src/polynomials/mod.rs:400-413. *)
Theorem C07_interleave w (results : seq (seq F)) factor n : (0 < w)%N ->
  every_schedule (chunk_tasks w n (interleave_body results factor)) (nseq n 0)
    (interleave w results factor n).
Proof.
move=> Hw; apply: (iota_loop _ Hw) => i.
case E1: (get results _) => [r| |] //=; last by move: (get_err E1).
exact: get_err.
Qed.

(** src/polynomials/mod.rs:685-711: [evaluate_at] adds up the cells that the
    tasks leave behind. *)
Theorem C07_evaluate_at w (p : hpoly F Coefficients) g : (0 < w)%N ->
  let n := size (p_coeffs p) in
  exists subvalues,
    every_schedule (cell_tasks (get_num_spawned_threads w n)
        (evaluate_body (p_coeffs p) (get_chunk_size w n) g))
      (nseq (get_num_spawned_threads w n) 0) (Ok subvalues) /\
    evaluate_at p w g = \sum_(v <- subvalues) v.
Proof.
move=> Hw n; set K := get_num_spawned_threads w n; set chunk := get_chunk_size w n.
pose sub j := (foldl (fun sx (x : F) => (sx.1 + sx.2 * x, sx.2 * g)) (0, g ^+ (j * chunk)%N)
  (chunk_at chunk (p_coeffs p) j)).1.
exists (mkseq sub K); split.
  suff <- : exec_all (cell_tasks K (evaluate_body (p_coeffs p) chunk g)) (nseq K 0) = Ok (mkseq sub K).
    by apply: C07_every_interleaving; apply/disjointP/cell_tasks_disjoint.
  have := @exec_cell_tasks _ (nseq K 0) (evaluate_body (p_coeffs p) chunk g) 0 [::] (erefl _).
  rewrite size_nseq /cell_tasks => ->.
  have H : forall l k, mapM (fun q => exec_chunk (evaluate_body (p_coeffs p) chunk g q.1) [:: q.2])
      (zip l (nseq (size l + k) 0)) = Ok [seq [:: sub j] | j <- l].
    elim=> [|j l IH] k; first by case: (nseq _ _).
    rewrite addSn /= exec_accumulate /=.
    suff -> : (foldl (fun (q : F * F) y => (q.1 * g, q.2 + q.1 * y)) (g ^+ (j * chunk), 0)
      (chunk_at chunk (p_coeffs p) j)).2 = sub j by rewrite IH.
    rewrite /sub; move: (g ^+ _) (0 : F) => u v.
    by elim: (chunk_at _ _ _) u v => [|x c IHc] u v //=.
  by have := H (iota 0 K) 0%N; rewrite size_iota addn0 => -> /=; rewrite flatten_map1.
rewrite /evaluate_at -/n -/K -/chunk.
have EK : K = ceil_div n chunk by rewrite /K num_spawned_chunks.
have -> : [seq (foldl (fun sx (x : F) => (sx.1 + sx.2 * x, sx.2 * g)) (0, g ^+ (q.1 * chunk)%N) q.2.1).1
          | q <- enumerate (zip (chunks chunk (p_coeffs p)) (iota 0 K))] = mkseq sub K.
  have -> : zip (chunks chunk (p_coeffs p)) (iota 0 K) = mkseq (fun j => (chunk_at chunk (p_coeffs p) j, j)) K.
    rewrite /chunks -/n -EK -[iota 0 K in LHS](map_id) -/(mkseq id K).
    by rewrite zip_mkseq.
  by rewrite enumerate_mkseq /mkseq -map_comp.
rewrite size_mkseq subnn cats0.
by rewrite -[RHS](big_map id xpredT id) map_id -foldl_idx.
Qed.

(** src/polynomials/mod.rs:889-954: both scopes of [batch_inversion]. *)
Lemma exec_running n pre old c (s : F) : size old = size c -> n = (size pre + size old)%N ->
  exec [:: (0, n); (n, 1)]%N (running_products (size pre) c) (pre ++ old ++ [:: s]) =
  Ok (pre ++ mapacc (fun s x => (s * x, s * x)) s c ++ [:: foldl *%R s c]).
Proof.
move=> Hs Hn; elim: c pre old s Hs Hn => [|x c IH] pre [|y old] s //= [Hs] Hn.
have G m v u : size m = n -> get (m ++ [:: v]) n = Ok v /\ store (m ++ [:: v]) n u = m ++ [:: u].
  by move=> <-; rewrite get_cat_l store_cat_l.
have Hm : size (pre ++ y :: old) = n by rewrite size_cat Hn.
have Hlt : (size pre < n)%N by rewrite Hn -addSnnS ltn_addr.
rewrite !addn0 -cat_cons catA (G _ _ _ s Hm).1 /= (G _ _ _ _ Hm).2 (G _ _ _ s Hm).1 /=.
rewrite /address /= Hlt add0n -catA cat_cons store_cat_l.
rewrite -cat_rcons -(size_rcons pre (s * x)) IH ?size_rcons ?addSnnS //.
by rewrite cat_rcons.
Qed.

Lemma exec_running_chunk c (one : F) : size c = size (nseq (size c) one) ->
  exec_chunk_cell (running_products 0 c) (nseq (size c) one) 1 =
  Ok (mapacc (fun s x => (s * x, s * x)) 1 c, foldl *%R 1 c).
Proof.
move=> Hs; rewrite /exec_chunk_cell -cats1 (@exec_running _ [::]) ?size_nseq //=.
have Hm : size (mapacc (fun s x => (s * x, s * x)) (1 : F) c) = size c.
  by move: (1 : F); elim: c {Hs} => [|x c IH] u //=; rewrite IH.
by rewrite take_cat Hm ltnn subnn take0 cats0 last_cat.
Qed.

Lemma exec_unwind n c don ys (s : F) : size ys = size c -> n = (size c + size don)%N ->
  exists s', exec [:: (0, n); (n, 1)]%N (unwind_products (zip (rev (iota 0 (size c))) ys)) (c ++ don ++ [:: s]) =
  Ok (rev (mapacc (fun s (ag : F * F) => (s * ag.1, ag.2 * s)) s (zip (rev c) ys)) ++ don ++ [:: s']).
Proof.
elim/last_ind: c don ys s => [|c x IH] don [|y ys] s //= Hs Hn; first by exists s.
  by rewrite size_rcons in Hs.
rewrite size_rcons in Hs Hn *; case: Hs => Hs.
rewrite -[(size c).+1]addn1 iotaD /= add0n cats1 !rev_rcons /=.
have G m v u : size m = n -> get (m ++ [:: v]) n = Ok v /\ store (m ++ [:: v]) n u = m ++ [:: u].
  by move=> <-; rewrite get_cat_l store_cat_l.
have Hc : (size c < n)%N by rewrite Hn ltn_addr.
have Hm z : size (c ++ z :: don) = n by rewrite size_cat Hn addSnnS.
rewrite /address /= Hc add0n -cats1 -catA /= get_cat_l /= store_cat_l.
rewrite addn0 -[c ++ y :: _]/(c ++ (y :: don) ++ [:: s]) catA (G _ _ _ s (Hm y)).1 /=.
rewrite -catA /= get_cat_l /= store_cat_l -[c ++ _ :: _]/(c ++ (y * s :: don) ++ [:: s]) catA.
rewrite (G _ _ _ s (Hm _)).1 /= (G _ _ _ _ (Hm _)).2 -catA.
have [|s' E] := IH (y * s :: don) ys (s * x) Hs; first by rewrite Hn /= addSnnS.
by exists s'; rewrite E rev_cons cat_rcons.
Qed.

Lemma mapM_fst T B C (f : T -> outcome (B * C)) (h : T -> B) (l : seq T) :
  (forall i, List.In i l -> exists y, f i = Ok (h i, y)) ->
  exists2 r, mapM f l = Ok r & unzip1 r = map h l.
Proof.
elim: l => [|i l IH] H; first by exists [::].
have [y Ey] := H i (or_introl (erefl _)).
have [|r Er Eu] := IH; first by move=> k Hk; apply: H; right.
by exists ((h i, y) :: r); rewrite /= ?Ey ?Er //= Eu.
Qed.

Lemma In_iota i j k : List.In i (iota j k) -> (j <= i < j + k)%N.
Proof.
elim: k j => [|k IH] j //= [<-|/IH]; first by rewrite leqnn addnS ltnS leq_addr.
by rewrite addSnnS => /andP [/ltnW -> ->].
Qed.

Lemma size_mapacc' St A B (f : St -> A -> St * B) st (c : seq A) : size (mapacc f st c) = size c.
Proof. by elim: c st => [|x c IH] st //=; case: (f st x) => st' y /=; rewrite IH. Qed.

Theorem C07_batch_inversion w a : (0 < w)%N ->
  let n := size a in
  let threads := get_num_spawned_threads w n in
  exists grand_products subproducts,
  [/\ size grand_products = n, size subproducts = threads,
      every_schedule (chunk_cell_tasks w n threads (batch_body1 a)) (nseq n 1 ++ nseq threads 1)
        (Ok (grand_products ++ subproducts)) &
      let product := \prod_(x <- subproducts) x in
      if product == 0 then batch_inversion_vec a w = Err
      else
        let subinverses := mkseq (fun i => product^-1 *
               \prod_(jp <- enumerate subproducts | jp.1 != i) jp.2) threads in
        exists result rest,
        [/\ size result = n,
            every_schedule (chunk_cell_tasks w n threads (batch_body2 grand_products))
              (a ++ subinverses) (Ok (result ++ rest)) &
            batch_inversion_vec a w = Ok result]].
Proof.
move=> Hw n K; set chunk := get_chunk_size w n.
have Hchunk : (0 < chunk)%N by apply: chunk_size_gt0.
have EK : K = ceil_div n chunk by rewrite /K num_spawned_chunks.
pose C i := chunk_at chunk a i.
pose rp (c : seq F) := mapacc (fun s x => (s * x, s * x)) 1 c.
pose gp := flatten (mkseq (fun i => rp (C i)) K); pose sub := mkseq (fun i => foldl *%R 1 (C i)) K.
have Hrp c : size (rp c) = size c by apply: size_mapacc'.
have Hgp : size gp = n.
  transitivity (size (flatten (chunks chunk a))); last by rewrite flatten_chunks.
  rewrite /gp !size_flatten; congr sumn.
  rewrite /chunks -EK /shape /mkseq -!map_comp; apply: eq_map => i /=; exact: Hrp.
have Hsub : size sub = K by rewrite size_mkseq.
exists gp, sub; split; [exact: Hgp|exact: Hsub| |].
  suff <- : exec_all (chunk_cell_tasks w n K (batch_body1 a)) (nseq n 1 ++ nseq K 1) = Ok (gp ++ sub).
    by apply: C07_every_interleaving; apply/disjointP/chunk_cell_tasks_disjoint.
  have := @exec_par_chunk_cell _ w (nseq n 1) (fun _ => 1 : F) (batch_body1 a) Hw.
  rewrite size_nseq -/K -/chunk => /=.
  have -> : mkseq (fun _ => 1 : F) K = nseq K 1.
    by rewrite /mkseq -[K in RHS](size_iota 0); elim: (iota 0 K) => [|i l IH] //=; rewrite IH.
  move=> ->.
  have -> : mapM (fun i => exec_chunk_cell (batch_body1 a i chunk (size (chunk_at chunk (nseq n (1 : F)) i)))
      (chunk_at chunk (nseq n (1 : F)) i) 1) (iota 0 K) = Ok (mkseq (fun i => (rp (C i), foldl *%R 1 (C i))) K).
    rewrite -[iota 0 K](map_id) -/(mkseq id K); apply: mapM_mkseq => i Hi.
    have -> : chunk_at chunk (nseq n 1) i = nseq (size (C i)) (1 : F).
      have E : all (pred1 (1 : F)) (chunk_at chunk (nseq n 1) i).
        by rewrite /chunk_at; apply/allP => x /mem_take /mem_drop; rewrite mem_nseq => /andP [_].
      by rewrite (all_pred1P _ _ E) !size_chunk_at size_nseq.
    by rewrite /batch_body1 exec_running_chunk ?size_nseq.
  by rewrite /= /gp /sub /unzip1 /unzip2 /mkseq -!map_comp.
have Efold (x : F) (l : seq F) : foldl *%R x l = x * \prod_(y <- l) y.
  elim: l x => [|y l IH] x /=; first by rewrite big_nil mulr1.
  by rewrite IH big_cons mulrA.
move=> product; pose inv i := product^-1 * \prod_(jp <- enumerate sub | jp.1 != i) jp.2.
have Einv i : foldl (fun tmp (jp : nat * F) => if i == jp.1 then tmp else tmp * jp.2)
    product^-1 (enumerate sub) = inv i.
  rewrite /inv; elim: (enumerate sub) (product^-1) => [|q l IH] x /=; first by rewrite big_nil mulr1.
  by rewrite IH big_cons eq_sym; case: eqP => //= _; rewrite mulrA.
have Ebatch : batch_inversion_vec a w =
  (let* product_inverse := ok_or (inverse product) in
   let subinverses := mkseq (fun i =>
      foldl (fun tmp jp => if i == jp.1 then tmp else tmp * jp.2)
            product_inverse (enumerate sub)) K in
   let don := flatten (mkseq (fun i => rev (mapacc (fun s (ag : F * F) => (s * ag.1, ag.2 * s))
        (nth 0 subinverses i) (zip (rev (C i)) (rcons (behead (rev (chunk_at chunk gp i))) 1)))) K) in
   Ok (don ++ drop (size don) a)).
  rewrite /batch_inversion_vec -/n -/K -/chunk.
  have -> : [seq (mapacc (fun s x => (s * x, s * x)) 1 q.1, foldl *%R 1 q.1)
      | q <- zip (chunks chunk a) (iota 0 K)] = mkseq (fun i => (rp (C i), foldl *%R 1 (C i))) K.
    rewrite /chunks -/n -EK -[iota 0 K in LHS](map_id) -/(mkseq id K) zip_mkseq //.
    by rewrite /mkseq -map_comp.
  rewrite /unzip1 /unzip2 size_mkseq subnn cats0.
  rewrite [X in flatten X](_ : _ = mkseq (fun i => rp (C i)) K); last by rewrite /mkseq -map_comp.
  rewrite -/gp Hgp subnn cats0 [[seq _.2 | _ <- _]](_ : _ = sub); last by rewrite /mkseq -map_comp.
  rewrite Efold mul1r -/product; case: (ok_or _) => //= pinv.
  set sinv := mkseq _ K; have Es : sinv = mkseq (nth 0 sinv) K.
    by rewrite -[LHS](mkseq_nth 0) size_mkseq.
  rewrite [in zip _ sinv]Es /chunks -/n Hgp -EK zip_mkseq // zip_mkseq //.
  by rewrite /mkseq -map_comp -/(mkseq _ _).
have Hg i : (i < K)%N -> size (rcons (behead (rev (chunk_at chunk gp i))) (1 : F)) = size (C i).
  move=> Hi; rewrite size_rcons size_behead size_rev !size_chunk_at Hgp -/n prednK //.
  by rewrite leq_min Hchunk subn_gt0 ceil_div_lt // -EK.
rewrite Ebatch /inverse; case: eqP => //= _; rewrite -/inv.
pose res i := rev (mapacc (fun s (ag : F * F) => (s * ag.1, ag.2 * s)) (inv i)
   (zip (rev (C i)) (rcons (behead (rev (chunk_at chunk gp i))) 1))).
have Hres i : (i < K)%N -> size (res i) = size (C i).
  by move=> Hi; rewrite /res size_rev size_mapacc' size_zip size_rev Hg // minnn.
have [|r Er Eu] := @mapM_fst _ _ _ (fun i => exec_chunk_cell (batch_body2 gp i chunk (size (C i))) (C i) (inv i))
   res (iota 0 K).
  move=> i /In_iota /= Hi; rewrite /exec_chunk_cell /batch_body2 -[rcons (C i) _]cats1.
  have [||s' E] := @exec_unwind (size (C i)) (C i) [::] (rcons (behead (rev (chunk_at chunk gp i))) 1) (inv i).
  - exact: Hg.
  - by rewrite addn0.
  exists s'; rewrite [exec _ _ _]E /= -/(res i) last_cat /= take_cat Hres // ltnn subnn take0 cats0 //.
have Hsz : size (flatten (mkseq res K)) = n.
  transitivity (size (flatten (chunks chunk a))); last by rewrite flatten_chunks.
  rewrite !size_flatten; congr sumn; rewrite /chunks -EK /shape /mkseq -!map_comp.
  by apply/eq_in_map => i /=; rewrite mem_iota => /Hres.
exists (flatten (mkseq res K)), (unzip2 r); split; first exact: Hsz.
- rewrite /mkseq -Eu -/(mkseq _ _); suff <- : exec_all (chunk_cell_tasks w n K (batch_body2 gp)) (a ++ mkseq inv K) = 
      Ok (flatten (unzip1 r) ++ unzip2 r).
    by apply: C07_every_interleaving; apply/disjointP/chunk_cell_tasks_disjoint.
  by have := @exec_par_chunk_cell _ w a inv (batch_body2 gp) Hw; rewrite -/n -/K -/chunk /= Er.
set don := flatten _; have Edon : don = flatten (mkseq res K).
  rewrite /don; congr flatten; apply/eq_in_map => i; rewrite mem_iota => /= Hi.
  by rewrite nth_mkseq // Einv.
by rewrite Edon drop_oversize ?cats0 // Hsz.
Qed.
End Loops.

(** * Examples *)
(** Two increments of one cell: here the slices overlap, and schedules differ. *)
Definition increment : seq (nat * nat) * prog nat := ([:: (0, 1)%N], Rd 0 0 (fun x => Wr 0 0 x.+1 Ret)).

Example C07_ex_race :
  (exists c, [/\ steps (scope_start [:: increment; increment] [:: 0%N]) c, joined c & scope_result c = Ok [:: 2%N]]) /\
  (exists c, [/\ steps (scope_start [:: increment; increment] [:: 0%N]) c, joined c & scope_result c = Ok [:: 1%N]]).
Proof.
split.
- exists (Config [::] [:: Finished; Finished] [:: 2%N]); split=> //.
  do 2! apply: StepsStep (StepSpawn _ _ _ _ _) _.
  do 3! (apply: StepsStep; first by apply: (@StepThread _ _ [::]); reflexivity).
  do 3! (apply: StepsStep; first by apply: (@StepThread _ _ [:: Finished]); reflexivity).
  exact: StepsRefl.
exists (Config [::] [:: Finished; Finished] [:: 1%N]); split=> //.
do 2! apply: StepsStep (StepSpawn _ _ _ _ _) _.
apply: StepsStep; first by apply: (@StepThread _ _ [::]); reflexivity.
apply: StepsStep; first by apply: (@StepThread _ _ [:: _]); reflexivity.
do 2! (apply: StepsStep; first by apply: (@StepThread _ _ [::]); reflexivity).
do 2! (apply: StepsStep; first by apply: (@StepThread _ _ [:: _]); reflexivity).
exact: StepsRefl.
Qed.

(** Seven elements on three processors: four tasks, the last with one element. *)
Example C07_ex_chunks :
  [seq t.1 | t <- chunk_tasks 3 7 (fun _ _ _ => Ret : prog nat)] =
    [:: [:: (0, 2)]; [:: (2, 2)]; [:: (4, 2)]; [:: (6, 1)]]%N /\ get_num_spawned_threads 3 7 = 4%N.
Proof. by []. Qed.

(** Tasks that run one after the other on the example above. *)
Example C07_ex_powers :
  exec_all (chunk_tasks 3 7 (distribute_powers_body (mk257 2))) (nseq 7 (mk257 3)) =
    Ok (distribute_powers (nseq 7 (mk257 3)) 3 (mk257 2)) /\
  nats (distribute_powers (nseq 7 (mk257 3)) 3 (mk257 2)) = [:: 3; 6; 12; 24; 48; 96; 192]%N.
Proof. by split; vm_compute. Qed.

(** A layer with a table of inverses that is too short: the second task panics,
    and so does the scope in every schedule. *)
Example C07_ex_panic :
  every_schedule (chunk_tasks 2 2 (fold_body (mk257 129) [:: mk257 1] 1 (mk257 5)
      [seq mk257 (N.of_nat i) | i <- iota 1 4] 2)) (nseq 2 0) Panic.
Proof.
rewrite -(_ : fold_layer 2 (mk257 129) [:: mk257 1] 1 (mk257 5)
      [seq mk257 (N.of_nat i) | i <- iota 1 4] 2 = Panic); last by vm_compute.
exact: C07_fold.
Qed.

Print Assumptions C07_every_interleaving.
Print Assumptions C07_chunks.
Print Assumptions C07_chunk_loop.
Print Assumptions C07_distribute_powers.
Print Assumptions C07_each.
Print Assumptions C07_zip.
Print Assumptions C07_parallel_fft.
Print Assumptions C07_fold.
Print Assumptions C07_interleave.
Print Assumptions C07_evaluate_at.
Print Assumptions C07_batch_inversion.
