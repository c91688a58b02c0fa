(** Proofs about FRI. *)
From Coq Require Import NArith Lia.
From mathcomp Require Import all_ssreflect all_algebra.
From Verif Require Import M_Base M_Worker M_Field M_Domain M_Fft M_Poly M_Bytes M_Merkle M_Fri.
From Verif Require Import Spec SpecPoly SpecHash SpecFri.
From Verif Require Import P_Base P_Fft P_Domain P_Poly P_Lde P_PolyOps P_Wf P_Bytes P_Merkle.

Set Implicit Arguments.
Unset Strict Implicit.
Unset Printing Implicit Defensive.
Import GRing.Theory.
Local Open Scope ring_scope.

Lemma iotaSr_from m n : iota m n.+1 = rcons (iota m n) (m + n)%N.
Proof. by rewrite -addn1 iotaD cats1. Qed.

(** * Chunks of pairs *)
Section PairChunks.
Local Open Scope nat_scope.
Variables (A B : Type) (z : A) (f : seq A -> B).

Definition pair_map (s : seq A) : seq B :=
  mkseq (fun i => f [:: nth z s (2 * i); nth z s (2 * i + 1)]) (size s %/ 2).

Lemma chunks_pairs (s : seq A) m : size s = m * 2 ->
  chunks 2 s = mkseq (fun i => [:: nth z s (2 * i); nth z s (2 * i + 1)]) m.
Proof.
move=> Hs; have Hc : ceil_div (size s) 2 = m by rewrite /ceil_div Hs mulnK // modnMl addn0.
apply: (@eq_from_nth _ [::]); rewrite /chunks !size_mkseq Hc // => i Hi.
rewrite !nth_mkseq //; apply: (@eq_from_nth _ z).
  rewrite size_chunk_at //= (minn_idPl _) // Hs -mulnBl -{1}(mul1n 2) leq_mul2r /=.
  by rewrite subn_gt0.
move=> j; rewrite size_chunk_at // => /leq_trans /(_ (geq_minl _ _)) Hj.
by rewrite nth_chunk_at //; case: j Hj => [|[|]] // _; rewrite mulnC ?addn0.
Qed.

Lemma pair_chunks w (outputs : seq B) (inputs : seq A) : 0 < w -> size outputs * 2 = size inputs ->
  flatten [seq [seq f x.2 | x <- zip oi.1 (chunks 2 oi.2)]
    | oi <- zip (chunks (get_chunk_size w (size outputs)) outputs)
                (chunks (get_chunk_size w (size outputs) * 2) inputs)] = pair_map inputs.
Proof.
move=> Hw Hs; set k := get_chunk_size w _.
have Hk : 0 < k by apply: chunk_size_gt0.
set m := size outputs in Hs *.
have Hc : ceil_div (size inputs) (k * 2) = ceil_div m k.
  by rewrite /ceil_div -Hs divnMr // -muln_modl // muln_eq0 orbF.
have -> : [seq [seq f x.2 | x <- zip oi.1 (chunks 2 oi.2)]
    | oi <- zip (chunks k outputs) (chunks (k * 2) inputs)] =
    chunks k (pair_map inputs).
  rewrite [chunks k outputs]/chunks [chunks (k * 2) inputs]/chunks [chunks k (pair_map _)]/chunks size_mkseq -Hs mulnK // Hs Hc zip_mkseq // /mkseq -map_comp.
  apply/eq_in_map => i; rewrite mem_iota add0n => /andP [_ Hi] /=.
  have Hb := ceil_div_lt Hk Hi.
  set r := minn k (m - i * k).
  have Hsz : size (chunk_at (k * 2) inputs i) = r * 2.
    by rewrite size_chunk_at // -Hs mulnA -mulnBl minnMl.
  rewrite (chunks_pairs Hsz).
  apply: (@eq_from_nth _ (f [::])).
    by rewrite size_map size_zip size_mkseq !size_chunk_at // size_mkseq -Hs mulnK // minnn.
  move=> j; rewrite size_map size_zip size_mkseq size_chunk_at // -/m -/r minnn => Hj.
  have Hjk : j < k by apply: leq_trans Hj (geq_minl _ _).
  have Hij : i * k + j < m.
    by rewrite -ltn_subRL; apply: leq_trans Hj (geq_minr _ _).
  rewrite (nth_map (f [::], [::])) ?size_zip ?size_mkseq ?size_chunk_at // ?minnn //.
  rewrite nth_zip ?size_mkseq ?size_chunk_at //= nth_mkseq //.
  rewrite (nth_chunk_at (f [::]) (pair_map inputs) i Hjk) nth_mkseq -?Hs ?mulnK //.
  have H1 : 2 * j + 1 < k * 2 by rewrite addn1 mulnC -[_.+2]/(j.+1 * 2) leq_mul2r.
  have H0 : 2 * j < k * 2 by apply: ltn_trans H1; rewrite addn1.
  rewrite !nth_chunk_at //.
  have E : i * (k * 2) + 2 * j = 2 * (i * k + j) by rewrite mulnDr mulnA (mulnC _ 2).
  by rewrite addnA E.
by rewrite flatten_chunks.
Qed.
End PairChunks.

(** * Folding polynomials and vectors *)
Section Fold.
Variable F : fieldType.
Hypothesis H2 : (2%:R : F) != 0.
Implicit Types (f : {poly F}) (b g x : F).

Lemma coef_fold_poly b f i : (fold_poly b f)`_i = f`_(2 * i) + b * f`_(2 * i + 1).
Proof.
rewrite coef_poly; case: ltnP => // Hi.
have Hi2 : (size f <= 2 * i)%N by apply: leq_trans Hi _; rewrite mul2n -addnn leq_addr.
by rewrite !nth_default ?mulr0 ?addr0 // (leq_trans Hi2) // leq_addr.
Qed.

Lemma size_fold_poly b f n : (size f <= 2 * n)%N -> (size (fold_poly b f) <= n)%N.
Proof.
move=> Hs; apply/leq_sizeP => j Hj; rewrite coef_fold_poly.
have Hj2 : (size f <= 2 * j)%N by apply: leq_trans Hs _; rewrite leq_mul2l.
by rewrite !nth_default ?mulr0 ?addr0 // (leq_trans Hj2) // leq_addr.
Qed.

Lemma sum_even_odd (a : nat -> F) n :
  \sum_(0 <= i < 2 * n) a i = \sum_(0 <= i < n) (a (2 * i)%N + a (2 * i + 1)%N).
Proof.
elim: n => [|n IH]; first by rewrite !big_nil.
by rewrite mulnS add2n 2?big_nat_recr //= IH [RHS]big_nat_recr //= addn1 addrA.
Qed.

Lemma horner_even_odd f x n : (size f <= 2 * n)%N ->
  f.[x] = (\sum_(0 <= i < n) f`_(2 * i) * (x ^+ 2) ^+ i) +
          x * (\sum_(0 <= i < n) f`_(2 * i + 1) * (x ^+ 2) ^+ i).
Proof.
move=> Hs; rewrite (horner_coef_wide _ Hs).
rewrite -(big_mkord predT (fun i => f`_i * x ^+ i)) sum_even_odd big_split /= big_distrr /=.
congr (_ + _); apply: eq_bigr => i _; rewrite -exprM //.
by rewrite exprD expr1 [x * _]mulrC mulrA.
Qed.

Lemma fold_at_poly b f x : x != 0 ->
  fold_at b x f.[x] f.[- x] = (fold_poly b f).[x ^+ 2].
Proof.
move=> Hx; have Hs : (size f <= 2 * size f)%N by rewrite mul2n -addnn leq_addr.
rewrite (horner_even_odd x Hs) (horner_even_odd (- x) Hs) sqrrN.
set e := \sum_(_ <= _ < _) _; set o := \sum_(_ <= _ < _) _.
have -> : (fold_poly b f).[x ^+ 2] = e + b * o.
  rewrite (horner_coef_wide _ (size_fold_poly b Hs)).
  rewrite -(big_mkord predT (fun i => (fold_poly b f)`_i * (x ^+ 2) ^+ i)).
  rewrite /e /o big_distrr -big_split /=; apply: eq_bigr => i _.
  by rewrite coef_fold_poly mulrDl mulrA.
rewrite /fold_at; congr (_ + b * _).
  by rewrite mulNr addrACA subrr addr0 -mulr2n -(mulr_natr e) mulfK.
rewrite mulNr opprD opprK addrACA subrr add0r -mulr2n -(mulr_natl (x * o)).
by rewrite -mulf_div divff // mul1r [x * o]mulrC mulfK.
Qed.

Lemma fold_valueE two_inv oi b y0 y1 : two_inv = (2%:R : F)^-1 ->
  fold_value two_inv oi b y0 y1 = fold_at b oi^-1 y0 y1.
Proof.
move=> ->; rewrite /fold_value /fold_at mulrDl addrC; congr (_ + _).
by rewrite invfM invrK [b * _]mulrC -!mulrA; congr (_ * _); rewrite [b * _]mulrC mulrCA mulrA.
Qed.

Lemma size_fold_vec b g (v : seq F) : size (fold_vec b g v) = (size v %/ 2)%N.
Proof. by rewrite size_mkseq. Qed.

Lemma size_fold_vecs bs g (v : seq F) k : size v = (2 ^ (size bs + k))%N ->
  size (fold_vecs bs g v) = (2 ^ k)%N.
Proof.
elim: bs g v => [|b bs IH] g v //= Hv; apply: IH.
by rewrite size_fold_vec Hv addSn expnS mulKn.
Qed.

Lemma fold_vecs_rcons bs b g (v : seq F) :
  fold_vecs (rcons bs b) g v = fold_vec b (g ^+ (2 ^ size bs)) (fold_vecs bs g v).
Proof. by elim: bs g v => [|b' bs IH] g v /=; rewrite ?expr1 // IH -exprM -expnS. Qed.

Lemma fold_polys_rcons bs b f : fold_polys (rcons bs b) f = fold_poly b (fold_polys bs f).
Proof. by rewrite /fold_polys -cats1 foldl_cat. Qed.

Lemma size_fold_polys bs f n : (size f <= 2 ^ size bs * n)%N -> (size (fold_polys bs f) <= n)%N.
Proof.
elim/last_ind: bs n => [|bs b IH] n; first by rewrite mul1n.
by rewrite size_rcons expnSr -mulnA fold_polys_rcons => /IH; apply: size_fold_poly.
Qed.

(** values on the whole group to values on its square *)
Lemma fold_vec_evals b g f n : (0 < n)%N -> (2 * n).-primitive_root g ->
  fold_vec b g (evals f 1 g (2 * n)) = evals (fold_poly b f) 1 (g ^+ 2) n.
Proof.
move=> Hn Hg; have Hg0 : g != 0.
  apply/eqP => E; have := prim_expr_order Hg; rewrite E expr0n muln_eq0 (eqn0Ngt n) Hn /=.
  by move/eqP; rewrite eq_sym oner_eq0.
have Hh : g ^+ n = -1.
  have : (g ^+ n) ^+ 2 == 1 by rewrite -exprM mulnC (prim_expr_order Hg).
  rewrite sqrf_eq1 => /orP [|/eqP //]; rewrite -(prim_order_dvd Hg) => /dvdn_leq.
  by move=> /(_ Hn); rewrite mul2n -addnn -[X in (_ <= X)%N]addn0 leq_add2l leqNgt Hn.
rewrite /fold_vec size_evals mulKn //; apply/eq_in_map => i; rewrite mem_iota add0n => /= Hi.
have Hi2 : (i < 2 * n)%N by rewrite mul2n -addnn (leq_trans Hi) // leq_addr.
rewrite !nth_evals // ?mul2n -?addnn ?ltn_add2r // exprD Hh mulrN1 mulrN !mul1r.
by rewrite fold_at_poly ?expf_neq0 // -!exprM mulnC.
Qed.

Lemma fold_vecs_evals bs g f k : (2 ^ (size bs + k)).-primitive_root g ->
  fold_vecs bs g (evals f 1 g (2 ^ (size bs + k))) =
  evals (fold_polys bs f) 1 (g ^+ (2 ^ size bs)) (2 ^ k).
Proof.
elim: bs g f => [|b bs IH] g f /=; first by rewrite expr1.
rewrite addSn expnS => Hg; rewrite fold_vec_evals ?expn_gt0 // IH -?exprM -?expnS //.
by have := exp_prim_root Hg 2; rewrite gcdnMr mulKn.
Qed.
End Fold.

(** * The prover *)
Section Prover.
Variables (F : fieldType) (fp : ff_params F) (H : hash_fun).
Hypothesis Hok : ff_ok fp.
Notation S := (ff_S fp).
Notation std := (std fp).
Variable w : worker.
Hypothesis Hw : (0 < w)%N.

Let H2 : (2%:R : F) != 0. Proof. by case: Hok. Qed.

Lemma fri_two_inv : inverse (fri_two F) = Some 2%:R^-1.
Proof. by rewrite /fri_two -mulr2n inverse_neq0. Qed.

Lemma nth_powers (g : F) n i : (i < n)%N -> (powers g n)`_i = g ^+ i.
Proof. by move=> Hi; rewrite (nth_map 0%N) ?size_iota // nth_iota. Qed.

Lemma size_powers (g : F) n : size (powers g n) = n.
Proof. by rewrite size_map size_iota. Qed.

Lemma fold_layerE (g : F) M stride b (v : seq F) n : (0 < stride)%N ->
  size v = (n * 2)%N -> (n * stride <= M)%N ->
  fold_layer w 2%:R^-1 (powers g^-1 M) stride b v n = Ok (fold_vec b (g ^+ stride) v).
Proof.
move=> Hst Hs HM; rewrite /fold_layer Hs eqxx.
pose f (idx : nat) (_ : F) := fold_at b (g ^+ stride ^+ idx) v`_idx v`_(idx + n).
rewrite (@par_chunksM_mapi _ _ _ _ f) //.
  by congr Ok; rewrite /fold_vec Hs mulnK // mapi_nseq; apply: eq_map.
move=> i k s _; rewrite size_nseq => Hi.
rewrite -[iota 0 (size s)]map_id (@mapM_mkseq _ _ _ id (fun j => f (i * k + j)%N 0)); last first.
  move=> j Hj /=; set idx := (i * k + j)%N.
  have Hidx : (idx < n)%N by apply: leq_trans Hi; rewrite ltn_add2l.
  have Hlt : (idx * stride < M)%N by apply: leq_trans HM; rewrite ltn_mul2r Hst.
  rewrite Hidx !(get_nth 0) ?Hs ?muln2 -?addnn ?ltn_add2r ?size_powers //; last first.
    by rewrite (leq_trans Hidx) // leq_addr.
  rewrite /= fold_valueE // nth_powers // exprVn invrK /f.
  by rewrite mulnC exprM.
by congr Ok; rewrite (mapi_as_mkseq _ _ 0); apply: eq_map.
Qed.

(** Root of the tree over a vector of 2^L values, and the challenge drawn from
    it. *)
Definition vroot L (v : seq F) : digest := nth zero_digest (lvl H (leaf_hashes fp H v) L) 0.
Definition vtree L (v : seq F) : tree := Tree (2 ^ L) (pref H (leaf_hashes fp H v) L L).
Definition vchal L (v : seq F) : F :=
  if encode_root_into_challenge fp (vroot L v) is Ok b then b else 0.
Definition vchal_ok L (v : seq F) : bool :=
  if encode_root_into_challenge fp (vroot L v) is Ok _ then true else false.

Lemma encode_vroot L v : encode_root_into_challenge fp (vroot L v) =
  if vchal_ok L v then Ok (vchal L v) else Panic.
Proof.
rewrite /vchal_ok /vchal /encode_root_into_challenge bytes_to_fieldE.
by case: (from_repr _ _).
Qed.

Lemma get_root_vtree L v : size v = (2 ^ L)%N -> (0 < L)%N -> get_root (vtree L v) = Ok (vroot L v).
Proof. by move=> Hs HL; rewrite /get_root pref_root // size_map. Qed.

Lemma challenge_vtree L v : size v = (2 ^ L)%N -> (0 < L)%N ->
  get_challenge_scalar_from_root fp (vtree L v) = if vchal_ok L v then Ok (vchal L v) else Panic.
Proof. by move=> Hs HL; rewrite /get_challenge_scalar_from_root get_root_vtree //= encode_vroot. Qed.

(** The challenges of the first [i] layers of a vector of 2^K values. *)
Fixpoint chals K (g : F) (v : seq F) (i : nat) : seq F :=
  if i is i'.+1 then rcons (chals K g v i') (vchal (K - i') (fold_vecs (chals K g v i') g v))
  else [::].
Definition layer K g v i := fold_vecs (chals K g v i) g v.

Lemma size_chals K g v i : size (chals K g v i) = i.
Proof. by elim: i => //= i IH; rewrite size_rcons IH. Qed.

Lemma size_layer K g v i : size v = (2 ^ K)%N -> (i <= K)%N -> size (layer K g v i) = (2 ^ (K - i))%N.
Proof. by move=> Hv Hi; apply: size_fold_vecs; rewrite size_chals subnKC. Qed.

Lemma layerS K g v i : layer K g v i.+1 =
  fold_vec (vchal (K - i) (layer K g v i)) (g ^+ (2 ^ i)) (layer K g v i).
Proof. by rewrite /layer /= fold_vecs_rcons size_chals. Qed.

Lemma take_chals K g v i j : (i <= j)%N -> take i (chals K g v j) = chals K g v i.
Proof.
elim: j => [|j IH]; first by rewrite leqn0 => /eqP ->.
rewrite leq_eqVlt => /orP [/eqP ->|Hi]; first by rewrite take_oversize // size_chals.
by rewrite /= -cats1 takel_cat ?size_chals // IH.
Qed.

Lemma nth_chals K g v i j : (i < j)%N -> (chals K g v j)`_i = vchal (K - i) (layer K g v i).
Proof.
move=> Hij; rewrite -(nth_take 0 (ltnSn i)) take_chals //=.
by rewrite nth_rcons size_chals ltnn eqxx.
Qed.

(** The loop state after [i] rounds. *)
Definition fri_state_at K (g : F) v i : fri_state F :=
  FriState (mkseq (fun j => vtree (K - j.+1) (layer K g v j.+1)) i)
           (mkseq (fun j => std Values (K - j.+1) (layer K g v j.+1)) i)
           (chals K g v i.+1)
           (mkseq (fun j => vroot (K - j.+1) (layer K g v j.+1)) i)
           (vchal (K - i) (layer K g v i)) (2 ^ (K - i) %/ 2) (layer K g v i).

Definition layer_ok K g v j := vchal_ok (K - j) (layer K g v j).

Lemma by_values_stepP K g v i : size v = (2 ^ K)%N -> (K <= S)%N -> (i.+1 < K)%N ->
  by_values_step fp H w 2%:R^-1 (powers g^-1 (2 ^ K %/ 2)) (fri_state_at K g v i) i =
  if layer_ok K g v i.+1 then Ok (fri_state_at K g v i.+1) else Panic.
Proof.
move=> Hv HK Hi.
have HKi : (2 ^ (K - i) = 2 ^ (K - i.+1) * 2)%N by rewrite -expnSr subnSK // ltnW.
have HKi2 : (2 ^ (K - i) %/ 2 = 2 ^ (K - i.+1))%N by rewrite HKi mulnK.
rewrite /by_values_step [fs_slice _]/= [fs_next_size _]/= [fs_challenge _]/= HKi2.
rewrite (@fold_layerE g) ?expn_gt0 ?size_layer ?(ltnW (ltnW Hi)) //; last first.
  rewrite -expnD -(@leq_pmul2r 2) // -expnSr -addSn subnSK ?(ltnW Hi) // subnK ?(ltnW (ltnW Hi)) //.
  by rewrite -{2}(prednK (leq_ltn_trans (leq0n _) Hi)) expnSr mulnK // -expnSr prednK // (leq_ltn_trans (leq0n _) Hi).
rewrite bind_eq -layerS.
have Hs := size_layer g Hv (ltnW Hi).
have HL : (0 < K - i.+1)%N by rewrite subn_gt0.
rewrite (tree_createP fp H Hw Hs HL) bind_eq -/(vtree _ _) get_root_vtree // bind_eq.
rewrite challenge_vtree // /layer_ok; case: ifP => // Hc; rewrite bind_eq.
rewrite (from_values_pow Hok Hs) ?(leq_trans (leq_subr _ _)) // bind_eq.
by rewrite /fri_state_at !mkseqSr.
Qed.

Lemma by_values_loop K g v i : size v = (2 ^ K)%N -> (K <= S)%N -> (i < K)%N ->
  foldM (by_values_step fp H w 2%:R^-1 (powers g^-1 (2 ^ K %/ 2))) (fri_state_at K g v 0) (iota 0 i) =
  if all (layer_ok K g v) (iota 1 i) then Ok (fri_state_at K g v i) else Panic.
Proof.
move=> Hv HK; elim: i => [|i IH] Hi //.
rewrite iotaSr foldM_rcons IH ?(ltnW Hi) // iotaSr_from all_rcons add1n.
by case: (all _ _); rewrite ?andbF //= by_values_stepP // andbT.
Qed.

(** The prototype made by the value based prover. *)
Definition honest_proto K e r (g : F) (v : seq F) : fri_prototype F :=
  let m := (K - (e + r))%N in
  FriPrototype (vtree K v)
    (mkseq (fun j => vtree (K - j.+1) (layer K g v j.+1)) m)
    (mkseq (fun j => std Values (K - j.+1) (layer K g v j.+1)) m)
    (chals K g v m) (vroot (e + r) (layer K g v m))
    (take (2 ^ r) (ifft_vec fp (e + r) (layer K g v m))) (2 ^ (K - e)) (2 ^ r) (2 ^ e).

Lemma log2_floor0 : log2_floor 0 = Panic. Proof. by []. Qed.

Lemma divn_pow2 a b : (b <= a)%N -> (2 ^ a %/ 2 ^ b = 2 ^ (a - b))%N.
Proof. by move=> Hab; rewrite -{1}(subnK Hab) expnD mulnK ?expn_gt0. Qed.

Lemma pop_rcons A (s : seq A) x : pop (rcons s x) = Ok (s, x).
Proof. by case: s => [|y s] //=; rewrite belast_rcons last_rcons. Qed.

Lemma by_values_exact K e r v : size v = (2 ^ K)%N -> (K <= S)%N ->
  proof_from_lde_by_values fp H (std Values K v) (2 ^ e) (2 ^ r) w =
  if (0 < e + r < K)%N && all (layer_ok K (dom_gen fp K) v) (iota 0 (K - (e + r)).+1)
  then Ok (honest_proto K e r (dom_gen fp K) v) else Panic.
Proof.
move=> Hv HK; rewrite /proof_from_lde_by_values; set g := dom_gen fp K.
rewrite /p_size [p_coeffs _]/= [p_omegainv _]/= Hv -/g.
case: (posnP K) => [E|HK0].
  have -> : tree_create fp H w v = Panic by move: Hv; rewrite E; case: (v) => [|x [|]].
  by rewrite E ltn0 andbF.
rewrite (tree_createP fp H Hw Hv HK0) bind_eq -/(vtree K v) fri_two_inv bind_eq powers_tableE //.
rewrite !is_pow2_exp.
case: (leqP e K) => HeK; last first.
  rewrite (@divn_small (2 ^ K)) ?ltn_exp2l // div0n log2_floor0 /= [(_ < K)%N]ltnNge (leq_trans (ltnW HeK)) ?leq_addr //.
  by rewrite andbF.
rewrite divn_pow2 //.
case: (leqP r (K - e)) => Hr; last first.
  rewrite (@divn_small (2 ^ (K - e))) ?ltn_exp2l // log2_floor0 /= [(_ < K)%N]ltnNge.
  by rewrite ltn_subLR // in Hr; rewrite (ltnW Hr) andbF.
rewrite divn_pow2 // -subnDA log2_floor_pow bind_eq challenge_vtree //.
set m := (K - (e + r))%N.
have Her : (e + r <= K)%N by rewrite -leq_subRL.
have Eall : all (layer_ok K g v) (iota 0 m.+1) = vchal_ok K v && all (layer_ok K g v) (iota 1 m).
  by rewrite /= {1}/layer_ok subn0.
rewrite Eall; case Hc: (vchal_ok K v); last by rewrite andbF.
rewrite andTb bind_eq.
have -> : FriState [::] [::] [:: vchal K v] [::] (vchal K v) (2 ^ K %/ 2)%N v = fri_state_at K g v 0.
  by rewrite /fri_state_at /mkseq /layer /= subn0.
case: (ltnP (e + r) K) => HerK; last first.
  have -> : m = 0%N by apply/eqP; rewrite subn_eq0.
  by rewrite andbF.
rewrite andbT.
case: (posnP (e + r)) => Her0.
  have Em : m = K by rewrite /m Her0 subn0.
  rewrite Em -(prednK HK0) iotaSr foldM_rcons by_values_loop ?prednK //.
  case: (all _ _) => //; rewrite bind_eq /by_values_step [fs_slice _]/= [fs_next_size _]/= [fs_challenge _]/=.
  have HKm : (K - K.-1 = 1)%N by rewrite -{1}(prednK HK0) subSnn.
  rewrite HKm (@fold_layerE g) ?expn_gt0 ?size_layer ?leq_pred ?HKm //; last first.
    by rewrite mul1n -{2}(prednK HK0) expnS mulKn.
  rewrite bind_eq.
  set s := fold_vec _ _ _; have : size s = 1%N by rewrite size_fold_vec size_layer ?leq_pred // HKm.
  by case: s => [|x [|]].
have HmK : (m < K)%N by rewrite /m ltn_subrL Her0 HK0.
rewrite by_values_loop //; case Ha: (all _ _) => //.
rewrite bind_eq [fs_challenges _]/= pop_rcons bind_eq [fs_roots _]/=.
have Hm0 : (0 < m)%N by rewrite subn_gt0.
rewrite -{1}(prednK Hm0) mkseqSr pop_rcons bind_eq prednK //.
rewrite size_chals eqxx size_mkseq eqxx size_mkseq eqxx [fs_slice _]/=.
have Hl : size (layer K g v m) = (2 ^ (e + r))%N by rewrite size_layer // ?subKn // ltnW.
have HerS : (e + r <= S)%N by apply: leq_trans HK.
rewrite (from_values_pow Hok Hl) // bind_eq (ifft_std Hok Hw) // bind_eq.
by rewrite /honest_proto -/m subKn.
Qed.

(** ** Through the coefficients *)
Definition fold_cvec b (c : seq F) : seq F :=
  mkseq (fun i => c`_(2 * i + 1) * b + c`_(2 * i)) (size c %/ 2).

Lemma fold_coeffsE b c n : (n * 2)%N = size c -> fold_coeffs w b c n = Ok (fold_cvec b c).
Proof.
move=> Hs; rewrite /fold_coeffs Hs eqxx.
have E := @pair_chunks _ _ 0 (fun l => l`_1 * b + l`_0) w (nseq n 0) c Hw.
rewrite size_nseq in E; rewrite E //.
by rewrite size_mkseq -Hs mulnK // drop_oversize ?cats0 // size_nseq.
Qed.

Lemma poly_of_fold_cvec b (c : seq F) n : size c = (n * 2)%N ->
  poly_of (fold_cvec b c) = fold_poly b (poly_of c).
Proof.
move=> Hs; apply/polyP => i; rewrite coef_poly_of coef_fold_poly !coef_poly_of.
case: (ltnP i n) => Hi; last first.
  have H0 : (n * 2 <= 2 * i)%N by rewrite mulnC leq_mul2l.
  rewrite (@nth_default _ _ (fold_cvec b c)) ?size_mkseq ?Hs ?mulnK //.
  by rewrite !nth_default ?mulr0 ?addr0 // Hs // (leq_trans H0) ?leq_addr.
by rewrite nth_mkseq ?Hs ?mulnK // addrC mulrC.
Qed.

Fixpoint clayer K (g : F) v (c : seq F) i : seq F :=
  if i is i'.+1 then fold_cvec (vchal (K - i') (layer K g v i')) (clayer K g v c i') else c.

Lemma size_clayer K g v D c i : size c = (2 ^ D)%N -> (i <= D)%N ->
  size (clayer K g v c i) = (2 ^ (D - i))%N.
Proof.
move=> Hc; elim: i => [|i IH] Hi; first by rewrite subn0.
by rewrite size_mkseq IH ?(ltnW Hi) // -(subnSK Hi) expnS mulKn.
Qed.

Lemma poly_of_clayer K g v D c i : size c = (2 ^ D)%N -> (i <= D)%N ->
  poly_of (clayer K g v c i) = fold_polys (chals K g v i) (poly_of c).
Proof.
move=> Hc; elim: i => [|i IH] Hi //.
have Hs : size (clayer K g v c i) = (2 ^ (D - i.+1) * 2)%N.
  by rewrite (@size_clayer _ _ _ D) ?(ltnW Hi) // -(subnSK Hi) expnSr.
by rewrite /= (poly_of_fold_cvec _ Hs) fold_polys_rcons IH // ltnW.
Qed.

Lemma dom_gen_pow K i : (i <= K)%N -> (K <= S)%N -> dom_gen fp K ^+ (2 ^ i) = dom_gen fp (K - i).
Proof. by move=> Hi HK; rewrite -{1}(subnK Hi) dom_gen_sub // subnK. Qed.

Lemma layer_evals K f i : (i <= K)%N -> (K <= S)%N ->
  let g := dom_gen fp K in let v := evals f 1 g (2 ^ K) in
  layer K g v i = evals (fold_polys (chals K g v i) f) 1 (dom_gen fp (K - i)) (2 ^ (K - i)).
Proof.
move=> Hi HK g v; rewrite /layer; set bs := chals _ _ _ _.
have Hb : size bs = i by rewrite size_chals.
have := @fold_vecs_evals F H2 bs g f (K - i); rewrite Hb subnKC // -/v => ->.
  by rewrite dom_gen_pow.
exact: dom_gen_prim.
Qed.

Lemma resize_vals k e (c : seq F) : size c = (2 ^ k)%N -> (k + e <= S)%N ->
  take (2 ^ k) (ifft_vec fp (k + e) (evals (poly_of c) 1 (dom_gen fp (k + e)) (2 ^ (k + e)))) = c.
Proof.
move=> Hc Hk.
have Hle : (size c <= 2 ^ (k + e))%N by rewrite Hc leq_exp2l // leq_addr.
rewrite -(@poly_of_resize _ (2 ^ (k + e))) // ifft_vec_evals ?size_resize //.
by rewrite /resize (take_oversize Hle) -Hc take_size_cat.
Qed.

Definition coeff_state_at K D (g : F) v c i : fri_state F :=
  FriState (mkseq (fun j => vtree (K - j.+1) (layer K g v j.+1)) i)
           (mkseq (fun j => std Values (K - j.+1) (layer K g v j.+1)) i)
           (chals K g v i.+1)
           (mkseq (fun j => vroot (K - j.+1) (layer K g v j.+1)) i)
           (vchal (K - i) (layer K g v i)) (2 ^ (D - i) %/ 2) (clayer K g v c i).

Section Coeffs.
Variables (K D e : nat) (c : seq F).
Hypothesis HD : (D + e = K)%N.
Hypothesis HK : (K <= S)%N.
Hypothesis Hc : size c = (2 ^ D)%N.
Hypothesis Hcpu : lde_cpus_ok w (2 ^ e).
Let g := dom_gen fp K.
Let v := evals (poly_of c) 1 g (2 ^ K).

Lemma clayer_lde i : (i <= D)%N ->
  (let* p := from_coeffs fp (clayer K g v c i) in lde fp p w (2 ^ e)) =
  Ok (std Values (K - i) (layer K g v i)).
Proof.
move=> Hi; have HDK : (D <= K)%N by rewrite -HD leq_addr.
have Hs : size (clayer K g v c i) = (2 ^ (D - i))%N by apply: size_clayer.
have HDS : (D - i <= S)%N by apply: leq_trans (leq_subr _ _) (leq_trans HDK HK).
rewrite (from_coeffs_pow Hok Hs HDS) bind_eq (lde_std Hok Hw Hs HDS Hcpu).
have E : (D - i + e = K - i)%N by rewrite -HD addnC addnBA // addnC.
rewrite E (leq_trans (leq_subr _ _) HK) (@poly_of_clayer _ _ _ D) //.
by rewrite {2}/v layer_evals // (leq_trans Hi).
Qed.

Lemma by_coeffs_stepP i j : (i < D)%N ->
  by_coeffs_step fp H w (2 ^ e) (coeff_state_at K D g v c i) j =
  if (i.+1 < K)%N && layer_ok K g v i.+1 then Ok (coeff_state_at K D g v c i.+1) else Panic.
Proof.
move=> Hi; have HDK : (D <= K)%N by rewrite -HD leq_addr.
have HiK := leq_trans Hi HDK.
have HKi : (2 ^ (D - i) = 2 ^ (D - i.+1) * 2)%N by rewrite -expnSr subnSK.
have HKi2 : (2 ^ (D - i) %/ 2 = 2 ^ (D - i.+1))%N by rewrite HKi mulnK.
rewrite /by_coeffs_step [fs_slice _]/= [fs_next_size _]/= [fs_challenge _]/= HKi2.
rewrite fold_coeffsE ?(@size_clayer _ _ _ D) ?(ltnW Hi) // bind_eq.
rewrite -/(clayer K g v c i.+1).
have := @clayer_lde i.+1 Hi; case: (from_coeffs _ _) => //= q ->; rewrite bind_eq.
have Hv : size v = (2 ^ K)%N by rewrite size_evals.
have Hs := size_layer g Hv HiK; rewrite [p_coeffs _]/=.
case: (ltnP i.+1 K) => HiK'; last first.
  have E : (K - i.+1 = 0)%N by apply/eqP; rewrite subn_eq0.
  have -> : tree_create fp H w (layer K g v i.+1) = Panic.
    by move: Hs; rewrite E; case: (layer _ _ _ _) => [|x [|]].
  by [].
have HL : (0 < K - i.+1)%N by rewrite subn_gt0.
rewrite (tree_createP fp H Hw Hs HL) bind_eq -/(vtree _ _) get_root_vtree // bind_eq.
rewrite challenge_vtree // /layer_ok; case: ifP => // Hch; rewrite bind_eq.
by rewrite /coeff_state_at !mkseqSr.
Qed.

Lemma by_coeffs_loop i : (i <= D)%N ->
  foldM (by_coeffs_step fp H w (2 ^ e)) (coeff_state_at K D g v c 0) (iota 0 i) =
  if ((i == 0)%N || (i < K)%N) && all (layer_ok K g v) (iota 1 i)
  then Ok (coeff_state_at K D g v c i) else Panic.
Proof.
elim: i => [|i IH] Hi //.
rewrite iotaSr foldM_rcons IH ?(ltnW Hi) // iotaSr_from all_rcons add1n.
have HiK : (i < K)%N by apply: leq_trans Hi _; rewrite -HD leq_addr.
by rewrite HiK orbT /=; case Ha: (all _ _); rewrite ?andbF //= by_coeffs_stepP // andbT.
Qed.

Lemma through_exact r :
  proof_from_lde_through_coefficients fp H (std Values K v) (2 ^ e) (2 ^ r) w =
  proof_from_lde_by_values fp H (std Values K v) (2 ^ e) (2 ^ r) w.
Proof.
have Hv : size v = (2 ^ K)%N by rewrite size_evals.
have HeK : (e <= K)%N by rewrite -HD leq_addl.
have HDe : (K - e = D)%N by rewrite -HD addnK.
rewrite by_values_exact // -/g /proof_from_lde_through_coefficients.
rewrite /p_size [p_coeffs _]/= Hv.
case: (posnP K) => [E|HK0].
  have -> : tree_create fp H w v = Panic by move: Hv; rewrite E; case: (v) => [|x [|]].
  by rewrite E ltn0 andbF.
rewrite (tree_createP fp H Hw Hv HK0) bind_eq -/(vtree K v) !is_pow2_exp divn_pow2 // HDe.
case: (leqP r D) => Hr; last first.
  rewrite (@divn_small (2 ^ D)) ?ltn_exp2l // log2_floor0 /= [(_ < K)%N]ltnNge.
  have -> : (K <= e + r)%N by rewrite -HD addnC leq_add2l ltnW.
  by rewrite andbF.
have Em : (K - (e + r) = D - r)%N by rewrite subnDA HDe.
have Her : (e + r <= K)%N by rewrite -HD addnC leq_add2r.
rewrite divn_pow2 // log2_floor_pow bind_eq (ifft_std Hok Hw) // bind_eq.
rewrite [p_coeffs _]/= challenge_vtree // Em; set m := (D - r)%N.
have Eall : all (layer_ok K g v) (iota 0 m.+1) = vchal_ok K v && all (layer_ok K g v) (iota 1 m).
  by rewrite /= {1}/layer_ok subn0.
have Ec : take (2 ^ D) (ifft_vec fp K v) = c.
  by have := @resize_vals D e c Hc; rewrite HD -/g -/v => ->.
rewrite Ec Hc Eall; case Hch: (vchal_ok K v); last by rewrite andbF.
rewrite andTb bind_eq.
have -> : FriState [::] [::] [:: vchal K v] [::] (vchal K v) (2 ^ D %/ 2)%N c = coeff_state_at K D g v c 0.
  by rewrite /coeff_state_at /mkseq /layer /= !subn0.
rewrite by_coeffs_loop ?leq_subr //.
have Hm0 : (0 < m)%N = (e + r < K)%N by rewrite /m subn_gt0 -HD addnC ltn_add2r.
case: (posnP m) => [E0|Hm1].
  have HerK : (e + r < K)%N = false by rewrite -Hm0 E0.
  by rewrite HerK andbF; case: (_ && _) => //=; rewrite E0.
have HmK : (m < K)%N = (0 < e + r)%N by rewrite /m -Em ltn_subrL HK0 andbT.
rewrite HmK -Hm0 Hm1 orFb andbT.
case Hc2: (_ && _) => //; case/andP: Hc2 => Her0 Ha.
rewrite bind_eq [fs_challenges _]/= pop_rcons bind_eq [fs_roots _]/=.
rewrite -{1}(prednK Hm1) mkseqSr pop_rcons bind_eq prednK //.
have Hl : size (clayer K g v c m) = (2 ^ r)%N by rewrite (@size_clayer _ _ _ D) ?leq_subr // subKn.
rewrite size_chals eqxx size_mkseq eqxx size_mkseq eqxx [fs_slice _]/= Hl eqxx.
have EmK : (K - m = e + r)%N by rewrite /m -Em subKn.
rewrite /honest_proto Em -/m HDe.
congr (Ok (FriPrototype _ _ _ _ _ _ _ _ _)).
  by rewrite /= EmK.
have HmD : (m <= D)%N by rewrite leq_subr.
rewrite {2}/v layer_evals ?(leq_trans HmD) ?HDe //; last by rewrite -HD leq_addr.
rewrite -/g -/v -(@poly_of_clayer _ _ _ D) // EmK.
rewrite [(e + r)%N]addnC resize_vals //.
by rewrite addnC (leq_trans Her).
Qed.
End Coeffs.
End Prover.

(** * The verifiers *)
Section Verify.
Variables (F : fieldType) (fp : ff_params F) (H : hash_fun).
Hypothesis Hok : ff_ok fp.
Notation S := (ff_S fp).
Notation std := (std fp).

Let H2 : (2%:R : F) != 0. Proof. by case: Hok. Qed.

Lemma get_cosetE n i : (0 < n)%N ->
  get_coset_for_natural_index i (2 * n) =
  if (i < 2 * n)%N then Ok [:: i %% n; i %% n + n]%N else Panic.
Proof.
move=> Hn; rewrite /get_coset_for_natural_index; case: ltnP => // Hi; congr Ok; rewrite mulKn //.
case: (ltnP i n) => Hin.
  rewrite (modn_small Hin) (@modn_small (i + n)) ?mul2n -?addnn ?ltn_add2r //.
  by rewrite /sort /= leq_addr.
have E : ((i + n) %% (2 * n) = i - n)%N.
  rewrite -{1}(subnK Hin) -addnA addnn -mul2n modnDr modn_small //.
  by apply: leq_ltn_trans Hi; apply: leq_subr.
have E2 : (i %% n = i - n)%N.
  rewrite -{1}(subnK Hin) modnDr modn_small // -(ltn_add2r n) subnK // addnn -mul2n //.
rewrite E E2 subnK // /sort /=.
case: leqP => // Hle; have : (i - n < i)%N by rewrite ltn_subrL Hn (leq_trans Hn Hin).
by rewrite ltnNge Hle.
Qed.

Lemma next_domainE k i : (i < 2 ^ k.+1)%N ->
  index_and_size_for_next_domain i (2 ^ k.+1) = Ok (i %% 2 ^ k, 2 ^ k)%N.
Proof.
move=> Hi; rewrite /index_and_size_for_next_domain is_pow2_exp.
have -> : (1 < 2 ^ k.+1)%N by rewrite -{1}(expn0 2) ltn_exp2l.
rewrite expnS mulKn //; congr (Ok (_, _)).
case: (ltnP i (2 ^ k)) => Hik; first by rewrite modn_small.
rewrite -{2}(subnK Hik) modnDr modn_small //.
by rewrite -(ltn_add2r (2 ^ k)) subnK // addnn -mul2n -expnS.
Qed.

Lemma verify_startE K idx : (K <= S)%N ->
  verify_start fp (2 ^ K) idx =
  if (0 < K)%N && odd idx
  then Ok (2%:R^-1, VerifyState None (2 ^ K) idx (dom_gen fp K) (dom_gen fp K)^-1) else Err.
Proof.
move=> HK; rewrite /verify_start (fri_two_inv Hok) bind_eq domain_new_pow // bind_eq /=.
have Hp := dom_gen_prim Hok HK.
rewrite -exprM -(prim_order_dvd Hp) dvdn_mull //=.
rewrite -exprM -(prim_order_dvd Hp).
case: K HK Hp => [|K] HK Hp /=; first by rewrite dvd1n.
rewrite expnS mulKn // dvdn_pmul2r ?expn_gt0 // dvdn2; case: (odd idx) => //=.
by rewrite inverse_neq0 // dom_gen_neq0.
Qed.

Lemma mem_halves x n : (x < 2 * n)%N -> x \in [:: x %% n; x %% n + n]%N.
Proof.
move=> Hx; rewrite !inE; case: (ltnP x n) => Hxn; first by rewrite modn_small // eqxx.
have -> : (x %% n = x - n)%N.
  rewrite -{1}(subnK Hxn) modnDr modn_small //.
  by rewrite -(ltn_add2r n) subnK // addnn -mul2n.
by rewrite subnK // eqxx orbT.
Qed.

(** State of the verifiers before round [j]. *)
Definition vstate K (g : F) idx j (ex : option F) : verify_state F :=
  VerifyState ex (2 ^ (K - j)) (idx %% 2 ^ (K - j)) (g ^+ (2 ^ j)) (g^-1 ^+ (2 ^ j)).

Lemma sqr_pow2 (x : F) j : x ^+ (2 ^ j) * x ^+ (2 ^ j) = x ^+ (2 ^ j.+1).
Proof. by rewrite -exprD addnn -mul2n -expnS. Qed.

Lemma modn_pow2 idx a b : (a <= b)%N -> (idx %% 2 ^ b %% 2 ^ a = idx %% 2 ^ a)%N.
Proof. by move=> Hab; rewrite modn_dvdm // dvdn_exp2l. Qed.

Lemma prototype_stepE K g idx j ex (vals : seq F) b : (j < K)%N -> size vals = (2 ^ (K - j))%N ->
  verify_prototype_step 2%:R^-1 (Some (vstate K g idx j ex)) (vals, b) =
  if (if ex is Some y then vals`_(idx %% 2 ^ (K - j)) == y else true)
  then Ok (Some (vstate K g idx j.+1 (Some (fold_vec b (g ^+ (2 ^ j)) vals)`_(idx %% 2 ^ (K - j.+1)))))
  else Ok None.
Proof.
move=> Hj Hs; have E : (2 ^ (K - j) = 2 * 2 ^ (K - j.+1))%N by rewrite -expnS subnSK.
rewrite /verify_prototype_step /vstate /=.
set n := (2 ^ (K - j.+1))%N in E *; have Hn : (0 < n)%N by rewrite expn_gt0.
have Hi : (idx %% 2 ^ (K - j) < 2 * n)%N by rewrite -E ltn_mod expn_gt0.
have Em : (idx %% (2 * n) %% n = idx %% n)%N by rewrite -E modn_pow2 // leq_sub2l.
rewrite E in Hi *; rewrite get_cosetE // Hi bind_eq Em /=.
have H0 : (idx %% n < size vals)%N.
  by rewrite Hs E (leq_trans (ltn_pmod _ Hn)) // mul2n -addnn leq_addr.
have H1 : (idx %% n + n < size vals)%N by rewrite Hs E mul2n -addnn ltn_add2r ltn_pmod.
rewrite -{1}[(idx %% n)%N]addn0 ltn_add2l Hn (get_nth 0 H0) bind_eq.
have Hin : (idx %% (2 * n))%N \in [:: idx %% n; idx %% n + n]%N.
  by rewrite -Em mem_halves.
set t := (if ex is Some value then _ else _).
have -> : t = Ok (if ex is Some y then vals`_(idx %% (2 * n)) == y else true).
  rewrite /t; case: (ex) => [y|] //; rewrite Hin /= (get_nth 0) //.
  by rewrite Hs E ltn_pmod // muln_gt0.
rewrite bind_eq; set c := (if ex is Some y then _ else _); case: c => //=.
rewrite (get_nth 0 H1) bind_eq.
have Hx : (idx %% (2 * n) < 2 ^ (K - j.+1).+1)%N by rewrite subnSK // -E ltn_pmod ?expn_gt0.
have := next_domainE Hx; rewrite subnSK // E => ->; rewrite bind_eq /= Em !sqr_pow2.
do 4 f_equal; rewrite nth_mkseq Hs E mulKn //; last by rewrite ltn_pmod.
by rewrite fold_valueE // -exprM !exprVn invrK exprM.
Qed.

Lemma verify_endE fc K g idx j y :
  verify_end fc (vstate K g idx j (Some y)) =
  Ok ((poly_of fc).[g ^+ (2 ^ j * (idx %% 2 ^ (K - j)))] == y).
Proof.
rewrite /verify_end /= exprM; set x := _ ^+ (idx %% _); congr (Ok (_ == _)).
rewrite (@poly_of_horner _ _ _ (size fc)) //.
pose f := (fun (ep : F * F) c => (ep.1 + ep.2 * c, ep.2 * x)).
suff -> : foldl f (0, 1) fc = (\sum_(0 <= i < size fc) fc`_i * x ^+ i, x ^+ size fc) by [].
elim/last_ind: fc => [|fc c IH]; first by rewrite big_nil.
rewrite -cats1 foldl_cat IH /= /f /= size_cat addn1 big_nat_recr //= exprSr; congr (_ + _, _).
  by apply: eq_big_nat => i /andP [_ Hi]; rewrite nth_cat Hi.
by rewrite nth_cat ltnn subnn mulrC.
Qed.

Lemma queries_step_top g K idx v ex root q0 q1 st :
  verify_queries_step fp H 2%:R^-1 idx v (Some (vstate K g idx K ex)) (K, (root, [:: q0; q1])) <> Ok (Some st).
Proof.
rewrite /verify_queries_step /vstate subnn /=; case: get_coset_for_natural_index => // cs; rewrite bind_eq.
do 2 (case: ifP => // _); case: ifP => // _; case: ifP => // _; case: ifP => // _.
case: encode_root_into_challenge => //= b; case: (match ex with Some _ => _ | None => _ end) => //= c.
by case: ifP.
Qed.

Lemma queries_stepP K g idx v j ex root q0 q1 st : (idx < 2 ^ K)%N -> (j <= K)%N ->
  (j == 0)%N = ~~ isSome ex ->
  let n := (2 ^ (K - j.+1))%N in let lo := (idx %% n)%N in
  verify_queries_step fp H 2%:R^-1 idx v (Some (vstate K g idx j ex)) (j, (root, [:: q0; q1])) = Ok (Some st)
  <-> (exists b, [/\ (j < K)%N, q_index q0 = lo /\ q_index q1 = (lo + n)%N,
        verify_query fp H q0 root /\ verify_query fp H q1 root,
        encode_root_into_challenge fp root = Ok b &
        [/\ (q_index q0 = (idx %% 2 ^ (K - j))%N -> q_value q0 = odflt v ex),
            (q_index q1 = (idx %% 2 ^ (K - j))%N -> q_value q1 = odflt v ex) &
        st = vstate K g idx j.+1 (Some (fold_at b (g ^+ (2 ^ j * lo)) (q_value q0) (q_value q1)))]]).
Proof.
move=> Hidx HjK Hex n lo; case: (ltnP j K) => Hj; last first.
  have -> : j = K by apply/eqP; rewrite eqn_leq HjK.
  by split=> [/queries_step_top //|[b []]]; rewrite ?ltnn.
have E : (2 ^ (K - j) = 2 * n)%N by rewrite -expnS subnSK.
have Hn : (0 < n)%N by rewrite expn_gt0.
have Hi : (idx %% (2 * n) < 2 * n)%N by rewrite ltn_mod muln_gt0.
have Em : (idx %% (2 * n) %% n = idx %% n)%N by rewrite -E modn_pow2 // leq_sub2l.
rewrite /verify_queries_step /vstate E /= get_cosetE // Hi bind_eq Em -/lo /=.
have Hlh : (lo == lo + n)%N = false by rewrite -{1}[lo]addn0 eqn_add2l eq_sym eqn0Ngt Hn.
case: (boolP ((q_index q0 == lo) && (q_index q1 == lo + n)%N)); last first.
  move=> Hne; split; last first.
    by case=> b [_ [E0 E1] _ _ _]; move: Hne; rewrite E0 E1 !eqxx.
  case: ifP => // _; case: ifP => // _; move: Hne; rewrite andbT => Hne.
  by rewrite Hne.
case/andP=> /eqP E0 /eqP E1; rewrite E0 E1 !inE !eqxx !orbT /= andbT.
have Hin : (idx %% (2 * n))%N \in [:: lo; lo + n]%N by rewrite /lo -Em mem_halves.
have Hx : (idx %% (2 * n) < 2 ^ (K - j.+1).+1)%N by rewrite subnSK // E.
have := next_domainE Hx; rewrite subnSK // E Em -/n -/lo => ->.
have Hfv b : fold_value 2%:R^-1 (g^-1 ^+ (2 ^ j) ^+ lo) b (q_value q0) (q_value q1) =
    fold_at b (g ^+ (2 ^ j * lo)) (q_value q0) (q_value q1).
  by rewrite fold_valueE // !exprVn invrK exprM.
rewrite !sqr_pow2 -/n.
have Hxc : (idx %% (2 * n) = lo)%N \/ (idx %% (2 * n) = lo + n)%N.
  by move: Hin; rewrite !inE => /orP [/eqP|/eqP]; [left | right].
have Hidx0 : j = 0%N -> idx = (idx %% (2 * n))%N by move=> j0; rewrite -E modn_small // j0 subn0.
have Hlh2 : (lo + n == lo)%N = false by rewrite eq_sym.
case Ev: (verify_query fp H q0 root && verify_query fp H q1 root); last first.
  split; first by case: ifP.
  by case=> b [_ _ [V0 V1]]; rewrite V0 V1 in Ev.
case/andP: Ev => V0 V1; rewrite /=.
case Ec: (encode_root_into_challenge fp root) => [b| |]; last first.
- by split; [case: ifP | case=> b []].
- by split; [case: ifP | case=> b []].
rewrite bind_eq.
case: ex Hex => [y|] /= Hex.
- rewrite Hex /=.
  case: Hxc => Hxe; rewrite Hxe !eqxx ?Hlh ?Hlh2 /= ?eqxx /=.
  + case: eqP => Ey /=; last first.
      by split=> // -[b' [_ _ _ _ [Hy _ _]]]; case: Ey; apply: Hy.
    split.
      case=> <-; exists b; split=> //; split=> //; last by rewrite Hfv.
      by move=> /eqP; rewrite Hlh2.
    by case=> b' [_ _ _ [<-] [_ _ ->]]; rewrite Hfv.
  + case: eqP => Ey /=; last first.
      by split=> // -[b' [_ _ _ _ [_ Hy _]]]; case: Ey; apply: Hy.
    split.
      case=> <-; exists b; split=> //; split=> //; last by rewrite Hfv.
      by move=> /eqP; rewrite Hlh.
    by case=> b' [_ _ _ [<-] [_ _ ->]]; rewrite Hfv.
- have j0 : j = 0%N by apply/eqP.
  rewrite Hex /= -(Hidx0 j0); move: (Hidx0 j0) Hxc => <-.
  case=> Hxe; rewrite Hxe !eqxx ?Hlh ?Hlh2 /= ?orbF.
  + case: eqP => Ey /=; last first.
      by split=> // -[b' [_ _ _ _ [Hy _ _]]]; case: Ey; apply: Hy.
    split.
      case=> <-; exists b; split=> //; split=> //; last by rewrite Hfv.
      by move=> /eqP; rewrite Hlh2.
    by case=> b' [_ _ _ [<-] [_ _ ->]]; rewrite Hfv.
  + case: eqP => Ey /=; last first.
      by split=> // -[b' [_ _ _ _ [_ Hy _]]]; case: Ey; apply: Hy.
    split.
      case=> <-; exists b; split=> //; split=> //; last by rewrite Hfv.
      by move=> /eqP; rewrite Hlh.
    by case=> b' [_ _ _ [<-] [_ _ ->]]; rewrite Hfv.
Qed.

(** ** The whole verifier *)
Lemma chunks_exactE A (z : A) (s : seq A) :
  chunks_exact 2 s = mkseq (fun j => [:: nth z s (2 * j + 0); nth z s (2 * j + 1)]) (size s %/ 2).
Proof.
apply: (@eq_from_nth _ [::]); rewrite !size_mkseq // => i Hi; rewrite !nth_mkseq //.
have Hi2 : (i.+1 * 2 <= size s)%N by rewrite (leq_trans _ (leq_trunc_div (size s) 2)) // leq_mul2r.
have Hs : size (chunk_at 2 s i) = 2%N.
  rewrite size_chunk_at //; apply/minn_idPl; rewrite leq_subRL; first by rewrite addnC.
  by rewrite (leq_trans _ Hi2) // leq_mul2r leqnSn orbT.
apply: (@eq_from_nth _ z); rewrite Hs // => j Hj; rewrite nth_chunk_at // mulnC.
by case: j Hj => [|[|]].
Qed.

Lemma zip_mkseq2 A B (z : A) (s : seq A) (f : nat -> B) n :
  zip s (mkseq f n) = mkseq (fun j => (nth z s j, f j)) (minn (size s) n).
Proof.
apply: (@eq_from_nth _ (z, f 0%N)); first by rewrite size_zip !size_mkseq.
move=> i; rewrite size_zip size_mkseq => Hi; rewrite nth_mkseq //.
have := Hi; rewrite leq_min => /andP [Hi1 Hi2].
by rewrite nth_zip_cond size_zip size_mkseq Hi nth_mkseq.
Qed.

Section Loop.
Variables (K : nat) (g : F) (p : fri_proof F) (idx : nat) (v : F).
Hypothesis Hidx : (idx < 2 ^ K)%N.
Notation round_ok := (round_ok fp H K g p idx v).
Notation folded := (folded K g p idx).

Lemma folded_ext bs bs' j : bs`_j = bs'`_j -> folded bs j = folded bs' j.
Proof. by rewrite /SpecFri.folded => ->. Qed.

Lemma round_ok_ext bs bs' j : (forall i, (i <= j)%N -> bs`_i = bs'`_i) -> round_ok bs j -> round_ok bs' j.
Proof.
move=> Hb [h1 h2 h3 h4 h5 h6]; split=> //; first by rewrite -Hb.
move=> b Hb2 /(h6 b Hb2) ->; case: j Hb {h1 h2 h3 h4 h5 h6} => //= j Hb.
by apply: folded_ext; rewrite Hb.
Qed.

Definition round_input j := (j, (root_of p j, [:: opening p j 0; opening p j 1])).

Definition after bs i := vstate K g idx i (if i is i'.+1 then Some (folded bs i') else None).

Lemma queries_loop i st :
  foldM (verify_queries_step fp H 2%:R^-1 idx v) (Some (vstate K g idx 0 None)) (mkseq round_input i) =
    Ok (Some st) <->
  exists bs, [/\ (i <= K)%N, size bs = i, forall j, (j < i)%N -> round_ok bs j & st = after bs i].
Proof.
elim: i st => [|i IH] st.
  by split=> [[<-]|[bs [_ _ _ ->]]] //; exists [::].
rewrite mkseqSr foldM_rcons; split.
  case E: (foldM _ _ _) => [[st0|]| |] //=.
  case/IH: E => bs [HiK Hs Hr ->].
  rewrite /round_input /after => /queries_stepP [] //; first by case: (i).
  move=> b [HiK' [h1 h2] [h3 h4] h5 [h6 h7 ->]]; exists (rcons bs b).
  have Hnew : (rcons bs b)`_i = b by rewrite nth_rcons Hs ltnn eqxx.
  have Hold j : (j < i)%N -> (rcons bs b)`_j = bs`_j by rewrite nth_rcons Hs => ->.
  have Hexp : odflt v (if i is i'.+1 then Some (folded bs i') else None) =
      expected_in K g p idx v (rcons bs b) i.
    case: (i) Hold {h6 h7 Hs IH Hr HiK HiK' h1 h2 h5 h3 h4 Hnew} => //= i' Hold.
    by apply: folded_ext; rewrite Hold.
  split=> //; first by rewrite size_rcons Hs.
    move=> j; rewrite ltnS leq_eqVlt => /orP [/eqP ->|Hj]; last first.
      apply: round_ok_ext (Hr j Hj) => k Hk; rewrite Hold //.
      exact: leq_ltn_trans Hk Hj.
    split=> //; first by rewrite Hnew.
    have E2 : (2 * half K i = 2 ^ (K - i))%N by rewrite -expnS subnSK.
    by rewrite -Hexp E2; case=> [|[|//]] _.
  by rewrite /folded Hnew.
case=> bs [HiK Hs Hr ->].
have -> : foldM (verify_queries_step fp H 2%:R^-1 idx v) (Some (vstate K g idx 0 None))
    (mkseq round_input i) = Ok (Some (after bs i)).
  apply/IH; exists (take i bs); split=> //; first exact: ltnW.
  - by rewrite size_takel // Hs.
  - move=> j Hj; apply: round_ok_ext (Hr j (ltnW Hj)) => k Hk.
    by rewrite nth_take // (leq_ltn_trans Hk).
  - by rewrite /after; case: (i) => // i'; rewrite (@folded_ext bs (take i'.+1 bs)) // nth_take.
rewrite bind_eq /round_input /after; apply/queries_stepP => //; first exact: ltnW.
  by case: (i).
have [h1 h2 h3 h4 h5 h6] := Hr i (ltnSn i).
have E2 : (2 * half K i = 2 ^ (K - i))%N by rewrite -expnS subnSK.
have Hexp : odflt v (if i is i'.+1 then Some (folded bs i') else None) =
      expected_in K g p idx v bs i by case: (i).
by exists bs`_i; split=> //; split=> //; rewrite Hexp -E2; apply: h6.
Qed.
End Loop.

Lemma round_inputs p : enumerate (zip (fpr_roots p) (chunks_exact 2 (fpr_queries p))) =
  mkseq (round_input p) (rounds p).
Proof.
by rewrite (chunks_exactE (Query 0 0 [::])) (zip_mkseq2 zero_digest) enumerate_mkseq.
Qed.

Lemma verify_proofP p idx v d : domain_new fp (fpr_degree_plus_one p * fpr_lde_factor p) = Ok d ->
  verify_proof fp H p idx v = Ok true <-> accepts fp H (d_pow d) (d_gen d) p idx v.
Proof.
set N := (_ * _)%N; rewrite domain_newE; case: ltnP => // HK [<-] /=; set K := up_log 2 N in HK *.
have Hst : verify_start fp N idx = verify_start fp (2 ^ K) idx.
  by rewrite /verify_start (domain_new_pow HK) domain_newE ltnNge HK.
rewrite /verify_proof /verify_proof_queries -/N Hst verify_startE //; set g := dom_gen fp K.
rewrite modn2 round_inputs.
case HK0: (0 < K)%N; last first.
  split=> // -[bs [/andP [Hi Ho] _ _ _ _]]; have K0 : K = 0%N by apply/eqP; rewrite eqn0Ngt HK0.
  by move: Hi Ho; rewrite K0 expn0; case: (idx).
case Ho: (odd idx); last by split=> // -[bs []]; rewrite Ho andbF.
rewrite andbT bind_eq.
case Hq: (odd _); first by split=> // -[bs []]; rewrite Hq.
case: (ltnP idx (2 ^ K)) => Hidx; last first.
  split; last by case=> bs [/andP [Hlt _]]; rewrite ltnNge Hidx in Hlt.
  case: (rounds p) => [|R] /=; first by rewrite /verify_end.
  rewrite /round_input /get_coset_for_natural_index /=.
  by rewrite ltnNge Hidx.
have Est : VerifyState None (2 ^ K) idx g g^-1 = vstate K g idx 0 None.
  by rewrite /vstate subn0 modn_small // !expr1.
rewrite Est [_.1]/= [_.2]/=.
split.
  case E: (foldM _ _ _) => [[st|]| |] //=.
  case/queries_loop: E => // bs [HR Hs Hr ->]; rewrite /after.
  case ER: (rounds p) HR Hs Hr => [|R] HR Hs Hr; first by rewrite /verify_end.
  rewrite verify_endE => -[/eqP Ef]; exists bs; split=> //; first by rewrite Hidx.
  - by rewrite Hq.
  - by rewrite ER.
  - by move=> j; rewrite ER; apply: Hr.
  - by rewrite ER.
case=> bs [_ _ /andP [HR0 HR] Hr Hf].
set R := rounds p in HR0 HR Hr Hf *; set bs' := mkseq (nth 0 bs) R.
have Hb j : (j < R)%N -> bs`_j = bs'`_j by move=> Hj; rewrite nth_mkseq.
have -> : foldM (verify_queries_step fp H 2%:R^-1 idx v) (Some (vstate K g idx 0 None))
    (mkseq (round_input p) R) = Ok (Some (after K g p idx bs' R)).
  apply/queries_loop => //; exists bs'; split=> //; first by rewrite size_mkseq.
  by move=> j Hj; apply: round_ok_ext (Hr j Hj) => i Hi; rewrite Hb // (leq_ltn_trans Hi).
rewrite bind_eq /after; case: (R) HR0 Hf Hb => // R' _ Hf Hb.
by rewrite verify_endE Hf (folded_ext _ _ _ _ (Hb R' (ltnSn R'))) eqxx.
Qed.
End Verify.

(** * Honest runs *)
Section Honest.
Variables (F : fieldType) (fp : ff_params F) (H : hash_fun).
Hypothesis Hok : ff_ok fp.
Notation S := (ff_S fp).
Notation std := (std fp).
Notation layer := (layer fp H).
Notation chals := (chals fp H).
Notation vroot := (vroot fp H).
Notation vtree := (vtree fp H).
Notation vchal := (vchal fp H).

Let H2 : (2%:R : F) != 0. Proof. by case: Hok. Qed.

Lemma coeffs_of_poly (f : {poly F}) n : (size f <= n)%N -> poly_of (mkseq (nth 0 f) n) = f.
Proof.
move=> Hs; apply/polyP => i; rewrite coef_poly_of; case: (ltnP i n) => Hi; first by rewrite nth_mkseq.
by rewrite !nth_default ?size_mkseq // (leq_trans Hs).
Qed.

Section Run.
Variables (K e r idx : nat) (v : seq F).
Hypothesis HK : (K <= S)%N.
Hypothesis Hv : size v = (2 ^ K)%N.
Hypothesis Her0 : (0 < e + r)%N.
Hypothesis HerK : (e + r < K)%N.
Hypothesis Hidx : (idx < 2 ^ K)%N.
Let g := dom_gen fp K.
Let m := (K - (e + r))%N.
Let HmK : (m < K)%N.
Proof. by rewrite /m ltn_subrL Her0 (leq_ltn_trans _ HerK). Qed.
Let EmK : (K - m = e + r)%N. Proof. by rewrite subKn // ltnW. Qed.
Let Hsize : (2 ^ (K - e) * 2 ^ e = 2 ^ K)%N.
Proof. by rewrite -expnD subnK // (leq_trans _ (ltnW HerK)) // leq_addr. Qed.

Lemma prototype_loop i : (i <= m)%N ->
  foldM (verify_prototype_step 2%:R^-1) (Some (vstate K g idx 0 None))
    (mkseq (fun j => (layer K g v j, vchal (K - j) (layer K g v j))) i) =
  Ok (Some (vstate K g idx i (if i is _.+1 then Some (layer K g v i)`_(idx %% 2 ^ (K - i)) else None))).
Proof.
elim: i => [|i IH] Hi //.
rewrite mkseqSr foldM_rcons IH ?(ltnW Hi) // bind_eq prototype_stepE ?(leq_trans Hi) ?(ltnW HmK) //; last first.
  by rewrite size_layer // (ltnW (leq_trans Hi (ltnW HmK))).
rewrite -layerS; case: ifP => // /negP [].
by case: (i) => //= i'; rewrite eqxx.
Qed.

Lemma verify_prototype_honest : odd idx ->
  verify_prototype fp (honest_proto fp H K e r g v) (std Values K v) idx =
  Ok ((poly_of (take (2 ^ r) (ifft_vec fp (e + r) (layer K g v m)))).[g ^+ (2 ^ m * (idx %% 2 ^ (e + r)))] ==
      (layer K g v m)`_(idx %% 2 ^ (e + r))).
Proof.
move=> Ho; rewrite /verify_prototype /= Hsize verify_startE // Ho (leq_ltn_trans _ HmK) // bind_eq -/m.
have Est : VerifyState None (2 ^ K) idx g g^-1 = vstate K g idx 0 None.
  by rewrite /vstate subn0 modn_small // !expr1.
rewrite [_.1]/= [_.2]/= Est.
have -> : zip (v :: [seq p_coeffs i | i <- mkseq (fun j => std Values (K - j.+1) (layer K g v j.+1)) m])
              (chals K g v m) =
          mkseq (fun j => (layer K g v j, vchal (K - j) (layer K g v j))) m.
  apply: (@eq_from_nth _ ([::], 0)).
    by rewrite size_zip /= size_map !size_mkseq size_chals (minn_idPr _).
  move=> j; rewrite size_zip /= size_map size_mkseq size_chals (minn_idPr _) // => Hj.
  rewrite nth_zip_cond size_zip /= size_map size_mkseq size_chals (minn_idPr _) // Hj.
  rewrite nth_mkseq // nth_chals //; congr (_, _).
  case: j Hj => [|j] Hj //=; rewrite (nth_map (std Values 0 [::])) ?size_mkseq ?nth_mkseq //; exact: ltnW.
have Hm0 : (0 < m)%N by rewrite subn_gt0.
rewrite prototype_loop // bind_eq; case Em: (m) Hm0 => [|m'] // _.
by rewrite verify_endE -Em EmK.
Qed.

(** The honest opening of position [i] of a vector of 2^L values. *)
Definition hquery L (u : seq F) i : query F := Query i u`_i (auth_path H (leaf_hashes fp H u) L i).

Lemma iop_query_vtree L u i : size u = (2 ^ L)%N -> (0 < L)%N -> (i < 2 ^ L)%N ->
  iop_query fp H (vtree L u) i u = Ok (hquery L u i).
Proof.
by move=> Hu HL Hi; rewrite /iop_query [t_size _]/= Hi (get_nth 0) ?Hu // bind_eq get_pathP.
Qed.

Lemma verify_hquery L u i : size u = (2 ^ L)%N -> (i < 2 ^ L)%N ->
  verify_query fp H (hquery L u i) (vroot L u).
Proof.
move=> Hu Hi; rewrite /verify_query tree_verifyE /=.
have -> : hash_leaf fp H (nth 0%R u i) = nth zero_digest (leaf_hashes fp H u) i by rewrite (nth_map 0%R) ?Hu.
by rewrite (auth_climb H _ Hi (leqnn L)) ?size_map // divn_small.
Qed.

Definition hpair j :=
  let n := (2 ^ (K - j.+1))%N in
  [:: hquery (K - j) (layer K g v j) (idx %% n)%N; hquery (K - j) (layer K g v j) (idx %% n + n)%N].

Lemma produce_loop i : (i <= m.+1)%N ->
  foldM (produce_step fp H) ([::], [::], idx, (2 ^ K)%N)
    (mkseq (fun j => (vtree (K - j) (layer K g v j), layer K g v j)) i) =
  Ok (flatten (mkseq hpair i), mkseq (fun j => vroot (K - j) (layer K g v j)) i,
      (idx %% 2 ^ (K - i))%N, (2 ^ (K - i))%N).
Proof.
elim: i => [|i IH] Hi; first by rewrite subn0 modn_small.
rewrite ltnS in Hi; have HiK : (i < K)%N by apply: leq_ltn_trans Hi HmK.
rewrite !mkseqSr flatten_rcons foldM_rcons IH ?(leq_trans Hi) // bind_eq /produce_step.
have E : (2 ^ (K - i) = 2 * 2 ^ (K - i.+1))%N by rewrite -expnS subnSK.
have Hn : (0 < 2 ^ (K - i.+1))%N by rewrite expn_gt0.
have Em : (idx %% 2 ^ (K - i) %% 2 ^ (K - i.+1) = idx %% 2 ^ (K - i.+1))%N by rewrite modn_pow2 // leq_sub2l.
have Hlt : (idx %% 2 ^ (K - i) < 2 ^ (K - i))%N by rewrite ltn_mod expn_gt0.
have := @get_cosetE (2 ^ (K - i.+1)) (idx %% 2 ^ (K - i)) Hn; rewrite -E Hlt Em => ->.
rewrite bind_eq [size _]/= eqxx /=.
have Hs := size_layer fp H g Hv (ltnW HiK).
have HL : (0 < K - i)%N by rewrite subn_gt0.
rewrite !iop_query_vtree //=; last first.
- by rewrite E mul2n -addnn (leq_trans (ltn_pmod _ Hn)) // leq_addr.
- by rewrite E mul2n -addnn ltn_add2r ltn_mod.
rewrite get_root_vtree // bind_eq.
have Hx : (idx %% 2 ^ (K - i) < 2 ^ (K - i.+1).+1)%N by rewrite subnSK.
have := next_domainE Hx; rewrite subnSK // Em => ->; by rewrite bind_eq.
Qed.

Definition honest_proof : fri_proof F :=
  FriProof (flatten (mkseq hpair m.+1)) (mkseq (fun j => vroot (K - j) (layer K g v j)) m.+1)
    (take (2 ^ r) (ifft_vec fp (e + r) (layer K g v m))) (2 ^ (K - e)) (2 ^ r) (2 ^ e).

Lemma produce_honest :
  produce_proof fp H (honest_proto fp H K e r g v) (std Values K v) idx = Ok honest_proof.
Proof.
rewrite /produce_proof [fpt_degree_plus_one _]/= [fpt_lde_factor _]/= [fpt_l0 _]/= [fpt_commitments _]/=.
rewrite [fpt_values _]/= [p_coeffs (std _ _ _)]/= Hsize -/m.
have Ez : zip (vtree K v :: mkseq (fun j => vtree (K - j.+1) (layer K g v j.+1)) m)
   (v :: [seq p_coeffs i | i <- mkseq (fun j => std Values (K - j.+1) (layer K g v j.+1)) m]) =
   mkseq (fun j => (vtree (K - j) (layer K g v j), layer K g v j)) m.+1.
  have -> : [seq p_coeffs i | i <- mkseq (fun j => std Values (K - j.+1) (layer K g v j.+1)) m] =
      mkseq (fun j => layer K g v j.+1) m by rewrite /mkseq -map_comp.
  rewrite [zip _ _]/= zip_mkseq // /mkseq /= subn0; congr (_ :: _).
  by rewrite (iotaDl 1 0) -map_comp.
have := produce_loop (leqnn m.+1); rewrite -Ez => ->.
by rewrite bind_eq.
Qed.

Lemma opening_honest j b : (j <= m)%N -> (b < 2)%N ->
  opening honest_proof j b =
  hquery (K - j) (layer K g v j) (idx %% 2 ^ (K - j.+1) + b * 2 ^ (K - j.+1))%N.
Proof.
move=> Hj Hb; rewrite /opening /honest_proof /fpr_queries mulnC.
have -> : flatten (mkseq hpair m.+1) =
    mkseq (fun i => nth (Query 0 0 [::]) (hpair (i %/ 2)) (i %% 2)) (m.+1 * 2).
  elim: (m.+1) => [|n IH] //; rewrite mkseqSr flatten_rcons IH mulSn addnC addn2 !mkseqSr -!cats1 -catA /=.
  have -> : ((n * 2).+1 %/ 2 = n)%N by rewrite -addn1 divnMDl // addn0.
  have -> : ((n * 2).+1 %% 2 = 1)%N by rewrite -addn1 modnMDl.
  by rewrite mulnK // modnMl.
rewrite nth_mkseq; last first.
  by rewrite mulSn addnC -addSn leq_add // leq_mul2r.
rewrite divnMDl // modnMDl divn_small // modn_small // addn0 /hpair.
by case: b Hb => [|[|]] // _; rewrite ?mul0n ?addn0 ?mul1n.
Qed.

Lemma size_queries_honest : size (fpr_queries honest_proof) = (m.+1 * 2)%N.
Proof.
rewrite /honest_proof /fpr_queries; elim: (m.+1) => [|n IH] //.
by rewrite mkseqSr flatten_rcons size_cat IH mulSn addnC.
Qed.

Lemma rounds_honest : rounds honest_proof = m.+1.
Proof. by rewrite /rounds size_queries_honest mulnK // size_mkseq minnn. Qed.

Lemma verify_honest x : odd idx -> all (layer_ok fp H K g v) (iota 0 m.+1) ->
  verify_proof fp H honest_proof idx x = Ok true <->
  x = v`_idx /\
  (poly_of (fpr_final_coefficients honest_proof)).[g ^+ (2 ^ m.+1 * (idx %% 2 ^ (K - m.+1)))] =
  (layer K g v m.+1)`_(idx %% 2 ^ (K - m.+1)).
Proof.
move=> Ho Hl; have Hd : domain_new fp (fpr_degree_plus_one honest_proof * fpr_lde_factor honest_proof) =
    Ok (Domain (2 ^ K) K g) by rewrite /= Hsize domain_new_pow.
have Hn j : (j <= m)%N -> (2 ^ (K - j) = 2 * 2 ^ (K - j.+1))%N.
  by move=> Hj; rewrite -expnS subnSK // (leq_ltn_trans Hj).
have Hs j : (j <= m)%N -> size (layer K g v j) = (2 ^ (K - j))%N.
  by move=> Hj; rewrite size_layer // (leq_trans Hj) // ltnW.
have Hfold bs j : (j <= m)%N -> bs`_j = vchal (K - j) (layer K g v j) ->
    folded K g honest_proof idx bs j = (layer K g v j.+1)`_(idx %% 2 ^ (K - j.+1)).
  move=> Hj Hb; rewrite /folded !opening_honest // Hb /= layerS /fold_vec.
  rewrite (Hs j Hj) (Hn j Hj) mulKn // nth_mkseq ?ltn_mod ?expn_gt0 //.
  by rewrite mul0n addn0 mul1n exprM /half.
rewrite (verify_proofP _ _ _ _ Hd) //=.
have Hch bs j : (j <= m)%N ->
    encode_root_into_challenge fp (root_of honest_proof j) = Ok bs`_j <-> bs`_j = vchal (K - j) (layer K g v j).
  move=> Hj; rewrite /root_of nth_mkseq // encode_vroot.
  have -> : vchal_ok fp H (K - j) (layer K g v j) by move/allP: Hl => /(_ j); rewrite mem_iota => /(_ Hj).
  by split=> [[]|->].
split.
  case=> bs [_ _ _ Hr Hf]; rewrite rounds_honest in Hr Hf.
  have Hb j : (j <= m)%N -> bs`_j = vchal (K - j) (layer K g v j).
    by move=> Hj; apply/Hch => //; case: (Hr j Hj).
  split; last by rewrite Hf Hfold ?Hb.
  have [_ _ _ _ _ Hc] := Hr 0%N isT.
  have E0 : (2 * half K 0 = 2 ^ K)%N by rewrite /half -Hn // subn0.
  have Hin := @mem_halves idx (half K 0); rewrite E0 in Hin; move: (Hin Hidx); rewrite !inE.
  have Hlay : layer K g v 0 = v by [].
  case/orP=> /eqP Ei.
    have := Hc 0%N isT; rewrite opening_honest // E0 (modn_small Hidx) mul0n addn0 -/(half K 0) -Ei Hlay.
    by move=> Hq; exact: (esym (Hq erefl)).
  have := Hc 1%N isT; rewrite opening_honest // E0 (modn_small Hidx) mul1n -/(half K 0) -Ei Hlay.
  by move=> Hq; exact: (esym (Hq erefl)).
have [bs Hbs] : exists bs, forall j, (j <= m)%N -> bs`_j = vchal (K - j) (layer K g v j).
  by exists (chals K g v m.+1) => j Hj; rewrite nth_chals.
case=> -> Hf; exists bs; rewrite rounds_honest; split=> //.
- by rewrite Hidx.
- by rewrite [size _]size_queries_honest oddM andbF.
- move=> j; rewrite ltnS => Hj; have Hb := Hbs j Hj.
  have Hp : (0 < 2 ^ (K - j.+1))%N by rewrite expn_gt0.
  split; rewrite ?opening_honest //= ?mul0n ?mul1n ?addn0 //.
  + rewrite /root_of nth_mkseq //; apply: verify_hquery; rewrite ?(Hs j Hj) // (Hn j Hj).
    by rewrite (leq_trans (ltn_pmod _ Hp)) // mul2n -addnn leq_addr.
  + rewrite /root_of nth_mkseq //; apply: verify_hquery; rewrite ?(Hs j Hj) // (Hn j Hj).
    by rewrite mul2n -addnn ltn_add2r ltn_mod.
  + exact/Hch.
  + move=> b Hb2; rewrite opening_honest //= => ->; rewrite /half -Hn //.
    case: j Hj Hb Hp => [|j] Hj Hb Hp; first by rewrite subn0 modn_small.
    by rewrite /expected_in Hfold ?Hbs ?(ltnW Hj).
- by rewrite Hf Hfold ?Hbs.
Qed.
End Run.
End Honest.

(** * Inversion of a successful prover run *)
Section Inv.
Variables (F : fieldType) (fp : ff_params F) (H : hash_fun).
Hypothesis Hok : ff_ok fp.
Notation S := (ff_S fp).
Notation std := (std fp).
Variable w : worker.
Hypothesis Hw : (0 < w)%N.

Lemma tree_create_cases (l : seq F) : tree_create fp H w l = Panic \/ exists t, tree_create fp H w l = Ok t.
Proof.
case: (boolP (is_pow2 (size l))) => [/is_pow2P [L E]|Hn]; last by left; rewrite tree_create_bad.
case: (posnP L) => [L0|HL]; last by right; eexists; apply: (tree_createP fp H Hw E HL).
by left; move: E; rewrite L0; case: l => [|x [|]].
Qed.

Lemma by_values_bad P lde output : is_pow2 lde && is_pow2 output = false ->
  proof_from_lde_by_values fp H P lde output w = Panic.
Proof.
rewrite /proof_from_lde_by_values; case: (tree_create_cases (p_coeffs P)) => [->|[t ->]] //.
by rewrite bind_eq (fri_two_inv Hok) bind_eq; case: (is_pow2 output) => //; case: (is_pow2 lde).
Qed.

Lemma through_bad P lde output : is_pow2 lde && is_pow2 output = false ->
  proof_from_lde_through_coefficients fp H P lde output w = Panic.
Proof.
rewrite /proof_from_lde_through_coefficients; case: (tree_create_cases (p_coeffs P)) => [->|[t ->]] //.
by rewrite bind_eq; case: (is_pow2 output) => //; case: (is_pow2 lde).
Qed.

Lemma by_values_inv P lde output proto : wf_poly fp P ->
  proof_from_lde_by_values fp H P lde output w = Ok proto ->
  exists K e r v, [/\ P = std Values K v, size v = (2 ^ K)%N, (K <= S)%N, lde = (2 ^ e)%N & output = (2 ^ r)%N] /\
    [/\ (0 < e + r)%N, (e + r < K)%N,
        all (layer_ok fp H K (dom_gen fp K) v) (iota 0 (K - (e + r)).+1) &
        proto = honest_proto fp H K e r (dom_gen fp K) v].
Proof.
case/wfE => K [v [-> Hv HK]].
case Hp: (is_pow2 lde && is_pow2 output); last by rewrite by_values_bad.
case/andP: Hp => /is_pow2P [e ->] /is_pow2P [r ->]; rewrite by_values_exact //.
case Hc: (_ && _) => // -[<-]; case/andP: Hc => /andP [h1 h2] h3.
by exists K, e, r, v.
Qed.

Lemma final_poly K e r (f : {poly F}) : (K <= S)%N -> (e + r <= K)%N -> (size f <= 2 ^ (K - e))%N ->
  let g := dom_gen fp K in let v := evals f 1 g (2 ^ K) in let m := (K - (e + r))%N in
  poly_of (take (2 ^ r) (ifft_vec fp (e + r) (layer fp H K g v m))) = fold_polys (chals fp H K g v m) f.
Proof.
move=> HK Her Hf g v m; have HmK : (m <= K)%N by apply: leq_subr.
rewrite {2}/v layer_evals // -/g -/v subKn //; set fm := fold_polys _ f.
have Hfm : (size fm <= 2 ^ r)%N.
  apply: size_fold_polys; rewrite size_chals -expnD (leq_trans Hf) // leq_exp2l //.
  by rewrite /m subnDA addnC -maxnE leq_maxr.
rewrite -(coeffs_of_poly Hfm) [(e + r)%N]addnC resize_vals ?size_mkseq //.
by rewrite addnC (leq_trans Her).
Qed.
End Inv.

(** * The strings hashed by openings *)
Lemma cat_sub (T : eqType) (a b c d : seq T) : {subset a <= c} -> {subset b <= d} -> {subset a ++ b <= c ++ d}.
Proof. by move=> H1 H2 y; rewrite !mem_cat => /orP [/H1|/H2] ->; rewrite ?orbT. Qed.

Section Inputs.
Variables (F : fieldType) (fp : ff_params F) (H : hash_fun).

Lemma queries_sub (qs : seq (query F)) i q0 : (i < size qs)%N ->
  {subset opening_inputs fp H (q_value (nth q0 qs i)) (q_path (nth q0 qs i)) (q_index (nth q0 qs i)) <=
          queries_inputs fp H qs}.
Proof.
move=> Hi y Hy; apply/flattenP; exists (opening_inputs fp H (q_value (nth q0 qs i)) (q_path (nth q0 qs i)) (q_index (nth q0 qs i))) => //.
rewrite -(nth_map q0 [::] (fun q => opening_inputs fp H (q_value q) (q_path q) (q_index q))) //.
by apply: mem_nth; rewrite size_map.
Qed.

Lemma queries_flatten (prf : nat -> seq (query F)) n i : (i < n)%N ->
  {subset queries_inputs fp H (prf i) <= queries_inputs fp H (flatten (mkseq prf n))}.
Proof.
elim: n => // n IH; rewrite mkseqSr -cats1 flatten_cat /= cats0 ltnS leq_eqVlt /queries_inputs map_cat flatten_cat.
by move=> Hi y Hy; rewrite mem_cat; case/orP: Hi Hy => [/eqP -> ->|/IH Hs /Hs ->]; rewrite ?orbT.
Qed.
End Inputs.
