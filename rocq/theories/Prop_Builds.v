(** C79: what a debug build answers, a release build answers too. *)
From Coq Require Import NArith.
From mathcomp Require Import all_ssreflect all_algebra.
From Verif Require Import Spec M_Base M_Worker M_Field M_Domain M_Fft M_Poly M_Bytes M_Transcript M_Merkle M_Fri.
From Verif Require Import M_Challenge M_Air M_Arp M_Ali M_Prover M_Verifier M_Words M_WordsFri M_WordsNew.
From Verif Require Import M_WordsRange M_WordsProver M_WordsEval.
From Verif Require Import P_Base P_Domain P_Air P_Arp P_Maps P_Lde P_Honest P_Words Instances Prop_Hash Prop_Ali Prop_Verify Prop_Sound Prop_Stark.
From Verif Require Import Prop_Words Prop_WordsNew Prop_WordsRange Prop_WordsProver.

Set Implicit Arguments.
Unset Strict Implicit.
Unset Printing Implicit Defensive.
Import GRing.Theory.
Local Open Scope ring_scope.
Local Opaque expn.

(** Of the results [x] of a debug build and [y] of a release build: either [x] is a panic, or they are the
    same. *)
Definition unless_panic A (x y : outcome A) : Prop := x = Panic \/ y = x.
Definition unless_panicR A (x y : M_Words.run A) : Prop := x = Some Panic \/ y = x.

Lemma up_refl A (x : outcome A) : unless_panic x x. Proof. by right. Qed.
Lemma upR_refl A (x : M_Words.run A) : unless_panicR x x. Proof. by right. Qed.
Lemma up_bind A B (x y : outcome A) (f g : A -> outcome B) : unless_panic x y ->
  (forall a, unless_panic (f a) (g a)) -> unless_panic (bind x f) (bind y g).
Proof. by case=> [->|->] Hf; [left | case: x => [a| |]; [exact: Hf | right | left]]. Qed.
Lemma upR_bind A B (x y : M_Words.run A) (f g : A -> M_Words.run B) : unless_panicR x y ->
  (forall a, unless_panicR (f a) (g a)) -> unless_panicR (bindR x f) (bindR y g).
Proof. by case=> [->|->] Hf; [left | case: x => [[a| |]|]; [exact: Hf | right | left | right]]. Qed.
Lemma upR_some A (x y : outcome A) : unless_panic x y -> unless_panicR (Some x) (Some y).
Proof. by case=> ->; [left | right]. Qed.
Lemma up_foldM A B (f g : B -> A -> outcome B) b s : (forall b x, unless_panic (f b x) (g b x)) ->
  unless_panic (foldM f b s) (foldM g b s).
Proof. by move=> Hf; elim: s b => [|x s IH] b; [right | apply: up_bind]. Qed.
Lemma upR_foldR A B (f g : B -> A -> M_Words.run B) b s : (forall b x, unless_panicR (f b x) (g b x)) ->
  unless_panicR (foldR f b s) (foldR g b s).
Proof. by move=> Hf; elim: s b => [|x s IH] b; [right | apply: upR_bind]. Qed.
Lemma upR_mapR A B (f g : A -> M_Words.run B) s : (forall x, unless_panicR (f x) (g x)) ->
  unless_panicR (mapR f s) (mapR g s).
Proof.
move=> Hf; elim: s => [|x s IH]; first by right.
by apply: upR_bind (Hf x) _ => y; apply: upR_bind IH _ => ys; right.
Qed.
Lemma upR_while A fuel (c c' : A -> outcome bool) b b' st : (forall s, unless_panic (c s) (c' s)) ->
  (forall s, unless_panic (b s) (b' s)) -> unless_panicR (while fuel c b st) (while fuel c' b' st).
Proof.
move=> Hc Hb; elim: fuel st => [|fuel IH] st; (apply: upR_bind; first by apply: upR_some); case; try by right.
by apply: upR_bind; [apply: upR_some | exact: IH].
Qed.

Lemma up_fit w x : unless_panic (M_Words.fit Debug w x) (M_Words.fit Release w x).
Proof. by rewrite /M_Words.fit; case: (x < 2 ^ w)%N; [right | left]. Qed.
Lemma up_wshl w x s : unless_panic (wshl Debug w x s) (wshl Release w x s).
Proof. by rewrite /wshl; case: (s < w)%N; [right | left]. Qed.
Lemma up_wshr w x s : unless_panic (wshr Debug w x s) (wshr Release w x s).
Proof. by rewrite /wshr; case: (s < w)%N; [right | left]. Qed.
Lemma up_wsub w x y : unless_panic (wsub Debug w x y) (wsub Release w x y).
Proof. by rewrite /wsub; case: (y <= x)%N; [right | left]. Qed.
Lemma up_wadd w x y : unless_panic (wadd Debug w x y) (wadd Release w x y). Proof. exact: up_fit. Qed.
Lemma up_wmul w x y : unless_panic (wmul Debug w x y) (wmul Release w x y). Proof. exact: up_fit. Qed.
Lemma up_next x : unless_panic (w_next_power_of_two Debug x) (w_next_power_of_two Release x). Proof. exact: up_fit. Qed.

Create HintDb builds.
#[local] Hint Resolve up_fit up_wshl up_wshr up_wsub up_wadd up_wmul up_next : builds.

(** One step of a comparison of the two builds of the same function. *)
Ltac builds := cbv zeta; repeat first
  [ match goal with
    | |- unless_panic ?x ?x => apply up_refl
    | |- unless_panicR ?x ?x => apply upR_refl
    end
  | match goal with
    | |- unless_panicR (Some _) (Some _) => apply upR_some
    | |- unless_panic (bind _ _) (bind _ _) => apply up_bind; [|intro]
    | |- unless_panic (foldM _ _ _) (foldM _ _ _) => apply up_foldM; intros
    | |- unless_panicR (bindR _ _) (bindR _ _) => apply upR_bind; [|intro]
    | |- unless_panicR (foldR _ _ _) (foldR _ _ _) => apply upR_foldR; intros
    | |- unless_panicR (mapR _ _) (mapR _ _) => apply upR_mapR; intros
    | |- unless_panicR (while _ _ _ _) (while _ _ _ _) => apply upR_while; intros
    | |- unless_panic (match ?x with _ => _ end) _ => destruct x
    | |- unless_panicR (match ?x with _ => _ end) _ => destruct x
    end
  | solve [auto 1 with builds nocore] ].

Section Builds.
Variables (F : fieldType) (fp : ff_params F) (H : hash_fun).

Theorem C79_log2 fuel n : unless_panicR (w_log2_floor Debug fuel n) (w_log2_floor Release fuel n).
Proof. rewrite /w_log2_floor; builds. Qed.

Theorem C79_domain fuel n : unless_panicR (w_domain_new fp Debug fuel n) (w_domain_new fp Release fuel n).
Proof. rewrite /w_domain_new; builds. Qed.
#[local] Hint Resolve C79_domain C79_log2 : builds.

Lemma up_bitreverse n l : unless_panic (w_bitreverse Debug n l) (w_bitreverse Release n l).
Proof. rewrite /w_bitreverse; builds. Qed.
#[local] Hint Resolve up_bitreverse : builds.
Lemma up_permute (a : seq F) n l : unless_panic (w_bit_reverse_permute Debug a n l) (w_bit_reverse_permute Release a n l).
Proof. rewrite /w_bit_reverse_permute; builds. Qed.
Lemma up_butterfly (a : seq F) k j m w : unless_panic (w_butterfly Debug a k j m w) (w_butterfly Release a k j m w).
Proof. rewrite /w_butterfly; builds. Qed.
#[local] Hint Resolve up_permute up_butterfly : builds.
Lemma up_block (a : seq F) k m w : unless_panic (w_fft_block Debug a k m w) (w_fft_block Release a k m w).
Proof. rewrite /w_fft_block; builds. Qed.
#[local] Hint Resolve up_block : builds.
Lemma upR_stage fuel (a : seq F) n m w : unless_panicR (w_fft_stage Debug fuel a n m w) (w_fft_stage Release fuel a n m w).
Proof. rewrite /w_fft_stage; builds. Qed.
#[local] Hint Resolve upR_stage : builds.
Lemma upR_serial fuel (a : seq F) omega l : unless_panicR (w_serial_fft Debug fuel a omega l) (w_serial_fft Release fuel a omega l).
Proof. rewrite /w_serial_fft; builds. Qed.
#[local] Hint Resolve upR_serial : builds.
Lemma upR_parallel fuel (a : seq F) w omega l c :
  unless_panicR (w_parallel_fft Debug fuel a w omega l c) (w_parallel_fft Release fuel a w omega l c).
Proof. rewrite /w_parallel_fft; builds. Qed.
#[local] Hint Resolve upR_parallel : builds.

Theorem C79_fft fuel (a : seq F) w omega l hint :
  unless_panicR (w_best_fft Debug fuel a w omega l hint) (w_best_fft Release fuel a w omega l hint).
Proof. rewrite /w_best_fft; builds. Qed.

Lemma up_nonzero i f s : unless_panic (w_is_non_zero Debug i f s) (w_is_non_zero Release i f s).
Proof. rewrite /w_is_non_zero; builds. Qed.
Lemma up_dense f s : unless_panic (w_is_dense_round Debug f s) (w_is_dense_round Release f s).
Proof. rewrite /w_is_dense_round; builds. Qed.
#[local] Hint Resolve up_nonzero up_dense : builds.
Lemma up_sparse (a : seq F) k j m f s w :
  unless_panic (w_butterfly_sparse Debug a k j m f s w) (w_butterfly_sparse Release a k j m f s w).
Proof. rewrite /w_butterfly_sparse; builds. Qed.
#[local] Hint Resolve up_sparse : builds.
Lemma up_lde_block (a : seq F) k m f s w : unless_panic (w_lde_block Debug a k m f s w) (w_lde_block Release a k m f s w).
Proof. rewrite /w_lde_block; builds. Qed.
#[local] Hint Resolve up_lde_block : builds.
Lemma up_lde_stage (a : seq F) n m f s w : unless_panic (w_lde_stage Debug a n m f s w) (w_lde_stage Release a n m f s w).
Proof. rewrite /w_lde_stage; builds. Qed.
#[local] Hint Resolve up_lde_stage : builds.

Theorem C79_lde (a : seq F) omega l f : unless_panic (w_serial_lde Debug a omega l f) (w_serial_lde Release a omega l f).
Proof. rewrite /w_serial_lde; builds. Qed.

(** * FRI *)
Lemma up_coset i n : unless_panic (w_get_coset Debug i n) (w_get_coset Release i n).
Proof. rewrite /w_get_coset; builds. Qed.
Lemma up_next_domain i n : unless_panic (w_next_domain Debug i n) (w_next_domain Release i n).
Proof. rewrite /w_next_domain; builds. Qed.
#[local] Hint Resolve up_coset up_next_domain : builds.
Lemma upR_start fuel (p : fri_proof F) i : unless_panicR (w_verify_start fp Debug fuel p i) (w_verify_start fp Release fuel p i).
Proof. rewrite /w_verify_start; builds. Qed.
Lemma up_queries two_inv i e (ost : option (verify_state F)) rq :
  unless_panic (w_verify_queries_step fp H Debug two_inv i e ost rq) (w_verify_queries_step fp H Release two_inv i e ost rq).
Proof. rewrite /w_verify_queries_step; builds. Qed.
#[local] Hint Resolve upR_start up_queries : builds.

Theorem C79_fri fuel (p : fri_proof F) i e :
  unless_panicR (w_verify_proof fp H Debug fuel p i e) (w_verify_proof fp H Release fuel p i e).
Proof. rewrite /w_verify_proof; builds. Qed.
#[local] Hint Resolve C79_fri : builds.

(** * Ranges *)
Lemma up_degree s a b n : unless_panic (w_dense_divisor_degree Debug s a b n) (w_dense_divisor_degree Release s a b n).
Proof. rewrite /w_dense_divisor_degree; builds. Qed.
Lemma up_roots (g : F) s a b n : unless_panic (w_dense_roots Debug g s a b n) (w_dense_roots Release g s a b n).
Proof. rewrite /w_dense_roots; builds. Qed.
Lemma up_rows a b n : unless_panic (w_dense_rows Debug a b n) (w_dense_rows Release a b n).
Proof. rewrite /w_dense_rows; builds. Qed.
#[local] Hint Resolve up_degree up_roots up_rows : builds.
Lemma up_divisor_at (x : F) col a b n : unless_panic (w_inverse_divisor_at Debug x col a b n) (w_inverse_divisor_at Release x col a b n).
Proof. rewrite /w_inverse_divisor_at; builds. Qed.
Lemma up_divisor_coset col ev a b n w :
  unless_panic (w_inverse_divisor_in_coset fp Debug col ev a b n w) (w_inverse_divisor_in_coset fp Release col ev a b n w).
Proof. rewrite /w_inverse_divisor_in_coset; builds. Qed.
#[local] Hint Resolve up_divisor_at up_divisor_coset : builds.

Theorem C79_witness_check (props : instance_properties F) witness :
  unless_panic (w_is_satisfied Debug props witness) (w_is_satisfied Release props witness).
Proof. rewrite /w_is_satisfied; builds. Qed.

(** * Prover and verifier *)
Theorem C79_verifier_new fuel (props : instance_properties F) lde :
  unless_panicR (w_verifier_new fp Debug fuel props lde) (w_verifier_new fp Release fuel props lde).
Proof. rewrite /w_verifier_new; builds. Qed.

Lemma upR_from_instance fuel (props : instance_properties F) :
  unless_panicR (w_from_instance fp Debug fuel props) (w_from_instance fp Release fuel props).
Proof. rewrite /w_from_instance; builds. Qed.
Lemma up_rest (props : instance_properties F) col ev w :
  unless_panic (w_from_arp_rest fp Debug props col ev w) (w_from_arp_rest fp Release props col ev w).
Proof. rewrite /w_from_arp_rest; builds. Qed.
#[local] Hint Resolve upR_from_instance up_rest : builds.
Lemma upR_from_arp fuel (props : instance_properties F) w :
  unless_panicR (w_from_arp fp Debug fuel props w) (w_from_arp fp Release fuel props w).
Proof. rewrite /w_from_arp; builds. Qed.
#[local] Hint Resolve upR_from_arp : builds.

Theorem C79_prover_new fuel (props : instance_properties F) lde out w :
  unless_panicR (w_prover_new fp Debug fuel props lde out w) (w_prover_new fp Release fuel props lde out w).
Proof. rewrite /w_prover_new; builds. Qed.

Lemma up_index s n l : unless_panic (w_bytes_to_challenge_index Debug s n l) (w_bytes_to_challenge_index Release s n l).
Proof. rewrite /w_bytes_to_challenge_index; builds. Qed.
#[local] Hint Resolve up_index : builds.
Lemma upR_draw fuel (v : verifier F) pf : unless_panicR (w_draw_challenges fp H Debug fuel v pf) (w_draw_challenges fp H Release fuel v pf).
Proof. rewrite /w_draw_challenges; builds. Qed.
Lemma up_batch (v : verifier F) vals z st db : unless_panic (w_g_at_z_batch Debug v vals z st db) (w_g_at_z_batch Release v vals z st db).
Proof. rewrite /w_g_at_z_batch; builds. Qed.
Lemma up_boundary (v : verifier F) vals z st b : unless_panic (w_g_at_z_boundary Debug v vals z st b) (w_g_at_z_boundary Release v vals z st b).
Proof. rewrite /w_g_at_z_boundary; builds. Qed.
#[local] Hint Resolve upR_draw up_batch up_boundary : builds.

Theorem C79_g_at_z (v : verifier F) chs bchs fs z :
  unless_panic (w_calculate_g_at_z Debug v chs bchs fs z) (w_calculate_g_at_z Release v chs bchs fs z).
Proof. rewrite /w_calculate_g_at_z; builds. Qed.
#[local] Hint Resolve C79_g_at_z : builds.

Theorem C79_verify fuel (v : verifier F) pf :
  unless_panicR (w_verify_words fp H Debug fuel v pf) (w_verify_words fp H Release fuel v pf).
Proof. rewrite /w_verify_words; builds. Qed.

(** * The models of the debug build and of both builds when nothing wraps *)
Lemma batch_same pr (v : verifier F) vals z st db :
  (if db.1 is Dense s sp then
     w_inverse_divisor_at pr z (v_column_domain v) s sp (ip_num_rows (v_instance v)) =
     inverse_divisor_at z (v_column_domain v) s sp (ip_num_rows (v_instance v)) else true) ->
  w_g_at_z_batch pr v vals z st db = g_at_z_batch v vals z st db.
Proof.
rewrite /w_g_at_z_batch /g_at_z_batch; case: db.1 => [s sp|a b c|a] //= ->.
case: (inverse_divisor_at _ _ _ _ _) => [[d deg]| |] //=; apply: eq_foldM => -[g chs] c.
by case: ifP => // Hc; case: chs => [//|[al be] chs]; case: (eval_constraint_at_z _ _) => //= y; rewrite /wsub Hc.
Qed.

Lemma boundary_same pr (v : verifier F) vals z st b : pr = Debug \/ (0 < v_max_power v)%N ->
  w_g_at_z_boundary pr v vals z st b = g_at_z_boundary v vals z st b.
Proof.
rewrite /w_g_at_z_boundary /g_at_z_boundary /wsub /usub; case: st => g chs.
by case=> [->|->].
Qed.

Definition no_wrap pr (v : verifier F) : Prop :=
  pr = Debug \/
  [/\ all (fun db => if db.1 is Dense s sp then (s + sp <= ip_num_rows (v_instance v))%N else true) (v_batches v),
      (ip_num_rows (v_instance v) <= d_size (v_column_domain v))%N &
      (0 < v_max_power v)%N \/ ip_boundary_constraints (v_instance v) = [::]].

Lemma g_same pr (v : verifier F) chs bchs fs z : no_wrap pr v ->
  w_calculate_g_at_z pr v chs bchs fs z = calculate_g_at_z v chs bchs fs z.
Proof.
move=> Hv; rewrite /w_calculate_g_at_z /calculate_g_at_z; case: (opened_values _ _) => [vals| |] //; rewrite !bind_ok.
have -> : foldM (w_g_at_z_batch pr v vals z) (0, chs) (v_batches v) = foldM (g_at_z_batch v vals z) (0, chs) (v_batches v).
  case: Hv => [->|[Hb Hn _]]; first by apply: eq_foldM => st db; apply: batch_same; case: db.1.
  apply: foldM_all Hb _ => st db Hdb; apply: batch_same; case: db.1 Hdb => // s0 sp Hs.
  by case: pr => //; have [-> _] := C77_release_fits fp z (v_column_domain v) 1 Hs Hn.
case: (foldM _ _ _) => [[g chs']| |] //; rewrite !bind_ok.
case: Hv => [->|[_ _ [Hm|->]]] //; congr (bind _ _); apply: eq_foldM => st b; apply: boundary_same; by [left | right].
Qed.

Lemma words_same pr fuel (v : verifier F) pf : no_wrap pr v ->
  w_verify_words fp H pr fuel v pf = w_verify_all fp H pr fuel v pf.
Proof.
move=> Hv; rewrite /w_verify_words /w_verify_all; case: (w_draw_challenges _ _ _ _ _ _) => [[[[chs d1] d2]| |]|] //.
rewrite !bindR_ok; case: ifP => // _; case: ifP => // _; case: ifP => // _.
by case: (simulate_h1 _ _ _ _ _ _ _) => [h1| |] //; rewrite !bindR_ok (g_same _ _ _ _ Hv).
Qed.

(** For a verifier of an instance whose ranges lie inside the trace, and with a constraint of a positive
    degree if there are boundary constraints, nothing wraps in either build. *)
Theorem C79_same_builds pr fuel props lde v : verifier_new fp props lde = Ok v ->
  pr = Debug \/ ranges_inside props /\ ((0 < largest props)%N \/ ip_boundary_constraints props = [::]) ->
  (forall chs bchs fs z, w_calculate_g_at_z pr v chs bchs fs z = calculate_g_at_z v chs bchs fs z) /\
  (forall pf, w_verify_words fp H pr fuel v pf = w_verify_all fp H pr fuel v pf).
Proof.
move=> Ev Hp; suff Hv : no_wrap pr v by split=> *; [exact: g_same | exact: words_same].
case: Hp => [->|[Hr Hb]]; first by left.
right; move: Ev; rewrite P_Stark.verifier_newE; case: ltnP => // _; case: ifP => // _; case: ltnP => // _ [<-].
split; rewrite /=; last by rewrite largest_mask.
  rewrite -(@all_map _ _ fst (fun d => if d is Dense s sp then (s + sp <= ip_num_rows props)%N else true)).
  apply/allP => dn; rewrite batch_keys has_map; move: Hr; rewrite /ranges_inside.
  elim: (ip_constraints props) => [|c cs IH] //= /andP [Hc /IH {}IH]; case/orP => [/eqP <-|]; [by case: c Hc | exact IH].
exact: next_pow2_ge.
Qed.

(** What the verifier of the model accepts is accepted in both builds. *)
Theorem C79_accepts pr fuel props lde v pf : (64 <= fuel)%N -> (ff_S fp <= 63)%N -> is_pow2 lde ->
  verifier_new fp props lde = Ok v -> verify fp H v pf = Ok true -> w_verify_words fp H pr fuel v pf = Some (Ok true).
Proof.
move=> Hf HS /is_pow2P [l Hl] Ev E; have [H1 [m H2] H3] := verifier_new_sizes Ev; rewrite Hl in H3.
have Ed : w_verify_words fp H Debug fuel v pf = Some (Ok true).
  rewrite (words_same fuel pf (or_introl erefl : no_wrap Debug v)).
  exact (@C76_accepts _ fp H v _ m l H1 H2 H3 Debug fuel pf Hf HS E).
case: pr; first exact Ed.
have [E2|E2] := C79_verify fuel v pf; rewrite Ed in E2; [discriminate E2 | exact E2].
Qed.

(** Without a constraint of a positive degree the exponent of a boundary constraint wraps. *)
Theorem C79_release_boundary (v : verifier F) vals z g al be chs r row y x : v_max_power v = 0%N ->
  (r < size vals)%N -> im_get (nth [::] vals r) (Mask 1) = Some x -> z != d_gen (v_column_domain v) ^+ row ->
  let b := Boundary (Reg r) row (Some y) in
  w_g_at_z_boundary Debug v vals z (g, (al, be) :: chs) b = Panic /\
  w_g_at_z_boundary Release v vals z (g, (al, be) :: chs) b =
    Ok (g + (x - y) * (z ^+ (2 ^ 64 - 1) * al + be) / (z - d_gen (v_column_domain v) ^+ row), chs).
Proof.
move=> Hm Hr Hx Hz b; rewrite /w_g_at_z_boundary /b Hm; split; first reflexivity.
have -> : wsub Release 64 0 1 = Ok (2 ^ 64 - 1)%N by rewrite /wsub ltnn add0n.
rewrite bind_ok [reg_number _]/= bind_ok (get_nth [::] Hr) bind_ok Hx [ok_or _]/= bind_ok.
rewrite [b_value _]/= [ok_or _]/= bind_ok [b_at_row _]/= /inverse subr_eq0 (negbTE Hz) [ok_or _]/= bind_ok /adjust_at.
rewrite (_ : (2 ^ 64 - 1 == 0)%N = false); first reflexivity.
apply/negbTE; rewrite -lt0n subn_gt0; exact (etrans (@ltn_exp2l 2 0 64 isT) isT).
Qed.
End Builds.

(** The converse fails: for an instance with a boundary constraint only, a debug build panics where a release
    build goes on. *)
Definition boundary_only : instance_properties F257 := Props 4 1 [::] [:: Boundary (Reg 0) 0 (Some 1)].

Theorem C79_converse_fails : exists v y, [/\ verifier_new f257 boundary_only 4 = Ok v,
  w_calculate_g_at_z Debug v [::] [:: (1, 1)] [:: 1] (ff_gen f257) = Panic &
  w_calculate_g_at_z Release v [::] [:: (1, 1)] [:: 1] (ff_gen f257) = Ok y].
Proof.
have Ev := P_Stark.verifier_newE f257 boundary_only 4; move: Ev; rewrite /= => Ev.
case Ev2: (verifier_new f257 boundary_only 4) => [v| |]; rewrite Ev2 in Ev; [|discriminate Ev|discriminate Ev].
exists v; case: Ev => Ev.
have En : ip_num_registers (v_instance v) = 1%N by rewrite Ev.
have Emk : v_all_masks v = [:: (Reg 0, Mask 1)] by rewrite Ev; reflexivity.
have Eo : opened_values v [:: 1] = Ok [:: [:: (Mask 1, 1)]] by rewrite /opened_values En Emk; reflexivity.
have Hz : ff_gen f257 != d_gen (v_column_domain v) ^+ 0 by rewrite expr0; vm_compute.
have [E1 E2] := @C79_release_boundary _ v [:: [:: (Mask 1, 1)]] (ff_gen f257) 0 1 1 [::] 0%N 0%N 1 1
  (congr1 (@v_max_power _) Ev) isT erefl Hz.
have Eb : v_batches v = [::] by rewrite Ev.
have Ebc : ip_boundary_constraints (v_instance v) = [:: Boundary (Reg 0) 0 (Some 1)] by rewrite Ev.
eexists; split; first reflexivity.
  rewrite /w_calculate_g_at_z Eo bind_ok Eb bind_ok Ebc; cbn [foldM]; rewrite E1; reflexivity.
rewrite /w_calculate_g_at_z Eo bind_ok Eb bind_ok Ebc; cbn [foldM]; rewrite E2 !bind_ok; reflexivity.
Qed.

(** An honest proof, accepted in both builds. *)
Example C79_ex : exists v pf, verifier_new f257 one_density 4 = Ok v /\
  forall pr, w_verify_words f257 toy_hash pr 64 v pf = Some (Ok true).
Proof.
have [Hs Hsat Hl] := C40_ex.
case EP: (prover_new f257 one_density 4 1 3) => [P| |]; [|by []|by []].
rewrite [bind _ _]/=; case Epf: (prove _ _ _ _) => [pf| |]; [|by []|by []] => _.
have Hm : (\max_(c <- ip_constraints one_density) c_degree c < 2 * 3)%N by rewrite /= !big_cons big_nil.
have [v Ev E] := C40_completeness_partial f257_ok Hdec257 (isT : 0 < 3)%N Hs Hsat (or_intror (conj Hl Hm)) EP Epf.
exists v, pf; split; [exact Ev|]; move=> pr.
exact (@C79_accepts _ f257 toy_hash pr 64 one_density 4 v pf (leqnn 64) isT isT Ev E).
Qed.

Print Assumptions C79_log2.
Print Assumptions C79_domain.
Print Assumptions C79_fft.
Print Assumptions C79_lde.
Print Assumptions C79_fri.
Print Assumptions C79_witness_check.
Print Assumptions C79_verifier_new.
Print Assumptions C79_prover_new.
Print Assumptions C79_g_at_z.
Print Assumptions C79_verify.
Print Assumptions C79_same_builds.
Print Assumptions C79_accepts.
Print Assumptions C79_release_boundary.
Print Assumptions C79_converse_fails.
