(** Proofs about M_WordsFri. *)
From Coq Require Import NArith.
From mathcomp Require Import all_ssreflect all_algebra.
From Verif Require Import M_Base M_Worker M_Field M_Domain M_Fft M_Poly M_Bytes M_Transcript M_Merkle M_Fri.
From Verif Require Import M_Challenge M_Air M_Arp M_Ali M_Verifier M_Words M_WordsFri P_Base P_Words.

Set Implicit Arguments.
Unset Strict Implicit.
Unset Printing Implicit Defensive.
Import GRing.Theory.
Local Open Scope ring_scope.
Local Opaque expn.

Section WordsFri.
Variables (F : fieldType) (fp : ff_params F) (H : hash_fun).
Implicit Types (pr : profile) (p : fri_proof F).

Lemma exp2S k : (2 ^ k.+1 = 2 ^ k + 2 ^ k)%N. Proof. by rewrite expnS mul2n addnn. Qed.

Lemma foldM_step A B (f : B -> A -> outcome B) b x s : foldM f b (x :: s) = bind (f b x) (fun b' => foldM f b' s).
Proof. by []. Qed.

Lemma w_get_cosetE pr i n : (n <= 2 ^ 63)%N -> w_get_coset pr i n = get_coset_for_natural_index i n.
Proof.
move=> Hn; rewrite /w_get_coset /get_coset_for_natural_index; case: ifP => // Hi.
have B : (i + n %/ 2 < 2 ^ 64)%N.
  rewrite (exp2S 63); apply: leq_trans (_ : (n + n %/ 2 <= _)%N); first by rewrite ltn_add2r.
  by apply: leq_add (Hn) _; apply: leq_trans (leq_div _ _) Hn.
by rewrite /wadd (fitE _ B).
Qed.

Lemma w_next_domainE pr i n : w_next_domain pr i n = index_and_size_for_next_domain i n.
Proof.
rewrite /w_next_domain /index_and_size_for_next_domain; case: ifP => // _; case: ifP => // _.
by rewrite /wsub; case: ltnP => // ->.
Qed.

Lemma w_stepE pr two i e st rq : (vs_size st <= 2 ^ 63)%N ->
  w_verify_queries_step fp H pr two i e (Some st) rq = verify_queries_step fp H two i e (Some st) rq.
Proof.
by case: rq => r [root qs] Hs; rewrite /w_verify_queries_step /verify_queries_step (w_get_cosetE _ _ Hs) w_next_domainE.
Qed.

Lemma step_size two i e st rq st' :
  verify_queries_step fp H two i e (Some st) rq = Ok (Some st') -> (vs_size st' <= vs_size st)%N.
Proof.
case: rq => r [root qs]; rewrite /verify_queries_step.
case: (get_coset_for_natural_index _ _) => // cv; rewrite [bind _ _]/=.
do 5!case: ifP => // _.
case: (encode_root_into_challenge _ _) => // ch; rewrite [bind _ _]/=.
case: (get qs 0) => // q0; rewrite [bind _ _]/=.
case: (X in bind X _) => // c; rewrite [bind _ _]/=; case: ifP => // _.
case: (get qs 1) => // q1; rewrite [bind _ _]/=.
rewrite /index_and_size_for_next_domain; case: ifP => // _; case: ifP => // _.
by case=> <- /=; exact: leq_div.
Qed.

Lemma w_stepsE pr two i e ost s : (if ost is Some st then vs_size st <= 2 ^ 63 else true)%N ->
  foldM (w_verify_queries_step fp H pr two i e) ost s = foldM (verify_queries_step fp H two i e) ost s.
Proof.
elim: s ost => [//|rq s IH] [st|] Hs; last by rewrite !foldM_step [bind _ _]/= IH.
rewrite !foldM_step (w_stepE _ _ _ _ _ Hs).
case E: (verify_queries_step _ _ _ _ _ _ _) => [o| |] //; rewrite [bind _ _]/=; apply: IH.
case: o E => // st' E; exact: leq_trans (step_size E) Hs.
Qed.

Lemma domain_new_size n d : domain_new fp n = Ok d -> d_size d = next_pow2 n.
Proof. by rewrite /domain_new; case: ifP => // _ [<-]. Qed.

Lemma w_verify_startE pr fuel p i : (fpr_degree_plus_one p * fpr_lde_factor p <= 2 ^ 63)%N -> (64 <= fuel)%N ->
  w_verify_start fp pr fuel p i = Some (verify_start fp (fpr_degree_plus_one p * fpr_lde_factor p) i).
Proof.
move=> Hp Hf; rewrite /w_verify_start /verify_start.
case: (ok_or _) => [two| |] //; rewrite [bind _ _]/= [bindR (Some (Ok _)) _]/=.
rewrite /wmul fitE; last by apply: leq_ltn_trans Hp _; rewrite ltn_exp2l.
rewrite (w_domain_newE _ _ Hp Hf).
case: (domain_new _ _) => [d| |] //=; case: ifP => // _; case: ifP => // _.
by case: (ok_or _).
Qed.

Lemma w_verify_proofE pr fuel p i e :
  (fpr_degree_plus_one p * fpr_lde_factor p <= 2 ^ 63)%N -> (64 <= fuel)%N ->
  w_verify_proof fp H pr fuel p i e = Some (verify_proof fp H p i e).
Proof.
move=> Hp Hf; rewrite /w_verify_proof /verify_proof /verify_proof_queries (w_verify_startE _ _ Hp Hf).
case E: (verify_start _ _ _) => [st| |] //=; case: ifP => // _.
rewrite w_stepsE; first by [].
move: E; rewrite /verify_start; case: (ok_or _) => // two; rewrite [bind _ _]/=.
case D: (domain_new _ _) => [d| |] //=; case: ifP => // _; case: ifP => // _.
case: (ok_or _) => // oi [<-] /=; rewrite (domain_new_size D); exact: next_pow2_min.
Qed.

(** The sizes only matter through their product modulo [2 ^ 64]. *)
Lemma w_verify_proof_release fuel p q i e :
  (fpr_degree_plus_one p * fpr_lde_factor p = fpr_degree_plus_one q * fpr_lde_factor q %[mod 2 ^ 64])%N ->
  fpr_queries p = fpr_queries q -> fpr_roots p = fpr_roots q ->
  fpr_final_coefficients p = fpr_final_coefficients q ->
  w_verify_proof fp H Release fuel p i e = w_verify_proof fp H Release fuel q i e.
Proof.
move=> Em E1 E2 E3; rewrite /w_verify_proof /w_verify_start E1 E2 E3 /wmul.
have fR n : fit Release 64 n = Ok (n %% 2 ^ 64)%N by rewrite /fit; case: ltnP => // Hn; rewrite modn_small.
by rewrite !fR Em.
Qed.

Hypothesis two_unit : (1 + 1 : F) != 0.

Lemma two_inv : exists t, ok_or (inverse (fri_two F)) = Ok t.
Proof. by rewrite /inverse /fri_two (negbTE two_unit); eexists. Qed.

Lemma w_verify_proof_hang fuel p i e :
  (2 ^ 63 < (fpr_degree_plus_one p * fpr_lde_factor p) %% 2 ^ 64)%N ->
  w_verify_proof fp H Release fuel p i e = None.
Proof.
move=> Hp; rewrite /w_verify_proof /w_verify_start; have [t ->] := two_inv.
rewrite [bindR (Some (Ok _)) _]/= /wmul /fit; set n := (_ * _)%N in Hp *.
case: ltnP => Hn; last by rewrite w_domain_new_release.
by rewrite (modn_small Hn) in Hp; rewrite w_domain_new_release.
Qed.

Lemma w_verify_proof_panic fuel p i e :
  (2 ^ 63 < fpr_degree_plus_one p * fpr_lde_factor p)%N ->
  w_verify_proof fp H Debug fuel p i e = Some Panic.
Proof.
move=> Hp; rewrite /w_verify_proof /w_verify_start; have [t ->] := two_inv.
rewrite [bindR (Some (Ok _)) _]/= /wmul /fit; set n := (_ * _)%N in Hp *.
by case: ltnP => Hn //; rewrite w_domain_new_debug.
Qed.
End WordsFri.
