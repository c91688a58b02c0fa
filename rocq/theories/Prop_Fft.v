(** Properties C03 - C06, C08 - C10: transforms and low degree extensions. *)
From mathcomp Require Import all_ssreflect all_algebra.
From Verif Require Import M_Base M_Worker M_Field M_Domain M_Fft M_Poly Spec SpecPoly.
From Verif Require Import P_Base P_Fft P_Domain P_Poly P_Lde P_PolyOps P_Wf Instances.

Set Implicit Arguments.
Unset Strict Implicit.
Unset Printing Implicit Defensive.
Import GRing.Theory.
Local Open Scope ring_scope.

(** A concrete polynomial object for the examples: 1 + 2X + 3X^2 + 4X^3. *)
Definition ex_poly : hpoly F257 Coefficients :=
  P_Poly.std f257 Coefficients 2 [:: 1; 2%:R; 3%:R; 4%:R].
Lemma ex_poly_wf : wf_poly f257 ex_poly.
Proof. by apply: wf_std. Qed.
Lemma ex_poly_from_coeffs : from_coeffs f257 [:: 1; 2%:R; 3%:R; 4%:R] = Ok ex_poly.
Proof. by apply: from_coeffs_pow => //; apply: f257_ok. Qed.
Definition ex_values : hpoly F257 Values :=
  P_Poly.std f257 Values 2 [:: 10%:R; 255%:R; 255%:R; 255%:R].
Lemma ex_values_wf : wf_poly f257 ex_values.
Proof. by apply: wf_std. Qed.

Section Transforms.
Variables (F : fieldType) (fp : ff_params F) (w : worker).
Hypotheses (Hok : ff_ok fp) (Hw : (0 < w)%N).

(** C03: [fft] returns the values at 1, omega, ..., omega^(n-1). *)
Theorem C03_fft_is_evaluation (p : hpoly F Coefficients) : wf_poly fp p ->
  exists2 v, fft p w = Ok v &
    [/\ wf_poly fp v, p_omega v = p_omega p &
        p_coeffs v = evals (poly_of (p_coeffs p)) 1 (p_omega p) (size (p_coeffs p))].
Proof.
case/wfE => k [c [-> Hc Hk]]; rewrite (fft_std Hok Hw Hc Hk); eexists; first by [].
by split=> //=; [apply: wf_std => //; rewrite size_evals | rewrite Hc].
Qed.

(** C04: [ifft] returns the unique polynomial of degree below n with the given
    values, and both compositions are the identity. *)
Theorem C04_ifft_interpolates (v : hpoly F Values) : wf_poly fp v ->
  exists2 p, ifft v w = Ok p &
    [/\ wf_poly fp p, fft p w = Ok v,
        evals (poly_of (p_coeffs p)) 1 (p_omega v) (size (p_coeffs v)) = p_coeffs v &
        forall q : {poly F}, (size q <= size (p_coeffs v))%N ->
          evals q 1 (p_omega v) (size (p_coeffs v)) = p_coeffs v -> q = poly_of (p_coeffs p)].
Proof.
case/wfE => k [c [-> Hc Hk]]; rewrite (ifft_std Hok Hw Hc Hk); eexists; first by [].
split.
- by apply: wf_std => //; rewrite size_ifft_vec.
- by rewrite (fft_std Hok Hw) ?size_ifft_vec // ifft_vecK.
- by rewrite /= Hc ifft_vecK.
move=> q /=; rewrite Hc => Hq Eq.
have Eqc : poly_of (mkseq (fun i => q`_i) (2 ^ k)) = q.
  apply/polyP => i; rewrite coef_poly_of; case: (ltnP i (2 ^ k)) => Hi; first by rewrite nth_mkseq.
  by rewrite !nth_default ?size_mkseq // (leq_trans Hq).
by rewrite -Eq -{1}Eqc -{2}Eqc ifft_vec_evals // size_mkseq.
Qed.

Theorem C04_fft_ifft (p : hpoly F Coefficients) : wf_poly fp p ->
  exists2 v, fft p w = Ok v & ifft v w = Ok p.
Proof.
case/wfE => k [c [-> Hc Hk]]; rewrite (fft_std Hok Hw Hc Hk); eexists; first by [].
by rewrite (ifft_std Hok Hw) ?size_evals // ifft_vec_evals.
Qed.

(** C05: the same on the coset [h * <omega>]; [coset_fft] uses the
    multiplicative generator, the other version any given nonzero [h]. *)
Theorem C05_coset_fft_is_evaluation (p : hpoly F Coefficients) (h : F) : wf_poly fp p -> h != 0 ->
  exists2 v, coset_fft_for_generator p w h = Ok v &
    [/\ wf_poly fp v, p_omega v = p_omega p,
        p_coeffs v = evals (poly_of (p_coeffs p)) h (p_omega p) (size (p_coeffs p)) &
        icoset_fft_for_generator v w h^-1 = Ok p].
Proof.
case/wfE => k [c [-> Hc Hk]] Hh; rewrite (coset_fft_gen_std Hok Hw _ Hc Hk).
eexists; first by [].
split=> //=; [by apply: wf_std => //; rewrite size_evals | by rewrite Hc |].
exact: icoset_evals.
Qed.

Theorem C05_coset_fft_default (p : hpoly F Coefficients) : wf_poly fp p ->
  coset_fft fp p w = coset_fft_for_generator p w (ff_gen fp).
Proof. by []. Qed.

Theorem C05_icoset_fft (v : hpoly F Values) (h : F) : wf_poly fp v -> h != 0 ->
  exists2 p, icoset_fft_for_generator v w h^-1 = Ok p &
    [/\ wf_poly fp p, coset_fft_for_generator p w h = Ok v,
        evals (poly_of (p_coeffs p)) h (p_omega v) (size (p_coeffs v)) = p_coeffs v &
        forall q : {poly F}, (size q <= size (p_coeffs v))%N ->
          evals q h (p_omega v) (size (p_coeffs v)) = p_coeffs v -> q = poly_of (p_coeffs p)].
Proof.
case/wfE => k [c [-> Hc Hk]] Hh.
case: (icoset_std Hok Hw Hc Hk Hh) => b -> [Hb Eb]; eexists; first by [].
split; [exact: wf_std | by rewrite (coset_fft_gen_std Hok Hw _ Hb Hk) Eb | by rewrite /= Hc |].
move=> q /=; rewrite Hc => Hq Eq.
have Eqc : poly_of (mkseq (fun i => q`_i) (2 ^ k)) = q.
  apply/polyP => i; rewrite coef_poly_of; case: (ltnP i (2 ^ k)) => Hi; first by rewrite nth_mkseq.
  by rewrite !nth_default ?size_mkseq // (leq_trans Hq).
have H1 := icoset_evals Hok Hw (size_mkseq (fun i => q`_i) (2 ^ k)) Hk Hh.
have H2 := icoset_evals Hok Hw Hb Hk Hh.
by move: H1; rewrite Eqc Eq -Eb H2 => -[->].
Qed.

Theorem C05_icoset_fft_default (v : hpoly F Values) : wf_poly fp v ->
  icoset_fft v w = icoset_fft_for_generator v w (ff_gen fp)^-1.
Proof. by case=> _ _ H _; rewrite /icoset_fft H. Qed.

(** C08: zero-padded ("filtering") extension by 2^e. *)
Theorem C08_filtering_lde (p : hpoly F Coefficients) (e : nat) : wf_poly fp p ->
  let n := (size (p_coeffs p) * 2 ^ e)%N in
  match domain_new fp n with
  | Ok d => exists2 v, filtering_lde fp p w (2 ^ e) = Ok v &
      wf_poly fp v /\ p_coeffs v = evals (poly_of (p_coeffs p)) 1 (d_gen d) n
  | _ => filtering_lde fp p w (2 ^ e) = Err
  end.
Proof.
case/wfE => k [c [-> Hc Hk]]; rewrite /= (filtering_lde_std Hok Hw _ Hc Hk) Hc domain_new_mul.
case: ifP => //= HS; eexists; first by [].
by split; [apply: wf_std => //; rewrite size_evals | rewrite expnD].
Qed.

Theorem C08_coset_filtering_lde (p : hpoly F Coefficients) (e : nat) : wf_poly fp p ->
  let n := (size (p_coeffs p) * 2 ^ e)%N in
  match domain_new fp n with
  | Ok d => exists2 v, coset_filtering_lde fp p w (2 ^ e) = Ok v &
      wf_poly fp v /\ p_coeffs v = evals (poly_of (p_coeffs p)) (ff_gen fp) (d_gen d) n
  | _ => coset_filtering_lde fp p w (2 ^ e) = Err
  end.
Proof.
case/wfE => k [c [-> Hc Hk]]; rewrite /= (coset_filtering_lde_std Hok Hw _ Hc Hk) Hc domain_new_mul.
case: ifP => //= HS; eexists; first by [].
by split; [apply: wf_std => //; rewrite size_evals | rewrite expnD].
Qed.

(** C09, full statement: the statement of C08 for [lde] and [coset_lde], for
    every CPU count.  It is refuted below; it holds exactly when the machine
    has one CPU or the factor is below twice the number of CPUs. *)
Definition C09_statement (c : nat) (e : nat) (p : hpoly F Coefficients) : Prop :=
  let n := (size (p_coeffs p) * 2 ^ e)%N in
  match domain_new fp n with
  | Ok d =>
      (exists2 v, lde fp p c (2 ^ e) = Ok v &
         wf_poly fp v /\ p_coeffs v = evals (poly_of (p_coeffs p)) 1 (d_gen d) n) /\
      (exists2 v, coset_lde fp p c (2 ^ e) = Ok v &
         wf_poly fp v /\ p_coeffs v = evals (poly_of (p_coeffs p)) (ff_gen fp) (d_gen d) n)
  | _ => lde fp p c (2 ^ e) = Err /\ coset_lde fp p c (2 ^ e) = Err
  end.

Theorem C09_lde_partial (p : hpoly F Coefficients) (e : nat) : wf_poly fp p ->
  w = 1%N \/ (2 ^ e < 2 * w)%N -> C09_statement w e p.
Proof.
case/wfE => k [c [-> Hc Hk]] Hcpu; rewrite /C09_statement /=.
have Hcpu' : lde_cpus_ok w (2 ^ e) by rewrite /lde_cpus_ok; case: Hcpu => [->|->] //; rewrite orbT.
rewrite (lde_std Hok Hw Hc Hk Hcpu') (coset_lde_std Hok Hw Hc Hk Hcpu') Hc domain_new_mul.
case: ifP => //= HS; split; eexists; try by [].
- by split; [apply: wf_std => //; rewrite size_evals | rewrite expnD].
- by split; [apply: wf_std => //; rewrite size_evals | rewrite expnD].
Qed.

(** The condition on the CPUs cannot be dropped: for every number of CPUs and
    factor that violates it there is a polynomial with a wrong extension. *)
Theorem C09_cpu_condition_necessary (k e : nat) : (0 < k)%N -> (k + e <= ff_S fp)%N ->
  (forall p, wf_poly fp p -> size (p_coeffs p) = (2 ^ k)%N -> C09_statement w e p) ->
  w = 1%N \/ (2 ^ e < 2 * w)%N.
Proof.
move=> Hk HS H; case: (boolP (lde_cpus_ok w (2 ^ e))) => [/orP [/eqP ->|->]|Hno]; [by left|by right|].
case: (posnP e) => [E|He]; first by rewrite E; right; rewrite expn0 (leq_trans (_ : 1 < 2 * 1)%N) // leq_mul2l.
case: (lde_wrong Hok Hw Hk He HS Hno) => c Hc [v Ev Hv].
have Hkk : (k <= ff_S fp)%N by apply: leq_trans HS; apply: leq_addr.
have := H _ (wf_std Coefficients Hc Hkk) Hc; rewrite /C09_statement /= Hc domain_new_mul HS => -[[v' Ev' [_ Hv']] _].
by case: Hv; move: Ev; rewrite Ev' => -[<-]; rewrite Hv' /= -expnD.
Qed.

(** C10: all variants of the extension agree. *)
Theorem C10_naive_equals_filtering (p : hpoly F Coefficients) (e : nat) : wf_poly fp p ->
  lde_using_multiple_cosets_naive fp p w (2 ^ e) = filtering_lde fp p w (2 ^ e) /\
  coset_lde_using_multiple_cosets_naive fp p w (2 ^ e) = coset_filtering_lde fp p w (2 ^ e).
Proof.
case/wfE => k [c [-> Hc Hk]].
by rewrite naive_lde_std // filtering_lde_std // coset_naive_lde_std // coset_filtering_lde_std.
Qed.

Theorem C10_cosets_equals_filtering_partial (p : hpoly F Coefficients) (e : nat) : wf_poly fp p ->
  w = 1%N \/ (2 ^ e < 2 * w)%N ->
  lde_using_multiple_cosets fp p w (2 ^ e) = filtering_lde fp p w (2 ^ e) /\
  coset_lde_using_multiple_cosets fp p w (2 ^ e) = coset_filtering_lde fp p w (2 ^ e).
Proof.
case/wfE => k [c [-> Hc Hk]] Hcpu.
have Hcpu' : lde_cpus_ok w (2 ^ e) by rewrite /lde_cpus_ok; case: Hcpu => [->|->] //; rewrite orbT.
rewrite -/(lde fp) -/(coset_lde fp); have -> := lde_std Hok Hw Hc Hk Hcpu'.
have -> := coset_lde_std Hok Hw Hc Hk Hcpu'.
by rewrite filtering_lde_std // coset_filtering_lde_std.
Qed.

(** Factors that are not powers of two are rejected by an assertion. *)
Theorem C10_bad_factor (p : hpoly F Coefficients) (f : nat) : ~~ is_pow2 f ->
  [/\ lde fp p w f = Panic, coset_lde fp p w f = Panic,
      filtering_lde fp p w f = Panic & coset_filtering_lde fp p w f = Panic] /\
  lde_using_multiple_cosets_naive fp p w f = Panic /\
  coset_lde_using_multiple_cosets_naive fp p w f = Panic.
Proof.
move=> Hf; have H1 : (f == 1%N) = false by apply/negP => /eqP E; rewrite E (is_pow2_exp 0) in Hf.
rewrite /lde /coset_lde /lde_using_multiple_cosets /coset_lde_using_multiple_cosets.
rewrite /filtering_lde /coset_filtering_lde /lde_using_multiple_cosets_naive.
by rewrite /coset_lde_using_multiple_cosets_naive H1 (negbTE Hf).
Qed.
End Transforms.

(** C06: the kernels agree for every CPU count and hint. *)
Theorem C06_parallel_equals_serial (F : fieldType) (a : seq F) (omega : F) (L : nat) :
  size a = (2 ^ L)%N -> (2 ^ L).-primitive_root omega ->
  exists r, [/\ serial_fft a omega L = Ok r,
    forall w c, (0 < w)%N -> (c <= L)%N -> parallel_fft a w omega L c = Ok r &
    forall w hint, (0 < w)%N -> (if hint is Some h then 0 < h <= w else true)%N ->
      best_fft a w omega L hint = Ok r].
Proof.
move=> Ha Hom; have Hr := prim_fft_root Hom.
exists (evals (poly_of a) 1 omega (2 ^ L)); split.
- by rewrite serial_fftP // dft_evals.
- by move=> w c Hw Hc; rewrite parallel_fftP // dft_evals.
by move=> w hint Hw Hh; apply: best_fftP.
Qed.

(** The same for the kernels with skipping, on vectors whose entries from
    n/factor on are zero. *)
Theorem C06_parallel_lde_equals_serial (F : fieldType) (a : seq F) (omega : F) (L e : nat) :
  size a = (2 ^ L)%N -> (2 ^ L).-primitive_root omega -> (e <= L)%N ->
  (forall i, (2 ^ (L - e) <= i < 2 ^ L)%N -> a`_i = 0) ->
  exists r, [/\ serial_fft a omega L = Ok r, serial_lde a omega L (2 ^ e) = Ok r,
    forall w c, (0 < w)%N -> (c <= L)%N -> parallel_lde a w omega L c (2 ^ e) = Ok r &
    forall w, (0 < w)%N -> best_lde a w omega L (2 ^ e) = Ok r].
Proof.
move=> Ha Hom He Hz; have Hr := prim_fft_root Hom.
exists (evals (poly_of a) 1 omega (2 ^ L)); split.
- by rewrite serial_fftP // dft_evals.
- by rewrite serial_ldeP // serial_fftP // dft_evals.
- by move=> w c Hw Hc; rewrite parallel_ldeP // dft_evals.
by move=> w Hw; apply: best_ldeP.
Qed.

Definition coeffs_nat P (o : outcome (hpoly F257 P)) : option (seq nat) :=
  if o is Ok p then Some (nats (p_coeffs p)) else None.

(** C09 refuted: X extended by 4 on a machine with two CPUs has wrong values;
    one CPU gives the right ones. *)
Definition ex_X : hpoly F257 Coefficients := P_Poly.std f257 Coefficients 1 [:: 0; 1].
Lemma ex_X_wf : wf_poly f257 ex_X.
Proof. by apply: wf_std. Qed.
Theorem C09_refuted :
  [/\ from_coeffs f257 [:: 0; 1] = Ok ex_X, C09_statement f257 1 2 ex_X &
      ~ C09_statement f257 2 2 ex_X].
Proof.
split; first by apply: from_coeffs_pow => //; apply: f257_ok.
  exact: (@C09_lde_partial _ f257 1 f257_ok isT ex_X 2 ex_X_wf (or_introl erefl)).
move=> H; have : coeffs_nat (lde f257 ex_X 2 4) = Some (nats (evals 'X 1 (dom_gen f257 3) 8)).
  move: H; rewrite /C09_statement (_ : (size _ * 2 ^ 2)%N = (2 ^ 3)%N) //.
  rewrite domain_new_pow // => -[[v Ev [_ Hv]] _]; rewrite -[4%N]/(2 ^ 2)%N Ev /coeffs_nat Hv.
  by rewrite [poly_of _]poly_of_X.
rewrite (_ : nats _ = [:: 1; 64; 241; 4; 256; 193; 16; 253]%N); first by vm_compute.
rewrite /evals /nats -map_comp.
rewrite (eq_map (f2 := fun i => z257_nat (dom_gen f257 3 ^+ i : F257))); first by vm_compute.
by move=> i /=; rewrite hornerX mul1r.
Qed.

Example C03_ex : wf_poly f257 ex_poly /\
  coeffs_nat (fft ex_poly 3) = Some [:: 10; 30; 255; 223]%N.
Proof. by split; [apply: ex_poly_wf | vm_compute]. Qed.
Example C04_ex : wf_poly f257 ex_values /\
  coeffs_nat (let* p := ifft ex_values 2 in fft p 5) = Some [:: 10; 255; 255; 255]%N.
Proof. by split; [apply: ex_values_wf | vm_compute]. Qed.
Example C05_ex : coeffs_nat (let* v := coset_fft f257 ex_poly 3 in icoset_fft v 3) =
  Some [:: 1; 2; 3; 4]%N.
Proof. by vm_compute. Qed.
Example C06_ex :
  (let* r := best_fft (p_coeffs ex_poly) 4 (p_omega ex_poly) 2 None in Ok (nats r)) =
  Ok [:: 10; 30; 255; 223]%N /\
  (let* r := best_fft (p_coeffs ex_poly) 4 (p_omega ex_poly) 2 (Some 2%N) in Ok (nats r)) =
  Ok [:: 10; 30; 255; 223]%N.
Proof. by split; vm_compute. Qed.
Example C08_ex : coeffs_nat (filtering_lde f257 ex_poly 4 2) =
  Some [:: 10; 97; 30; 56; 255; 66; 223; 42]%N.
Proof. by vm_compute. Qed.
(** the hypothesis of the conditional theorem: factor 4 on 3 CPUs *)
Example C09_ex : (2 ^ 2 < 2 * 3)%N /\
  coeffs_nat (lde f257 ex_poly 3 4) = coeffs_nat (filtering_lde f257 ex_poly 4 4).
Proof. by split; vm_compute. Qed.

Print Assumptions C03_fft_is_evaluation.
Print Assumptions C04_ifft_interpolates.
Print Assumptions C04_fft_ifft.
Print Assumptions C05_coset_fft_is_evaluation.
Print Assumptions C05_icoset_fft.
Print Assumptions C06_parallel_equals_serial.
Print Assumptions C06_parallel_lde_equals_serial.
Print Assumptions C08_filtering_lde.
Print Assumptions C08_coset_filtering_lde.
Print Assumptions C09_lde_partial.
Print Assumptions C09_cpu_condition_necessary.
Print Assumptions C09_refuted.
Print Assumptions C10_naive_equals_filtering.
Print Assumptions C10_cosets_equals_filtering_partial.
Print Assumptions C10_bad_factor.
