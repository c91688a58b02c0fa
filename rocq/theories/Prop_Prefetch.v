(** Property C55: the kernels of the feature "nightly". *)
From mathcomp Require Import all_ssreflect all_algebra.
From Verif Require Import M_Base M_Worker M_Field M_Domain M_Fft M_Poly M_Prefetch Spec SpecPoly.
From Verif Require Import P_Base P_Fft P_Domain P_Prefetch Prop_Fft Instances.

Set Implicit Arguments.
Unset Strict Implicit.
Unset Printing Implicit Defensive.
Import GRing.Theory.
Local Open Scope ring_scope.

(** C55: on every input, valid or not, the FFT kernels of the feature "nightly"
    have the outcome of the ordinary ones; in particular the prefetched indices
    never cause a panic. *)
Theorem C55_same_fft (F : fieldType) (a : seq F) (omega : F) (L : nat) :
  [/\ pf_serial_fft a omega L = serial_fft a omega L,
      forall w c, pf_parallel_fft a w omega L c = parallel_fft a w omega L c &
      forall w hint, pf_best_fft a w omega L hint = best_fft a w omega L hint].
Proof.
split; first exact: pf_serial_fftE; first by move=> w c; apply: pf_parallel_fftE.
by move=> w hint; apply: pf_best_fftE.
Qed.

(** On vectors whose entries from [n / factor] on are zero (the only ones that
    the callers of the kernels pass) all LDE kernels return the values at
    1, omega, ... of the polynomial. *)
Theorem C55_lde_evaluates (F : fieldType) (a : seq F) (omega : F) (L e : nat) :
  size a = (2 ^ L)%N -> (2 ^ L).-primitive_root omega -> (e <= L)%N ->
  (forall i, (2 ^ (L - e) <= i < 2 ^ L)%N -> a`_i = 0) ->
  let r := evals (poly_of a) 1 omega (2 ^ L) in
  [/\ pf_serial_lde a omega L (2 ^ e) = Ok r,
      forall w c, (0 < w)%N -> (c <= L)%N -> pf_parallel_lde a w omega L c (2 ^ e) = Ok r &
      forall w, (0 < w)%N -> pf_best_lde a w omega L (2 ^ e) = Ok r].
Proof.
move=> Ha Hom He Hz r; have Hr := prim_fft_root Hom.
have H0 : (2 ^ e)%N != 0%N by rewrite -lt0n expn_gt0.
split.
- by rewrite pf_serial_ldeE // ?serial_ldeP ?serial_fftP ?dft_evals // div_pow2.
- by move=> w c Hw Hc; rewrite pf_parallel_ldeE // parallel_ldeP // dft_evals.
by move=> w Hw; rewrite pf_best_ldeE // best_ldeP.
Qed.

(** Therefore the FFT and the LDEs do not depend on the feature: with the
    kernels exchanged, they return the same values on every polynomial. *)
Theorem C55_fft_evaluates (F : fieldType) (a : seq F) (omega : F) (L : nat) (w : worker) hint :
  size a = (2 ^ L)%N -> (2 ^ L).-primitive_root omega -> (0 < w)%N ->
  (if hint is Some h then 0 < h <= w else true)%N ->
  pf_best_fft a w omega L hint = Ok (evals (poly_of a) 1 omega (2 ^ L)).
Proof.
by move=> Ha Hom Hw Hh; rewrite pf_best_fftE best_fftP // prim_fft_root.
Qed.

Example C55_ex :
  let a := [:: 1; 2%:R; 0; 0; 0; 0; 0; 0] : seq F257 in
  [/\ size a = (2 ^ 3)%N, (2 ^ 3).-primitive_root (dom_gen f257 3),
      forall i, (2 ^ (3 - 2) <= i < 2 ^ 3)%N -> a`_i = 0,
      (let* r := pf_best_lde a 2 (dom_gen f257 3) 3 4 in Ok (nats r)) =
      (let* r := best_lde a 2 (dom_gen f257 3) 3 4 in Ok (nats r)) &
      (let* r := pf_best_lde a 2 (dom_gen f257 3) 3 4 in Ok (nats r)) =
      (let* r := pf_best_fft a 2 (dom_gen f257 3) 3 None in Ok (nats r))].
Proof.
split.
- by [].
- by have := dom_gen_prim f257_ok (isT : (3 <= ff_S f257)%N).
- by do 8! case=> [|] //.
- by vm_compute.
- by vm_compute.
Qed.

Print Assumptions C55_same_fft.
Print Assumptions C55_lde_evaluates.
Print Assumptions C55_fft_evaluates.
