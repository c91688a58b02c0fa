(** Property C11: the alternative FFT kernels. *)
From mathcomp Require Import all_ssreflect all_algebra.
From Verif Require Import M_Base M_Worker M_Field M_Domain M_Fft M_FftAlt Spec.
From Verif Require Import P_Base P_Fft P_Domain P_FftAlt Instances.

Set Implicit Arguments.
Unset Strict Implicit.
Unset Printing Implicit Defensive.
Import GRing.Theory.
Local Open Scope ring_scope.

Section Kernels.
Variables (F : fieldType) (omega : F) (L : nat) (a : seq F) (w : worker).
(** [a] has [2^L] entries, [omega] is a primitive root of that order, and the
    machine has at least one CPU. *)
Hypotheses (Hw : (0 < w)%N) (Hom : (2 ^ L).-primitive_root omega) (Hs : size a = (2 ^ L)%N).

(** What every kernel must return: the values of the polynomial with
    coefficients [a] at 1, omega, omega^2, ... *)
Let transform := evals (poly_of a) 1 omega (2 ^ L).

Let Hr : fft_root omega L.
Proof. exact: prim_fft_root. Qed.

Lemma standard : best_fft a w omega L None = Ok transform.
Proof. exact: best_fftP. Qed.

(** The radix 4 FFT, serial, for every even number of CPUs bits, and as dispatched. *)
Theorem C11_radix4 : ~~ odd L ->
  [/\ best_fft_radix_4 a w omega L = Ok transform,
      best_fft_radix_4 a w omega L = best_fft a w omega L None,
      serial_fft_radix_4 a omega L = Ok transform &
      forall c, (c <= L)%N -> ~~ odd c -> parallel_fft_radix_4 a w omega L c = Ok transform].
Proof.
move=> HL; rewrite standard /transform -dft_evals //; split.
- exact: best_fft_radix_4P.
- exact: best_fft_radix_4P.
- exact: serial_fft_radix_4P.
- by move=> c Hc Hoc; exact: parallel_fft_radix_4P.
Qed.

(** It refuses the other sizes. *)
Theorem C11_radix4_odd : odd L ->
  best_fft_radix_4 a w omega L = Panic /\ serial_fft_radix_4 a omega L = Panic.
Proof.
by move=> HL; rewrite /best_fft_radix_4 /serial_fft_radix_4 modn2 HL Hs eqxx.
Qed.

(** The decimation in time FFT: [nz] bounds the non-zero prefix. *)
Theorem C11_dit (nz : nat) : all (pred1 0) (drop nz a) ->
  [/\ best_dit_fft a w omega L nz = Ok transform,
      best_dit_fft a w omega L nz = best_fft a w omega L None,
      serial_dit_fft a omega L nz = Ok transform &
      forall c, (c <= L)%N -> parallel_dit_fft a w omega L c nz = Ok transform].
Proof.
move=> /allP Hz.
have Z i : (nz <= i)%N -> a`_i = 0.
  move=> Hi; case: (ltnP i (size a)) => Hil; last by rewrite nth_default.
  rewrite -(subnKC Hi) -nth_drop; apply/eqP; apply: (Hz); apply: mem_nth.
  by rewrite size_drop ltn_sub2r // (leq_ltn_trans Hi).
rewrite standard /transform -dft_evals //; split.
- exact: best_dit_fftP.
- exact: best_dit_fftP.
- exact: serial_dit_fftP.
- by move=> c Hc; exact: parallel_dit_fftP.
Qed.
End Kernels.

(** Every vector satisfies the prefix condition for its whole length. *)
Lemma C11_full_prefix (F : fieldType) (a : seq F) : all (pred1 0) (drop (size a) a).
Proof. by rewrite drop_size. Qed.

(** 5 + 7X + 11X^2 on the domain of 4 elements (16 = 3^64 mod 257 has order 4). *)
Definition run (x : outcome (seq F257)) : option (seq nat) := if x is Ok s then Some (nats s) else None.
Definition c11_a : seq F257 := [:: 5%:R; 7%:R; 11%:R; 0].
Example C11_ex_root : (2 ^ 2).-primitive_root (16%:R : F257).
Proof. by apply: prim_pow2; vm_compute. Qed.
Example C11_ex_radix4 : run (best_fft_radix_4 c11_a 4 (16%:R : F257) 2) = Some [:: 23; 106; 9; 139]%N.
Proof. by vm_compute. Qed.
Example C11_ex_dit : run (best_dit_fft c11_a 2 (16%:R : F257) 2 3) = Some [:: 23; 106; 9; 139]%N.
Proof. by vm_compute. Qed.
Example C11_ex_std : run (best_fft c11_a 2 (16%:R : F257) 2 None) = Some [:: 23; 106; 9; 139]%N.
Proof. by vm_compute. Qed.
(** The prefix condition is needed: with a count below the last non-zero entry
    of the vector the pruned transform is wrong. *)
Example C11_ex_dit_short : run (serial_dit_fft c11_a (16%:R : F257) 2 1) != Some [:: 23; 106; 9; 139]%N.
Proof. by vm_compute. Qed.

Print Assumptions C11_radix4.
Print Assumptions C11_radix4_odd.
Print Assumptions C11_dit.
