(** Property C70: the recursive FFT kernels. *)
From mathcomp Require Import all_ssreflect all_algebra.
From Verif Require Import M_Base M_Worker M_Field M_Domain M_Fft M_FftRec Spec.
From Verif Require Import P_Base P_Fft P_Domain P_FftRec Instances.

Set Implicit Arguments.
Unset Strict Implicit.
Unset Printing Implicit Defensive.
Import GRing.Theory.
Local Open Scope ring_scope.

Section Kernels.
Variables (F : fieldType) (omega : F) (L : nat) (a : seq F) (w : worker).
(** [a] has [2^L] entries, [omega] is a primitive root of that order, and the machine has at least
    one CPU. *)
Hypotheses (Hw : (0 < w)%N) (Hom : (2 ^ L).-primitive_root omega) (Hs : size a = (2 ^ L)%N).

(** What every kernel must return: the values of the polynomial with coefficients [a] at 1, omega,
    omega^2, ... *)
Let transform := evals (poly_of a) 1 omega (2 ^ L).

Let cpus : exists c, log_num_cpus w = Ok c.
Proof. by rewrite /log_num_cpus /log2_floor; case: (w) Hw => // w' _; eexists. Qed.

(** From two entries on, serial, for every number of CPU bits below L, and as dispatched. *)
Theorem C70_recursive_fft : (0 < L)%N ->
  [/\ rec_best_fft a w omega L = Ok transform, recursive_fft a omega L = Ok transform,
      best_fft a w omega L None = Ok transform &
      forall c, (c < L)%N -> rec_parallel_fft a w omega L c = Ok transform].
Proof.
move=> HL; have Hr := prim_fft_root Hom.
have Hrec : recursive_fft a omega L = Ok transform.
  rewrite /transform -dft_evals //; move: Hr (Hs); rewrite -(prednK HL) => Hr' Hs'; exact: recursive_fftP.
have Hpar c : (c < L)%N -> rec_parallel_fft a w omega L c = Ok transform.
  by move=> Hc; rewrite /transform -dft_evals //; apply: rec_parallel_fftP.
split=> //; last by apply: best_fftP.
by have [c Hc] := cpus; rewrite /rec_best_fft Hc /=; case: leqP => // /Hpar.
Qed.

Theorem C70_recursive_lde : (0 < L)%N ->
  [/\ rec_best_lde a w omega L = Ok transform, recursive_lde a omega L = Ok transform &
      forall c, (c < L)%N -> rec_parallel_lde a w omega L c = Ok transform].
Proof.
move=> HL; have Hr := prim_fft_root Hom.
have Hrec : recursive_lde a omega L = Ok transform.
  rewrite /transform -dft_evals //; move: Hr (Hs); rewrite -(prednK HL) => Hr' Hs'; exact: recursive_ldeP.
have Hpar c : (c < L)%N -> rec_parallel_lde a w omega L c = Ok transform.
  by move=> Hc; rewrite /transform -dft_evals //; apply: rec_parallel_ldeP.
split=> //.
by have [c Hc] := cpus; rewrite /rec_best_lde Hc /=; case: leqP => // /Hpar.
Qed.

(** A single entry: a panic, where the kernels in use return the entry; the one for low degree
    extensions returns only zero. *)
Theorem C70_one_entry : L = 0%N ->
  [/\ rec_best_fft a w omega L = Panic, best_fft a w omega L None = Ok a &
      rec_best_lde a w omega L = if a == [:: 0] then Ok a else Panic].
Proof.
move=> HL; have [c Hc] := cpus; move: (Hs); rewrite /rec_best_fft /rec_best_lde Hc HL /= => H1; split.
- exact: recursive_fft0.
- have -> : best_fft a w omega 0 None = Ok transform by rewrite -HL; apply: best_fftP => //; apply: prim_fft_root.
  rewrite /transform HL; case: (a) H1 => // x [|] // _; rewrite /evals /= /poly_of.
  by rewrite horner_poly big_ord_recl big_ord0 /= expr0 mulr1 addr0.
by case: (a) H1 => // x [|] // _; rewrite eqseq_cons eqxx andbT /= andbT; case: eqP => [->|].
Qed.
End Kernels.

(** 5 + 7X + 11X^2 on the domain of 4 elements (16 = 3^64 mod 257 has order 4), two CPUs. *)
Definition rec_a : seq F257 := [:: 5%:R; 7%:R; 11%:R; 0].
Definition rec_nat (x : outcome (seq F257)) : option (seq nat) := if x is Ok s then Some (nats s) else None.
Example C70_ex : [/\ (2 ^ 2).-primitive_root (16%:R : F257),
  rec_nat (rec_best_fft rec_a 2 (16%:R : F257) 2) = Some [:: 23; 106; 9; 139]%N &
  rec_nat (rec_best_lde rec_a 2 (16%:R : F257) 2) = Some [:: 23; 106; 9; 139]%N].
Proof. by split; [apply: prim_pow2 | |]; vm_compute. Qed.
Example C70_ex_one : (2 ^ 0).-primitive_root (1 : F257) /\ rec_nat (rec_best_fft [:: 5%:R : F257] 2 1 0) = None.
Proof. split; last by vm_compute.
by apply/andP; split=> //; apply/forallP => -[[|i] Hi] //; rewrite unity_rootE expr1 eqxx. Qed.

Print Assumptions C70_recursive_fft.
Print Assumptions C70_recursive_lde.
Print Assumptions C70_one_entry.
