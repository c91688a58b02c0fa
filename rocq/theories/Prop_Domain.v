(** Properties C01, C02, C52, C53. *)
From mathcomp Require Import all_ssreflect all_algebra.
From Verif Require Import M_Base M_Worker M_Field M_Domain M_Fft M_Poly Spec SpecPoly.
From Verif Require Import P_Base P_Fft P_Domain P_Poly P_Lde P_PolyOps P_Wf Instances.

Set Implicit Arguments.
Unset Strict Implicit.
Unset Printing Implicit Defensive.
Import GRing.Theory.
Local Open Scope ring_scope.

(** C01: [Domain::new_for_size(n)] fails exactly when no power of two up to 2^S
    is at least [n]; otherwise the size is the least power of two that is at
    least [n] and the generator has multiplicative order exactly the size. *)
Theorem C01_domain_new (F : fieldType) (fp : ff_params F) (n : nat) : ff_ok fp ->
  (2 ^ ff_S fp < n)%N /\ domain_new fp n = Err \/
  (n <= 2 ^ ff_S fp)%N /\
  exists k g, [/\ domain_new fp n = Ok (Domain (2 ^ k) k g),
    (n <= 2 ^ k)%N, (forall j, (n <= 2 ^ j)%N -> (k <= j)%N) & (2 ^ k).-primitive_root g].
Proof.
move=> Hok; rewrite domain_newE.
have Hmin j : (n <= 2 ^ j)%N -> (up_log 2 n <= j)%N by apply: up_log_min.
have Hle : (n <= 2 ^ up_log 2 n)%N by case: (posnP n) => [-> //|H]; apply: up_logP.
case: (ltnP (ff_S fp) (up_log 2 n)) => HS; [left | right]; split=> //.
- by rewrite ltnNge; apply/negP => /Hmin; rewrite leqNgt HS.
- by apply: leq_trans Hle _; rewrite leq_exp2l.
by exists (up_log 2 n), (dom_gen fp (up_log 2 n)); split=> //; apply: dom_gen_prim.
Qed.

Example C01_ex : ff_ok f257 /\
  (let* d := domain_new f257 5 in Ok (d_size d, d_pow d, z257_nat (d_gen d))) = Ok (8, 3, 64)%N
  /\ is_err (domain_new f257 257).
Proof. by split; [exact: f257_ok | split; vm_compute]. Qed.

Lemma prim_half (F : fieldType) (g : F) k : (2 ^ k.+1).-primitive_root g -> g ^+ (2 ^ k) = -1.
Proof. by move=> Hg; have := prim_fft_root Hg; rewrite /fft_root /= => /eqP. Qed.

(** C02. *)
Theorem C02_index_maps (F : fieldType) (g : F) (k i : nat) :
  (2 ^ k.+1).-primitive_root g -> (i < 2 ^ k.+1)%N ->
  exists a b j,
   [/\ coset_for_natural_index_and_size i (2 ^ k.+1) = Ok [:: a; b],
       (a < b < 2 ^ k.+1)%N, i = a \/ i = b, g ^+ b = - g ^+ a &
   [/\ (j < 2 ^ k)%N,
       index_and_size_for_next_domain a (2 ^ k.+1) = Ok (j, 2 ^ k)%N,
       index_and_size_for_next_domain b (2 ^ k.+1) = Ok (j, 2 ^ k)%N,
       (2 ^ k).-primitive_root (g ^+ 2) & (g ^+ 2) ^+ j = (g ^+ i) ^+ 2]].
Proof.
move=> Hg Hi.
have E : (2 ^ k.+1 = 2 ^ k + 2 ^ k)%N by rewrite expnS mul2n addnn.
have H1 : (1 < 2 ^ k.+1)%N by rewrite -{1}(expn0 2) ltn_exp2l.
have Hd : (2 ^ k.+1 %/ 2 = 2 ^ k)%N by rewrite expnS mulKn.
have H0 : (0 < 2 ^ k)%N by rewrite expn_gt0.
pose j := (if i < 2 ^ k then i else i - 2 ^ k)%N.
have Hj : (j < 2 ^ k)%N by rewrite /j; case: (ltnP i (2 ^ k)) => // H; rewrite ltn_subLR // -E.
exists j, (j + 2 ^ k)%N, j.
have Hp : g ^+ (j + 2 ^ k) = - g ^+ j by rewrite exprD (prim_half Hg) mulrN1.
have Hi' : i = j \/ i = (j + 2 ^ k)%N by rewrite /j; case: (ltnP i (2 ^ k)) => H; [left | right; rewrite subnK].
split=> //.
- rewrite /coset_for_natural_index_and_size H1 is_pow2_exp Hd /j; case: (ltnP i (2 ^ k)) => H.
    by rewrite modn_small ?E ?ltn_add2r // /sort /= leq_addr.
  rewrite (_ : (i + 2 ^ k)%N = (i - 2 ^ k) + 2 ^ k.+1)%N; last by rewrite E addnA subnK.
  rewrite modnDr modn_small; last by rewrite (leq_ltn_trans (leq_subr _ _)).
  rewrite subnK // /sort /=; case: leqP => //.
  by rewrite leqNgt ltn_subrL (leq_trans H0 H) H0.
- by rewrite E ltn_add2r Hj -{1}(addn0 j) ltn_add2l H0.
rewrite /index_and_size_for_next_domain H1 is_pow2_exp Hd; split=> //.
- by rewrite Hj.
- by rewrite ltnNge leq_addl /= addnK.
- have := exp_prim_root Hg 2.
  by rewrite (gcdn_idPl _) ?Hd // expnS dvdn_mulr.
case: Hi' => ->; first by rewrite exprAC.
by rewrite Hp sqrrN exprAC.
Qed.

Theorem C02_other_sizes_panic (i n : nat) : ~~ ((1 < n)%N && is_pow2 n) ->
  coset_for_natural_index_and_size i n = Panic /\ index_and_size_for_next_domain i n = Panic.
Proof.
rewrite negb_and /coset_for_natural_index_and_size /index_and_size_for_next_domain.
by case: ltnP => //= _ /negbTE ->.
Qed.

Example C02_ex :
  [/\ (2 ^ 3).-primitive_root (64%:R : F257), 
      coset_for_natural_index_and_size 6 8 = Ok [:: 2; 6]%N,
      index_and_size_for_next_domain 6 8 = Ok (2, 4)%N &
      coset_for_natural_index_and_size 1 6 = Panic].
Proof.
split; [|by vm_compute|by vm_compute|by vm_compute].
by apply: prim_pow2; [apply/eqP => /(congr1 z257_nat); vm_compute | apply: val_inj; vm_compute].
Qed.

(** C52. *)
Theorem C52_log2_floor (n : nat) :
  if n is 0 then log2_floor n = Panic
  else exists2 k, log2_floor n = Ok k & (2 ^ k <= n < 2 ^ k.+1)%N.
Proof. by case: n => // n; apply: log2_floorP. Qed.

Example C52_ex : log2_floor 1000 = Ok 9%N /\ log2_floor 0 = Panic.
Proof. by split; vm_compute. Qed.

(** C53. *)
Theorem C53_precomputed_powers (F : fieldType) (fp : ff_params F) (w n : nat) (d : domain F) :
  ff_ok fp -> (0 < w)%N -> domain_new fp n = Ok d ->
  exists2 t, precompute fp d w = Ok t &
    [/\ pc_omegas t = powers (d_gen d) (d_size d),
        pc_coset t = [seq ff_gen fp * x | x <- powers (d_gen d) (d_size d)] &
        pc_omegas_inv t = powers (d_gen d)^-1 (d_size d %/ 2)].
Proof.
move=> Hok Hw; rewrite domain_newE; case: ltnP => // HS [<-].
rewrite precomputeE //=; last exact: dom_gen_neq0.
by eexists.
Qed.

Example C53_ex :
  (let* d := domain_new f257 4 in let* t := precompute f257 d 3 in
   Ok (nats (pc_omegas t), nats (pc_coset t), nats (pc_omegas_inv t)))
  = Ok ([:: 1; 241; 256; 16], [:: 3; 209; 254; 48], [:: 1; 16])%N.
Proof. by vm_compute. Qed.

Print Assumptions C01_domain_new.
Print Assumptions C02_index_maps.
Print Assumptions C02_other_sizes_panic.
Print Assumptions C52_log2_floor.
Print Assumptions C53_precomputed_powers.
