(** C73: the shape and the size of a proof. *)
From Coq Require Import NArith Lia.
From mathcomp Require Import all_ssreflect all_algebra.
From Verif Require Import M_Base M_Worker M_Field M_Domain M_Fft M_Poly M_Bytes M_Transcript M_Merkle M_Fri.
From Verif Require Import M_Challenge M_Air M_Arp M_Ali M_Verifier M_Prover.
From Verif Require Import Spec SpecPoly SpecFri SpecAir SpecStark SpecMany SpecSound P_Base P_Fft P_Domain P_Poly P_Lde P_PolyOps P_Wf P_Bytes P_Merkle P_Fri P_Air P_Arp.
From Verif Require Import P_Vals P_Maps P_Ali P_AliG P_AliMany P_Comp P_Honest P_Gz P_Deep P_Stark P_Sound P_SoundDeep P_Few P_Run.
From Verif Require Import Instances Prop_Hash Prop_Fri Prop_Air Prop_Arp Prop_Ali Prop_Stark Prop_AnyWitness Prop_Cpus.

Set Implicit Arguments.
Unset Strict Implicit.
Unset Printing Implicit Defensive.
Import GRing.Theory.
Local Open Scope ring_scope.

(** * Specification *)
Section Spec.
Variable F : fieldType.

(** A FRI proof for [n] coefficients, extended [lde] times and folded down to [out]
    coefficients: one root and two openings per layer, a layer is half as large as the
    one before it, and an opening in a tree with 2^h leaves has h siblings. *)
Definition fri_shape (n out lde : nat) (p : fri_proof F) : Prop :=
  [/\ fpr_degree_plus_one p = n, fpr_output p = out, fpr_lde_factor p = lde, size (fpr_final_coefficients p) = out &
  exists rounds, [/\ n = (out * 2 ^ rounds)%N, size (fpr_roots p) = rounds.+1, size (fpr_queries p) = (2 * rounds.+1)%N &
    forall j, (j < size (fpr_queries p))%N ->
      (2 ^ size (q_path (nth (Query 0 0 [::]) (fpr_queries p) j)) * 2 ^ (j %/ 2) = n * lde)%N]].

(** Numbers of digests and of field elements in a proof. *)
Definition paths (qs : seq (query F)) : nat := sumn [seq size (q_path q) | q <- qs].
Definition fri_digests (p : fri_proof F) : nat := (size (fpr_roots p) + paths (fpr_queries p))%N.
Definition fri_elements (p : fri_proof F) : nat := (size (fpr_queries p) + size (fpr_final_coefficients p))%N.
Definition proof_digests (p : instance_proof F) : nat :=
  (size (pr_f_iop_roots p) + 1 + paths (pr_f_queries p) + paths [:: pr_g_query p] +
   size (pr_h1_iop_roots p) + size (pr_h2_iop_roots p) + fri_digests (pr_fri_h1 p) + fri_digests (pr_fri_h2 p))%N.
Definition proof_elements (p : instance_proof F) : nat :=
  (size (pr_f_at_z_m p) + size (pr_f_queries p) + 1 + fri_elements (pr_fri_h1 p) + fri_elements (pr_fri_h2 p))%N.
End Spec.

Section C73.
Variables (F : fieldType) (fp : ff_params F) (H : hash_fun).
Hypothesis Hok : ff_ok fp.
Notation S := (ff_S fp).

Lemma produce_lt proto P i pf K : (0 < K)%N -> fpt_l0 proto = vtree fp H K (p_coeffs P) ->
  (fpt_degree_plus_one proto * fpt_lde_factor proto = 2 ^ K)%N ->
  produce_proof fp H proto P i = Ok pf -> (i < 2 ^ K)%N.
Proof.
move=> HK E0 E1; rewrite /produce_proof E0 E1 /= => H0; have [st H1 _] := bind_Ok H0.
have [st1 {}H1 _] := bind_Ok H1; move: H1; rewrite /produce_step.
case: ltnP => // Hi; rewrite /get_coset_for_natural_index ltnNge Hi.
by [].
Qed.

Lemma fri_shapeP w K e o (f : {poly F}) proto roots i pf : (0 < w)%N -> (K <= S)%N ->
  proof_from_lde_by_values fp H (vf fp K 1 (horner f)) (2 ^ e) o w = Ok proto -> fpt_get_roots proto = Ok roots ->
  produce_proof fp H proto (vf fp K 1 (horner f)) i = Ok pf ->
  fri_shape (2 ^ (K - e)) o (2 ^ e) pf /\ roots = fpr_roots pf.
Proof.
move=> Hw HK; set v := map (horner f) (points fp K 1); rewrite -[vf fp K 1 _]/(std fp Values K v).
have Hv : size v = (2 ^ K)%N by rewrite size_map size_points.
case: (boolP (is_pow2 o)) => [/is_pow2P [r ->]|Ho]; last by rewrite by_values_bad // (negbTE Ho) andbF.
rewrite by_values_exact //; case: ifP => // /andP [/andP [h1 h2] _] [<-].
set g := dom_gen fp K; set m := (K - (e + r))%N.
have HK0 : (0 < K)%N by apply: leq_ltn_trans h2.
have HeK : (e < K)%N by apply: leq_ltn_trans h2; exact: leq_addr.
have HmK : (m < K)%N by rewrite ltn_subrL h1.
have Em : (K - m = e + r)%N by rewrite subKn // ltnW.
rewrite /fpt_get_roots [fpt_l0 _]/= get_root_vtree // bind_ok [fpt_commitments _]/= -/m.
rewrite (mapM_mkseq (h := fun j => vroot fp H (K - j.+1) (layer fp H K g v j.+1))); last first.
  move=> j Hj; apply: get_root_vtree; last by rewrite subn_gt0 (leq_ltn_trans Hj).
  by apply: size_layer => //; apply: leq_trans (ltnW HmK).
rewrite bind_ok => -[<-] Hpf.
have Hi : (i < 2 ^ K)%N.
  by apply: (produce_lt HK0 _ _ Hpf) => //=; rewrite -expnD subnK // ltnW.
move: Hpf; rewrite produce_honest // => -[<-].
have Hpath L u j : size (q_path (hquery fp H L u j)) = L by rewrite /= size_mkseq.
have Eq : flatten (mkseq (hpair fp H K i v) m.+1) =
    mkseq (fun j => nth (Query 0 0 [::]) (hpair fp H K i v (j %/ 2)) (j %% 2)) (m.+1 * 2).
  elim: (m.+1) => [|n IH] //; rewrite mkseqSr flatten_rcons IH mulSn addnC addn2 !mkseqSr -!cats1 -catA /=.
  have -> : ((n * 2).+1 %/ 2 = n)%N by rewrite -addn1 divnMDl // addn0.
  have -> : ((n * 2).+1 %% 2 = 1)%N by rewrite -addn1 modnMDl.
  by rewrite mulnK // modnMl.
split; last first.
  rewrite /honest_proof [fpr_roots _]/= -/m /mkseq /= subn0; congr (_ :: _).
  by rewrite (iotaDl 1 0) -map_comp.
split=> //.
  rewrite /honest_proof [fpr_final_coefficients _]/= size_take size_ifft_vec.
  by rewrite ltn_exp2l // -{1}[r]add0n ltn_add2r; case: (e).
have Eq' : fpr_queries (honest_proof fp H K e r i v) = mkseq (fun j => nth (Query 0 0 [::]) (hpair fp H K i v (j %/ 2)) (j %% 2)) (m.+1 * 2) := Eq.
exists m; rewrite Eq' size_mkseq /honest_proof; split=> //.
- by rewrite -expnD /m subnDA subnKC // leq_subRL // ltnW.
- by rewrite [fpr_roots _]/= !size_map size_iota.
- by rewrite mulnC.
move=> j Hj; rewrite nth_mkseq // -!expnD [(K - e + e)%N]subnK ?(ltnW HeK) //.
have Hjm : (j %/ 2 <= m)%N by rewrite -ltnS ltn_divLR.
have -> : size (q_path (nth (Query 0 0 [::]) (hpair fp H K i v (j %/ 2)) (j %% 2))) = (K - j %/ 2)%N.
  by rewrite /hpair; case: (j %% 2)%N (ltn_pmod j (isT : 0 < 2)%N) => [|[|]] // _; rewrite [nth _ _ _]/= Hpath.
by rewrite subnK // (leq_trans Hjm) // ltnW.
Qed.

Hypothesis Hdec : forall d, exists x, bytes_to_field fp d = Ok x.
Let decode (d : digest) : F := if bytes_to_field fp d is Ok x then x else 0.
Let HdecP d : bytes_to_field fp d = Ok (decode d).
Proof. by rewrite /decode; have [x ->] := Hdec d. Qed.

(** A proof for [n] rows, largest degree [D] and blow-up factor [lde] has one commitment
    and one opening per register, one opening of the composition polynomial, one claimed
    value per mask, and two FRI proofs, for n and D n coefficients. *)
Theorem C73_shape w props lde out P trace pf : (0 < w)%N -> supported_but_density props -> cpus_ok w props lde ->
  prover_new fp props lde out w = Ok P -> is_pow2 lde -> prove fp H P trace = Ok pf ->
  let n := ip_num_rows props in let D := \max_(c <- ip_constraints props) c_degree c in
  [/\ size (pr_f_iop_roots pf) = ip_num_registers props /\ size (pr_f_queries pf) = ip_num_registers props,
      size (pr_f_at_z_m pf) = size (a_all_masks (p_ali P)),
      all (fun q => 2 ^ size (q_path q) == n * lde)%N (pr_f_queries pf),
      (2 ^ size (q_path (pr_g_query pf)) = D * n * lde)%N &
      [/\ fri_shape n out lde (pr_fri_h1 pf), fri_shape (D * n) out lde (pr_fri_h2 pf),
          pr_h1_iop_roots pf = fpr_roots (pr_fri_h1 pf) & pr_h2_iop_roots pf = fpr_roots (pr_fri_h2 pf)]].
Proof.
move=> Hw Hsup Hcpus HP Hlde Hpf n D.
have Hbits : (ff_num_bits fp <? 256)%num.
  by move: Hpf; rewrite /prove /transcript_new; case: (_ <? _)%num.
have Hsh : right_shape props trace.
  apply/negPn/negP => Hn; move: Hpf; rewrite (C64_shapes H Hw HP Hbits Hn); by case: (_ && _).
have [k [d [l [props' [a [El EP Hinst Ha [HH Hall Hws]]]]]]] := shape_setup Hok Hw Hsup HP Hsh Hlde.
have Htr : (0 < size trace)%N by case/and3P: Hsh.
have Hreg : size trace = ip_num_registers props by case/and3P: Hsh => _ /eqP.
have En : n = (2 ^ k)%N := hn_rows HH.
have ED : D = (2 ^ d)%N := hn_max HH.
subst P lde; have [Hcpu Hcpul] := cpus_split Hcpus (hn_max HH).
have HS : (k + d + l <= S)%N.
  by case: leqP => // HS; move: Hpf; rewrite (prove_large Hok H Hdec out Hw HH Htr Ha Hcpu Hcpul HS Hws) Hbits.
have [comp [Hcs [Hcv Hcg]]] := any_comp Hok Hw HH Ha Hcpu.
have HK : (k + l <= S)%N by apply: leq_trans HS; rewrite leq_add2r leq_addr.
have HK0 : (0 < k + l)%N by have := hn_1k HH; case: (k).
have HKg0 : (0 < k + d + l)%N by have := hn_1k HH; case: (k).
move: Hpf; rewrite (P_Run.proveE Hok HdecP Hw out HH Htr Ha Hcpul HS Hcs (Hcg H decode HdecP) Hws erefl).
rewrite Hbits; case: ifP => // _; rewrite /finish => H0; have [p1 Hp1 {}H0] := bind_Ok H0.
have [p2 Hp2 {}H0] := bind_Ok H0; have [r1 Hr1 {}H0] := bind_Ok H0; have [r2 Hr2 {}H0] := bind_Ok H0.
move: H0; rewrite /get_challenge_bytes => H0; have [i1 Hi1 {}H0] := bind_Ok H0.
have [i2 Hi2 {}H0] := bind_Ok H0; have [pf1 Hpf1 {}H0] := bind_Ok H0; have [pf2 Hpf2 {}H0] := bind_Ok H0.
have [fq Hfq {}H0] := bind_Ok H0; have [gq Hgq [<-]] := bind_Ok H0 => {H0}.
have [S1 ->] := fri_shapeP Hw HK Hp1 Hr1 Hpf1; have [S2 ->] := fri_shapeP Hw HS Hp2 Hr2 Hpf2.
rewrite addnK in S1; rewrite addnK in S2.
have Hpath L u j : size (q_path (hquery fp H L u j)) = L by rewrite /= size_mkseq.
have Hlt2 : (i2 < 2 ^ (k + d + l))%N.
  by move: Hgq; rewrite /iop_query [t_size _]/=; case: (i2 < _)%N.
have Hlt1 : (i1 < 2 ^ (k + l))%N.
  move: Hfq Htr; case: (trace) => // c s; rewrite [mapM _ _]/=.
  by rewrite {1}/iop_query [t_size _]/=; case: (i1 < _)%N.
have Efq : fq = [seq hquery fp H (k + l) (fvals fp k l c) i1 | c <- [seq ifft_vec fp k c | c <- trace]].
  elim: (map _ trace) fq Hfq => [|c s IH] fq; first by case=> <-.
  by rewrite [mapM _ _]/= iop_query_vtree ?size_fvals // bind_ok; case: (mapM _ _) IH => //= ? /(_ _ erefl) -> [<-].
have Egq : gq = hquery fp H (k + d + l) (gvals fp H decode props' trace k d l comp) i2.
  by move: Hgq; rewrite iop_query_vtree ?size_gvals // => -[<-].
split.
- by rewrite [pr_f_iop_roots _]/= [pr_f_queries _]/= Efq /f_roots !size_map Hreg.
- by rewrite [pr_f_at_z_m _]/= [p_ali _]/= (af_masks (from_arp_inv Hok Hw Ha)) /run_vals size_map.
- rewrite [pr_f_queries _]/= Efq all_map; apply/allP => c _ /=.
  by rewrite size_mkseq En expnD.
- by rewrite [pr_g_query _]/= Egq Hpath En ED !expnD [(2 ^ d * _)%N]mulnC.
- split=> //; first by rewrite En.
  by rewrite En ED -expnD addnC.
Qed.

Lemma paths_le (qs : seq (query F)) b : all (fun q => size (q_path q) <= b)%N qs -> (paths qs <= size qs * b)%N.
Proof. by elim: qs => //= q qs IH /andP [Hq Hqs]; rewrite /paths /= mulSn leq_add // IH. Qed.

Lemma fri_shape_le n out lde (p : fri_proof F) b : fri_shape n out lde p -> (0 < out)%N -> (1 < lde * out)%N -> (n * lde <= 2 ^ b)%N ->
  [/\ size (fpr_roots p) <= b, fri_digests p <= b + 2 * b * b & fri_elements p <= 2 * b + out]%N.
Proof.
case=> _ _ _ Ef [m [En Er Eq Hq]] Ho Hl Hb.
have Hm : (m.+1 <= b)%N.
  rewrite -(leq_exp2l _ _ (isT : (1 < 2)%N)); apply: leq_trans Hb; rewrite En expnS.
  by rewrite -mulnA mulnCA [(2 * _)%N]mulnC leq_mul2l mulnC Hl orbT.
have Hp : all (fun q => size (q_path q) <= b)%N (fpr_queries p).
  apply/(all_nthP (Query 0 0 [::])) => j Hj; rewrite -(leq_exp2l _ _ (isT : (1 < 2)%N)).
  by apply: leq_trans Hb; rewrite -(Hq j Hj) leq_pmulr // expn_gt0.
split; first by rewrite Er.
  rewrite /fri_digests Er leq_add // (leq_trans (paths_le Hp)) // leq_mul2r Eq leq_mul2l Hm.
  by rewrite !orbT.
by rewrite /fri_elements Ef Eq leq_add2r leq_mul2l Hm orbT.
Qed.

(** The number of digests grows with the square of the logarithm of the size of the
    largest extended domain, and the number of field elements with the logarithm. *)
Theorem C73_size w props lde out P trace pf b : (0 < w)%N -> supported_but_density props -> cpus_ok w props lde ->
  prover_new fp props lde out w = Ok P -> is_pow2 lde -> prove fp H P trace = Ok pf -> (1 < lde * out)%N ->
  ((\max_(c <- ip_constraints props) c_degree c) * ip_num_rows props * lde <= 2 ^ b)%N ->
  let R := ip_num_registers props in
  (proof_digests pf <= R * b.+1 + 4 * b * b + 5 * b + 1)%N /\
  (proof_elements pf <= size (a_all_masks (p_ali P)) + R + 4 * b + 2 * out + 1)%N.
Proof.
move=> Hw Hsup Hcpus HP Hlde Hpf Hlo Hb R.
have [[Er Eq] Ev Hqf Hqg [S1 S2 E1 E2]] := C73_shape Hw Hsup Hcpus HP Hlde Hpf.
set n := ip_num_rows props in Hb Hqf Hqg S1 S2; set D := \max_(c <- _) _ in Hb Hqg S2.
have Ho : (0 < out)%N by move: Hlo; case: (out); rewrite ?muln0.
have HD : (0 < D)%N.
  by move: (expn_gt0 2 (size (q_path (pr_g_query pf)))); rewrite Hqg !muln_gt0 => /andP [/andP []].
have Hb1 : (n * lde <= 2 ^ b)%N by apply: leq_trans Hb; rewrite -mulnA leq_pmull.
have [A1 A2 A3] := fri_shape_le S1 Ho Hlo Hb1; have [B1 B2 B3] := fri_shape_le S2 Ho Hlo Hb.
have C1 : (paths (pr_f_queries pf) <= R * b)%N.
  rewrite /R -Eq; apply: paths_le; apply/(all_nthP (Query 0 0 [::])) => j Hj.
  have /(all_nthP (Query 0 0 [::])) /(_ j Hj) /eqP E := Hqf.
  by rewrite -(leq_exp2l _ _ (isT : (1 < 2)%N)) E.
have C2 : (paths [:: pr_g_query pf] <= b)%N.
  by rewrite /paths /= addn0 -(leq_exp2l _ _ (isT : (1 < 2)%N)) Hqg.
rewrite -E1 in A1; rewrite -E2 in B1.
rewrite /proof_digests /proof_elements Er Ev Eq -/R; split.
  apply: (@leq_trans (R + 1 + R * b + b + b + b + (b + 2 * b * b) + (b + 2 * b * b))%N).
    by do 6! (apply: leq_add; last by []).
  by apply/leP; rewrite -!multE -!plusE; nia.
apply: (@leq_trans (size (a_all_masks (p_ali P)) + R + 1 + (2 * b + out) + (2 * b + out))%N).
  by do 2! (apply: leq_add; last by []).
by apply/leP; rewrite -!multE -!plusE; lia.
Qed.
End C73.

(** The squaring instance with four rows, one register, blow-up factor four, on three CPUs:
    the hypotheses are met. *)
Example C73_ex : [/\ supported_but_density one_density, cpus_ok 3 one_density 4,
  is_ok (proof_on f257 toy_hash 3 one_density 4 1 (sq_trace 3)) &
  ((\max_(c <- ip_constraints one_density) c_degree c) * ip_num_rows one_density * 4 <= 2 ^ 5)%N].
Proof.
have [H1 H2 _ H4] := C72_ex; split; [exact H1 | exact H2 | exact H4 |].
by rewrite unlock.
Qed.

Print Assumptions C73_shape.
Print Assumptions C73_size.
