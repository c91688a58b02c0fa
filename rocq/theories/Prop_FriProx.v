(** Property C61: soundness of the FRI verifier without loss of distance. *)
From Coq Require Import NArith.
From mathcomp Require Import all_ssreflect all_algebra.
From Verif Require Import M_Base M_Worker M_Field M_Domain M_Fft M_Poly M_Bytes M_Transcript M_Merkle M_Fri.
From Verif Require Import M_Challenge Spec SpecPoly SpecHash SpecFri SpecSound P_Base P_Fft P_Domain P_Poly P_Lde P_PolyOps P_Wf P_Bytes P_Merkle P_Fri P_SoundFri P_Prox.
From Verif Require Import Instances Prop_Hash Prop_Fri Prop_SoundFri Fr251.

Set Implicit Arguments.
Unset Strict Implicit.
Unset Printing Implicit Defensive.
Import GRing.Theory.
Local Open Scope ring_scope.

Section Chain.
Variable F : fieldType.

(** Few challenges are bad for a vector. *)
Theorem C61_few_bad (P : pred nat) (g : F) (v : seq F) (n m e : nat) :
  (2%:R : F) != 0 -> size v = (2 * n)%N -> (2 * n).-primitive_root g ->
  (3 * e + m <= count P (iota 0 n))%N ->
  few (count P (iota 0 n)) (bad_challenge P g v n m e).
Proof. by move=> H2 Hv Hg Hm; apply: bad_challenge_few. Qed.

Lemma count_image (P : pred nat) (K j E : nat) (A : seq nat) : (j <= K)%N ->
  (forall i, P i = P (i %% 2 ^ (K - j))%N) -> uniq A -> {subset A <= [seq i <- iota 0 (2 ^ K) | P i]} ->
  (count P (iota 0 (2 ^ K)) <= E + size A)%N ->
  (count (fun i => P i && (i \notin [seq (a %% 2 ^ (K - j))%N | a <- A])) (iota 0 (2 ^ (K - j))) <= E %/ 2 ^ j)%N.
Proof.
move=> Hj HP Hu HA HE; set n := (2 ^ (K - j))%N; set q := fun i => _.
have Hn : (0 < n)%N by rewrite expn_gt0.
have EK : (2 ^ K = 2 ^ j * n)%N by rewrite -expnD subnKC.
rewrite leq_divRL ?expn_gt0 // -size_filter; set s := filter q _.
pose T := [seq (i + k * n)%N | i <- s, k <- iota 0 (2 ^ j)].
have Hs i : i \in s -> [/\ P i, i \notin [seq (a %% n)%N | a <- A] & (i < n)%N].
  by rewrite mem_filter mem_iota /= add0n => /andP [/andP [-> ->] ->].
have Hmod i k : (i < n)%N -> ((i + k * n) %% n = i)%N by move=> Hi; rewrite addnC modnMDl modn_small.
suff : (size (T ++ A) <= count P (iota 0 (2 ^ K)))%N.
  by move=> H; have := leq_trans H HE; rewrite size_cat leq_add2r size_allpairs size_iota.
rewrite -size_filter; apply: uniq_leq_size.
  rewrite cat_uniq Hu andbT; apply/andP; split.
    apply: allpairs_uniq; rewrite ?iota_uniq ?filter_uniq ?iota_uniq // => -[i k] [i' k'].
    move=> /allpairsP [[i1 k1] /= [H1 _ [-> ->]]] /allpairsP [[i2 k2] /= [H3 _ [-> ->]]] Eik.
    have [_ _ I1] := Hs i1 H1; have [_ _ I2] := Hs i2 H3.
    have Ei : i1 = i2 by rewrite -(Hmod i1 k1 I1) Eik Hmod.
    by move: Eik; rewrite Ei => /addnI/eqP; rewrite eqn_pmul2r // => /eqP ->.
  apply/hasPn => a Ha; apply/negP => /allpairsP [[i k] /= [Hi _ Ea]].
  have [_ /negP Hni Hin] := Hs i Hi; apply: Hni; apply/mapP; exists a => //.
  by rewrite Ea Hmod.
move=> a; rewrite mem_cat => /orP [/allpairsP [[i k] /= [Hi Hk ->]]|]; last exact: HA.
have [HPi _ Hin] := Hs i Hi; rewrite mem_filter HP -/n Hmod // HPi mem_iota /= add0n.
move: Hk; rewrite mem_iota /= add0n => Hk.
apply: leq_trans (_ : n + k * n <= _)%N; first by rewrite ltn_add2r.
by rewrite -mulSn EK leq_mul2r Hk orbT.
Qed.

(** Accepted positions: if no challenge is bad, the values that are accepted are those
    of one polynomial. *)
Theorem C61_chain (P : pred nat) (K R : nat) (g : F) (vs : nat -> seq F) (bs : seq F) (q : {poly F}) (m E : nat)
    (A : seq nat) :
  (0 < R <= K)%N -> (forall i, P i = P (i %% 2 ^ (K - R))%N) ->
  uniq A -> {subset A <= [seq i <- iota 0 (2 ^ K) | P i]} -> (count P (iota 0 (2 ^ K)) <= E + size A)%N ->
  (forall j, (j < R)%N -> size (vs j) = (2 ^ (K - j))%N) -> (size q <= m)%N ->
  (forall j, (j < R)%N ->
     ~ bad_challenge P (g ^+ (2 ^ j)) (vs j) (2 ^ (K - j.+1)) (2 ^ (R - j.+1) * m) (E %/ 2 ^ j.+1) bs`_j) ->
  (forall idx, idx \in A ->
     (forall j, (j.+1 < R)%N -> (vs j.+1)`_(idx %% 2 ^ (K - j.+1)) =
          (fold_vec bs`_j (g ^+ (2 ^ j)) (vs j))`_(idx %% 2 ^ (K - j.+1))) /\
     q.[g ^+ (2 ^ R) ^+ (idx %% 2 ^ (K - R))] =
          (fold_vec bs`_R.-1 (g ^+ (2 ^ R.-1)) (vs R.-1))`_(idx %% 2 ^ (K - R))) ->
  ~ ~ exists2 C : {poly F}, (size C <= 2 ^ R * m)%N & forall idx, idx \in A -> (vs 0%N)`_idx = C.[g ^+ idx].
Proof.
move=> /andP [HR0 HRK] HP Hu HA HE Hvs Hq Hbad Hacc Hno.
have HPj j : (j <= R)%N -> forall i, P i = P (i %% 2 ^ (K - j))%N.
  by move=> Hj i; rewrite HP [RHS]HP modn_dvdm // dvdn_exp2l // leq_sub2l.
have HAK idx : idx \in A -> (idx < 2 ^ K)%N /\ P idx by move/HA; rewrite mem_filter mem_iota add0n => /andP [].
pose D j := exists2 C : {poly F}, (size C <= 2 ^ (R - j) * m)%N &
  forall idx, idx \in A -> (vs j)`_(idx %% 2 ^ (K - j)) = C.[g ^+ (2 ^ j) ^+ (idx %% 2 ^ (K - j))].
have Hst j (c : {poly F}) : (j < R)%N -> (size c <= 2 ^ (R - j.+1) * m)%N ->
    (forall idx, idx \in A -> (fold_vec bs`_j (g ^+ (2 ^ j)) (vs j))`_(idx %% 2 ^ (K - j.+1)) =
        c.[g ^+ (2 ^ j.+1) ^+ (idx %% 2 ^ (K - j.+1))]) -> ~ ~ D j.
  move=> Hj Hc Hag HnD; have HjK : (j < K)%N by apply: leq_trans HRK.
  have Eg : g ^+ (2 ^ j.+1) = (g ^+ (2 ^ j)) ^+ 2 by rewrite -exprM -expnSr.
  have En : (2 ^ (K - j) = 2 * 2 ^ (K - j.+1))%N by rewrite -expnS subnSK.
  apply: (Hbad j Hj); exists c; split=> //.
    apply: leq_trans (count_image HjK (HPj _ Hj) Hu HA HE); rewrite -!size_filter.
    apply: uniq_leq_size; first by rewrite filter_uniq ?iota_uniq.
    move=> i; rewrite !mem_filter => /andP [/andP [-> Hne] ->] /=; rewrite andbT.
    apply: contra Hne => /mapP [a Ha Ei]; rewrite -Eg Ei; apply/eqP; exact: Hag.
  case=> C HC EC; apply: HnD; exists C; first by rewrite -(subnSK Hj) expnS -mulnA.
  move=> idx Hi; have [Hlt HPi] := HAK idx Hi.
  have Hm : (idx %% 2 ^ (K - j) < 2 * 2 ^ (K - j.+1))%N by rewrite -En ltn_mod expn_gt0.
  have Hmm : (idx %% 2 ^ (K - j) %% 2 ^ (K - j.+1) = idx %% 2 ^ (K - j.+1))%N by rewrite modn_dvdm // En dvdn_mull.
  have Hm' : (idx %% 2 ^ (K - j.+1) < 2 ^ (K - j.+1))%N by rewrite ltn_mod expn_gt0.
  have [|||E1 E2] := EC (idx %% 2 ^ (K - j.+1))%N; rewrite -?Eg -?(HPj j.+1 Hj) ?Hag //.
  by have := mem_halves Hm; rewrite Hmm !inE => /orP [] /eqP ->.
have Hall k : (k < R)%N -> ~ ~ D (R.-1 - k)%N.
  elim: k => [|k IH] Hk.
    rewrite subn0; apply: (Hst _ q); rewrite ?prednK ?subnn ?mul1n // => idx /Hacc [_ ->].
    by [].
  move=> HnD; apply: (IH (ltnW Hk)) => -[C HC EC]; apply: (Hst _ C _ _ _ HnD).
  - by apply: leq_ltn_trans (leq_subr _ _) _; rewrite prednK.
  - by rewrite subnSK // -ltnS prednK.
  have Hs : (R.-1 - k.+1).+1 = (R.-1 - k)%N by rewrite subnSK // -ltnS prednK.
  have HsR : ((R.-1 - k.+1).+1 < R)%N by rewrite Hs; apply: leq_ltn_trans (leq_subr _ _) _; rewrite prednK.
  by move=> idx Hi; have [Hc _] := Hacc idx Hi; rewrite -(Hc _ HsR) Hs EC.
apply: (Hall R.-1); first by rewrite prednK.
rewrite subnn => -[C HC EC]; apply: Hno; exists C; first by rewrite subn0 in HC.
by move=> idx Hi; have [Hlt _] := HAK idx Hi; have := EC idx Hi; rewrite subn0 expr1 modn_small.
Qed.
End Chain.

Lemma count_odd k : count odd (iota 0 (2 ^ k.+1)) = (2 ^ k)%N.
Proof.
rewrite expnS; elim: (2 ^ k)%N => // s IH; rewrite mulnS addnC iotaD count_cat IH /= add0n.
by rewrite mul2n odd_double /= addn1.
Qed.

Section Verifier.
Variables (F : finFieldType) (fp : ff_params F) (H : hash_fun).
Hypothesis Hok : ff_ok fp.
Hypothesis Hrep : ff_repr_ok fp.

Lemma near_dec (N : nat) (g : F) (y : nat -> F) (A : seq nat) :
  reflect (exists2 C : {poly F}, (size C <= N)%N & forall idx, idx \in A -> y idx = C.[g ^+ idx])
    [exists t : N.-tuple F, all (fun idx => y idx == (Poly t).[g ^+ idx]) A].
Proof.
apply: (iffP existsP) => [[t /allP Ht]|[C HC EC]].
  exists (Poly t); first by apply: leq_trans (size_Poly t) _; rewrite size_tuple.
  by move=> idx /Ht /eqP.
have Hs : size (mkseq (fun i => C`_i) N) == N by rewrite size_mkseq.
exists (Tuple Hs); apply/allP => idx /EC ->; apply/eqP; congr (_.[_]); apply/polyP => i.
rewrite coef_Poly /=; case: (ltnP i N) => Hi; first by rewrite nth_mkseq.
by rewrite !nth_default ?size_mkseq // (leq_trans HC).
Qed.

(** The challenges that are bad for layer [j] of [R] layers over a domain with 2^K
    elements, for final polynomials of degree below [m] and [E] lost positions. *)
Definition bad_layer (K R m E j : nat) (v : seq F) (b : F) : Prop :=
  bad_challenge odd (dom_gen fp K ^+ (2 ^ j)) v (2 ^ (K - j.+1)) (2 ^ (R - j.+1) * m) (E %/ 2 ^ j.+1) b.

(** At most a quarter of the size of a layer many challenges are bad for it. *)
Theorem C61_few_bad_layer (K R m E j : nat) (v : seq F) : (j < R < K)%N -> (K <= ff_S fp)%N ->
  size v = (2 ^ (K - j))%N -> (3 * E + 2 ^ R * m <= 2 ^ K.-1)%N ->
  few (2 ^ (K - j.+2)) (bad_layer K R m E j v).
Proof.
move=> /andP [HjR HRK] HK Hv Hm; have HjK : (j.+1 < K)%N by apply: leq_ltn_trans HRK.
have En : (2 ^ (K - j) = 2 * 2 ^ (K - j.+1))%N by rewrite -expnS subnSK // ltnW.
have Ec : count odd (iota 0 (2 ^ (K - j.+1))) = (2 ^ (K - j.+2))%N by rewrite -(subnSK HjK) count_odd.
rewrite -Ec; apply: C61_few_bad; rewrite ?Ec -?En //; first by case: Hok.
  have Ej : (2 ^ K %/ 2 ^ (K - j) = 2 ^ j)%N by rewrite -{1}(subnK (ltnW (ltnW HjK))) expnD mulKn ?expn_gt0.
  by have := dvdn_prim_root (dom_gen_prim Hok HK) (dvdn_exp2l 2 (leq_subr j K)); rewrite Ej.
rewrite -(leq_pmul2r (expn_gt0 2 j.+1 : 0 < 2 ^ j.+1)%N) mulnDl -!mulnA.
have -> : (2 ^ (K - j.+2) * 2 ^ j.+1 = 2 ^ K.-1)%N by rewrite -expnD; congr (2 ^ _)%N; case: (K) HjK => // k; rewrite ltnS subSS => /subnK.
apply: leq_trans Hm; apply: leq_add; first by rewrite leq_mul2l leq_trunc_div.
by rewrite [(m * _)%N]mulnC mulnA -expnD subnK.
Qed.

(** The soundness of the verifier.  The vectors [vs] are committed, [y] is the oracle
    that the first layer is checked against, the challenges are those of the roots.
    Unless one of the challenges is bad for its layer, or two of the hashed strings
    collide: if the verifier rejects at no more than [E] odd positions then all values
    of the oracle that it accepts are those of one polynomial of degree below 2^R m. *)
Theorem C61_fri_soundness (K : nat) d out lde roots finals (vs : nat -> seq F) (prf : nat -> seq (query F))
    (y : nat -> F) (bs : seq F) (m E : nat) :
  let R := size roots in
  (0 < R < K)%N -> domain_new fp (d * lde) = Ok (Domain (2 ^ K) K (dom_gen fp K)) ->
  (forall j, (j < R)%N -> size (vs j) = (2 ^ (K - j))%N /\ exists w t,
     [/\ (0 < w)%N, tree_create fp H w (vs j) = Ok t & get_root t = Ok (nth zero_digest roots j)]) ->
  (forall j, (j < R)%N -> encode_root_into_challenge fp (nth zero_digest roots j) = Ok bs`_j) ->
  (forall j, (j < R)%N -> ~ bad_layer K R m E j (vs j) bs`_j) ->
  (size finals <= m)%N ->
  let accepted idx := odd idx && passes fp H roots finals d out lde (prf idx) idx (y idx) in
  [\/ collision_among H (trees_inputs fp H (mkseq vs R) ++ queries_inputs fp H (flatten (mkseq prf (2 ^ K)))),
      (E < count (fun idx => odd idx && ~~ accepted idx) (iota 0 (2 ^ K)))%N |
      exists2 C : {poly F}, (size C <= 2 ^ R * m)%N &
        forall idx, (idx < 2 ^ K)%N -> accepted idx -> y idx = C.[dom_gen fp K ^+ idx]].
Proof.
move=> R HR Hd Hvs Hch Hbad Hfin acc; set xs := trees_inputs _ _ _ ++ _; have /andP [HR0 HRK] := HR.
case: (leqP _ E) => [Hrej|]; last by constructor 2.
pose g := dom_gen fp K; pose A := [seq idx <- iota 0 (2 ^ K) | acc idx].
have Hall idx : (idx < 2 ^ K)%N -> (acc idx ->
   [/\ y idx = (vs 0%N)`_idx,
      forall j, (j.+1 < R)%N -> (vs j.+1)`_(idx %% 2 ^ (K - j.+1)) =
          (fold_vec bs`_j (g ^+ (2 ^ j)) (vs j))`_(idx %% 2 ^ (K - j.+1)) &
      (poly_of finals).[g ^+ (2 ^ R) ^+ (idx %% 2 ^ (K - R))] =
          (fold_vec bs`_R.-1 (g ^+ (2 ^ R.-1)) (vs R.-1))`_(idx %% 2 ^ (K - R))]) \/ collision_among H xs.
  move=> Hi; case Ha : (acc idx); last by left.
  move: Ha => /andP [_ /andP [/eqP Hq]]; case Ev: (verify_proof _ _ _ _ _) => [[]| |] // _.
  case: (accepted_position Hok Hrep Hd HR Hvs Hch Hq Ev) => [[_ E1 E2 E3]|Hc]; first by left.
  right; apply: collision_sub Hc; apply: cat_sub => z Hz //; exact: (queries_flatten Hi).
case: (all_or Hall) => [{}Hall|]; last by constructor 1.
constructor 3.
have HA idx : idx \in A -> acc idx /\ (idx < 2 ^ K)%N by rewrite mem_filter mem_iota add0n => /andP [].
suff /near_dec [C HC EC] : [exists t : (2 ^ R * m).-tuple F, all (fun idx => y idx == (Poly t).[g ^+ idx]) A].
  by exists C => // idx Hi Ha; apply: EC; rewrite mem_filter Ha mem_iota.
apply: contraT => Hno; suff : False by [].
have Hodd i : odd i = odd (i %% 2 ^ (K - R))%N.
  have : (0 < K - R)%N by rewrite subn_gt0.
  by case: (K - R)%N => // n _; rewrite {1}(divn_eq i (2 ^ n.+1)) oddD oddM oddX andbF.
apply: (@C61_chain F odd K R g vs bs (poly_of finals) m E A) => //.
- by rewrite HR0 ltnW.
- by rewrite filter_uniq ?iota_uniq.
- by move=> idx /HA [/andP [Ho _] Hi]; rewrite mem_filter Ho mem_iota.
- apply: leq_trans (leq_add Hrej (leqnn _)); rewrite size_filter -count_predUI -[X in (X <= _)%N]addn0.
  by apply: leq_add => //; apply: sub_count => idx /= ->; case: (acc idx).
- by move=> j Hj; have [] := Hvs j Hj.
- by apply: leq_trans (size_poly _ _) _.
- by move=> idx /HA [Ha Hi]; have [_ E1 E2] := Hall idx Hi Ha.
case=> C HC EC; move/negP: Hno; apply; apply/(@near_dec (2 ^ R * m) g y A); exists C => // idx Hi.
by rewrite -EC //; have [Ha Hlt] := HA idx Hi; have [-> _ _] := Hall idx Hlt Ha.
Qed.

(** So an oracle that is not near a polynomial of degree below 2^R m is rejected at more
    than [E] odd positions. *)
Theorem C61_rejects (K : nat) d out lde roots finals (vs : nat -> seq F) (prf : nat -> seq (query F))
    (v : seq F) (bs : seq F) (m E : nat) :
  let R := size roots in
  (0 < R < K)%N -> domain_new fp (d * lde) = Ok (Domain (2 ^ K) K (dom_gen fp K)) ->
  (forall j, (j < R)%N -> size (vs j) = (2 ^ (K - j))%N /\ exists w t,
     [/\ (0 < w)%N, tree_create fp H w (vs j) = Ok t & get_root t = Ok (nth zero_digest roots j)]) ->
  (forall j, (j < R)%N -> encode_root_into_challenge fp (nth zero_digest roots j) = Ok bs`_j) ->
  (forall j, (j < R)%N -> ~ bad_layer K R m E j (vs j) bs`_j) ->
  (size finals <= m)%N ->
  size v = (2 ^ K)%N -> ~ close_to odd (dom_gen fp K) v (2 ^ R * m) E ->
  collision_among H (trees_inputs fp H (mkseq vs R) ++ queries_inputs fp H (flatten (mkseq prf (2 ^ K)))) \/
  (E < count (fun idx => odd idx && ~~ passes fp H roots finals d out lde (prf idx) idx v`_idx%R) (iota 0 (2 ^ K)))%N.
Proof.
move=> R HR Hd Hvs Hch Hbad Hfin Hv Hfar.
set q := fun idx => _; case: (leqP (count q (iota 0 (2 ^ K))) E) => [Hrej|]; last by right.
left; case: (@C61_fri_soundness K d out lde roots finals vs prf (fun i => v`_i) bs m E HR Hd Hvs Hch Hbad Hfin) => //.
  have -> : count (fun idx => odd idx && ~~ (odd idx && passes fp H roots finals d out lde (prf idx) idx v`_idx))
      (iota 0 (2 ^ K)) = count q (iota 0 (2 ^ K)).
    by apply: eq_count => idx; rewrite /q; case: (odd idx).
  by rewrite ltnNge Hrej.
case=> C HC EC; case: Hfar; exists C, [seq idx <- iota 0 (2 ^ K) | q idx]; split=> //; first by rewrite size_filter.
move=> i; rewrite Hv => Hi Ho Hn; apply: EC => //; move: Hn; rewrite mem_filter mem_iota add0n Hi andbT /q Ho leq0n /= andbT.
by rewrite negbK.
Qed.
End Verifier.

(** Over the field of the examples of the repository: the values of X^8 on 64 points
    are not near a polynomial of degree below 8, even if 8 of the 32 odd positions are
    ignored.  So two rounds of FRI reject more than 8 of them, unless the first
    challenge is one of at most 16, or the second one of at most 8. *)
Lemma C61_ex : ~ close_to odd (dom_gen f251 6) ex_far (2 ^ 2 * 2) 8 /\
  few 16 (bad_layer (F := [finFieldType of 'F_p251]) f251 6 2 2 8 0 ex_far).
Proof.
split.
  apply: far_vector; [by [] | exact: (dom_gen_prim f251_ok) | exact: size_polyXn | by []].
by apply: (C61_few_bad_layer f251_ok); rewrite ?size_mkseq.
Qed.

Print Assumptions C61_few_bad.
Print Assumptions C61_chain.
Print Assumptions C61_few_bad_layer.
Print Assumptions C61_fri_soundness.
Print Assumptions C61_rejects.
