(** The polynomial computed by the prover, for any number of densities. *)
From Coq Require Import NArith.
From mathcomp Require Import all_ssreflect all_algebra.
From Verif Require Import M_Base M_Worker M_Field M_Domain M_Fft M_Poly M_Bytes M_Transcript M_Air M_Arp M_Ali M_Verifier.
From Verif Require Import Spec SpecAir SpecStark SpecMany P_Base P_Fft P_Domain P_Poly P_Lde P_PolyOps P_Air P_Arp P_Vals P_Maps P_Ali P_AliG P_Comp.

Set Implicit Arguments.
Unset Strict Implicit.
Unset Printing Implicit Defensive.
Import GRing.Theory.
Local Open Scope ring_scope.

Lemma batch_size (F : fieldType) (cs : seq (constraint F)) :
  size (flatten [seq db.2 | db <- batch_by_density cs]) = size cs.
Proof.
rewrite /batch_by_density -[RHS]add0n -[0%N]/(size (flatten [seq db.2 | db <- ([::] : seq (density * seq (constraint F)))])).
elim: cs [::] => [|c cs IH] m; first by rewrite addn0.
rewrite [foldl _ _ _]/= IH [size (c :: cs)]/= addnS -addSn; congr (_ + _)%N.
elim: m => [|[d b] m IHm] //=; case: ifP => _ /=; rewrite !size_cat ?size_rcons //.
by rewrite -addnS -IHm.
Qed.

Lemma stream_pairsD (H : hash_fun) (F : fieldType) (decode : digest -> F) t n m :
  stream_pairs H decode t (n + m) = stream_pairs H decode t n ++ stream_pairs H decode (stream_state H t n.*2) m.
Proof.
by elim: n t => [|n IH] t //; rewrite addSn !stream_pairsS IH stream_stateD doubleS add2n.
Qed.

Lemma zip_catr (A B : Type) (s : seq A) (t u : seq B) : size t = size s -> zip s (t ++ u) = zip s t.
Proof. by elim: s t => [|x s IH] [|y t] //=; [case: u | case=> /IH ->]. Qed.

Section Many.
Variables (F : fieldType) (fp : ff_params F) (H : hash_fun) (decode : digest -> F).
Hypothesis Hok : ff_ok fp.
Hypothesis Hdec : forall d, bytes_to_field fp d = Ok (decode d).
Notation gen := (ff_gen fp).
Notation S := (ff_S fp).
Notation st_state := (stream_state H).
Notation st_pairs := (stream_pairs H decode).
Variable w : worker.
Hypothesis Hw : (0 < w)%N.
Variables (k d : nat) (wc : seq (seq F)).
Hypothesis Hkd : (k + d <= S)%N.
Hypothesis Hcpu : lde_cpus_ok w (2 ^ d).
Hypothesis Hwc : all (fun c => size c == (2 ^ k)%N) wc.
Let K := (k + d)%N.
Let D := (2 ^ d)%N.
Let ps : seq {poly F} := map (@poly_of F) wc.
Let witness := map (std fp Coefficients k) wc.
Notation vf := (vf fp K gen).

Variables (a : ali_instance F) (G : F) (n : nat).
Hypothesis Hmax : a_max_power a = D.
Hypothesis Hdom : a_constraints_domain a = dom fp K.
Hypothesis Hcoset : pc_coset (a_precomputations a) = points fp K gen.
Notation acc_at x := (accumulated G n D ps x).

Lemma g_batchesP masked dbs f t ch :
  masked_for fp k wc (a_all_masks a) masked -> cache_ok fp k d wc ch ->
  all (fun db => all (c_fit d (a_all_masks a)) db.2) dbs ->
  (forall dn, dn \in map fst dbs -> im_get (a_divisors a) dn = Some (vf (fun x => (density_divisor G n dn).[x]^-1))) ->
  exists ch', foldM (g_batch fp H a w masked) (vf f, t, ch) dbs =
    Ok (vf (fun x => acc_at x (f x) dbs (st_pairs t (size (flatten [seq db.2 | db <- dbs])))),
        st_state t (size (flatten [seq db.2 | db <- dbs])).*2, ch').
Proof.
move=> Hm; elim: dbs f t ch => [|[dn cs] dbs IH] f t ch Hch; first by move=> _ _; exists ch.
rewrite foldM_cons => /andP [Hcs Hdbs] Hdiv.
have [ch1 E Hch1] := g_constraintsP H Hok Hdec Hw Hkd Hcpu Hm Hmax Hdom Hcoset f f t Hch Hcs.
rewrite {1}/g_batch [(dn, cs).2]/= [(dn, cs).1]/= E bind_ok Hdiv ?mem_head // [unwrap _]/= bind_ok vf_mul // bind_ok vf_add // !bind_ok.
set f1 := (X in vf X); have [|ch2 ->] := IH f1 (st_state t (size cs).*2) ch1 Hch1 Hdbs.
  by move=> dn' Hin; apply: Hdiv; rewrite inE Hin orbT.
exists ch2; rewrite stream_stateD [flatten _]/= size_cat doubleD; congr (Ok (_, _, _)); apply: vf_eq => x.
rewrite [RHS]/= stream_pairsD drop_size_cat ?size_mkseq //; congr (accumulated _ _ _ _ _ _ _ _).
rewrite /f1 /numerator; congr (_ + (_ + _) * _).
rewrite zip_catr ?size_mkseq //.
by apply: eq_bigr => cab _; rewrite cpolyE.
Qed.

Definition g_many (dbs : seq (density * seq (constraint F))) chs (bs : seq (boundary_constraint F)) bchs (x : F) : F :=
  acc_at x 0 dbs chs + boundary_quotients G D ps x bs bchs.

Lemma calculate_g_many t (P : {poly F}) dbs bs :
  size wc = ip_num_registers (a_properties a) ->
  all (mask_ok (size wc)) (a_all_masks a) ->
  all (fun db => all (c_fit d (a_all_masks a)) db.2) dbs ->
  (forall dn, dn \in map fst dbs -> im_get (a_divisors a) dn = Some (vf (fun x => (density_divisor G n dn).[x]^-1))) ->
  a_batches a = dbs -> ip_boundary_constraints (a_properties a) = bs ->
  foldr (fun b P => b_ok fp k d wc a G b /\ P) True bs ->
  let nc := size (flatten [seq db.2 | db <- dbs]) in
  let chs := st_pairs t nc in let bchs := st_pairs (st_state t nc.*2) (size bs) in
  (size P <= 2 ^ K)%N -> {in points fp K gen, g_many dbs chs bs bchs =1 horner P} ->
  calculate_g fp H a t witness w =
  Ok (std fp Coefficients K (mkseq (fun i => P`_i) (2 ^ K)), st_state t (nc + size bs).*2).
Proof.
move=> Hnr Hmasks Hcs Hdiv Hbat Hbs Hbok nc chs bchs HP Hg.
rewrite /calculate_g size_map Hnr eqxx Hdom [d_size _]/= (vf_zero Hok gen Hkd) bind_ok.
have [masked -> Hmasked] := masked_polynomialsP fp Hw Hwc Hmasks; rewrite bind_ok Hbat.
have Hch0 : cache_ok fp k d wc ([::] : cache F) by [].
have [ch ->] := g_batchesP (fun=> 0) t Hmasked Hch0 Hcs Hdiv; rewrite bind_ok Hbs.
rewrite (g_boundariesP H Hok Hdec Hw Hkd Hcpu Hwc Hmax Hdom Hcoset _ _ Hbok) bind_ok.
rewrite (vf_icoset Hok Hw Hkd HP) ?bind_ok ?stream_stateD -/nc ?doubleD // => x Hx.
rewrite -Hg // /g_many /boundary_quotients -/chs -/bchs; congr (_ + _); apply: eq_bigr => bab _.
by rewrite boundary_polyE.
Qed.
End Many.
