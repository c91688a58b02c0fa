(** Model of src/fri/mod.rs, src/fri/fri_on_values.rs, src/fri/query_producer.rs
    and src/fri/verifier.rs, instantiated with the only IOP of the code base
    (src/iop/blake2s_trivial_iop.rs). *)
From Coq Require Import NArith.
From mathcomp Require Import all_ssreflect all_algebra.
From Verif Require Import M_Base M_Worker M_Field M_Domain M_Fft M_Poly M_Bytes M_Merkle.

Set Implicit Arguments.
Unset Strict Implicit.
Unset Printing Implicit Defensive.
Import GRing.Theory.
Local Open Scope ring_scope.

Section Fri.
Variables (F : fieldType) (fp : ff_params F) (H : hash_fun).

(** src/fri/mod.rs:107-118. *)
Record fri_prototype := FriPrototype {
  fpt_l0 : tree;
  fpt_commitments : seq tree;
  fpt_values : seq (hpoly F Values);
  fpt_challenges : seq F;
  fpt_final_root : digest;
  fpt_final_coefficients : seq F;
  fpt_degree_plus_one : nat;
  fpt_output : nat;
  fpt_lde_factor : nat
}.

(** src/fri/mod.rs:120-128 [get_roots]. *)
Definition fpt_get_roots (p : fri_prototype) : outcome (seq digest) :=
  let* r0 := get_root (fpt_l0 p) in
  let* rs := mapM get_root (fpt_commitments p) in
  Ok (r0 :: rs).

(** src/fri/mod.rs:139-147. *)
Record fri_proof := FriProof {
  fpr_queries : seq (query F);
  fpr_roots : seq digest;
  fpr_final_coefficients : seq F;
  fpr_degree_plus_one : nat;
  fpr_output : nat;
  fpr_lde_factor : nat
}.

(** src/fri/fri_on_values.rs:21-24, [two.inverse().expect(..)]. *)
Definition fri_two : F := 1 + 1.

(** src/fri/fri_on_values.rs:79-99: one folded value (also
    src/fri/verifier.rs:73-93 and 228-249). *)
Definition fold_value (two_inv omega_inv challenge f_at_omega f_at_minus_omega : F) : F :=
  let v_even_coeffs := f_at_omega + f_at_minus_omega in
  let v_odd_coeffs := (f_at_omega - f_at_minus_omega) * omega_inv in
  (v_odd_coeffs * challenge + v_even_coeffs) * two_inv.

(** src/fri/fri_on_values.rs:60-105: one layer. *)
Definition fold_layer (w : worker) (two_inv : F) (omegas_inv : seq F) (stride : nat) (challenge : F)
    (values : seq F) (next_domain_size : nat) : outcome (seq F) :=
  check! size values == (next_domain_size * 2)%N ;;
  par_chunksM w
    (fun i chunk (c : seq F) =>
       mapM (fun j =>
               let idx := (i * chunk + j)%N in
               check! (idx < next_domain_size)%N ;;
               let omega_idx := (idx * stride)%N in
               let* f_at_omega := get values idx in
               let* f_at_minus_omega := get values (idx + next_domain_size)%N in
               let* omega_inv := get omegas_inv omega_idx in
               Ok (fold_value two_inv omega_inv challenge f_at_omega f_at_minus_omega))
            (iota 0 (size c)))
    (nseq next_domain_size (0 : F)).

(** Loop state of both provers: commitments, value polynomials, challenges,
    roots (all in order), current challenge, next domain size, current vector. *)
(** src/fri/mod.rs:110-222 and src/fri/fri_on_values.rs:24-120. *)
Record fri_state := FriState {
  fs_commitments : seq tree;
  fs_values : seq (hpoly F Values);
  fs_challenges : seq F;
  fs_roots : seq digest;
  fs_challenge : F;
  fs_next_size : nat;
  fs_slice : seq F
}.

(** src/fri/fri_on_values.rs:60-119. *)
Definition by_values_step (w : worker) (two_inv : F) (omegas_inv : seq F) (st : fri_state) (i : nat) :
    outcome fri_state :=
  let stride := (2 ^ i)%N in
  let* next_values := fold_layer w two_inv omegas_inv stride (fs_challenge st) (fs_slice st)
                                 (fs_next_size st) in
  let* intermediate_iop := tree_create fp H w next_values in
  let* root := get_root intermediate_iop in
  let* challenge := get_challenge_scalar_from_root fp intermediate_iop in
  let* next_values_as_poly := from_values fp next_values in
  Ok (FriState (rcons (fs_commitments st) intermediate_iop)
               (rcons (fs_values st) next_values_as_poly)
               (rcons (fs_challenges st) challenge)
               (rcons (fs_roots st) root)
               challenge (fs_next_size st %/ 2)%N (p_coeffs next_values_as_poly)).

(** [Vec::pop().expect(..)]: the vector without its last element, and it. *)
(** src/fri/mod.rs:224-226 and src/fri/fri_on_values.rs:122-124. *)
Definition pop A (s : seq A) : outcome (seq A * A) :=
  if s is x :: s' then Ok (belast x s', last x s') else Panic.

(** src/fri/fri_on_values.rs:11-159 [proof_from_lde_by_values], which is
    [proof_from_lde] (src/fri/mod.rs:74-86).  The tree is created with a worker
    of its own in the code (src/iop/blake2s_trivial_iop.rs:140); the model uses
    the same CPU count. *)
Definition proof_from_lde_by_values (lde_values : hpoly F Values) (lde_factor output : nat) (w : worker) :
    outcome fri_prototype :=
  let* l0_commitment := tree_create fp H w (p_coeffs lde_values) in
  let initial_domain_size := p_size lde_values in
  let precomputation_size := (initial_domain_size %/ 2)%N in
  let* two_inv := unwrap (inverse fri_two) in
  let omegas_inv := powers_table w (p_omegainv lde_values) precomputation_size in
  check! is_pow2 output ;;
  check! is_pow2 lde_factor ;;
  let initial_degree_plus_one := (initial_domain_size %/ lde_factor)%N in
  let* num_steps := log2_floor (initial_degree_plus_one %/ output)%N in
  let* challenge := get_challenge_scalar_from_root fp l0_commitment in
  let* st := foldM (by_values_step w two_inv omegas_inv)
      (FriState [::] [::] [:: challenge] [::] challenge (initial_domain_size %/ 2)%N
                (p_coeffs lde_values))
      (iota 0 num_steps) in
  let* challenges := pop (fs_challenges st) in
  let* roots := pop (fs_roots st) in
  check! size challenges.1 == num_steps ;;
  check! size (fs_commitments st) == num_steps ;;
  check! size (fs_values st) == num_steps ;;
  let* final_poly_values := from_values fp (fs_slice st) in
  let* final_poly_coeffs := ifft final_poly_values w in
  Ok (FriPrototype l0_commitment (fs_commitments st) (fs_values st) challenges.1 roots.2
        (take output (p_coeffs final_poly_coeffs)) initial_degree_plus_one output lde_factor).

(** src/fri/mod.rs:185-205: fold the coefficients:
    [next.chunks_mut(chunk).zip(coeffs.chunks(chunk*2))], then
    [v.iter_mut().zip(old.chunks(2))]. *)
Definition fold_coeffs (w : worker) (challenge : F) (coeffs : seq F) (next_size : nat) : outcome (seq F) :=
  check! (next_size * 2)%N == size coeffs ;;
  let chunk := get_chunk_size w next_size in
  let next := nseq next_size (0 : F) in
  let done := flatten
    [seq [seq x.2`_1 * challenge + x.2`_0 | x <- zip vo.1 (chunks 2 vo.2)]
    | vo <- zip (chunks chunk next) (chunks (chunk * 2) coeffs)] in
  Ok (done ++ drop (size done) next).

(** src/fri/mod.rs:184-222. *)
Definition by_coeffs_step (w : worker) (lde_factor : nat) (st : fri_state) (_ : nat) : outcome fri_state :=
  let* next_coefficients := fold_coeffs w (fs_challenge st) (fs_slice st) (fs_next_size st) in
  let* next_coeffs_as_poly := from_coeffs fp next_coefficients in
  let* next_values_as_poly := lde fp next_coeffs_as_poly w lde_factor in
  let* intermediate_iop := tree_create fp H w (p_coeffs next_values_as_poly) in
  let* root := get_root intermediate_iop in
  let* challenge := get_challenge_scalar_from_root fp intermediate_iop in
  Ok (FriState (rcons (fs_commitments st) intermediate_iop)
               (rcons (fs_values st) next_values_as_poly)
               (rcons (fs_challenges st) challenge)
               (rcons (fs_roots st) root)
               challenge (fs_next_size st %/ 2)%N next_coefficients).

(** src/fri/mod.rs:155-248 [proof_from_lde_through_coefficients]. *)
Definition proof_from_lde_through_coefficients (lde_values : hpoly F Values) (lde_factor output : nat)
    (w : worker) : outcome fri_prototype :=
  let* l0_commitment := tree_create fp H w (p_coeffs lde_values) in
  let initial_domain_size := p_size lde_values in
  check! is_pow2 output ;;
  check! is_pow2 lde_factor ;;
  let initial_degree_plus_one := (initial_domain_size %/ lde_factor)%N in
  let* num_steps := log2_floor (initial_degree_plus_one %/ output)%N in
  let* initial_polynomial := ifft lde_values w in
  let initial_polynomial_coeffs := take initial_degree_plus_one (p_coeffs initial_polynomial) in
  let* challenge := get_challenge_scalar_from_root fp l0_commitment in
  let* st := foldM (by_coeffs_step w lde_factor)
      (FriState [::] [::] [:: challenge] [::] challenge (size initial_polynomial_coeffs %/ 2)%N
                initial_polynomial_coeffs)
      (iota 0 num_steps) in
  let* challenges := pop (fs_challenges st) in
  let* roots := pop (fs_roots st) in
  check! size challenges.1 == num_steps ;;
  check! size (fs_commitments st) == num_steps ;;
  check! size (fs_values st) == num_steps ;;
  check! size (fs_slice st) == output ;;
  Ok (FriPrototype l0_commitment (fs_commitments st) (fs_values st) challenges.1 roots.2
        (fs_slice st) initial_degree_plus_one output lde_factor).

(** src/fri/query_producer.rs:10-53 [produce_proof].  The coset always has
    COSET_SIZE = 2 elements, so the [Err] of lines 27-29 cannot happen; it is
    kept. *)
Definition produce_step (st : seq (query F) * seq digest * nat * nat) (il : tree * seq F) :
    outcome (seq (query F) * seq digest * nat * nat) :=
  let: (queries, roots, domain_idx, domain_size) := st in
  let* coset_values := get_coset_for_natural_index domain_idx domain_size in
  if size coset_values != 2%N then Err
  else
    let* qs := mapM (fun idx => iop_query fp H il.1 idx il.2) coset_values in
    let* root := get_root il.1 in
    let* next := index_and_size_for_next_domain domain_idx domain_size in
    Ok (queries ++ qs, rcons roots root, next.1, next.2).

Definition produce_proof (p : fri_prototype) (iop_values : hpoly F Values) (natural_first_element_index : nat) :
    outcome fri_proof :=
  let domain_size := (fpt_degree_plus_one p * fpt_lde_factor p)%N in
  let* st := foldM produce_step ([::], [::], natural_first_element_index, domain_size)
      (zip (fpt_l0 p :: fpt_commitments p)
           (p_coeffs iop_values :: [seq p_coeffs v | v <- fpt_values p])) in
  Ok (FriProof st.1.1.1 st.1.1.2 (fpt_final_coefficients p) (fpt_degree_plus_one p) (fpt_output p)
               (fpt_lde_factor p)).

(** Loop state of the verifiers. *)
(** src/fri/verifier.rs:36-60 and 158-180. *)
Record verify_state := VerifyState {
  vs_expected : option F;
  vs_size : nat;
  vs_idx : nat;
  vs_omega : F;
  vs_omega_inv : F
}.

(** src/fri/verifier.rs:19-46 and 136-162: common start. *)
Definition verify_start (initial_size natural_element_index : nat) : outcome (F * verify_state) :=
  let* two_inv := ok_or (inverse fri_two) in
  let* domain := domain_new fp initial_size in
  let domain_element := d_gen domain ^+ natural_element_index in
  if domain_element ^+ d_size domain != 1 then Err
  else if domain_element ^+ (d_size domain %/ 2)%N == 1 then Err
  else
    let* omega_inv := ok_or (inverse (d_gen domain)) in
    Ok (two_inv, VerifyState None (d_size domain) natural_element_index (d_gen domain) omega_inv).

(** src/fri/verifier.rs:112-128 and 270-288: common end. *)
Definition verify_end (final_coefficients : seq F) (st : verify_state) : outcome bool :=
  let evaluation_point := vs_omega st ^+ vs_idx st in
  let from_coefficients :=
    (foldl (fun ep c => (ep.1 + ep.2 * c, ep.2 * evaluation_point)) (0, 1) final_coefficients).1 in
  let* expected_value := unwrap (vs_expected st) in
  Ok (from_coefficients == expected_value).

(** src/fri/verifier.rs:49-109: one round of [verify_prototype]; [None] is the
    early [return Ok(false)]. *)
Definition verify_prototype_step (two_inv : F) (ost : option verify_state) (vc : seq F * F) :
    outcome (option verify_state) :=
  if ost is Some st then
    let: (iop_values, challenge) := vc in
    let domain_idx := vs_idx st in
    let* coset_values := get_coset_for_natural_index domain_idx (vs_size st) in
    let c0 := nth 0%N coset_values 0 in
    let c1 := nth 0%N coset_values 1 in
    check! size coset_values == 2%N ;;
    check! (c0 < c1)%N ;;
    let* f_at_omega := get iop_values c0 in
    let* consistent :=
      (if vs_expected st is Some value then
         if domain_idx \notin coset_values then Ok false
         else let* supplied_value := get iop_values domain_idx in Ok (supplied_value == value)
       else Ok true) in
    if ~~ consistent then Ok None
    else
      let* f_at_minus_omega := get iop_values c1 in
      let divisor := vs_omega_inv st ^+ c0 in
      let tmp := fold_value two_inv divisor challenge f_at_omega f_at_minus_omega in
      let* next := index_and_size_for_next_domain domain_idx (vs_size st) in
      Ok (Some (VerifyState (Some tmp) next.2 next.1 (vs_omega st * vs_omega st)
                            (vs_omega_inv st * vs_omega_inv st)))
  else Ok None.

(** src/fri/verifier.rs:10-129 [verify_prototype]. *)
Definition verify_prototype (p : fri_prototype) (leaf_values : hpoly F Values) (natural_element_index : nat) :
    outcome bool :=
  let* start := verify_start (fpt_degree_plus_one p * fpt_lde_factor p) natural_element_index in
  let* ost := foldM (verify_prototype_step start.1) (Some start.2)
      (zip (p_coeffs leaf_values :: [seq p_coeffs v | v <- fpt_values p]) (fpt_challenges p)) in
  if ost is Some st then verify_end (fpt_final_coefficients p) st else Ok false.

(** [chunks_exact(k)]: the full chunks. *)
(** src/fri/verifier.rs:175. *)
Definition chunks_exact A (k : nat) (s : seq A) : seq (seq A) := mkseq (chunk_at k s) (size s %/ k).

(** src/fri/verifier.rs:170-268: one round of [verify_proof_queries].
    [queries] has [degree] elements; with [degree] = 2 (src/fri/mod.rs:70) the
    indexing of lines 208 and 229 is in range. *)
Definition verify_queries_step (two_inv : F) (natural_element_index : nat) (expected_from_oracle : F)
    (ost : option verify_state) (rq : nat * (digest * seq (query F))) : outcome (option verify_state) :=
  if ost is Some st then
    let: (round, (root, queries)) := rq in
    let domain_idx := vs_idx st in
    let* coset_values := get_coset_for_natural_index domain_idx (vs_size st) in
    if size coset_values != 2%N then Err
    else if ~~ all (fun q => q_index q \in coset_values) queries then Ok None
    else if (round == 0%N) &&
            has (fun q => (q_index q == natural_element_index) && (q_value q != expected_from_oracle)) queries
    then Ok None
    else if ~~ all (fun cq => q_index cq.2 == cq.1) (zip coset_values queries) then Err
    else if ~~ all (fun q => verify_query fp H q root) queries then Ok None
    else
      let* challenge := encode_root_into_challenge fp root in
      let* q0 := get queries 0 in
      let f_at_omega := q_value q0 in
      let* consistent :=
        (if vs_expected st is Some value then
           if domain_idx \notin coset_values then Ok false
           else
             let q := [seq el <- queries | q_index el == domain_idx] in
             if size q != 1%N then Ok false
             else let* qq := get q 0 in Ok (q_value qq == value)
         else Ok true) in
      if ~~ consistent then Ok None
      else
        let* q1 := get queries 1 in
        let f_at_minus_omega := q_value q1 in
        let divisor := vs_omega_inv st ^+ nth 0%N coset_values 0 in
        let tmp := fold_value two_inv divisor challenge f_at_omega f_at_minus_omega in
        let* next := index_and_size_for_next_domain domain_idx (vs_size st) in
        Ok (Some (VerifyState (Some tmp) next.2 next.1 (vs_omega st * vs_omega st)
                              (vs_omega_inv st * vs_omega_inv st)))
  else Ok None.

(** src/fri/verifier.rs:131-289 [verify_proof_queries]. *)
Definition verify_proof_queries (p : fri_proof) (natural_element_index degree : nat) (expected : F) :
    outcome bool :=
  let* start := verify_start (fpr_degree_plus_one p * fpr_lde_factor p) natural_element_index in
  if (size (fpr_queries p) %% degree != 0)%N then Err
  else
    let* ost := foldM (verify_queries_step start.1 natural_element_index expected) (Some start.2)
        (enumerate (zip (fpr_roots p) (chunks_exact degree (fpr_queries p)))) in
    if ost is Some st then verify_end (fpr_final_coefficients p) st else Ok false.

(** src/fri/mod.rs:96-103 [verify_proof] with DEGREE = 2 (line 70). *)
Definition verify_proof (p : fri_proof) (natural_element_index : nat) (expected : F) : outcome bool :=
  verify_proof_queries p natural_element_index 2 expected.
End Fri.
