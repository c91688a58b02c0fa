(** Model of src/iop/trivial_coset_combiner.rs and
    src/iop/blake2s_trivial_iop.rs. *)
From Coq Require Import NArith.
From mathcomp Require Import all_ssreflect all_algebra.
From Verif Require Import M_Base M_Worker M_Field M_Bytes.

Set Implicit Arguments.
Unset Strict Implicit.
Unset Printing Implicit Defensive.
Local Open Scope nat_scope.

Section Merkle.
Variables (F : fieldType) (fp : ff_params F) (H : hash_fun).

(** src/iop/trivial_coset_combiner.rs:31-38 [get_coset_for_natural_index]; the
    tree index is the natural index (46-54). *)
Definition get_coset_for_natural_index (natural_index domain_size : nat) : outcome (seq nat) :=
  check! natural_index < domain_size ;;
  let pair := (natural_index + domain_size %/ 2) %% domain_size in
  Ok (sort leq [:: natural_index; pair]).

(** src/iop/blake2s_trivial_iop.rs:81-92 [hash_leaf]. *)
Definition hash_leaf (value : F) : digest := H (encode_leaf fp value).

(** src/iop/blake2s_trivial_iop.rs:94-104 [hash_node]; the [debug_assert] on
    the number of values holds at every call (2 values). *)
Definition hash_node (values : seq digest) : digest := H (flatten [seq tval v | v <- values]).

(** src/iop/blake2s_trivial_iop.rs:174-184 and 196-206: one level of the tree,
    in chunks: [outputs.chunks_mut(chunk).zip(inputs.chunks(chunk*2))]. *)
Definition hash_level (w : worker) (outputs inputs : seq digest) : seq digest :=
  let chunk := get_chunk_size w (size outputs) in
  let done := flatten
    [seq [seq hash_node x.2 | x <- zip oi.1 (chunks 2 oi.2)]
    | oi <- zip (chunks chunk outputs) (chunks (chunk * 2) inputs)] in
  done ++ drop (size done) outputs.

(** src/iop/blake2s_trivial_iop.rs:106-110: the size and the inner nodes. *)
Record tree := Tree { t_size : nat; t_nodes : seq digest }.

(** [[0u8; 32]], src/iop/blake2s_trivial_iop.rs:145, 149. *)
Definition zero_digest : digest := to_digest [::].

(** src/iop/blake2s_trivial_iop.rs:190-209: one round of the loop over the
    levels; [len] is the length of [nodes_for_hashing]. *)
Definition level_step (w : worker) (st : seq digest * nat) : outcome (seq digest * nat) :=
  let: (nodes, len) := st in
  let half := len %/ 2 in
  let inputs := drop half (take len nodes) in
  let next_levels := take half nodes in
  let outputs := drop (size next_levels %/ 2) next_levels in
  check! size outputs * 2 == size inputs ;;
  check! is_pow2 (size outputs) ;;
  let outputs := hash_level w outputs inputs in
  Ok (take (size next_levels %/ 2) next_levels ++ outputs ++ drop half nodes, half).

(** src/iop/blake2s_trivial_iop.rs:131-219 [create]. *)
Definition tree_create (w : worker) (leafs : seq F) : outcome tree :=
  let num_leafs := size leafs in
  check! num_leafs == next_pow2 num_leafs ;;
  let nodes := nseq num_leafs zero_digest in
  let leaf_hashes := par_chunks w (fun _ _ c => map hash_leaf c) leafs in
  let* num_levels := log2_floor num_leafs in
  let* upper_levels := usub num_levels 1 in
  let half := size nodes %/ 2 in
  let outputs := drop half nodes in
  check! size outputs * 2 == size leaf_hashes ;;
  check! is_pow2 (size outputs) ;;
  let nodes := take half nodes ++ hash_level w outputs leaf_hashes in
  let* st := foldM (fun st _ => level_step w st) (nodes, num_leafs) (iota 0 upper_levels) in
  Ok (Tree num_leafs st.1).

(** src/iop/blake2s_trivial_iop.rs:221-224. *)
Definition get_root (t : tree) : outcome digest := get (t_nodes t) 1.

(** src/iop/blake2s_trivial_iop.rs:226-234. *)
Definition encode_root_into_challenge (root : digest) : outcome F := bytes_to_field fp root.
(** src/iop/blake2s_trivial_iop.rs:230-234. *)
Definition get_challenge_scalar_from_root (t : tree) : outcome F :=
  let* root := get_root t in encode_root_into_challenge root.

(** src/iop/blake2s_trivial_iop.rs:236-249 [verify]. *)
Definition tree_verify (root : digest) (leaf_value : F) (path : seq digest) (tree_index : nat) : bool :=
  let: (hash, _) := foldl (fun hi el =>
      let: (hash, idx) := hi in
      (if odd idx then hash_node [:: el; hash] else hash_node [:: hash; el], idx %/ 2))
    (hash_leaf leaf_value, tree_index) path in
  hash == root.

(** Index xor 1. *)
(** [^ 1usize], src/iop/blake2s_trivial_iop.rs:255, 271. *)
Definition flip1 (i : nat) : nat := if odd i then i.-1 else i.+1.

(** src/iop/blake2s_trivial_iop.rs:251-279 [get_path]. *)
Definition get_path (t : tree) (tree_index : nat) (leafs : seq F) : outcome (seq digest) :=
  check! t_size t == size (t_nodes t) ;;
  let* pair := get leafs (flip1 tree_index) in
  let* rounds := log2_floor (size (t_nodes t) %/ 2) in
  let* st := foldM (fun (st : seq digest * seq digest * nat) _ =>
      let: (path, nodes, idx) := st in
      let half_len := size nodes %/ 2 in
      let* value := get (drop half_len nodes) (flip1 idx) in
      Ok (rcons path value, take half_len nodes, idx %/ 2))
    ([:: hash_leaf pair], t_nodes t, tree_index %/ 2) (iota 0 rounds) in
  Ok st.1.1.

(** src/iop/blake2s_trivial_iop.rs:349-375: a query. *)
Record query := Query { q_index : nat; q_value : F; q_path : seq digest }.

(** src/iop/blake2s_trivial_iop.rs:324-338. *)
Definition iop_query (t : tree) (natural_index : nat) (leafs : seq F) : outcome query :=
  check! natural_index < t_size t ;;
  let* value := get leafs natural_index in
  let* path := get_path t natural_index leafs in
  Ok (Query natural_index value path).

(** src/iop/blake2s_trivial_iop.rs:320-322. *)
Definition verify_query (q : query) (root : digest) : bool :=
  tree_verify root (q_value q) (q_path q) (q_index q).
End Merkle.
