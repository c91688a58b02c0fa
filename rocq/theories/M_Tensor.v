(** Model of src/experiments/tensor_lde.rs. *)
From mathcomp Require Import all_ssreflect all_algebra.
From Verif Require Import M_Base.

Set Implicit Arguments.
Unset Strict Implicit.
Unset Printing Implicit Defensive.
Import GRing.Theory.
Local Open Scope ring_scope.

Section Tensor.
Variable F : fieldType.

(** Division and remainder of usize panic for a zero divisor. *)
(** The [/] of src/experiments/tensor_lde.rs:8-100. *)
Definition udiv (a b : nat) : outcome nat := check! (b != 0)%N ;; Ok (a %/ b)%N.
(** The [%] of src/experiments/tensor_lde.rs:19-20, 46-47, 70. *)
Definition umod (a b : nat) : outcome nat := check! (b != 0)%N ;; Ok (a %% b)%N.

(** src/experiments/tensor_lde.rs:3-25
    [query_tensor_decomposition_element_matrix_over_identyty_matrix]; [submatrix]
    is (elements row by row, (rows, columns)), [idx] is (row, column). *)
Definition query_over_identity (submatrix : seq F * (nat * nat)) (idx : nat * nat) : outcome F :=
  let* block_row := udiv idx.1 submatrix.2.1 in
  let* block_col := udiv idx.2 submatrix.2.2 in
  if (block_row != block_col)%N then Ok 0
  else
    let* sub_row := umod idx.1 submatrix.2.1 in
    let* sub_column := umod idx.2 submatrix.2.2 in
    let row_len := submatrix.2.2 in
    get submatrix.1 (row_len * sub_row + sub_column)%N.

(** src/experiments/tensor_lde.rs:27-57
    [query_tensor_decomposition_element_matrix_over_diagonal_matrix]; the size
    that comes with the diagonal is not looked at. *)
Definition query_over_diagonal (submatrix : seq F * (nat * nat)) (diagonal : seq F * nat)
    (idx : nat * nat) : outcome F :=
  let* block_row := udiv idx.1 submatrix.2.1 in
  let* block_col := udiv idx.2 submatrix.2.2 in
  if (block_row != block_col)%N then Ok 0
  else
    let* diagonal_element_index := udiv idx.1 submatrix.2.1 in
    let* sub_row := umod idx.1 submatrix.2.1 in
    let* sub_column := umod idx.2 submatrix.2.2 in
    let row_len := submatrix.2.2 in
    let* subelement := get submatrix.1 (row_len * sub_row + sub_column)%N in
    let* d := get diagonal.1 diagonal_element_index in
    Ok (subelement * d).

(** src/experiments/tensor_lde.rs:59-82
    [query_tensor_decomposition_element_vector_over_vector]. *)
Definition query_vector_over_vector (subvector_1 subvector_2 : seq F * nat) (idx : nat) : outcome F :=
  let* element_index_0 := umod idx subvector_1.2 in
  let* element_index_1 := udiv idx subvector_1.2 in
  check! (element_index_1 < subvector_2.2)%N ;;
  let* subelement := get subvector_1.1 element_index_0 in
  let* e := get subvector_2.1 element_index_1 in
  Ok (subelement * e).

(** src/experiments/tensor_lde.rs:84-133
    [decompose_lde_generator_for_vector_over_vector]. *)
Definition decompose_lde_generator (lde_factor domain_size : nat) (decomposition_info : nat * nat)
    (omega coset_generator : F) : outcome ((F * F * nat) * (F * F * nat)) :=
  let size_1 := decomposition_info.1 in
  let size_2 := decomposition_info.2 in
  check! (size_1 * size_2 == domain_size)%N ;;
  let* e1 := udiv domain_size size_1 in
  let omega_1 := omega ^+ e1 in
  let* e2 := udiv domain_size size_2 in
  let omega_2 := omega ^+ e2 in
  Ok ((coset_generator, omega_1, lde_factor), (omega, omega_2, e2)).
End Tensor.
