(** Property C50: tensor queries. *)
From Coq Require Import NArith.
From mathcomp Require Import all_ssreflect all_algebra.
From Verif Require Import M_Base P_Base P_Sched M_Tensor Instances.

Set Implicit Arguments.
Unset Strict Implicit.
Unset Printing Implicit Defensive.
Import GRing.Theory.
Local Open Scope ring_scope.

Section C50.
Variable F : fieldType.

(** * Specification: tensor products *)
(** The matrix stored row by row in a vector. *)
Definition mat_of r c (v : seq F) : 'M[F]_(r, c) := \matrix_(i, j) v`_(i * c + j)%N.

(** The matrix with the blocks d_0 * a, d_1 * a, ... on the diagonal and zero
    elsewhere: the tensor product of the diagonal matrix d with a. *)
Fixpoint block_diagonal r c (a : 'M[F]_(r, c)) (d : seq F) : 'M[F]_(size d * r, size d * c) :=
  match d return 'M[F]_(size d * r, size d * c) with
  | [::] => 0
  | x :: d' => block_mx (x *: a) 0 0 (block_diagonal a d')
  end.

(** The tensor product of two vectors: a copy of the first for every element of
    the second. *)
Definition vector_tensor (v1 v2 : seq F) : seq F := flatten [seq [seq y * x | y <- v1] | x <- v2].

(** * Proofs *)
Lemma get_nth (s : seq F) i : (i < size s)%N -> get s i = Ok s`_i.
Proof. by elim: s i => [|x s IH] [|i] //= H; apply: IH. Qed.

Lemma block_diagonalE r c (a : 'M[F]_(r, c)) d i j (Hi : (i < r)%N) (Hj : (j < c)%N)
    (k l : nat) (Hk : (k * r + i < size d * r)%N) (Hl : (l * c + j < size d * c)%N) :
  block_diagonal a d (Ordinal Hk) (Ordinal Hl) =
  if k == l then d`_k * a (Ordinal Hi) (Ordinal Hj) else 0.
Proof.
elim: d k l Hk Hl => [|x d IH] k l Hk Hl //=.
case: k Hk => [|k] Hk.
  have -> : Ordinal Hk = lshift (size d * r) (Ordinal Hi) by apply: val_inj; rewrite /= mul0n.
  case: l Hl => [|l] Hl.
    have -> : Ordinal Hl = lshift (size d * c) (Ordinal Hj) by apply: val_inj; rewrite /= mul0n.
    by rewrite block_mxEul mxE.
  have Hl' : (l * c + j < size d * c)%N by move: Hl; rewrite /= !mulSn -addnA ltn_add2l.
  have -> : Ordinal Hl = rshift c (Ordinal Hl') by apply: val_inj; rewrite /= mulSn addnA.
  by rewrite block_mxEur mxE.
have Hk' : (k * r + i < size d * r)%N by move: Hk; rewrite /= !mulSn -addnA ltn_add2l.
have -> : Ordinal Hk = rshift r (Ordinal Hk') by apply: val_inj; rewrite /= mulSn addnA.
case: l Hl => [|l] Hl.
  have -> : Ordinal Hl = lshift (size d * c) (Ordinal Hj) by apply: val_inj; rewrite /= mul0n.
  by rewrite block_mxEdl mxE.
have Hl' : (l * c + j < size d * c)%N by move: Hl; rewrite /= !mulSn -addnA ltn_add2l.
have -> : Ordinal Hl = rshift c (Ordinal Hl') by apply: val_inj; rewrite /= mulSn addnA.
by rewrite block_mxEdr IH eqSS.
Qed.

Lemma block_diagonal_div r c (a : 'M[F]_(r, c)) d (i : 'I_(size d * r)) (j : 'I_(size d * c))
    (Hi : (i %% r < r)%N) (Hj : (j %% c < c)%N) :
  block_diagonal a d i j =
  if (i %/ r == j %/ c)%N then d`_(i %/ r) * a (Ordinal Hi) (Ordinal Hj) else 0.
Proof.
have Hk : (i %/ r * r + i %% r < size d * r)%N by rewrite -divn_eq.
have Hl : (j %/ c * c + j %% c < size d * c)%N by rewrite -divn_eq.
rewrite -(block_diagonalE a Hi Hj Hk Hl); congr (block_diagonal a d _ _); apply: val_inj.
  by rewrite /= -divn_eq.
by rewrite /= -divn_eq.
Qed.

Lemma sub_index r c i j : (0 < r)%N -> (0 < c)%N -> (c * (i %% r) + j %% c < r * c)%N.
Proof.
move=> Hr Hc; apply: (@leq_trans (c * (i %% r) + c)); first by rewrite ltn_add2l ltn_pmod.
by rewrite addnC -mulnS mulnC leq_mul2r ltn_pmod ?orbT.
Qed.

(** A query of the element at row [i], column [j] of the tensor product of an
    [m] times [m] identity matrix with the submatrix. *)
Theorem C50_identity m r c v (i : 'I_(size (nseq m (1 : F)) * r)) (j : 'I_(size (nseq m (1 : F)) * c)) :
  size v = (r * c)%N ->
  query_over_identity (v, (r, c)) (i : nat, j : nat) =
  Ok (block_diagonal (mat_of r c v) (nseq m 1) i j).
Proof.
move=> Hv.
have Hr : (0 < r)%N by case: r {Hv} i => [[i]|//]; rewrite muln0.
have Hc : (0 < c)%N by case: c {Hv} j => [[j]|//]; rewrite muln0.
rewrite /query_over_identity /udiv /umod /= -!lt0n Hr Hc /=.
rewrite (block_diagonal_div _ (ltn_pmod i Hr) (ltn_pmod j Hc)).
case: eqP => //= _; rewrite get_nth ?Hv ?sub_index // mxE /= mulnC.
rewrite nth_nseq ifT ?mul1r //.
have Hi := ltn_ord i; rewrite -ltn_divLR // in Hi; apply: leq_trans Hi _.
by rewrite size_nseq.
Qed.

(** The same for a diagonal matrix. *)
Theorem C50_diagonal r c v d k (i : 'I_(size d * r)) (j : 'I_(size d * c)) : size v = (r * c)%N ->
  query_over_diagonal (v, (r, c)) (d, k) (i : nat, j : nat) =
  Ok (block_diagonal (mat_of r c v) d i j).
Proof.
move=> Hv.
have Hr : (0 < r)%N by case: r {Hv} i => [[i]|//]; rewrite muln0.
have Hc : (0 < c)%N by case: c {Hv} j => [[j]|//]; rewrite muln0.
rewrite /query_over_diagonal /udiv /umod /= -!lt0n Hr Hc /=.
rewrite (block_diagonal_div _ (ltn_pmod i Hr) (ltn_pmod j Hc)).
case: eqP => //= _; rewrite get_nth ?Hv ?sub_index //= get_nth ?ltn_divLR //= mxE /= mulnC.
by rewrite mulrC.
Qed.

Lemma nth_tensor v1 v2 i : (i < size v2 * size v1)%N ->
  (vector_tensor v1 v2)`_i = v1`_(i %% size v1) * v2`_(i %/ size v1).
Proof.
elim: v2 i => [|x v2 IH] i //=; rewrite mulSn => Hi.
rewrite /vector_tensor /= nth_cat size_map; case: ltnP => H.
  by rewrite (nth_map 0) // modn_small // divn_small.
have Hp : (0 < size v1)%N by case: (size v1) Hi H => //; rewrite muln0.
rewrite -/(vector_tensor v1 v2) IH ?ltn_subLR //.
by rewrite -[in RHS](subnK H) modnDr divnDr ?dvdnn // divnn Hp addn1.
Qed.

(** The element [idx] of the tensor product of two vectors; an index behind the
    end panics. *)
Theorem C50_vector v1 v2 idx : (0 < size v1)%N ->
  query_vector_over_vector (v1, size v1) (v2, size v2) idx =
  if (idx < size v1 * size v2)%N then Ok (vector_tensor v1 v2)`_idx else Panic.
Proof.
move=> Hp; rewrite /query_vector_over_vector /udiv /umod /= -lt0n Hp /= ltn_divLR // mulnC.
case: ltnP => // Hi; rewrite get_nth ?ltn_pmod //= get_nth ?ltn_divLR 1?mulnC //=.
by rewrite nth_tensor // mulnC.
Qed.

Theorem C50_vector_size v1 v2 : size (vector_tensor v1 v2) = (size v1 * size v2)%N.
Proof. by elim: v2 => [|x v2 IH] /=; rewrite ?muln0 // size_cat size_map IH mulnS. Qed.

(** Powers of alpha are the tensor product of two shorter vectors of powers:
    the use of the query in the tests, for all sizes. *)
Theorem C50_powers (alpha : F) n1 n2 idx : (0 < n1)%N -> (idx < n1 * n2)%N ->
  query_vector_over_vector (mkseq (fun i => alpha ^+ i) n1, n1)
    (mkseq (fun i => alpha ^+ (i * n1)) n2, n2) idx = Ok (alpha ^+ idx).
Proof.
move=> Hp Hi.
have := C50_vector (mkseq (fun i => alpha ^+ (i * n1)) n2) idx (v1 := mkseq (fun i => alpha ^+ i) n1).
rewrite !size_mkseq Hi => -> //; rewrite nth_tensor ?size_mkseq 1?mulnC //.
rewrite !nth_mkseq ?ltn_pmod // ?ltn_divLR 1?mulnC //.
by rewrite -exprD addnC mulnC -divn_eq.
Qed.

(** * Generators of the two parts *)
(** [v] generates the large domain, [omega = v^lde_factor] the domain of the
    vector.  The two parts have primitive roots for their own sizes; the points
    of the second part are exactly the points of the domain, each once, and each
    point of the large domain is a power of the first coset generator times a
    point of the second part in exactly one way. *)
Theorem C50_generators lde n1 n2 (v : F) : (0 < lde)%N -> (0 < n1)%N -> (0 < n2)%N ->
  (lde * (n1 * n2)).-primitive_root v ->
  let omega := v ^+ lde in
  exists omega_1 omega_2,
  [/\ decompose_lde_generator lde (n1 * n2) (n1, n2) omega v =
        Ok ((v, omega_1, lde), (omega, omega_2, n1)),
      n1.-primitive_root omega_1, n2.-primitive_root omega_2 &
      omega ^+ n1 = omega_2 /\
      forall x, x ^+ (lde * (n1 * n2)) = 1 ->
        exists! kij : nat * nat * nat,
          [/\ (kij.1.1 < lde)%N, (kij.1.2 < n1)%N, (kij.2 < n2)%N &
              x = v ^+ kij.1.1 * (omega ^+ kij.1.2 * omega_2 ^+ kij.2)]].
Proof.
move=> Hl H1 H2 Hv omega; exists (omega ^+ n2), (omega ^+ n1).
have Hw : (n1 * n2).-primitive_root omega.
  by have := dvdn_prim_root Hv (dvdn_mull lde (dvdnn _)); rewrite mulnK // muln_gt0 H1.
rewrite /decompose_lde_generator /udiv /= eqxx -!lt0n H1 H2 /= mulKn // mulnK //.
split=> //.
- by have := dvdn_prim_root Hw (dvdn_mulr n2 (dvdnn n1)); rewrite mulKn.
- by have := dvdn_prim_root Hw (dvdn_mull n1 (dvdnn n2)); rewrite mulnK.
split=> // x Hx.
have [[e He] /= Ex] := prim_rootP Hv Hx.
have Eexp k i j : v ^+ k * (omega ^+ i * omega ^+ n1 ^+ j) = v ^+ (k + lde * (i + n1 * j)).
  by rewrite -exprM -exprD [v ^+ (k + _)]exprD exprM.
exists ((e %% lde, (e %/ lde) %% n1), (e %/ lde) %/ n1)%N; split.
  rewrite /= Eexp; split; rewrite ?ltn_pmod //.
    by rewrite !ltn_divLR // mulnC [(n2 * n1)%N]mulnC.
  by rewrite Ex; congr (v ^+ _); rewrite mulnC [(n1 * _)%N]mulnC [(_ %% n1 + _)%N]addnC -divn_eq addnC -divn_eq.
case=> [[k i] j] /= [Hk Hi Hj]; rewrite Eexp Ex => /eqP.
have Hkij : (k + lde * (i + n1 * j) < lde * (n1 * n2))%N.
  have : (i + n1 * j < n1 * n2)%N.
    apply: (@leq_trans (n1 + n1 * j)); first by rewrite ltn_add2r.
    by rewrite -mulnS leq_mul2l Hj orbT.
  move=> Hij; apply: (@leq_trans (lde + lde * (i + n1 * j))); first by rewrite ltn_add2r.
  by rewrite -mulnS leq_mul2l Hij orbT.
rewrite (eq_prim_root_expr Hv) (modn_small He) (modn_small Hkij).
move=> /eqP ->.
rewrite [(lde * _)%N]mulnC addnC modnMDl modn_small // divnMDl // divn_small // addn0.
by rewrite [(n1 * j)%N]mulnC addnC modnMDl modn_small // divnMDl // divn_small // addn0.
Qed.
End C50.

(** * Examples *)
Example C50_ex_powers :
  [seq (if query_vector_over_vector (mkseq (fun i => mk257 3 ^+ i) 2, 2)%N
           (mkseq (fun i => mk257 3 ^+ (i * 2)) 3, 3)%N i is Ok x then Some (z257_nat x) else None) | i <- iota 0 7] =
  [:: Some 1; Some 3; Some 9; Some 27; Some 81; Some 243; None]%N.
Proof. by vm_compute. Qed.

Example C50_ex_diagonal :
  [seq [seq (if query_over_diagonal ([:: mk257 0; mk257 1; mk257 2; mk257 3], (2, 2))%N
        ([:: mk257 1; mk257 2], 2)%N (i, j) is Ok x then z257_nat x else 99%N) | j <- iota 0 4] | i <- iota 0 4] =
  [:: [:: 0; 1; 0; 0]; [:: 2; 3; 0; 0]; [:: 0; 0; 0; 2]; [:: 0; 0; 4; 6]]%N.
Proof. by vm_compute. Qed.

Print Assumptions C50_identity.
Print Assumptions C50_diagonal.
Print Assumptions C50_vector.
Print Assumptions C50_powers.
Print Assumptions C50_generators.
