(** Specification vocabulary for FRI. *)
From mathcomp Require Import all_ssreflect all_algebra.
From Verif Require Import M_Base M_Field M_Bytes M_Merkle M_Fri Spec SpecHash.

Set Implicit Arguments.
Unset Strict Implicit.
Unset Printing Implicit Defensive.
Import GRing.Theory.
Local Open Scope ring_scope.

(** * Folding of polynomials and of values *)
Section Folding.
Variable F : fieldType.

(** f_even + b f_odd, where f(X) = f_even(X^2) + X f_odd(X^2). *)
Definition fold_poly (b : F) (f : {poly F}) : {poly F} :=
  \poly_(i < size f) (f`_(2 * i) + b * f`_(2 * i + 1)).

(** Fold once per challenge, first challenge first. *)
Definition fold_polys (bs : seq F) (f : {poly F}) : {poly F} :=
  foldl (fun f b => fold_poly b f) f bs.

(** The value at x^2 of the folded function, from its values [y0] at [x] and
    [y1] at -x. *)
Definition fold_at (b x y0 y1 : F) : F := (y0 + y1) / 2%:R + b * ((y0 - y1) / (2%:R * x)).

(** Values on a group of even order [size v] generated by [g] to values on the
    group generated by [g^2]. *)
Definition fold_vec (b g : F) (v : seq F) : seq F :=
  mkseq (fun i => fold_at b (g ^+ i) v`_i v`_(i + size v %/ 2)) (size v %/ 2).

(** Fold once per challenge. *)
Fixpoint fold_vecs (bs : seq F) (g : F) (v : seq F) : seq F :=
  if bs is b :: bs' then fold_vecs bs' (g ^+ 2) (fold_vec b g v) else v.
End Folding.

(** * What an accepted FRI proof satisfies *)
Section Accept.
Variables (F : fieldType) (fp : ff_params F) (H : hash_fun).
(** The domain has 2^K elements and is generated by [g]; [p] is checked at
    position [idx] against the oracle value [v]. *)
Variables (K : nat) (g : F) (p : fri_proof F) (idx : nat) (v : F).

(** Number of rounds: roots and pairs of openings are consumed in lock step. *)
Definition rounds : nat := minn (size (fpr_roots p)) (size (fpr_queries p) %/ 2).

Definition root_of (j : nat) : digest := nth zero_digest (fpr_roots p) j.

(** First (b = 0) and second (b = 1) opening of round [j]. *)
Definition opening (j b : nat) : query F := nth (Query 0 0 [::]) (fpr_queries p) (2 * j + b).

(** Half of the size of the domain of round [j]. *)
Definition half (j : nat) : nat := (2 ^ (K - j.+1))%N.

(** Value of the next round computed from the openings of round [j]. *)
Definition folded (bs : seq F) (j : nat) : F :=
  fold_at bs`_j (g ^+ (2 ^ j * (idx %% half j))) (q_value (opening j 0)) (q_value (opening j 1)).

Definition expected_in (bs : seq F) (j : nat) : F := if j is i.+1 then folded bs i else v.

Record round_ok (bs : seq F) (j : nat) : Prop := RoundOk {
  ro_lo : q_index (opening j 0) = (idx %% half j)%N;
  ro_hi : q_index (opening j 1) = (idx %% half j + half j)%N;
  ro_open_lo : verify_query fp H (opening j 0) (root_of j);
  ro_open_hi : verify_query fp H (opening j 1) (root_of j);
  ro_challenge : encode_root_into_challenge fp (root_of j) = Ok bs`_j;
  ro_consistent : forall b, (b < 2)%N -> q_index (opening j b) = (idx %% (2 * half j))%N ->
                    q_value (opening j b) = expected_in bs j
}.

Definition accepts : Prop := exists bs : seq F,
  [/\ (idx < 2 ^ K)%N && odd idx, ~~ odd (size (fpr_queries p)), (0 < rounds <= K)%N,
      forall j, (j < rounds)%N -> round_ok bs j &
      (poly_of (fpr_final_coefficients p)).[g ^+ (2 ^ rounds * (idx %% 2 ^ (K - rounds)))] =
      folded bs rounds.-1].
End Accept.

(** The byte strings hashed to check the openings of a list of queries, and to
    commit to a list of vectors. *)
Section Inputs.
Variables (F : fieldType) (fp : ff_params F) (H : hash_fun).
Definition queries_inputs (qs : seq (query F)) : seq bytes :=
  flatten [seq opening_inputs fp H (q_value q) (q_path q) (q_index q) | q <- qs].
Definition trees_inputs (vs : seq (seq F)) : seq bytes := flatten [seq tree_inputs fp H v | v <- vs].
End Inputs.
