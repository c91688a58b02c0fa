(** Specification vocabulary for commitments and transcripts. *)
From Coq Require Import NArith.
From mathcomp Require Import all_ssreflect all_algebra.
From Verif Require Import M_Base M_Field M_Bytes.

Set Implicit Arguments.
Unset Strict Implicit.
Unset Printing Implicit Defensive.

(** Two different inputs with the same hash among the given ones.  (That some
    collision exists is true of every function from byte strings to digests; what
    counts is that it can be read off.) *)
Definition collision_among (H : hash_fun) (xs : seq bytes) : Prop :=
  exists x y : bytes, [/\ x \in xs, y \in xs, x <> y & H x = H y].

Section Spec.
Variables (F : fieldType) (fp : ff_params F) (H : hash_fun).

(** How the [ff] derive macro computes the constants of a prime field from its
    modulus: NUM_BITS, CAPACITY and the number of 64-bit limbs (one spare bit). *)
Definition ff_constants : Prop :=
  [/\ (2 < ff_modulus fp)%num,
      ff_num_bits fp = N.size (ff_modulus fp),
      ff_capacity fp = (ff_num_bits fp - 1)%num,
      ff_limbs fp = (N.to_nat (ff_num_bits fp / 64)).+1 &
      (ff_num_bits fp < 256)%num].

(** The byte strings that are hashed to check an opening: the leaf, then at each
    step the two children, the sibling being on the left for odd indices. *)
Fixpoint path_inputs (h : digest) (i : nat) (path : seq digest) : seq bytes :=
  if path is el :: path' then
    let x := if odd i then tval el ++ tval h else tval h ++ tval el in x :: path_inputs (H x) (i %/ 2) path'
  else [::].
Definition opening_inputs (v : F) (path : seq digest) (i : nat) : seq bytes :=
  tval (encode_leaf fp v) :: path_inputs (H (encode_leaf fp v)) i path.

(** The byte strings that are hashed to commit to a vector: its leaves, then for
    each level above them the pairs of neighbours. *)
Fixpoint pair_inputs (s : seq digest) : seq bytes :=
  if s is a :: b :: s' then (tval a ++ tval b) :: pair_inputs s' else [::].
Fixpoint level_inputs (l : nat) (s : seq digest) : seq bytes :=
  if l is l'.+1 then pair_inputs s ++ level_inputs l' [seq H x | x <- pair_inputs s] else [::].
Definition tree_inputs (leafs : seq F) : seq bytes :=
  [seq tval (encode_leaf fp v) | v <- leafs] ++
  level_inputs (trunc_log 2 (size leafs)) [seq H (encode_leaf fp v) | v <- leafs].

(** What may be sent to the transcript. *)
Inductive message := MBytes of bytes | MField of F.

Definition encoding (m : message) : bytes :=
  match m with
  | MBytes b => b
  | MField x => be_bytes (8 * ff_limbs fp) (ff_repr fp x)
  end.

(** Same kind, and same length for byte strings. *)
Definition same_shape (m1 m2 : message) : bool :=
  match m1, m2 with
  | MBytes b1, MBytes b2 => size b1 == size b2
  | MField _, MField _ => true
  | _, _ => false
  end.

(** A use of the transcript: commit a message or draw a challenge. *)
Inductive event := Commit of message | Draw.

Definition event_shape (e1 e2 : event) : bool :=
  match e1, e2 with
  | Commit m1, Commit m2 => same_shape m1 m2
  | Draw, Draw => true
  | _, _ => false
  end.

Definition is_draw (e : event) : bool := if e is Draw then true else false.

(** [absorbs h s]: [s] is everything committed and all digests drawn during
    [h], in order. *)
Inductive absorbs : seq event -> bytes -> Prop :=
| absorbs_nil : absorbs [::] [::]
| absorbs_commit h s m : absorbs h s -> absorbs (rcons h (Commit m)) (s ++ encoding m)
| absorbs_draw h s : absorbs h s -> absorbs (rcons h Draw) (s ++ tval (H s)).
End Spec.
