(** * What the field declarations of /repo mean
    /repo/src/lib.rs:35-38, /repo/src/bn256.rs:4-7 and /repo/src/experiments/mod.rs:18-21 declare a
    field by two numbers,
      #[PrimeFieldModulus = "p"] #[PrimeFieldGenerator = "g"] pub struct Fr(FrRepr);
    and the derive macro of the [ff] crate turns them into the arithmetic and the constants that
    the prover and the verifier use.  This file says, independently of the model, what these are
    supposed to be. *)
From Coq Require Import NArith.
From mathcomp Require Import all_ssreflect all_algebra.
From Verif Require Import M_Base M_Field M_Bytes SpecHash.

Set Implicit Arguments.
Unset Strict Implicit.
Unset Printing Implicit Defensive.
Import GRing.Theory.
Local Open Scope ring_scope.

(** [fp] describes the field declared by the modulus [p] and the generator [g]. *)
Record declared (p g : N) (F : fieldType) (fp : ff_params F) : Prop := Declared {
  (** the modulus is prime, the elements are the residues modulo p, and the canonical
      representation of an element is its residue *)
  declared_prime : prime (N.to_nat p);
  declared_modulus : ff_modulus fp = p;
  declared_onto : forall x : F, exists n : N, x = (N.to_nat n)%:R;
  declared_repr : forall n : N, ff_repr fp (N.to_nat n)%:R = (n mod p)%num;
  (** every element but 0 is a power of the generator g *)
  declared_gen : ff_gen fp = (N.to_nat g)%:R;
  declared_powers : forall x : F, x != 0 -> exists k, x = ff_gen fp ^+ k;
  (** p - 1 = 2^S * t with t odd, and the root of unity is g^t *)
  declared_root : exists t : N,
    [/\ (p - 1 = 2 ^ N.of_nat (ff_S fp) * t)%num, N.odd t & ff_rou fp = ff_gen fp ^+ N.to_nat t];
  (** the bit length, the capacity and the number of limbs are computed from p *)
  declared_constants : ff_constants fp }.
