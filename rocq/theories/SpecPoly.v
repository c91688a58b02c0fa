(** Specification vocabulary for polynomial objects. *)
From mathcomp Require Import all_ssreflect all_algebra.
From Verif Require Import M_Base M_Field M_Domain M_Poly.

Set Implicit Arguments.
Unset Strict Implicit.
Unset Printing Implicit Defensive.
Import GRing.Theory.
Local Open Scope ring_scope.

Section SpecPoly.
Variables (F : fieldType) (fp : ff_params F).

(** A polynomial object is consistent when its length is the size of a domain,
    its [omega] is the generator of that domain and the stored inverses are the
    inverses of what they are named after.  [C17_*] shows that every
    constructor builds such objects and the other theorems show that every
    operation keeps them. *)
Definition wf_poly (P : form) (p : hpoly F P) : Prop :=
  [/\ domain_new fp (size (p_coeffs p)) = Ok (Domain (size (p_coeffs p)) (p_exp p) (p_omega p)),
      p_omegainv p = (p_omega p)^-1, p_geninv p = (ff_gen fp)^-1 &
      p_minv p = (size (p_coeffs p))%:R^-1].

(** The polynomial a coefficient-form object stands for is
    [poly_of (p_coeffs p)]; same domain of two objects: *)
Definition same_domain P Q (p : hpoly F P) (q : hpoly F Q) : Prop :=
  [/\ p_exp p = p_exp q, p_omega p = p_omega q, p_omegainv p = p_omegainv q,
      p_geninv p = p_geninv q & p_minv p = p_minv q].
End SpecPoly.
