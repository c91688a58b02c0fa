(** Model of src/ali/mod.rs and src/ali/per_register/mod.rs (ALI step). *)
From Coq Require Import NArith.
From mathcomp Require Import all_ssreflect all_algebra.
From Verif Require Import M_Base M_Worker M_Field M_Domain M_Fft M_Poly M_Bytes M_Transcript M_Air M_Arp.

Set Implicit Arguments.
Unset Strict Implicit.
Unset Printing Implicit Defensive.
Import GRing.Theory.
Local Open Scope ring_scope.

(** indexmap's [IndexSet] and [IndexMap]: iteration in insertion order; a set
    insertion of a present element and a map insertion for a present key keep
    the position. *)
(** [IndexSet::insert], used in src/ali/mod.rs:58-108 and src/ali/per_register/mod.rs:53-60,
    194-210. *)
Definition set_insert (K : eqType) (s : seq K) (x : K) : seq K := if x \in s then s else rcons s x.

(** [IndexMap::get], used in src/ali/per_register/mod.rs:310-420 and 470-520. *)
Fixpoint im_get (K : eqType) V (m : seq (K * V)) (k : K) : option V :=
  if m is (k', v) :: m' then if k' == k then Some v else im_get m' k else None.

(** [IndexMap::insert], used in src/ali/per_register/mod.rs:164-240, 276-300 and 310-420. *)
Fixpoint im_insert (K : eqType) V (m : seq (K * V)) (k : K) (v : V) : seq (K * V) :=
  if m is (k', v') :: m' then
    if k' == k then (k', v) :: m' else (k', v') :: im_insert m' k v
  else [:: (k, v)].

Section Masks.
Variable F : fieldType.

(** src/ali/mod.rs:29-33 [MaskProperties]. *)
Definition mask_properties := (register * step_difference F)%type.
Canonical mask_properties_eqType := Eval hnf in [eqType of mask_properties].

(** src/ali/mod.rs:81-108 [get_masks_from_term]. *)
Definition uni_mask (u : univariate_term F) : mask_properties := (ut_register u, ut_steps u).
(** src/ali/mod.rs:81-108: the masks of one term. *)
Definition get_masks_from_term (s : seq mask_properties) (t : constraint_term F) : seq mask_properties :=
  match t with
  | Univariate u => set_insert s (uni_mask u)
  | Polyvariate p => foldl (fun s u => set_insert s (uni_mask u)) s (pt_terms p)
  end.

(** src/ali/mod.rs:58-65 [get_masks_from_constraint]. *)
Definition get_masks_from_constraint (s : seq mask_properties) (c : constraint F) : seq mask_properties :=
  foldl get_masks_from_term s (c_terms c).

(** src/ali/mod.rs:67-79 [get_mask_from_boundary_constraint]. *)
Definition get_mask_from_boundary_constraint (s : seq mask_properties) (b : boundary_constraint F) :
    seq mask_properties := set_insert s (b_register b, Mask 1).

(** src/ali/per_register/mod.rs:162-170 (also src/verifier/mod.rs:193-201). *)
Fixpoint batch_insert (m : seq (density * seq (constraint F))) (c : constraint F) :=
  match m with
  | (d, b) :: m' => if d == c_density c then (d, rcons b c) :: m' else (d, b) :: batch_insert m' c
  | [::] => [:: (c_density c, [:: c])]
  end.
(** src/ali/per_register/mod.rs:162-170. *)
Definition batch_by_density (cs : seq (constraint F)) : seq (density * seq (constraint F)) :=
  foldl batch_insert [::] cs.

(** src/ali/per_register/mod.rs:40-45 (also src/verifier/mod.rs:181-188). *)
Definition max_degree (cs : seq (constraint F)) : nat :=
  foldl (fun m c => if (m < c_degree c)%N then c_degree c else m) 0%N cs.
End Masks.

Section Ali.
Variables (F : fieldType) (fp : ff_params F).

(** src/ali/per_register/mod.rs:21-33. *)
Record ali_instance := ALI {
  a_properties : instance_properties F;
  a_max_power : nat;
  a_column_domain : domain F;
  a_constraints_domain : domain F;
  a_all_masks : seq (mask_properties F);
  a_boundary_registers : seq register;
  a_divisors : seq (density * hpoly F Values);
  a_boundary_divisors : seq (nat * hpoly F Values);
  a_batches : seq (density * seq (constraint F));
  a_precomputations : precomputed F }.

(** src/ali/per_register/mod.rs:68-98 (the same steps are in
    src/verifier/mod.rs:642-674): the divisor degree, whose subtractions may
    underflow, and the roots outside of the rows of the constraint. *)
Definition dense_divisor_degree (size start_at span num_rows : nat) : outcome nat :=
  let* d := usub size start_at in
  let* pad := usub size num_rows in
  let* d := usub d pad in
  usub d span.

(** The two loops of src/ali/per_register/mod.rs:81-91: [n] successive powers from [start]. *)
Definition geometric (start g : F) (n : nat) : seq F :=
  mapacc (fun u (_ : F) => (u * g, u)) start (nseq n 0).

(** src/ali/per_register/mod.rs:77-94: the roots of the divisor of a dense constraint. *)
Definition dense_roots (g : F) (size start_at span num_rows : nat) : outcome (seq F) :=
  let roots := geometric 1 g start_at in
  let* last_step := usub num_rows span in
  Ok (roots ++ geometric (g ^+ last_step) g (size - last_step)).

(** src/ali/per_register/mod.rs:59-158
    [inverse_divisor_for_dense_constraint_in_coset]. *)
Definition inverse_divisor_in_coset (column evaluation : domain F) (start_at span num_rows : nat)
    (w : worker) : outcome (hpoly F Values * nat) :=
  let* divisor_degree := dense_divisor_degree (d_size column) start_at span num_rows in
  let* roots := dense_roots (d_gen column) (d_size column) start_at span num_rows in
  let g := d_gen evaluation in
  let* p := new_for_size fp Values (d_size evaluation) in
  let p := with_coeffs Values p (par_chunks w
      (fun i chunk c => mapacc (fun x (_ : F) => (x * g, x ^+ d_size column - 1))
                               (g ^+ (i * chunk)%N * ff_gen fp) c) (p_coeffs p)) in
  let* p := batch_inversion p w in
  let p := with_coeffs Values p (par_chunks w
      (fun i chunk c => mapacc (fun x v => (x * g, foldl (fun d root => d * (x - root)) v roots))
                               (g ^+ (i * chunk)%N * ff_gen fp) c) (p_coeffs p)) in
  Ok (p, divisor_degree).

(** src/ali/per_register/mod.rs:216-223, 58-61 and 127-129 of deep.rs: the
    polynomial X - root. *)
Definition linear_poly (root : F) : outcome (hpoly F Coefficients) :=
  let* q := new_for_size fp Coefficients 2 in
  let c := set_nth 0 (p_coeffs q) 1 1 in
  Ok (with_coeffs Coefficients q (set_nth 0 c 0 (c`_0 - root))).

(** src/ali/per_register/mod.rs:36-244 [from_arp].  The product of sizes is a
    natural number here (u64 in the code). *)
Definition from_arp (props : instance_properties F) (w : worker) : outcome ali_instance :=
  let max_power := max_degree (ip_constraints props) in
  let num_rows := ip_num_rows props in
  let* column := domain_new fp num_rows in
  let* constraints_domain := domain_new fp (d_size column * max_power) in
  let* pre := precompute fp constraints_domain w in
  let masks := foldl (@get_masks_from_constraint F) [::] (ip_constraints props) in
  let batches := batch_by_density (ip_constraints props) in
  let* divisors := foldM (fun m db =>
      match db.1 with
      | Dense start_at span =>
          let* '(p, _) := inverse_divisor_in_coset column constraints_domain start_at span num_rows w in
          Ok (im_insert m db.1 p)
      | _ => Panic
      end) [::] batches in
  let registers := foldl (fun s b => set_insert s (b_register b)) [::] (ip_boundary_constraints props) in
  let masks := foldl (@get_mask_from_boundary_constraint F) masks (ip_boundary_constraints props) in
  let steps := foldl (fun s b => set_insert s (b_at_row b)) [::] (ip_boundary_constraints props) in
  let* boundary_divisors := foldM (fun m row =>
      let* q := linear_poly (d_gen column ^+ row) in
      let* v := coset_evaluate_at_domain_for_degree_one fp q w (d_size constraints_domain) in
      let* v := batch_inversion v w in
      Ok (im_insert m row v)) [::] steps in
  Ok (ALI props max_power column constraints_domain masks registers divisors boundary_divisors batches pre).

(** src/ali/per_register/mod.rs:289-306 [calculate_adjustment_polynomial_in_coset]. *)
Definition adjustment_poly (a : ali_instance) (w : worker) (adjustment : nat) (alpha beta : F) :
    outcome (hpoly F Values) :=
  check! (1 <= adjustment)%N ;;
  check! size (pc_coset (a_precomputations a)) == d_size (a_constraints_domain a) ;;
  let* p := (if from_values fp (pc_coset (a_precomputations a)) is Ok p then Ok p else Panic) in
  Ok (add_constant (scale (pow p w adjustment) w alpha) w beta).

(** src/ali/mod.rs:42-47 [WitnessEvaluationData]: mask, power, LDE length. *)
Definition evaluation_data := (mask_properties F * nat * nat)%type.
(** [evaluated_univariate_terms], src/ali/per_register/mod.rs:313-330. *)
Definition cache := seq (evaluation_data * hpoly F Values).

(** src/ali/per_register/mod.rs:379-389 (also 402-411). *)
Definition apply_coeff (p : hpoly F Values) (w : worker) (c : F) : hpoly F Values :=
  if c != 1 then (if c == - 1 then negate p w else scale p w c) else p.

(** src/ali/per_register/mod.rs:356-414 [evaluate_univariate_term_into_values]. *)
Definition eval_uni_values (masked : seq (mask_properties F * hpoly F Coefficients)) (power_hint : nat)
    (w : worker) (ch : cache) (u : univariate_term F) : outcome (hpoly F Values * cache) :=
  check! is_pow2 power_hint ;;
  let* base := unwrap (im_get masked (uni_mask u)) in
  let data : evaluation_data := (uni_mask u, ut_power u, (power_hint * p_size base)%N) in
  if im_get ch data is Some e then Ok (apply_coeff e w (ut_coeff u), ch)
  else
    check! is_pow2 power_hint ;;
    let* base := coset_lde fp base w power_hint in
    let base := pow base w (ut_power u) in
    Ok (apply_coeff base w (ut_coeff u), im_insert ch data base).

(** src/ali/per_register/mod.rs:309-351 [evaluate_constraint_term_into_values]. *)
Definition eval_term_values (masked : seq (mask_properties F * hpoly F Coefficients)) (power_hint : nat)
    (w : worker) (ch : cache) (t : constraint_term F) : outcome (hpoly F Values * cache) :=
  check! is_pow2 power_hint ;;
  match t with
  | Univariate u => eval_uni_values masked power_hint w ch u
  | Polyvariate p =>
      let* '(res, ch) := foldM (fun st u =>
          let: (res, ch) := st in
          let* '(v, ch) := eval_uni_values masked power_hint w ch u in
          if res is Some r then let* r := mul_assign r w v in Ok (Some r, ch)
          else Ok (Some v, ch)) (None, ch) (pt_terms p) in
      let* res := unwrap res in
      Ok (scale res w (pt_coeff p), ch)
  end.

(** src/ali/per_register/mod.rs:422-468 and 479-519: multiply by the adjustment
    polynomial or, without adjustment, by alpha. *)
Definition adjust (a : ali_instance) (w : worker) (adjustment : nat) (alpha beta : F) :
    outcome (option (hpoly F Values)) :=
  if adjustment == 0%N then Ok None
  else let* p := adjustment_poly a w adjustment alpha beta in Ok (Some p).
(** src/ali/per_register/mod.rs:422-468 and 479-519: the polynomial to the adjustment power, times
    [alpha], plus [beta]. *)
Definition apply_adjustment (w : worker) (alpha : F) (adj : option (hpoly F Values)) (v : hpoly F Values) :
    outcome (hpoly F Values) :=
  if adj is Some adj then mul_assign v w adj else Ok (scale v w alpha).

Variable H : hash_fun.

(** src/ali/per_register/mod.rs:246-285: the masked witness polynomials. *)
Definition masked_polynomials (a : ali_instance) (witness : seq (hpoly F Coefficients)) (w : worker) :
    outcome (seq (mask_properties F * hpoly F Coefficients)) :=
  foldM (fun m mask =>
      let* n := reg_number mask.1 in
      let* p := get witness n in
      let* mk := (if mask.2 is Mask mk then Ok mk else Panic) in
      Ok (im_insert m mask (p_distribute_powers p w mk))) [::] (a_all_masks a).

(** src/ali/per_register/mod.rs:421-467: one constraint of a batch. *)
Definition g_constraint (a : ali_instance) (w : worker) masked (g_values : hpoly F Values)
    (st : hpoly F Values * transcript * cache) (c : constraint F) :
    outcome (hpoly F Values * transcript * cache) :=
  let: (batch_values, t, ch) := st in
  check! (c_degree c <= a_max_power a)%N ;;
  let adjustment := (a_max_power a - c_degree c)%N in
  let* '(alpha, t) := get_challenge fp H t in
  let* '(beta, t) := get_challenge fp H t in
  let* adj := adjust a w adjustment alpha beta in
  let* '(v, ch) := foldM (fun st term =>
      let: (v, ch) := st in
      let* '(s, ch) := eval_term_values masked (a_max_power a) w ch term in
      let* v := add_assign v w s in Ok (v, ch)) (g_values, ch) (c_terms c) in
  let v := add_constant v w (c_constant_term c) in
  let* v := apply_adjustment w alpha adj v in
  let* batch_values := add_assign batch_values w v in
  Ok (batch_values, t, ch).

(** src/ali/per_register/mod.rs:419-474: one batch. *)
Definition g_batch (a : ali_instance) (w : worker) masked
    (st : hpoly F Values * transcript * cache) (db : density * seq (constraint F)) :
    outcome (hpoly F Values * transcript * cache) :=
  let: (g_values, t, ch) := st in
  let* '(batch_values, t, ch) := foldM (g_constraint a w masked g_values) (g_values, t, ch) db.2 in
  let* divisors := unwrap (im_get (a_divisors a) db.1) in
  let* batch_values := mul_assign batch_values w divisors in
  let* g_values := add_assign g_values w batch_values in
  Ok (g_values, t, ch).

(** src/ali/per_register/mod.rs:479-524: one boundary constraint. *)
Definition g_boundary (a : ali_instance) (w : worker) (witness : seq (hpoly F Coefficients))
    (st : hpoly F Values * transcript) (b : boundary_constraint F) : outcome (hpoly F Values * transcript) :=
  let: (g_values, t) := st in
  let* '(alpha, t) := get_challenge fp H t in
  let* '(beta, t) := get_challenge fp H t in
  let* adjustment := usub (a_max_power a) 1 in
  let* adj := adjust a w adjustment alpha beta in
  let* n := reg_number (b_register b) in
  let* p := get witness n in
  let* value := unwrap (b_value b) in
  let* c0 := get (p_coeffs p) 0 in
  let p := with_coeffs Coefficients p (set_nth 0 (p_coeffs p) 0 (c0 - value)) in
  let* v := coset_lde fp p w (a_max_power a) in
  let* v := apply_adjustment w alpha adj v in
  let* divisors := unwrap (im_get (a_boundary_divisors a) (b_at_row b)) in
  let* v := mul_assign v w divisors in
  let* g_values := add_assign g_values w v in
  Ok (g_values, t).

(** src/ali/per_register/mod.rs:246-529 [calculate_g]. *)
Definition calculate_g (a : ali_instance) (t : transcript) (witness : seq (hpoly F Coefficients))
    (w : worker) : outcome (hpoly F Coefficients * transcript) :=
  check! size witness == ip_num_registers (a_properties a) ;;
  let* g_values := new_for_size fp Values (d_size (a_constraints_domain a)) in
  let* masked := masked_polynomials a witness w in
  let* '(g_values, t, _) := foldM (g_batch a w masked) (g_values, t, [::]) (a_batches a) in
  let* '(g_values, t) := foldM (g_boundary a w witness) (g_values, t)
                           (ip_boundary_constraints (a_properties a)) in
  let* g := icoset_fft g_values w in
  Ok (g, t).

(** * deep.rs *)

(** src/ali/per_register/deep.rs:32-87: one mask. *)
Definition deep_mask (f_polys : seq (hpoly F Coefficients)) (f_ldes : seq (hpoly F Values)) (f_lde_size : nat)
    (w : worker) (z : F)
    (st : hpoly F Values * seq F * seq (step_difference F * hpoly F Values) * transcript)
    (m : mask_properties F) :
    outcome (hpoly F Values * seq F * seq (step_difference F * hpoly F Values) * transcript) :=
  let: (h1, vals, divisors, t) := st in
  let* mask := (if m.2 is Mask mk then Ok mk else Panic) in
  let root := mask * z in
  let* reg := reg_number m.1 in
  let* f := get f_polys reg in
  let value := evaluate_at f w root in
  let* '(divisor, divisors) :=
    (if im_get divisors m.2 is Some d then Ok (d, divisors)
     else
       let* q := linear_poly root in
       let* v := evaluate_at_domain_for_degree_one fp q w f_lde_size in
       let* v := batch_inversion v w in
       Ok (v, im_insert divisors m.2 v)) in
  let* l := get f_ldes reg in
  let l := add_constant l w (- value) in
  let* '(alpha, t) := get_challenge fp H t in
  let l := scale l w alpha in
  let* l := mul_assign l w divisor in
  let* h1 := add_assign h1 w l in
  Ok (h1, rcons vals value, divisors, t).

(** src/ali/per_register/deep.rs:14-149 [calculate_deep]. *)
Definition calculate_deep (a : ali_instance) (f_polys : seq (hpoly F Coefficients))
    (f_ldes : seq (hpoly F Values)) (g_poly : hpoly F Coefficients) (g_lde : hpoly F Values)
    (t : transcript) (w : worker) :
    outcome (hpoly F Values * hpoly F Values * seq F * F * transcript) :=
  let* '(z, t) := get_challenge fp H t in
  let* l0 := get f_ldes 0 in
  let f_lde_size := p_size l0 in
  let g_lde_size := p_size g_lde in
  let* h1 := new_for_size fp Values f_lde_size in
  let* '(h1, vals, _, t) := foldM (deep_mask f_polys f_ldes f_lde_size w z) (h1, [::], [::], t) (a_all_masks a) in
  let* q := linear_poly z in
  let* v := evaluate_at_domain_for_degree_one fp q w g_lde_size in
  let* v := batch_inversion v w in
  let g_at_z := evaluate_at g_poly w z in
  let h2 := add_constant g_lde w (- g_at_z) in
  let* h2 := mul_assign h2 w v in
  Ok (h1, h2, vals, g_at_z, t).
End Ali.
