(** Model of src/polynomials/mod.rs and src/precomputations/mod.rs. *)
From mathcomp Require Import all_ssreflect all_algebra.
From Verif Require Import M_Base M_Worker M_Field M_Domain M_Fft.

Set Implicit Arguments.
Unset Strict Implicit.
Unset Printing Implicit Defensive.
Import GRing.Theory.
Local Open Scope ring_scope.

(** src/polynomials/mod.rs:16-23: the form is a phantom type. *)
Inductive form := Coefficients | Values.

Section Poly.
Variables (F : fieldType) (fp : ff_params F).

(** src/polynomials/mod.rs:25-34. *)
Record hpoly (P : form) := HPoly {
  p_coeffs : seq F;
  p_exp : nat;
  p_omega : F;
  p_omegainv : F;
  p_geninv : F;
  p_minv : F
}.

(** src/polynomials/mod.rs:38-40. *)
Definition p_size P (p : hpoly P) : nat := size (p_coeffs p).

(** Functional update of the vector, keeping the other fields. *)
(** Changes of [self.coeffs] alone, for instance src/polynomials/mod.rs:59-70. *)
Definition with_coeffs P Q (p : hpoly P) (c : seq F) : hpoly Q :=
  HPoly Q c (p_exp p) (p_omega p) (p_omegainv p) (p_geninv p) (p_minv p).

(** src/polynomials/mod.rs:146-166 [from_coeffs] and 722-742 [from_values]
    (same text). *)
Definition from_vec P (coeffs : seq F) : outcome (hpoly P) :=
  let* domain := domain_new fp (size coeffs) in
  let exp := d_pow domain in
  let m := d_size domain in
  let omega := d_gen domain in
  let coeffs := resize 0 m coeffs in
  let* omegainv := unwrap (inverse omega) in
  let* geninv := unwrap (inverse (ff_gen fp)) in
  let* minv := unwrap (inverse (from_nat F m)) in
  Ok (HPoly P coeffs exp omega omegainv geninv minv).
(** src/polynomials/mod.rs:146-166 [from_coeffs]. *)
Definition from_coeffs := from_vec Coefficients.
(** src/polynomials/mod.rs:722-742 [from_values]. *)
Definition from_values := from_vec Values.

(** src/polynomials/mod.rs:140-144 and 716-720 [new_for_size]. *)
Definition new_for_size P (size : nat) : outcome (hpoly P) := from_vec P (nseq size 0).

(** src/polynomials/mod.rs:54-57. *)
Definition p_distribute_powers P (p : hpoly P) (w : worker) (g : F) : hpoly P :=
  with_coeffs P p (distribute_powers (p_coeffs p) w g).

(** A chunked loop that overwrites every element independently. *)
(** src/polynomials/mod.rs:59-70, 72-83, 744-758, 831-841: the common form. *)
Definition par_each (w : worker) (f : F -> F) (s : seq F) : seq F :=
  par_chunks w (fun _ _ c => map f c) s.

(** src/polynomials/mod.rs:59-70. *)
Definition scale P (p : hpoly P) (w : worker) (g : F) : hpoly P :=
  with_coeffs P p (par_each w (fun v => v * g) (p_coeffs p)).

(** src/polynomials/mod.rs:72-83. *)
Definition negate P (p : hpoly P) (w : worker) : hpoly P :=
  with_coeffs P p (par_each w (fun v => - v) (p_coeffs p)).

(** src/polynomials/mod.rs:97-102 and 117-122. *)
Definition set_domain P (p : hpoly P) (coeffs : seq F) (new_size : nat) : outcome (hpoly P) :=
  let* domain := domain_new fp new_size in
  let m := d_size domain in
  let omega := d_gen domain in
  let* omegainv := unwrap (inverse omega) in
  let* minv := unwrap (inverse (from_nat F m)) in
  Ok (HPoly P coeffs (d_pow domain) omega omegainv (p_geninv p) minv).

(** src/polynomials/mod.rs:85-105. *)
Definition pad_by_factor P (p : hpoly P) (factor : nat) : outcome (hpoly P) :=
  if factor == 1%N then Ok p
  else if factor != next_pow2 factor then Err
  else
    let new_size := (size (p_coeffs p) * factor)%N in
    set_domain p (resize 0 new_size (p_coeffs p)) new_size.

(** src/polynomials/mod.rs:107-125. *)
Definition pad_to_size P (p : hpoly P) (new_size : nat) : outcome (hpoly P) :=
  if (new_size < size (p_coeffs p))%N then Err
  else if new_size != next_pow2 new_size then Err
  else set_domain p (resize 0 new_size (p_coeffs p)) new_size.

(** src/polynomials/mod.rs:127-136. *)
Definition trim_to_degree P (p : hpoly P) (degree : nat) : outcome (hpoly P) :=
  let sz := size (p_coeffs p) in
  if (sz <= degree + 1)%N then Ok p
  else Ok (with_coeffs P p (resize 0 sz (take (degree + 1) (p_coeffs p)))).

(** src/polynomials/mod.rs:611-624. *)
Definition fft (p : hpoly Coefficients) (w : worker) : outcome (hpoly Values) :=
  let* c := best_fft (p_coeffs p) w (p_omega p) (p_exp p) None in
  Ok (with_coeffs Values p c).

(** src/polynomials/mod.rs:633-638. *)
Definition coset_fft_for_generator (p : hpoly Coefficients) (w : worker) (gen : F) :=
  fft (p_distribute_powers p w gen) w.

(** src/polynomials/mod.rs:626-631. *)
Definition coset_fft (p : hpoly Coefficients) (w : worker) : outcome (hpoly Values) :=
  fft (p_distribute_powers p w (ff_gen fp)) w.

(** src/polynomials/mod.rs:773-798. *)
Definition ifft (p : hpoly Values) (w : worker) : outcome (hpoly Coefficients) :=
  let* c := best_fft (p_coeffs p) w (p_omegainv p) (p_exp p) None in
  let c := par_each w (fun v => v * p_minv p) c in
  Ok (with_coeffs Coefficients p c).

(** src/polynomials/mod.rs:809-815. *)
Definition icoset_fft_for_generator (p : hpoly Values) (w : worker) (geninv : F) :
    outcome (hpoly Coefficients) :=
  let* res := ifft p w in Ok (p_distribute_powers res w geninv).

(** src/polynomials/mod.rs:800-807. *)
Definition icoset_fft (p : hpoly Values) (w : worker) : outcome (hpoly Coefficients) :=
  let geninv := p_geninv p in
  let* res := ifft p w in Ok (p_distribute_powers res w geninv).

(** src/polynomials/mod.rs:396-415, 462-481, 521-541, 589-608: interleave the
    cosets: [final[idx] = results[idx % factor][idx / factor]]; the inner
    vectors are read with bounds checks. *)
Definition interleave (w : worker) (results : seq (seq F)) (factor new_size : nat) :
    outcome (seq F) :=
  par_chunksM w
    (fun i chunk c =>
       mapM (fun j => let idx := (i * chunk + j)%N in
                      let* r := get results (idx %% factor)%N in
                      get r (idx %/ factor)%N) (iota 0 (size c)))
    (nseq new_size (0 : F)).

(** src/polynomials/mod.rs:355-368. *)
Definition filtering_lde (p : hpoly Coefficients) (w : worker) (factor : nat) :
    outcome (hpoly Values) :=
  if factor == 1%N then fft p w
  else
    check! is_pow2 factor ;;
    let new_size := (size (p_coeffs p) * factor)%N in
    let* domain := domain_new fp new_size in
    let lde := resize 0 new_size (p_coeffs p) in
    let* lde := best_lde lde w (d_gen domain) (d_pow domain) factor in
    from_values lde.

(** src/polynomials/mod.rs:484-499. *)
Definition coset_filtering_lde (p : hpoly Coefficients) (w : worker) (factor : nat) :
    outcome (hpoly Values) :=
  if factor == 1%N then coset_fft p w
  else
    check! is_pow2 factor ;;
    let p := p_distribute_powers p w (ff_gen fp) in
    let new_size := (size (p_coeffs p) * factor)%N in
    let* domain := domain_new fp new_size in
    let lde := resize 0 new_size (p_coeffs p) in
    let* lde := best_lde lde w (d_gen domain) (d_pow domain) factor in
    from_values lde.

(** src/polynomials/mod.rs:370-416. *)
Definition lde_using_multiple_cosets_naive (p : hpoly Coefficients) (w : worker) (factor : nat) :
    outcome (hpoly Values) :=
  if factor == 1%N then fft p w
  else
    check! is_pow2 factor ;;
    let new_size := (size (p_coeffs p) * factor)%N in
    let* domain := domain_new fp new_size in
    let* rg := foldM (fun rg _ =>
        let: (results, coset_generator) := rg in
        let* lde := (if coset_generator == 1 then fft p w
                     else coset_fft_for_generator p w coset_generator) in
        Ok (rcons results (p_coeffs lde), coset_generator * d_gen domain))
      ([::], 1) (iota 0 factor) in
    let* final_values := interleave w rg.1 factor new_size in
    from_values final_values.

(** src/polynomials/mod.rs:501-542. *)
Definition coset_lde_using_multiple_cosets_naive (p : hpoly Coefficients) (w : worker)
    (factor : nat) : outcome (hpoly Values) :=
  if factor == 1%N then coset_fft p w
  else
    check! is_pow2 factor ;;
    let new_size := (size (p_coeffs p) * factor)%N in
    let* domain := domain_new fp new_size in
    let* rg := foldM (fun rg _ =>
        let: (results, coset_generator) := rg in
        let* lde := coset_fft_for_generator p w coset_generator in
        Ok (rcons results (p_coeffs lde), coset_generator * d_gen domain))
      ([::], ff_gen fp) (iota 0 factor) in
    let* final_values := interleave w rg.1 factor new_size in
    from_values final_values.

(** src/polynomials/mod.rs:423-432 and 549-558, the CPU hint. *)
Definition lde_cpus_hint (w : worker) (factor : nat) : option nat :=
  if (w <= factor)%N then Some 1%N
  else Some (factor %/ w + (factor %% w != 0%N))%N.

(** src/polynomials/mod.rs:449-458 and 575-585: the task of chunk [i]; it
    starts at [start * coset_omega^i] where [i] is the chunk number.  The
    chunk size is not used: this is what the code says. *)
Definition coset_task (p : hpoly Coefficients) (w : worker) (hint : option nat)
    (coset_omega start : F) (i : nat) (c : seq (seq F)) : outcome (seq (seq F)) :=
  let* rg := foldM (fun rg _ =>
      let: (rs, coset_generator) := rg in
      let c := distribute_powers (p_coeffs p) w coset_generator in
      let* c := best_fft c w (p_omega p) (p_exp p) hint in
      Ok (rcons rs c, coset_generator * coset_omega))
    ([::], coset_omega ^+ i * start) c in
  Ok rg.1.

(** src/polynomials/mod.rs:418-482. *)
Definition lde_using_multiple_cosets (p : hpoly Coefficients) (w : worker) (factor : nat) :
    outcome (hpoly Values) :=
  if factor == 1%N then fft p w
  else
    let hint := lde_cpus_hint w factor in
    check! is_pow2 factor ;;
    let new_size := (size (p_coeffs p) * factor)%N in
    let* domain := domain_new fp new_size in
    let coset_omega := d_gen domain in
    let* results := par_chunksM w (fun i _ c => coset_task p w hint coset_omega 1 i c)
                                (nseq factor [::]) in
    let* final_values := interleave w results factor new_size in
    from_values final_values.

(** src/polynomials/mod.rs:544-609. *)
Definition coset_lde_using_multiple_cosets (p : hpoly Coefficients) (w : worker) (factor : nat) :
    outcome (hpoly Values) :=
  if factor == 1%N then coset_fft p w
  else
    let hint := lde_cpus_hint w factor in
    check! is_pow2 factor ;;
    let new_size := (size (p_coeffs p) * factor)%N in
    let* domain := domain_new fp new_size in
    let coset_omega := d_gen domain in
    let* results := par_chunksM w
        (fun i _ c => coset_task p w hint coset_omega (ff_gen fp) i c) (nseq factor [::]) in
    let* final_values := interleave w results factor new_size in
    from_values final_values.

(** src/polynomials/mod.rs:343-352. *)
Definition lde := lde_using_multiple_cosets.
(** src/polynomials/mod.rs:349-352 [coset_lde]. *)
Definition coset_lde := coset_lde_using_multiple_cosets.

(** src/polynomials/mod.rs:640-652, 654-668, 671-683 (coefficient form:
    [self] may be longer). *)
Definition add_assign_c (p : hpoly Coefficients) (w : worker) (q : hpoly Coefficients) :=
  check! (p_size q <= p_size p)%N ;;
  Ok (with_coeffs Coefficients p
        (par_zip w (p_size q) (fun x y => x + y) (p_coeffs p) (p_coeffs q))).
(** src/polynomials/mod.rs:654-668 [add_assign_scaled], coefficient form. *)
Definition add_assign_scaled_c (p : hpoly Coefficients) (w : worker) (q : hpoly Coefficients)
    (scaling : F) :=
  check! (p_size q <= p_size p)%N ;;
  Ok (with_coeffs Coefficients p
        (par_zip w (p_size q) (fun x y => x + y * scaling) (p_coeffs p) (p_coeffs q))).
(** src/polynomials/mod.rs:671-683 [sub_assign], coefficient form. *)
Definition sub_assign_c (p : hpoly Coefficients) (w : worker) (q : hpoly Coefficients) :=
  check! (p_size q <= p_size p)%N ;;
  Ok (with_coeffs Coefficients p
        (par_zip w (p_size q) (fun x y => x - y) (p_coeffs p) (p_coeffs q))).

(** src/polynomials/mod.rs:685-711 [evaluate_at]: one partial sum per chunk,
    written to its own slot, summed after the join. *)
Definition evaluate_at (p : hpoly Coefficients) (w : worker) (g : F) : F :=
  let n := size (p_coeffs p) in
  let num_threads := get_num_spawned_threads w n in
  let chunk := get_chunk_size w n in
  let subs := [seq (foldl (fun sx a => (sx.1 + sx.2 * a, sx.2 * g))
                          (0, g ^+ (q.1 * chunk)%N) q.2.1).1
              | q <- enumerate (zip (chunks chunk (p_coeffs p)) (iota 0 num_threads))] in
  let subvalues := subs ++ nseq (num_threads - size subs) 0 in
  foldl (fun r v => r + v) 0 subvalues.

(** src/polynomials/mod.rs:229-258 and 260-290; [start] is 1 or the
    multiplicative generator. *)
Definition eval_degree_one (start : F) (p : hpoly Coefficients) (w : worker) (domain_size : nat) :
    outcome (hpoly Values) :=
  check! size (p_coeffs p) == 2%N ;;
  let alpha := (p_coeffs p)`_1 in
  let c := (p_coeffs p)`_0 in
  let* domain := domain_new fp domain_size in
  let g := d_gen domain in
  let result := par_chunks w
      (fun i chunk s => mapacc (fun u (_ : F) => (u * g, alpha * u + c))
                               (g ^+ (i * chunk)%N * start) s)
      (nseq (d_size domain) 0) in
  from_values result.
(** src/polynomials/mod.rs:229-258. *)
Definition evaluate_at_domain_for_degree_one := eval_degree_one 1.
(** src/polynomials/mod.rs:260-290. *)
Definition coset_evaluate_at_domain_for_degree_one := eval_degree_one (ff_gen fp).

(** src/polynomials/mod.rs:744-758 and 760-771. *)
Definition square (p : hpoly Values) (w : worker) : hpoly Values :=
  with_coeffs Values p (par_each w (fun v => v * v) (p_coeffs p)).
(** src/polynomials/mod.rs:744-758 [pow]. *)
Definition pow (p : hpoly Values) (w : worker) (exp : nat) : hpoly Values :=
  if exp == 2%N then square p w
  else with_coeffs Values p (par_each w (fun v => v ^+ exp) (p_coeffs p)).

(** src/polynomials/mod.rs:817-829, 843-857, 860-872, 875-887. *)
Definition add_assign (p : hpoly Values) (w : worker) (q : hpoly Values) :=
  check! p_size p == p_size q ;;
  Ok (with_coeffs Values p (par_zip w (p_size p) (fun x y => x + y) (p_coeffs p) (p_coeffs q))).
(** src/polynomials/mod.rs:843-857 [add_assign_scaled]. *)
Definition add_assign_scaled (p : hpoly Values) (w : worker) (q : hpoly Values) (scaling : F) :=
  check! p_size p == p_size q ;;
  Ok (with_coeffs Values p
        (par_zip w (p_size q) (fun x y => x + y * scaling) (p_coeffs p) (p_coeffs q))).
(** src/polynomials/mod.rs:860-872 [sub_assign]. *)
Definition sub_assign (p : hpoly Values) (w : worker) (q : hpoly Values) :=
  check! p_size p == p_size q ;;
  Ok (with_coeffs Values p (par_zip w (p_size p) (fun x y => x - y) (p_coeffs p) (p_coeffs q))).
(** src/polynomials/mod.rs:875-887 [mul_assign]. *)
Definition mul_assign (p : hpoly Values) (w : worker) (q : hpoly Values) :=
  check! p_size p == p_size q ;;
  Ok (with_coeffs Values p (par_zip w (p_size p) (fun x y => x * y) (p_coeffs p) (p_coeffs q))).

(** src/polynomials/mod.rs:831-841. *)
Definition add_constant (p : hpoly Values) (w : worker) (c : F) : hpoly Values :=
  with_coeffs Values p (par_each w (fun v => v + c) (p_coeffs p)).

(** src/polynomials/mod.rs:889-954 [batch_inversion] on the value vector. *)
Definition batch_inversion_vec (a : seq F) (w : worker) : outcome (seq F) :=
  let n := size a in
  let num_threads := get_num_spawned_threads w n in
  let chunk := get_chunk_size w n in
  let cs := chunks chunk a in
  (* 895-906: running products inside of every chunk *)
  let pass1 := [seq (mapacc (fun s x => (s * x, s * x)) 1 q.1, foldl *%R 1 q.1)
               | q <- zip cs (iota 0 num_threads)] in
  let gp := flatten (unzip1 pass1) in
  let grand_products := gp ++ nseq (n - size gp) 1 in
  let subproducts := unzip2 pass1 ++ nseq (num_threads - size pass1) 1 in
  (* 913-918 *)
  let full_grand_product := foldl *%R 1 subproducts in
  let* product_inverse := ok_or (inverse full_grand_product) in
  (* 921-932 *)
  let subinverses := mkseq (fun i =>
      foldl (fun tmp jp => if i == jp.1 then tmp else tmp * jp.2)
            product_inverse (enumerate subproducts)) num_threads in
  (* 934-951: from the end of every chunk *)
  let pass2 := [seq (let: (c, g, s) := q in
                     rev (mapacc (fun s (ag : F * F) => (s * ag.1, ag.2 * s)) s
                                 (zip (rev c) (rcons (behead (rev g)) 1))))
               | q <- zip (zip cs (chunks chunk grand_products)) subinverses] in
  let done := flatten pass2 in
  Ok (done ++ drop (size done) a).
(** src/polynomials/mod.rs:889-954 [batch_inversion]. *)
Definition batch_inversion (p : hpoly Values) (w : worker) : outcome (hpoly Values) :=
  let* c := batch_inversion_vec (p_coeffs p) w in
  Ok (with_coeffs Values p c).

(** src/polynomials/mod.rs:183-199: product of (X - r) over one chunk, low
    coefficient first; empty vector for an empty chunk. *)
Definition root_product (rs : seq F) : seq F :=
  foldl (fun s r =>
           if size s == 0%N then [:: - r; 1]
           else
             let tmp := 0 :: s in
             [seq q.2 - q.1 * r | q <- zip s tmp] ++ drop (size s) tmp)
        [::] rs.

(** src/polynomials/mod.rs:168-227 [from_roots]. *)
Definition from_roots (roots : seq F) (w : worker) : outcome (hpoly Coefficients) :=
  let coeffs_len := (size roots + 1)%N in
  let* domain := domain_new fp coeffs_len in
  let num_threads := get_num_spawned_threads w (size roots) in
  let chunk := get_chunk_size w (size roots) in
  let st := [seq root_product q.1 | q <- zip (chunks chunk roots) (iota 0 num_threads)] in
  let subterms := st ++ nseq (num_threads - size st) [::] in
  let result_len := d_size domain in
  let* result := foldM (fun (result : option (hpoly Values)) s =>
      if size s == 0%N then Ok result
      else
        let* t := from_coeffs s in
        let factor := (result_len %/ p_size t)%N in
        let* t := lde t w factor in
        if result is Some res then let* r := mul_assign res w t in Ok (Some r)
        else Ok (Some t))
    None subterms in
  let* result := unwrap result in
  ifft result w.

(** src/precomputations/mod.rs:7-11. *)
Record precomputed := Precomputed {
  pc_omegas : seq F; pc_coset : seq F; pc_omegas_inv : seq F }.

(** src/precomputations/mod.rs:24-34 (also 36-46 and
    src/fri/fri_on_values.rs:30-40): table of powers. *)
Definition powers_table (w : worker) (omega : F) (n : nat) : seq F :=
  par_chunks w
    (fun i chunk c => mapacc (fun u (_ : F) => (u * omega, u)) (omega ^+ (i * chunk)%N) c)
    (nseq n 0).

(** src/precomputations/mod.rs:14-66. *)
Definition precompute (d : domain F) (w : worker) : outcome precomputed :=
  let precomputation_size := (d_size d %/ 2)%N in
  let omega := d_gen d in
  let* omega_inv := unwrap (inverse (d_gen d)) in
  let omegas := powers_table w omega (d_size d) in
  let omegas_inv := powers_table w omega_inv precomputation_size in
  let coset := par_each w (fun v => v * ff_gen fp) omegas in
  Ok (Precomputed omegas coset omegas_inv).
End Poly.
