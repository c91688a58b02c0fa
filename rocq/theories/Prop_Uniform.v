(** Property C74: challenges and queried positions are evenly distributed over
    the outputs of the hash function.

    The statements count digests, that is, all 2^256 strings of 32 bytes. *)
From Coq Require Import NArith Lia.
From mathcomp Require Import all_ssreflect all_algebra.
From Verif Require Import M_Base M_Field M_Bytes M_Merkle M_Transcript M_Challenge SpecHash P_Base P_Bytes P_Count.
From Verif Require Import Instances P_Lucas Prop_Hash.

Set Implicit Arguments.
Unset Strict Implicit.
Unset Printing Implicit Defensive.
Local Open Scope nat_scope.

Lemma to_nat_mod (x : N) (m : nat) : 0 < m -> N.to_nat (x mod N.of_nat m) = N.to_nat x %% m.
Proof.
move=> Hm; have Hm' : (N.of_nat m <> 0)%num by move/ltP: Hm; lia.
have := N.div_mod x (N.of_nat m) Hm'; have := N.mod_lt x (N.of_nat m) Hm'.
move: (N.div _ _) (N.modulo _ _) => q r Hr ->.
rewrite N2Nat.inj_add N2Nat.inj_mul Nat2N.id plusE multE mulnC modnMDl modn_small //.
by apply/ltP; lia.
Qed.

Lemma to_nat_pow2 (k : N) : N.to_nat (2 ^ k) = 2 ^ N.to_nat k.
Proof. by rewrite -{1}(N2Nat.id k) to_nat_pow. Qed.

(** The digests that give the answer [x]. *)
Definition gives (A : eqType) (f : digest -> outcome A) (x : A) : {set digest} :=
  [set d | if f d is Ok y then y == x else false].

(** The digests that give an answer. *)
Definition answers (A : Type) (f : digest -> outcome A) : {set digest} :=
  [set d | if f d is Ok _ then true else false].

Section Challenge.
Variables (F : fieldType) (fp : ff_params F).
Hypotheses (Hr : ff_repr_ok fp) (Hc : ff_constants fp).

Let kept : N := (64 * N.of_nat (ff_limbs fp).-1 + (64 - shave_bits fp mod 64))%num.

Let kept_le : N.to_nat kept <= 8 * (8 * ff_limbs fp).
Proof.
case: (Hr) => _ _ _ _ /andP [Hl _]; apply/leP; rewrite /kept -!multE.
move: (shave_bits fp mod 64)%num => z; move: Hl; case: (ff_limbs fp) => // l _.
by rewrite -[l.+1.-1]/l -[l.+1]/(Datatypes.S l); lia.
Qed.

Let value (d : digest) : nat := N.to_nat (be_value (take (8 * ff_limbs fp) d)) %% 2 ^ N.to_nat kept.

Let value_shaved d : value d = N.to_nat (shaved fp d).
Proof.
rewrite (@shaved_mod _ fp d kept erefl) /value.
have E : (2 ^ kept)%num = N.of_nat (2 ^ N.to_nat kept) by rewrite -to_nat_pow2 N2Nat.id.
by rewrite E to_nat_mod // expn_gt0.
Qed.

Let card_value a : a < 2 ^ N.to_nat kept -> #|[set d : digest | value d == a]| = 2 ^ (256 - N.to_nat kept).
Proof.
move=> Ha; rewrite /value card_take //; case: (Hr) => _ _ _ _ /andP [_ Hl].
by rewrite -[32]/(8 * 4) leq_mul2l.
Qed.

Let givesE x : gives (bytes_to_field fp) x = [set d : digest | value d == N.to_nat (ff_repr fp x)].
Proof.
case: (Hr) => -[R1 R2] _ _ _ _.
apply/setP => d; rewrite !inE value_shaved bytes_to_fieldE; apply/idP/eqP => [|E].
  by case Ef: (from_repr fp (shaved fp d)) => [y|] //= /eqP <-; rewrite (R2 _ _ Ef).
by have := R1 x; rewrite -(N2Nat.inj _ _ E) => ->; rewrite /= eqxx.
Qed.

Let value_lt d : value d < 2 ^ N.to_nat kept.
Proof. by rewrite ltn_mod expn_gt0. Qed.

Lemma gives_card x : #|gives (bytes_to_field fp) x| =
  if (ff_repr fp x <? 2 ^ kept)%num then 2 ^ (256 - N.to_nat kept) else 0.
Proof.
rewrite givesE; case: N.ltb_spec => Hx.
  by rewrite card_value // -to_nat_pow2; apply/ltP; lia.
apply/eqP; rewrite cards_eq0; apply/eqP/setP => d; rewrite !inE; apply/negbTE/eqP => E.
have := value_lt d; rewrite E -to_nat_pow2 => /ltP; lia.
Qed.

Lemma card_below m : m <= 2 ^ N.to_nat kept ->
  #|[set d : digest | value d < m]| = m * 2 ^ (256 - N.to_nat kept).
Proof.
elim: m => [|m IH] Hm.
  by rewrite mul0n; apply/eqP; rewrite cards_eq0; apply/eqP/setP => d; rewrite !inE.
have -> : [set d : digest | value d < m.+1] = [set d : digest | value d == m] :|: [set d : digest | value d < m].
  by apply/setP => d; rewrite !inE ltnS leq_eqVlt.
rewrite cardsU disjoint_setI0 ?cards0 ?subn0 ?card_value // ?IH ?(ltnW Hm) // ?mulSn //.
by rewrite -setI_eq0; apply/eqP/setP => d; rewrite !inE; case: eqP => // ->; rewrite ltnn.
Qed.

(** A challenge drawn from the transcript, or from the root of an oracle, is
    one of the elements below 2^CAPACITY, and each of them is given by the same
    number of digests: 2^CAPACITY * 2^(256 - CAPACITY) is the number of all
    digests. *)
Theorem C74_challenges_uniform (x : F) : (2 <= ff_num_bits fp mod 64)%num ->
  #|gives (bytes_to_field fp) x| =
  if (ff_repr fp x <? 2 ^ ff_capacity fp)%num then 2 ^ (256 - N.to_nat (ff_capacity fp)) else 0.
Proof.
move=> Hb; rewrite gives_card /kept (kept_bits Hc).
by have -> : (ff_num_bits fp mod 64 <? 2)%num = false by apply/N.ltb_ge.
Qed.

(** For the other fields the digests that are mapped to the field at all are
    still shared out evenly, *)
Theorem C74_challenges_uniform_any (x y : F) :
  (ff_num_bits fp mod 64 < 2)%num ->
  #|gives (bytes_to_field fp) x| = #|gives (bytes_to_field fp) y|.
Proof.
move=> Hb; case: (Hc) => Hm E1 E2 E3 H256.
have Hk : (ff_num_bits fp < kept)%num.
  rewrite /kept (kept_bits Hc); case: N.ltb_spec => [_|?]; last by lia.
  by have := N.div_mod' (ff_num_bits fp) 64; lia.
have Hall z : (ff_repr fp z <? 2 ^ kept)%num.
  apply/N.ltb_lt; case: (Hr) => -[R1 _] _ _ _ _; have := R1 z; rewrite /from_repr.
  case: N.ltb_spec => // Hz _.
  have [Hsz _] := size_bits Hm; rewrite -E1 in Hsz.
  have : (2 ^ ff_num_bits fp < 2 ^ kept)%num by apply: N.pow_lt_mono_r.
  by lia.
by rewrite !gives_card !Hall.
Qed.

(** but they are fewer than one in 2^63: drawing a challenge panics nearly always. *)
Theorem C74_few_answers : (ff_num_bits fp mod 64 < 2)%num ->
  #|answers (bytes_to_field fp)| < 2 ^ 193.
Proof.
move=> Hb; case: (Hc) => Hm E1 E2 E3 H256.
have Hk : (kept = ff_num_bits fp + 63)%num.
  rewrite /kept (kept_bits Hc); case: N.ltb_spec => [_|?]; last by lia.
  by have := N.div_mod' (ff_num_bits fp) 64; lia.
have [Hsz _] := size_bits Hm; rewrite -E1 in Hsz.
have Hmod : N.to_nat (ff_modulus fp) < 2 ^ N.to_nat (ff_num_bits fp).
  by rewrite -to_nat_pow2; apply/ltP; lia.
have Hn : N.to_nat kept = N.to_nat (ff_num_bits fp) + 63 by rewrite Hk N2Nat.inj_add.
have -> : answers (bytes_to_field fp) = [set d : digest | value d < N.to_nat (ff_modulus fp)].
  apply/setP => d; rewrite !inE value_shaved bytes_to_fieldE /from_repr.
  by case: N.ltb_spec => Hs /=; symmetry; [apply/ltP; lia | apply/negbTE/negP => /ltP; lia].
have Hb193 : N.to_nat (ff_num_bits fp) <= 193.
  apply/leP; have := N.div_mod' (ff_num_bits fp) 64.
  have : (ff_num_bits fp / 64 < 4)%num by apply: N.div_lt_upper_bound.
  by lia.
rewrite card_below; last first.
  by apply: leq_trans (ltnW Hmod) _; rewrite leq_exp2l // Hn leq_addr.
have -> : 256 - N.to_nat kept = 193 - N.to_nat (ff_num_bits fp).
  by rewrite Hn addnC subnDA.
have -> : 2 ^ 193 = 2 ^ N.to_nat (ff_num_bits fp) * 2 ^ (193 - N.to_nat (ff_num_bits fp)).
  by rewrite -expnD subnKC.
by rewrite ltn_mul2r expn_gt0.
Qed.
End Challenge.

(** The position of the query: each of the 2^(k-1) odd positions of a domain of
    2^k elements is given by the same number of digests. *)
Theorem C74_positions_uniform (k lde_factor i : nat) :
  0 < k <= 64 -> 0 < lde_factor -> ~~ odd lde_factor ->
  #|gives (fun d : digest => bytes_to_challenge_index d (2 ^ k) lde_factor) i| =
  if odd i && (i < 2 ^ k) then 2 ^ (257 - k) else 0.
Proof.
move=> /andP [Hk Hk64] Hf Hef.
have Hev : ~~ odd (2 ^ k) by rewrite oddX /= orbF -lt0n.
have Hpos : 0 < 2 ^ k by rewrite expn_gt0.
pose x (d : digest) := N.to_nat (be_value (drop (32 - 8) d)) %% 2 ^ k.
have Hx d : x d < 2 ^ k by rewrite ltn_mod.
have card_x a : a < 2 ^ k -> #|[set d : digest | x d == a]| = 2 ^ (256 - k).
  by move=> Ha; rewrite /x card_drop.
have E (d : digest) : bytes_to_challenge_index d (2 ^ k) lde_factor = Ok (if odd (x d) then x d else (x d).+1).
  have Hn1 : ~~ odd (x d) -> (x d).+1 < 2 ^ k.
    move=> Ho; rewrite ltn_neqAle Hx andbT; apply/eqP => Ee.
    by move: Hev; rewrite -Ee /= Ho.
  have Hu : usub (size d) 8 = Ok (32 - 8) by rewrite /usub size_tuple.
  rewrite /bytes_to_challenge_index Hu; rewrite -[LHS]/(check! 2 ^ k != 0 ;;
    let* r := urem (N.to_nat (be_value (drop (32 - 8) d) mod N.of_nat (2 ^ k))) lde_factor in
    let y := if r == 0 then (N.to_nat (be_value (drop (32 - 8) d) mod N.of_nat (2 ^ k))).+1 %% 2 ^ k
      else N.to_nat (be_value (drop (32 - 8) d) mod N.of_nat (2 ^ k)) in
    Ok (if y %% 2 == 0 then y.+1 %% 2 ^ k else y)).
  rewrite to_nat_mod // -/(x d) -lt0n Hpos /urem -lt0n Hf.
  rewrite -[LHS]/(let y := if lde_factor %| x d then (x d).+1 %% 2 ^ k else x d in
    Ok (if y %% 2 == 0 then y.+1 %% 2 ^ k else y)).
  case Ho: (odd (x d)); last first.
    have Hl := Hn1 (negbT Ho); have Ho1 : odd (x d).+1 by rewrite /= Ho.
    by case: (lde_factor %| x d); rewrite /= ?(modn_small Hl) ?modn2 ?Ho1 ?Ho //= ?(modn_small Hl).
  have -> : (lde_factor %| x d) = false.
    by apply/negP => /dvdnP [q Eq]; move: Ho; rewrite Eq oddM (negbTE Hef) andbF.
  by rewrite /= modn2 Ho.
have Hset : gives (fun d : digest => bytes_to_challenge_index d (2 ^ k) lde_factor) i =
  [set d : digest | (if odd (x d) then x d else (x d).+1) == i].
  by apply/setP => d; rewrite !inE E.
rewrite Hset; case: ifP => [/andP [Ho Hi]|Hno]; last first.
  apply/eqP; rewrite cards_eq0; apply/eqP/setP => d; rewrite !inE; apply/negbTE/eqP => Ei.
  move/negP: Hno; apply; rewrite -Ei; case Ho: (odd (x d)); rewrite ?Ho ?Hx //= ?Ho /=.
  rewrite ltn_neqAle Hx andbT; apply/eqP => Ee.
  by move: Hev; rewrite -Ee /= Ho.
case: i Ho Hi {Hset} => [//|i] /= Ho Hi.
have -> : [set d : digest | (if odd (x d) then x d else (x d).+1) == i.+1] =
  [set d : digest | x d == i.+1] :|: [set d : digest | x d == i].
  apply/setP => d; rewrite !inE; case Hod: (odd (x d)).
    case: (x d =P i) => [Ee|_]; last by rewrite orbF.
    by move: Ho; rewrite -Ee Hod.
  rewrite eqSS; case: (x d =P i.+1) => [Ee|//].
  by move: Hod; rewrite Ee /= Ho.
rewrite cardsU disjoint_setI0; last first.
  by rewrite -setI_eq0; apply/eqP/setP => d; rewrite !inE; case: eqP => // ->; rewrite -[RHS]/false; elim: (i).
rewrite cards0 subn0 !card_x ?(ltnW Hi) // addnn -mul2n -expnS; congr (2 ^ _).
by rewrite -subSn // (leq_trans Hk64).
Qed.

(** The same for the challenges a transcript hands out, whatever was committed
    to it before: among the hash functions that agree with [H] except on the
    contents of the transcript, each admissible challenge, and each odd
    position, is handed out by the same number. *)
Definition reprogram (H : hash_fun) (t : transcript) (d : digest) : hash_fun :=
  fun s => if s == t then d else H s.

Theorem C74_transcript_challenge (F : fieldType) (fp : ff_params F) (H : hash_fun) (t : transcript) (x : F) :
  ff_repr_ok fp -> ff_constants fp -> (2 <= ff_num_bits fp mod 64)%num ->
  #|gives (fun d => let* c := get_challenge fp (reprogram H t d) t in Ok c.1) x| =
  if (ff_repr fp x <? 2 ^ ff_capacity fp)%num then 2 ^ (256 - N.to_nat (ff_capacity fp)) else 0.
Proof.
move=> Hr Hc Hb; rewrite -(C74_challenges_uniform Hr Hc x Hb); congr #|pred_of_set _|.
apply/setP => d; rewrite !inE /get_challenge /reprogram eqxx.
by case: (bytes_to_field fp d).
Qed.

Theorem C74_transcript_position (H : hash_fun) (t : transcript) (k lde_factor i : nat) :
  0 < k <= 64 -> 0 < lde_factor -> ~~ odd lde_factor ->
  #|gives (fun d => bytes_to_challenge_index (get_challenge_bytes (reprogram H t d) t).1 (2 ^ k) lde_factor) i| =
  if odd i && (i < 2 ^ k) then 2 ^ (257 - k) else 0.
Proof.
move=> Hk Hf Hef; rewrite -(C74_positions_uniform i Hk Hf Hef); congr #|pred_of_set _|.
by apply/setP => d; rewrite !inE /get_challenge_bytes /reprogram eqxx.
Qed.

(** * Concrete cases *)

(** The field with 257 elements: CAPACITY is 8, and 1 is the challenge for
    2^248 digests. *)
Example C74_challenges_ex : #|gives (bytes_to_field f257) 1%R| = 2 ^ 248.
Proof.
rewrite (C74_challenges_uniform f257_repr_ok f257_constants) //.
Qed.

(** ... and 256 is never a challenge. *)
Example C74_never_ex : #|gives (bytes_to_field f257) (256%:R)%R| = 0.
Proof.
rewrite (C74_challenges_uniform f257_repr_ok f257_constants) //.
Qed.

Example C74_positions_ex :
  #|gives (fun d : digest => bytes_to_challenge_index d (2 ^ 6) 4) 21| = 2 ^ 251.
Proof. by rewrite C74_positions_uniform. Qed.

(** The integers modulo 2^64 - 2^32 + 1: nearly every digest panics. *)
Example C74_few_answers_ex : exists p : nat, [/\ prime p, N.of_nat p = goldilocks &
  #|answers (bytes_to_field (@prime_params p 0 1%R 1%R 2))| < 2 ^ 193].
Proof.
have [p Hp Ep] : exists2 p, prime p & N.of_nat p = goldilocks.
  by exists (N.to_nat goldilocks); [exact: goldilocks_prime | exact: N2Nat.id].
exists p; split; [exact: Hp | exact: Ep | apply: C74_few_answers].
- by apply: prime_repr_ok; rewrite ?Ep.
- by split; rewrite /= ?Ep.
- by rewrite /= Ep.
Qed.

Print Assumptions C74_challenges_uniform.
Print Assumptions C74_challenges_uniform_any.
Print Assumptions C74_few_answers.
Print Assumptions C74_positions_uniform.
Print Assumptions C74_transcript_challenge.
Print Assumptions C74_transcript_position.
