(** Model of halo2-base/src/utils/mod.rs (integer part). u64/u128 arithmetic is on Z with the Rust operators
    [&], [|], [<<], [>>]; [None] is a panic of a debug build (overflow, debug_assert, unwrap). *)
From Coq Require Import ZArith List Lia Znumtheory Bool.
From Verif Require Import Field Spec.
Import ListNotations.
Local Open Scope Z_scope.

(** num_bigint [BigUint::iter_u64_digits]: little-endian base-2^64 digits without leading zeros *)
Fixpoint u64_digits_fuel (fuel : nat) (e : Z) : list Z :=
  match fuel with
  | O => []
  | S n => if e <=? 0 then [] else e mod 2 ^ 64 :: u64_digits_fuel n (e / 2 ^ 64)
  end.
Definition u64_digits (e : Z) : list Z := u64_digits_fuel (S (Z.to_nat (Z.log2 e))) e.

(** [e.next().unwrap_or(0)] *)
Definition next_or0 (e : list Z) : Z * list Z :=
  match e with [] => (0, []) | d :: e => (d, e) end.

(** [(1u64 << n) - 1u64] for n < 64 *)
Definition mask64 (n : nat) : Z := Z.shiftl 1 (Z.of_nat n) - 1.
(** truncation of the result of a left shift to the width of the type *)
Definition wrap64 (z : Z) : Z := z mod 2 ^ 64.
Definition wrap128 (z : Z) : Z := z mod 2 ^ 128.

(** utils/mod.rs:131-159, the closure of the [map], state = (u64_digit, rem, remaining iterator) *)
Fixpoint du64_loop (n : nat) (bit_len : nat) (digit : Z) (rem : nat) (e : list Z) : list Z :=
  match n with
  | O => []
  | S n =>
    match Nat.compare rem bit_len with
    | Gt => Z.land digit (mask64 bit_len) :: du64_loop n bit_len (Z.shiftr digit (Z.of_nat bit_len)) (rem - bit_len) e
    | Eq => let '(d, e') := next_or0 e in
            Z.land digit (mask64 bit_len) :: du64_loop n bit_len d 64 e'
    | Lt => let '(d, e') := next_or0 e in
            Z.lor digit (wrap64 (Z.shiftl (Z.land d (mask64 (bit_len - rem))) (Z.of_nat rem)))
              :: du64_loop n bit_len (Z.shiftr d (Z.of_nat (bit_len - rem))) (rem + (64 - bit_len)) e'
    end
  end.

(** utils/mod.rs:117-161 [decompose_u64_digits_to_limbs]; panics (debug) unless bit_len < 64 *)
Definition decompose_u64_digits_to_limbs (e : list Z) (number_of_limbs bit_len : nat) : option (list Z) :=
  if Nat.ltb bit_len 64 then
    let '(d, e') := next_or0 e in Some (du64_loop number_of_limbs bit_len d 64 e')
  else None.

(** utils/mod.rs:297-311, the closure of the [map] *)
Fixpoint dbig_loop (n : nat) (bit_len : nat) (digit : Z) (rem : nat) (e : list Z) : list Z :=
  match n with
  | O => []
  | S n =>
    let limb := digit in
    let bits := rem in
    let '(d, e) := next_or0 e in
    let '(limb, d, e, bits) :=
      if Nat.leb (64 + bits) bit_len then
        let '(d', e') := next_or0 e in
        (Z.lor limb (wrap128 (Z.shiftl d (Z.of_nat bits))), d', e', (bits + 64)%nat)
      else (limb, d, e, bits) in
    let rem := (bit_len - bits)%nat in
    let limb := Z.lor limb (wrap128 (Z.shiftl (Z.land d (mask64 rem)) (Z.of_nat bits))) in
    limb :: dbig_loop n bit_len (Z.shiftr d (Z.of_nat rem)) (64 - rem) e
  end.

(** utils/mod.rs:277-313 [decompose_biguint] before the conversion of limbs with [F::from_u128];
    panics (debug) unless 64 <= bit_len < 128 *)
Definition decompose_biguint_limbs (e : Z) (num_limbs bit_len : nat) : option (list Z) :=
  if Nat.leb 64 bit_len && Nat.ltb bit_len 128 then
    let e := u64_digits e in
    let '(l0, e) := next_or0 e in
    let rem := (bit_len - 64)%nat in
    let '(d, e) := next_or0 e in
    let limb0 := Z.lor l0 (wrap128 (Z.shiftl (Z.land d (mask64 rem)) 64)) in
    let d := Z.shiftr d (Z.of_nat rem) in
    Some (limb0 :: dbig_loop (num_limbs - 1) bit_len d (64 - rem) e)
  else None.

(** utils/mod.rs:164-166 [bit_length] : 64 - leading_zeros *)
Definition leading_zeros64 (x : Z) : Z := if x =? 0 then 64 else 63 - Z.log2 x.
Definition bit_length (x : Z) : nat := Z.to_nat (64 - leading_zeros64 x).
(** utils/mod.rs:171-173 [log2_ceil] *)
Definition is_power_of_two (x : Z) : bool := negb (x =? 0) && (Z.land x (x - 1) =? 0).
Definition log2_ceil (x : Z) : nat :=
  (Z.to_nat (64 - leading_zeros64 x) - (if is_power_of_two x then 1 else 0))%nat.

(** utils/mod.rs:359-361 [compose] *)
Definition compose (input : list Z) (bit_len : nat) : Z :=
  fold_left (fun acc v => Z.shiftl acc (Z.of_nat bit_len) + v) (rev input) 0.

Section FieldUtils.
Context {p : positive}.
Notation Fp := (F p).
(** utils/mod.rs:213-215 [fe_to_biguint]: the canonical representative *)
Definition fe_to_biguint (a : Fp) : Z := val a.
(** utils/mod.rs:191-194 [biguint_to_fe]: [from_repr(..).unwrap()] panics on non-canonical values *)
Definition biguint_to_fe (e : Z) : option Fp :=
  if (0 <=? e) && (e <? Z.pos p) then Some (of_Z p e) else None.
(** utils/mod.rs:176-178 [modulus] *)
Definition modulus : Z := fe_to_biguint (Fopp F1) + 1.
(** utils/mod.rs:201-209 [bigint_to_fe] *)
Definition bigint_to_fe (e : Z) : option Fp :=
  match biguint_to_fe (Z.abs e) with
  | None => None
  | Some f => Some (if e <? 0 then Fopp f else f)
  end.
(** utils/mod.rs:222-231 [fe_to_bigint] *)
Definition fe_to_bigint (fe : Fp) : Z :=
  let e := fe_to_biguint fe in
  if e <=? modulus / 2 then e else - (modulus - e).
(** utils/mod.rs:182-184 [power_of_two] *)
Definition power_of_two (n : nat) : option Fp := biguint_to_fe (Z.shiftl 1 (Z.of_nat n)).
(** utils/mod.rs:253-267 [decompose_fe_to_u64_limbs] and 387-398 [to_u64_limbs] *)
Definition decompose_fe_to_u64_limbs (e : Fp) (n bit_len : nat) : option (list Z) :=
  decompose_u64_digits_to_limbs (u64_digits (fe_to_biguint e)) n bit_len.
(** utils/mod.rs:277-313 [decompose_biguint] (F::from_u128 reduces nothing when p > 2^128; here it reduces mod p) *)
Definition decompose_biguint (e : Z) (n bit_len : nat) : option (list Fp) :=
  option_map (map (of_Z p)) (decompose_biguint_limbs e n bit_len).
(** utils/mod.rs:239-245 [decompose] *)
Definition decompose (e : Fp) (n bit_len : nat) : option (list Fp) :=
  if Nat.ltb 64 bit_len then decompose_biguint (fe_to_biguint e) n bit_len
  else option_map (map (of_Z p)) (decompose_fe_to_u64_limbs e n bit_len).
(** utils/mod.rs:321-327 [decompose_bigint] *)
Definition decompose_bigint (e : Z) (n bit_len : nat) : option (list Fp) :=
  if e <? 0 then option_map (map Fopp) (decompose_biguint (Z.abs e) n bit_len)
  else decompose_biguint (Z.abs e) n bit_len.
(** utils/mod.rs:58-60 [to_bytes_le] of a [n]-byte representation; 73-100 [get_lower_32/64/128] *)
Definition to_bytes_le (n : nat) (a : Fp) : list Z := digits 8 n (val a).
Fixpoint or_bytes (i : nat) (l : list Z) : Z :=
  match l with [] => 0 | b :: l => Z.lor (Z.shiftl b (Z.of_nat (8 * i))) (or_bytes (S i) l) end.
Definition get_lower (nbytes : nat) (repr : nat) (a : Fp) : Z := or_bytes 0 (firstn nbytes (to_bytes_le repr a)).
End FieldUtils.

(** ** Proofs *)
Lemma land_mask a n : 0 <= a -> Z.land a (mask64 n) = a mod 2 ^ Z.of_nat n.
Proof.
  intros. unfold mask64. rewrite Z.shiftl_1_l.
  replace (2 ^ Z.of_nat n - 1) with (Z.ones (Z.of_nat n)) by (rewrite Z.ones_equiv; lia).
  apply Z.land_ones. lia.
Qed.

Lemma lor_add a b n : 0 <= a < 2 ^ Z.of_nat n -> 0 <= b -> Z.lor a (Z.shiftl b (Z.of_nat n)) = a + b * 2 ^ Z.of_nat n.
Proof.
  intros Ha Hb. rewrite Z.shiftl_mul_pow2 by lia.
  assert (Z.land a (b * 2 ^ Z.of_nat n) = 0).
  { apply Z.bits_inj'. intros m Hm. rewrite Z.land_spec, Z.bits_0.
    destruct (Z_lt_le_dec m (Z.of_nat n)).
    - rewrite (Z.mul_pow2_bits_low b); [|lia]. apply andb_false_r.
    - replace (Z.testbit a m) with false; [reflexivity|].
      symmetry. destruct (Z.eq_dec a 0) as [->|]; [apply Z.bits_0|].
      apply Z.bits_above_log2; [lia|]. apply Z.log2_lt_pow2; [lia|].
      assert (2 ^ Z.of_nat n <= 2 ^ m) by (apply Z.pow_le_mono_r; lia). lia. }
  rewrite <- Z.lxor_lor by auto. rewrite <- Z.add_nocarry_lxor by auto. reflexivity.
Qed.

(** value of the remaining stream *)
Fixpoint uval (e : list Z) : Z := match e with [] => 0 | d :: e => d + 2 ^ 64 * uval e end.
Definition u64s (e : list Z) : Prop := Forall (fun d => 0 <= d < 2 ^ 64) e.

Lemma uval_nonneg e : u64s e -> 0 <= uval e.
Proof. induction 1; cbn [uval]; lia. Qed.

Lemma u64_digits_fuel_spec fuel : forall e, 0 <= e < 2 ^ Z.of_nat fuel ->
  u64s (u64_digits_fuel fuel e) /\ uval (u64_digits_fuel fuel e) = e.
Proof.
  induction fuel as [|n IH]; intros e He.
  - simpl in *. split; [constructor|lia].
  - cbn [u64_digits_fuel]. destruct (Z.leb_spec e 0).
    + split; [constructor|simpl; lia].
    + rewrite pow2_S in He.
      assert (0 <= e / 2 ^ 64 < 2 ^ Z.of_nat n).
      { split; [apply Z.div_pos; lia|]. apply Z.div_lt_upper_bound; lia. }
      destruct (IH _ H0) as [I1 I2]. split.
      * constructor; auto. apply Z.mod_pos_bound. lia.
      * cbn [uval]. rewrite I2. pose proof (Z_div_mod_eq_full e (2 ^ 64)). lia.
Qed.

Lemma u64_digits_spec e : 0 <= e -> u64s (u64_digits e) /\ uval (u64_digits e) = e.
Proof.
  intros. unfold u64_digits. apply u64_digits_fuel_spec. split; auto.
  destruct (Z.eq_dec e 0) as [->|]; [reflexivity|].
  rewrite pow2_S. rewrite Z2Nat.id by apply Z.log2_nonneg.
  pose proof (Z.log2_spec e ltac:(lia)) as [_ HH]. rewrite Z.pow_succ_r in HH by apply Z.log2_nonneg. lia.
Qed.

Lemma next_or0_spec e d e' : u64s e -> next_or0 e = (d, e') ->
  u64s e' /\ 0 <= d < 2 ^ 64 /\ uval e = d + 2 ^ 64 * uval e'.
Proof.
  intros H E. destruct e as [|x e]; simpl in E; injection E as <- <-.
  - split; [constructor|]. split; [lia|]. simpl. lia.
  - inversion H; subst. auto.
Qed.

Lemma div_mod_split d r b R : (b <= r)%nat -> 0 <= d < 2 ^ Z.of_nat r -> 0 <= R ->
  (d + 2 ^ Z.of_nat r * R) mod 2 ^ Z.of_nat b = d mod 2 ^ Z.of_nat b /\
  (d + 2 ^ Z.of_nat r * R) / 2 ^ Z.of_nat b = d / 2 ^ Z.of_nat b + 2 ^ Z.of_nat (r - b) * R /\
  0 <= d / 2 ^ Z.of_nat b < 2 ^ Z.of_nat (r - b).
Proof.
  intros Hb Hd HR. replace r with (b + (r - b))%nat at 1 2 by lia. rewrite pow2_add.
  pose proof (pow2_pos b). pose proof (pow2_pos (r - b)).
  replace (d + 2 ^ Z.of_nat b * 2 ^ Z.of_nat (r - b) * R) with (d + (2 ^ Z.of_nat (r - b) * R) * 2 ^ Z.of_nat b) by ring.
  rewrite Z.mod_add, Z.div_add by lia. repeat split; auto.
  - apply Z.div_pos; lia.
  - apply Z.div_lt_upper_bound; [lia|]. rewrite <- pow2_add. now replace (b + (r - b))%nat with r by lia.
Qed.

Lemma du64_loop_correct n bl : (1 <= bl < 64)%nat -> forall digit rem e,
  (1 <= rem <= 64)%nat -> 0 <= digit < 2 ^ Z.of_nat rem -> u64s e ->
  du64_loop n bl digit rem e = digits bl n (digit + 2 ^ Z.of_nat rem * uval e).
Proof.
  intros Hbl. induction n as [|n IH]; intros digit rem e Hr Hd He; [reflexivity|].
  cbn [du64_loop digits]. pose proof (uval_nonneg e He) as HU.
  destruct (Nat.compare_spec rem bl) as [->|Hlt|Hgt].
  - destruct (next_or0 e) as [d e'] eqn:En. apply next_or0_spec in En as (E1 & E2 & E3); auto.
    pose proof (pow2_pos bl).
    f_equal.
    + rewrite land_mask by lia. rewrite Z.mul_comm, Z.mod_add by lia. reflexivity.
    + rewrite Z.mul_comm, Z.div_add by lia. rewrite (Z.div_small digit) by lia. rewrite IH; auto; try lia.
      rewrite E3. reflexivity.
  - destruct (next_or0 e) as [d e'] eqn:En. apply next_or0_spec in En as (E1 & E2 & E3); auto.
    pose proof (uval_nonneg e' E1) as HU'.
    set (k := (bl - rem)%nat) in *.
    destruct (div_mod_split d 64 k (uval e')) as (M1 & M2 & M3); [lia|exact E2|lia|].
    change (2 ^ Z.of_nat 64) with (2 ^ 64) in M1, M2.
    pose proof (pow2_pos k). pose proof (pow2_pos rem).
    pose proof (Z.mod_pos_bound d (2 ^ Z.of_nat k) ltac:(lia)) as MB.
    assert (Hbl2 : 2 ^ Z.of_nat bl = 2 ^ Z.of_nat rem * 2 ^ Z.of_nat k)
      by (rewrite <- pow2_add; f_equal; lia).
    assert (Hw : wrap64 (Z.shiftl (Z.land d (mask64 k)) (Z.of_nat rem)) = Z.shiftl (Z.land d (mask64 k)) (Z.of_nat rem)).
    { unfold wrap64. rewrite land_mask by lia. rewrite Z.shiftl_mul_pow2 by lia. apply Z.mod_small.
      assert (2 ^ Z.of_nat bl < 2 ^ 64) by (change (2 ^ 64) with (2 ^ Z.of_nat 64); apply pow2_lt; lia).
      nia. }
    rewrite Hw, land_mask by lia. rewrite lor_add by lia.
    rewrite E3 in *. rewrite Hbl2.
    f_equal.
    + rewrite Z.rem_mul_r by lia.
      replace (digit + 2 ^ Z.of_nat rem * (d + 2 ^ 64 * uval e')) with (digit + (d + 2 ^ 64 * uval e') * 2 ^ Z.of_nat rem) by ring.
      rewrite Z.mod_add, Z.div_add, (Z.div_small digit), (Z.mod_small digit) by lia. rewrite Z.add_0_l, M1. ring.
    + rewrite <- Z.div_div by lia.
      replace (digit + 2 ^ Z.of_nat rem * (d + 2 ^ 64 * uval e')) with (digit + (d + 2 ^ 64 * uval e') * 2 ^ Z.of_nat rem) by ring.
      rewrite Z.div_add, (Z.div_small digit) by lia. rewrite Z.add_0_l, M2.
      rewrite Z.shiftr_div_pow2 by lia. replace (64 - k)%nat with (rem + (64 - bl))%nat in * by lia.
      apply IH; auto; try lia.
  - destruct (div_mod_split digit rem bl (uval e)) as (M1 & M2 & M3); auto; [lia|].
    rewrite M1, M2, land_mask by lia. f_equal.
    rewrite Z.shiftr_div_pow2 by lia. apply IH; auto; lia.
Qed.

Lemma decompose_u64_correct e n bl : 0 <= e -> (1 <= bl < 64)%nat ->
  decompose_u64_digits_to_limbs (u64_digits e) n bl = Some (digits bl n e).
Proof.
  intros He Hbl. unfold decompose_u64_digits_to_limbs.
  destruct (Nat.ltb_spec bl 64); [|lia].
  destruct (next_or0 (u64_digits e)) as [d e'] eqn:En.
  destruct (u64_digits_spec e He) as [U1 U2].
  apply next_or0_spec in En as (E1 & E2 & E3); auto.
  f_equal. rewrite du64_loop_correct; auto; try lia. f_equal.
  change (2 ^ Z.of_nat 64) with (2 ^ 64). lia.
Qed.

Lemma wrap128_small z : 0 <= z < 2 ^ 128 -> wrap128 z = z.
Proof. apply Z.mod_small. Qed.

Lemma dbig_loop_correct n bl : (64 <= bl < 128)%nat -> forall digit rem e,
  (1 <= rem <= 64)%nat -> 0 <= digit < 2 ^ Z.of_nat rem -> u64s e ->
  dbig_loop n bl digit rem e = digits bl n (digit + 2 ^ Z.of_nat rem * uval e).
Proof.
  intros Hbl. induction n as [|n IH]; intros digit rem e Hr Hd He; [reflexivity|].
  cbn [dbig_loop digits].
  destruct (next_or0 e) as [d e1] eqn:En. apply next_or0_spec in En as (E1 & E2 & E3); auto.
  rewrite E3. clear E3 He e.
  assert (Hstep : forall limb d e bits, (bits <= bl)%nat -> (bl - bits < 64)%nat -> 0 <= limb < 2 ^ Z.of_nat bits -> 0 <= d < 2 ^ 64 -> u64s e ->
    Z.lor limb (wrap128 (Z.shiftl (Z.land d (mask64 (bl - bits))) (Z.of_nat bits)))
      :: dbig_loop n bl (Z.shiftr d (Z.of_nat (bl - bits))) (64 - (bl - bits)) e =
    (limb + 2 ^ Z.of_nat bits * (d + 2 ^ 64 * uval e)) mod 2 ^ Z.of_nat bl
      :: digits bl n ((limb + 2 ^ Z.of_nat bits * (d + 2 ^ 64 * uval e)) / 2 ^ Z.of_nat bl)).
  { clear digit rem d e1 Hr Hd E1 E2. intros limb d e bits Hb1 Hb2 Hl Hd He.
    pose proof (uval_nonneg e He) as HU.
    set (k := (bl - bits)%nat) in *.
    destruct (div_mod_split d 64 k (uval e)) as (M1 & M2 & M3); [lia|exact Hd|lia|].
    change (2 ^ Z.of_nat 64) with (2 ^ 64) in M1, M2.
    pose proof (pow2_pos k). pose proof (pow2_pos bits).
    pose proof (Z.mod_pos_bound d (2 ^ Z.of_nat k) ltac:(lia)) as MB.
    assert (Hbl2 : 2 ^ Z.of_nat bl = 2 ^ Z.of_nat bits * 2 ^ Z.of_nat k)
      by (rewrite <- pow2_add; f_equal; lia).
    rewrite land_mask by lia.
    assert (2 ^ Z.of_nat bl < 2 ^ 128) by (change (2 ^ 128) with (2 ^ Z.of_nat 128); apply pow2_lt; lia).
    rewrite wrap128_small by (rewrite Z.shiftl_mul_pow2 by lia; nia).
    rewrite lor_add by lia. rewrite Hbl2.
    replace (limb + 2 ^ Z.of_nat bits * (d + 2 ^ 64 * uval e)) with (limb + (d + 2 ^ 64 * uval e) * 2 ^ Z.of_nat bits) by ring.
    f_equal.
    + rewrite Z.rem_mul_r by lia.
      rewrite Z.mod_add, Z.div_add, (Z.div_small limb), (Z.mod_small limb) by lia. rewrite Z.add_0_l, M1. ring.
    + rewrite <- Z.div_div by lia.
      rewrite Z.div_add, (Z.div_small limb) by lia. rewrite Z.add_0_l, M2.
      rewrite Z.shiftr_div_pow2 by lia. apply IH; auto; lia. }
  destruct (Nat.leb_spec (64 + rem) bl) as [Hle|Hgt].
  - destruct (next_or0 e1) as [d' e2] eqn:En'. apply next_or0_spec in En' as (G1 & G2 & G3); auto.
    assert (Hx : wrap128 (Z.shiftl d (Z.of_nat rem)) = Z.shiftl d (Z.of_nat rem)).
    { apply wrap128_small. rewrite Z.shiftl_mul_pow2 by lia. pose proof (pow2_pos rem).
      assert (2 ^ Z.of_nat rem <= 2 ^ Z.of_nat 64) by (apply pow2_le; lia). change (2 ^ Z.of_nat 64) with (2 ^ 64) in *.
      change (2 ^ 128) with (2 ^ 64 * 2 ^ 64). nia. }
    rewrite Hx, lor_add by lia.
    rewrite Hstep; auto; try lia.
    + rewrite G3. replace (rem + 64)%nat with (rem + 64)%nat by lia. rewrite pow2_add.
      change (2 ^ Z.of_nat 64) with (2 ^ 64).
      replace (digit + d * 2 ^ Z.of_nat rem + 2 ^ Z.of_nat rem * 2 ^ 64 * (d' + 2 ^ 64 * uval e2))
        with (digit + 2 ^ Z.of_nat rem * (d + 2 ^ 64 * (d' + 2 ^ 64 * uval e2))) by ring. reflexivity.
    + rewrite pow2_add. change (2 ^ Z.of_nat 64) with (2 ^ 64). pose proof (pow2_pos rem). nia.
  - apply Hstep; auto; lia.
Qed.

Lemma decompose_biguint_limbs_correct e n bl : 0 <= e -> (64 <= bl < 128)%nat -> (1 <= n)%nat ->
  decompose_biguint_limbs e n bl = Some (digits bl n e).
Proof.
  intros He Hbl Hn. unfold decompose_biguint_limbs.
  destruct (Nat.leb_spec 64 bl); [|lia]. destruct (Nat.ltb_spec bl 128); [|lia]. cbn [andb].
  destruct (u64_digits_spec e He) as [U1 U2].
  destruct (next_or0 (u64_digits e)) as [l0 e1] eqn:En. apply next_or0_spec in En as (E1 & E2 & E3); auto.
  destruct n as [|n]; [lia|]. f_equal.
  pose proof (dbig_loop_correct (S n) bl Hbl l0 64 e1 ltac:(lia) E2 E1) as HL.
  change (2 ^ Z.of_nat 64) with (2 ^ 64) in HL. rewrite <- E3, U2 in HL. rewrite <- HL. cbn [dbig_loop].
  destruct (next_or0 e1) as [d e2].
  destruct (Nat.leb_spec (64 + 64) bl); [lia|]. replace (S n - 1)%nat with n by lia. reflexivity.
Qed.

Lemma compose_correct l bl : Forall (fun x => 0 <= x) l -> compose l bl = undigits bl l.
Proof.
  intros HF. unfold compose. rewrite <- fold_left_rev_right, rev_involutive.
  induction HF as [|x l Hx _ IH]; [reflexivity|]. cbn [fold_right undigits]. rewrite IH.
  rewrite Z.shiftl_mul_pow2 by lia. ring.
Qed.

Lemma bit_length_spec x : 0 <= x < 2 ^ 64 ->
  x < 2 ^ Z.of_nat (bit_length x) /\ (forall n, x < 2 ^ Z.of_nat n -> (bit_length x <= n)%nat).
Proof.
  intros Hx. unfold bit_length, leading_zeros64. destruct (Z.eqb_spec x 0) as [->|Hx0].
  - simpl. split; [lia|]. intros; lia.
  - pose proof (Z.log2_spec x ltac:(lia)) as [L1 L2]. pose proof (Z.log2_nonneg x).
    replace (64 - (63 - Z.log2 x)) with (Z.succ (Z.log2 x)) by lia.
    rewrite Z2Nat.id by lia. split; [exact L2|].
    intros n Hn. assert (Z.log2 x < Z.of_nat n) by (apply Z.log2_lt_pow2; lia). lia.
Qed.

Lemma is_power_of_two_spec x : 0 < x -> is_power_of_two x = true <-> x = 2 ^ Z.log2 x.
Proof.
  intros Hx. unfold is_power_of_two.
  pose proof (Z.log2_spec x Hx) as [L1 L2]. pose proof (Z.log2_nonneg x) as Hl.
  rewrite Z.pow_succ_r in L2 by lia.
  destruct (Z.eqb_spec x 0); [lia|]. cbn [negb andb]. rewrite Z.eqb_eq.
  set (k := Z.log2 x) in *.
  split; intros H.
  - destruct (Z.eq_dec x (2 ^ k)) as [|Hne]; auto. exfalso.
    assert (Hk : 0 < 2 ^ k) by (apply Z.pow_pos_nonneg; lia).
    assert (Hb : Z.testbit (Z.land x (x - 1)) k = true).
    { rewrite Z.land_spec. apply andb_true_intro; split.
      - apply Z.bit_log2; auto.
      - assert (Hk1 : Z.log2 (x - 1) = k).
        { apply Z.log2_unique; try lia. rewrite Z.pow_succ_r by lia. lia. }
        rewrite <- Hk1. apply Z.bit_log2; lia. }
    rewrite H, Z.bits_0 in Hb. discriminate.
  - rewrite H at 1 2. replace (2 ^ k - 1) with (Z.ones k) by (rewrite Z.ones_equiv; lia).
    rewrite Z.land_ones by lia. apply Z.mod_same. lia.
Qed.

Lemma log2_ceil_spec x : 0 < x < 2 ^ 64 ->
  x <= 2 ^ Z.of_nat (log2_ceil x) /\ (forall n, x <= 2 ^ Z.of_nat n -> (log2_ceil x <= n)%nat).
Proof.
  intros Hx. unfold log2_ceil, leading_zeros64. destruct (Z.eqb_spec x 0) as [->|Hx0]; [lia|].
  pose proof (Z.log2_spec x ltac:(lia)) as [L1 L2]. pose proof (Z.log2_nonneg x) as Hl.
  replace (64 - (63 - Z.log2 x)) with (Z.succ (Z.log2 x)) by lia.
  destruct (is_power_of_two x) eqn:E.
  - apply is_power_of_two_spec in E; [|lia]. rewrite Nat2Z.inj_sub by lia. rewrite Z2Nat.id by lia.
    replace (Z.succ (Z.log2 x) - Z.of_nat 1) with (Z.log2 x) by lia. split; [lia|].
    intros n Hn. rewrite E in Hn. apply Z.pow_le_mono_r_iff in Hn; lia.
  - assert (Hne : x <> 2 ^ Z.log2 x).
    { intros C. apply is_power_of_two_spec in C; [congruence|lia]. }
    rewrite Nat.sub_0_r, Z2Nat.id by lia. split; [lia|].
    intros n Hn. assert (2 ^ Z.log2 x < 2 ^ Z.of_nat n) by lia.
    apply Z.pow_lt_mono_r_iff in H; lia.
Qed.

Lemma log2_ceil_0 : log2_ceil 0 = 0%nat.
Proof. reflexivity. Qed.

Section FieldUtilProofs.
Context {p : positive}.
Notation Fp := (F p).
Notation P := (Z.pos p).

Lemma decompose_fe_correct (a : Fp) n bl : (1 <= bl < 64)%nat ->
  decompose_fe_to_u64_limbs a n bl = Some (digits bl n (val a)).
Proof. intros. apply decompose_u64_correct; auto. apply val_bounds. Qed.

Lemma modulus_correct : 1 < P -> modulus (p:=p) = P.
Proof.
  intros. unfold modulus, fe_to_biguint. rewrite val_opp.
  replace (val F1) with 1 by (simpl; rewrite Z.mod_1_l; lia).
  rewrite <- (Z.mod_unique (- (1)) P (-1) (P - 1)); lia.
Qed.

Lemma biguint_to_fe_val e (f : Fp) : biguint_to_fe e = Some f -> val f = e.
Proof.
  unfold biguint_to_fe. destruct (Z.leb_spec 0 e); [|discriminate]. destruct (Z.ltb_spec e P); [|discriminate].
  intros E; injection E as <-. apply val_of_Z_small. lia.
Qed.
Lemma biguint_to_fe_some e : 0 <= e < P -> biguint_to_fe (p:=p) e = Some (of_Z p e).
Proof.
  intros. unfold biguint_to_fe. destruct (Z.leb_spec 0 e); [|lia]. destruct (Z.ltb_spec e P); [reflexivity|lia].
Qed.
Lemma fe_biguint_roundtrip (a : Fp) : biguint_to_fe (fe_to_biguint a) = Some a.
Proof. unfold fe_to_biguint. rewrite biguint_to_fe_some by apply val_bounds. now rewrite of_Z_val. Qed.

Lemma fe_to_bigint_cong (a : Fp) : 1 < P -> of_Z p (fe_to_bigint a) = a.
Proof.
  intros H. unfold fe_to_bigint, fe_to_biguint. rewrite modulus_correct by auto.
  destruct (Z.leb_spec (val a) (P / 2)); [apply of_Z_val|].
  rewrite <- (of_Z_val p a) at 2. apply of_Z_eq_iff.
  replace (- (P - val a)) with (val a + (-1) * P) by lia. apply Z.mod_add. lia.
Qed.

Lemma fe_to_bigint_bound (a : Fp) : 1 < P -> - (P / 2) <= fe_to_bigint a <= P / 2.
Proof.
  intros H. unfold fe_to_bigint, fe_to_biguint. rewrite modulus_correct by auto.
  pose proof (val_bounds p a). pose proof (Z_div_mod_eq_full P 2). pose proof (Z.mod_pos_bound P 2 ltac:(lia)).
  destruct (Z.leb_spec (val a) (P / 2)); lia.
Qed.

Lemma bigint_to_fe_correct e : Z.abs e < P -> bigint_to_fe (p:=p) e = Some (of_Z p e).
Proof.
  intros. unfold bigint_to_fe. rewrite biguint_to_fe_some by lia.
  destruct (Z.ltb_spec e 0).
  - rewrite <- of_Z_opp. do 2 f_equal. lia.
  - do 2 f_equal. lia.
Qed.

Lemma bigint_roundtrip (a : Fp) : 1 < P -> bigint_to_fe (fe_to_bigint a) = Some a.
Proof.
  intros H. rewrite bigint_to_fe_correct.
  - now rewrite fe_to_bigint_cong.
  - pose proof (fe_to_bigint_bound a H). pose proof (Z_div_mod_eq_full P 2). pose proof (Z.mod_pos_bound P 2 ltac:(lia)). lia.
Qed.
Lemma or_bytes_correct l : forall i, Forall (fun d => 0 <= d < 2 ^ Z.of_nat 8) l ->
  or_bytes i l = 2 ^ Z.of_nat (8 * i) * undigits 8 l.
Proof.
  induction l as [|d l IH]; intros i HF; cbn [or_bytes undigits]; [lia|].
  inversion HF; subst. rewrite IH by auto.
  assert (Hn : 0 <= undigits 8 l) by (apply undigits_bound; auto).
  replace (8 * S i)%nat with (8 + 8 * i)%nat by lia. rewrite pow2_add.
  replace (2 ^ Z.of_nat 8 * 2 ^ Z.of_nat (8 * i) * undigits 8 l)
     with (Z.shiftl (Z.shiftl (undigits 8 l) (Z.of_nat 8)) (Z.of_nat (8 * i))) by (rewrite !Z.shiftl_mul_pow2 by lia; ring).
  rewrite <- Z.shiftl_lor. rewrite lor_add by auto. rewrite Z.shiftl_mul_pow2 by lia. ring.
Qed.

Lemma digits_firstn b k : forall n v, (k <= n)%nat -> firstn k (digits b n v) = digits b k v.
Proof.
  induction k as [|k IH]; intros n v Hk; [reflexivity|].
  destruct n as [|n]; [lia|]. cbn [digits firstn]. f_equal. apply IH. lia.
Qed.

Lemma get_lower_correct nbytes repr (a : Fp) : (nbytes <= repr)%nat ->
  get_lower nbytes repr a = val a mod 2 ^ Z.of_nat (8 * nbytes).
Proof.
  intros H. unfold get_lower, to_bytes_le. rewrite digits_firstn by auto.
  rewrite or_bytes_correct by apply digits_bound. rewrite undigits_digits. 
  change (2 ^ Z.of_nat (8 * 0)) with 1. lia.
Qed.
End FieldUtilProofs.
