(** Property theorems C32-C35: integer and field utilities (halo2-base/src/utils/mod.rs).
    [digits b n v] are the n little-endian base-2^b digits of v, [undigits b l] the value of a digit list (Spec.v). *)
From Coq Require Import ZArith Znumtheory Lia List Bool.
From Verif Require Import Field Spec Utils SatCheck.
Import ListNotations.
Local Open Scope Z_scope.

(** ** C32 *)
Theorem C32_u64_digits_to_limbs : forall (ds : list Z) (n b : nat), Forall (fun d => 0 <= d < 2 ^ 64) ds -> (1 <= b < 64)%nat ->
  decompose_u64_digits_to_limbs ds n b = Some (digits b n (undigits 64 ds)).
Proof.
  intros ds n b HF Hb.
  assert (U : forall l, uval l = undigits 64 l) by (induction l as [|x l IH]; cbn [uval undigits]; auto; rewrite IH; reflexivity).
  unfold decompose_u64_digits_to_limbs. destruct (Nat.ltb_spec b 64); [|lia].
  destruct (next_or0 ds) as [d e'] eqn:E. pose proof (next_or0_spec ds d e' HF E) as (H1 & H2 & H3).
  rewrite du64_loop_correct; auto; [|lia]. do 2 f_equal. rewrite <- U, H3. reflexivity.
Qed.
Theorem C32_fe_to_u64_limbs : forall (p : positive) (a : F p) (n b : nat), (1 <= b < 64)%nat ->
  exists l, decompose_fe_to_u64_limbs a n b = Some l /\ length l = n /\ Forall (fun d => 0 <= d < 2 ^ Z.of_nat b) l /\
    undigits b l = val a mod 2 ^ Z.of_nat (b * n).
Proof.
  intros p a n b Hb. exists (digits b n (val a)). rewrite decompose_fe_correct by auto.
  split; auto. split; [apply digits_length|]. split; [apply digits_bound|apply undigits_digits].
Qed.
(** bit_len = 64 is accepted by [decompose] (utils/mod.rs:239: [if bit_len > 64]) but hits the debug assertion [bit_len < 64] *)
Theorem C32_decompose_64_refuted : forall (p : positive) (a : F p) (n : nat), decompose a n 64 = None.
Proof. reflexivity. Qed.
Example C32_example : decompose_fe_to_u64_limbs (of_Z bn254_r (2 ^ 200 + 12345)) 5 50 = Some [12345; 0; 0; 0; 1].
Proof. vm_compute. reflexivity. Qed.

(** ** C33 *)
Theorem C33_decompose_biguint : forall (e : Z) (n b : nat), 0 <= e -> (64 <= b < 128)%nat -> (1 <= n)%nat ->
  decompose_biguint_limbs e n b = Some (digits b n e).
Proof. intros. now apply decompose_biguint_limbs_correct. Qed.
Theorem C33_compose_decompose : forall (e : Z) (n b : nat), 0 <= e < 2 ^ Z.of_nat (b * n) -> (64 <= b < 128)%nat -> (1 <= n)%nat ->
  exists l, decompose_biguint_limbs e n b = Some l /\ length l = n /\ compose l b = e.
Proof.
  intros e n b He Hb Hn. exists (digits b n e). rewrite decompose_biguint_limbs_correct by lia. split; auto.
  split; [apply digits_length|]. rewrite compose_correct, undigits_digits.
  - apply Z.mod_small; lia.
  - eapply Forall_impl; [|apply digits_bound]. cbn. intros; lia.
Qed.
Theorem C33_decompose_bigint : forall (p : positive) (e : Z) (n b : nat), (64 <= b < 128)%nat -> (1 <= n)%nat ->
  exists l, decompose_bigint (p:=p) e n b = Some (map (of_Z p) l) /\ length l = n /\
    Forall (fun d => Z.abs d < 2 ^ Z.of_nat b) l /\ (Z.abs e < 2 ^ Z.of_nat (b * n) -> undigits b l = e).
Proof.
  intros p e n b Hb Hn. unfold decompose_bigint, decompose_biguint. rewrite decompose_biguint_limbs_correct by lia. cbn [option_map].
  destruct (Z.ltb_spec e 0).
  - exists (map Z.opp (digits b n (Z.abs e))). rewrite !map_map. split; [|split; [|split]].
    + f_equal. apply map_ext. intros. symmetry. apply of_Z_opp.
    + now rewrite map_length, digits_length.
    + apply Forall_map. eapply Forall_impl; [|apply digits_bound]. cbn. intros; lia.
    + intros HL. assert (HU : forall l, undigits b (map Z.opp l) = - undigits b l) by (induction l as [|x l IH]; cbn [map undigits]; [|rewrite IH]; lia).
      rewrite HU, undigits_digits, Z.mod_small; lia.
  - exists (digits b n (Z.abs e)). split; auto. split; [apply digits_length|]. split.
    + eapply Forall_impl; [|apply digits_bound]. cbn. intros; lia.
    + intros HL. rewrite undigits_digits, Z.mod_small; lia.
Qed.
(** [decompose] (any bit length except 64, below 128) *)
Theorem C33_decompose : forall (p : positive) (a : F p) (n b : nat), (1 <= b < 128)%nat -> b <> 64%nat -> (1 <= n)%nat ->
  decompose a n b = Some (map (of_Z p) (digits b n (val a))).
Proof.
  intros p a n b Hb H64 Hn. unfold decompose. destruct (Nat.ltb_spec 64 b).
  - unfold decompose_biguint. rewrite decompose_biguint_limbs_correct; auto; [apply val_bounds|lia].
  - rewrite decompose_fe_correct by lia. reflexivity.
Qed.
(** zero limbs requested: one is returned *)
Theorem C33_zero_limbs_refuted : exists l, decompose_biguint_limbs 5 0 64 = Some l /\ length l <> 0%nat.
Proof. exists [5]. split; [reflexivity|discriminate]. Qed.
Example C33_example : decompose_biguint_limbs (2 ^ 200 + 7) 3 88 = Some [7; 0; 2 ^ 24].
Proof. vm_compute. reflexivity. Qed.

(** ** C34 *)
Theorem C34_conversions : forall (p : positive), 1 < Z.pos p ->
  modulus (p:=p) = Z.pos p /\
  (forall a : F p, 0 <= fe_to_biguint a < Z.pos p) /\
  (forall a : F p, biguint_to_fe (fe_to_biguint a) = Some a) /\
  (forall e, 0 <= e < Z.pos p -> exists f : F p, biguint_to_fe e = Some f /\ fe_to_biguint f = e) /\
  (forall e, ~ 0 <= e < Z.pos p -> biguint_to_fe (p:=p) e = None) /\
  (forall a : F p, - (Z.pos p / 2) <= fe_to_bigint a <= Z.pos p / 2 /\ bigint_to_fe (fe_to_bigint a) = Some a) /\
  (forall e, Z.abs e < Z.pos p -> bigint_to_fe (p:=p) e = Some (of_Z p e)).
Proof.
  intros p Hp. split; [now apply modulus_correct|]. split; [intros; apply val_bounds|]. split; [apply fe_biguint_roundtrip|].
  split; [intros e He; exists (of_Z p e); split; [now apply biguint_to_fe_some|now apply val_of_Z_small]|].
  split. { intros e He. unfold biguint_to_fe. destruct (Z.leb_spec 0 e), (Z.ltb_spec e (Z.pos p)); auto. lia. }
  split; [intros a; split; [now apply fe_to_bigint_bound|now apply bigint_roundtrip]|].
  intros. now apply bigint_to_fe_correct.
Qed.
(** [get_lower_32/64/128] with [k] = 4, 8, 16 bytes of an [n]-byte representation *)
Theorem C34_get_lower : forall (p : positive) (a : F p) (k n : nat), (k <= n)%nat ->
  get_lower k n a = val a mod 2 ^ Z.of_nat (8 * k).
Proof. intros. now apply get_lower_correct. Qed.
Example C34_example : fe_to_bigint (of_Z 101 100) = -1 /\ get_lower 4 32 (of_Z bn254_r (2 ^ 100 + 99)) = 99.
Proof. vm_compute. auto. Qed.

(** ** C35 *)
Theorem C35_bit_length_log2_ceil : forall x, 0 <= x < 2 ^ 64 ->
  (x < 2 ^ Z.of_nat (bit_length x) /\ forall n, x < 2 ^ Z.of_nat n -> (bit_length x <= n)%nat) /\
  (x <= 2 ^ Z.of_nat (log2_ceil x) /\ forall n, x <= 2 ^ Z.of_nat n -> (log2_ceil x <= n)%nat).
Proof.
  intros x Hx. split; [now apply bit_length_spec|]. destruct (Z.eq_dec x 0) as [->|].
  - rewrite log2_ceil_0. split; [lia|intros; lia].
  - apply log2_ceil_spec. lia.
Qed.
Example C35_example : bit_length 255 = 8%nat /\ log2_ceil 256 = 8%nat /\ log2_ceil 257 = 9%nat.
Proof. vm_compute. auto. Qed.

Print Assumptions C32_u64_digits_to_limbs.
Print Assumptions C32_fe_to_u64_limbs.
Print Assumptions C32_decompose_64_refuted.
Print Assumptions C33_decompose_biguint.
Print Assumptions C33_compose_decompose.
Print Assumptions C33_decompose_bigint.
Print Assumptions C33_decompose.
Print Assumptions C33_zero_limbs_refuted.
Print Assumptions C34_conversions.
Print Assumptions C34_get_lower.
Print Assumptions C35_bit_length_log2_ceil.
