(** Prime field Z/p, as a computable sigma type with Leibniz equality.
    Models the [ScalarField]/[BigPrimeField] arithmetic used by halo2-base
    (halo2-base/src/utils/mod.rs:26-139: [ScalarField], [BigPrimeField]; the field
    arithmetic itself lives in the external crate halo2curves and is modelled by its
    specification: integers modulo p).
    The modulus [p] is any positive number; primality is a hypothesis of the theorems that need it. *)
From Coq Require Import ZArith Znumtheory Lia List Bool Ring Field Eqdep_dec.
Import ListNotations.
Local Open Scope Z_scope.

Definition inrange (p : positive) (z : Z) : bool := (0 <=? z) && (z <? Z.pos p).

Record F (p : positive) : Type := mkF { val : Z; val_ok : inrange p val = true }.
Arguments mkF {p} _ _.
Arguments val {p} _.
Arguments val_ok {p} _.

Lemma inrange_mod p z : inrange p (z mod Z.pos p) = true.
Proof.
  unfold inrange. pose proof (Z.mod_pos_bound z (Z.pos p) eq_refl).
  apply andb_true_intro; split; [apply Z.leb_le | apply Z.ltb_lt]; lia.
Qed.

(** [F::from(u64)], [biguint_to_fe]: reduction of an integer modulo p
    (halo2-base/src/utils/mod.rs:233-262; exact for arguments below p, which is what the code passes). *)
Definition of_Z (p : positive) (z : Z) : F p := mkF (z mod Z.pos p) (inrange_mod p z).

Section FieldOps.
Variable p : positive.
Notation P := (Z.pos p).

Lemma F_eq (a b : F p) : val a = val b -> a = b.
Proof.
  destruct a as [a Ha], b as [b Hb]; simpl; intros ->.
  f_equal. apply UIP_dec. apply bool_dec.
Qed.

Lemma val_bounds (a : F p) : 0 <= val a < P.
Proof.
  destruct a as [a Ha]; simpl. unfold inrange in Ha.
  apply andb_prop in Ha as [H1 H2]. apply Z.leb_le in H1. apply Z.ltb_lt in H2. lia.
Qed.

Lemma val_of_Z z : val (of_Z p z) = z mod P.
Proof. reflexivity. Qed.

Lemma val_mod (a : F p) : val a mod P = val a.
Proof. apply Z.mod_small, val_bounds. Qed.

Lemma of_Z_val (a : F p) : of_Z p (val a) = a.
Proof. apply F_eq. simpl. apply val_mod. Qed.

Lemma val_of_Z_small z : 0 <= z < P -> val (of_Z p z) = z.
Proof. intros. simpl. apply Z.mod_small; lia. Qed.

Lemma of_Z_eq_iff x y : of_Z p x = of_Z p y <-> x mod P = y mod P.
Proof.
  split; intros H.
  - change (val (of_Z p x) = val (of_Z p y)). now rewrite H.
  - apply F_eq. exact H.
Qed.

Definition F0 : F p := of_Z p 0.
Definition F1 : F p := of_Z p 1.
Definition Fadd (a b : F p) : F p := of_Z p (val a + val b).
Definition Fmul (a b : F p) : F p := of_Z p (val a * val b).
Definition Fsub (a b : F p) : F p := of_Z p (val a - val b).
Definition Fopp (a : F p) : F p := of_Z p (- val a).

(** [Field::is_zero_vartime], [PartialEq] *)
Definition Feqb (a b : F p) : bool := val a =? val b.
Definition Fis0 (a : F p) : bool := val a =? 0.

Lemma of_Z_add x y : of_Z p (x + y) = Fadd (of_Z p x) (of_Z p y).
Proof. apply F_eq; simpl. now rewrite <- Zplus_mod. Qed.
Lemma of_Z_mul x y : of_Z p (x * y) = Fmul (of_Z p x) (of_Z p y).
Proof. apply F_eq; simpl. now rewrite <- Zmult_mod. Qed.
Lemma of_Z_sub x y : of_Z p (x - y) = Fsub (of_Z p x) (of_Z p y).
Proof. apply F_eq; simpl. now rewrite <- Zminus_mod. Qed.
Lemma of_Z_opp x : of_Z p (- x) = Fopp (of_Z p x).
Proof.
  apply F_eq; simpl. replace (- x) with (0 - x) by lia. replace (- (x mod P)) with (0 - x mod P) by lia.
  rewrite Zminus_mod_idemp_r. reflexivity.
Qed.

Lemma F_surj (a : F p) : exists z, a = of_Z p z /\ 0 <= z < P.
Proof. exists (val a). split; [symmetry; apply of_Z_val | apply val_bounds]. Qed.

Lemma F_ring : ring_theory F0 F1 Fadd Fmul Fsub Fopp (@eq (F p)).
Proof.
  unfold F0, F1.
  constructor; intros;
  repeat match goal with x : F p |- _ => destruct (F_surj x) as [? [-> _]]; clear x end;
  rewrite <- ?of_Z_opp, <- ?of_Z_mul, <- ?of_Z_add, <- ?of_Z_mul, <- ?of_Z_sub, <- ?of_Z_add, <- ?of_Z_opp;
  f_equal; ring.
Qed.

Lemma F_morph : ring_morph F0 F1 Fadd Fmul Fsub Fopp (@eq (F p))
   0%Z 1%Z Z.add Z.mul Z.sub Z.opp Z.eqb (of_Z p).
Proof.
  constructor; intros; try reflexivity.
  - apply of_Z_add. - apply of_Z_sub. - apply of_Z_mul. - apply of_Z_opp.
  - apply Z.eqb_eq in H. now subst.
Qed.

Lemma Feqb_eq a b : Feqb a b = true <-> a = b.
Proof. unfold Feqb. rewrite Z.eqb_eq. split; [apply F_eq | now intros ->]. Qed.
Lemma Feqb_neq a b : Feqb a b = false <-> a <> b.
Proof. rewrite <- Feqb_eq. destruct (Feqb a b); split; congruence. Qed.
Lemma Fis0_true a : Fis0 a = true <-> a = F0.
Proof.
  unfold Fis0. rewrite Z.eqb_eq. split; intros.
  - apply F_eq. rewrite H. reflexivity.
  - subst. reflexivity.
Qed.
Lemma Fis0_false a : Fis0 a = false <-> a <> F0.
Proof. rewrite <- Fis0_true. destruct (Fis0 a); split; congruence. Qed.

Lemma F_dec (a b : F p) : {a = b} + {a <> b}.
Proof. destruct (Feqb a b) eqn:E; [left; now apply Feqb_eq | right; now apply Feqb_neq]. Qed.

(** Extended Euclid: [egcd fuel a b] returns (u, v) with u*a + v*b = gcd when fuel suffices. *)
Fixpoint egcd (fuel : nat) (a b : Z) : Z * Z :=
  match fuel with
  | O => (1, 0)
  | S n => if b =? 0 then (1, 0)
           else let '(u, v) := egcd n b (a mod b) in (v, u - (a / b) * v)
  end.

Lemma egcd_correct fuel : forall a b, 0 <= b -> b < a -> a * b < 2 ^ Z.of_nat fuel ->
  let '(u, v) := egcd fuel a b in u * a + v * b = Z.gcd a b.
Proof.
  induction fuel as [|n IH]; intros a b Hb Ha Hf.
  - change (2 ^ Z.of_nat 0) with 1 in Hf. cbn [egcd]. assert (b = 0) by nia. subst. rewrite Z.gcd_0_r, Z.abs_eq; lia.
  - cbn [egcd]. destruct (Z.eqb_spec b 0) as [->|Hb0].
    + rewrite Z.gcd_0_r, Z.abs_eq; lia.
    + assert (0 < b) by lia.
      pose proof (Z.mod_pos_bound a b H).
      pose proof (Z_div_mod_eq_full a b).
      assert (1 <= a / b) by (apply Z.div_le_lower_bound; lia).
      clear Hb Hb0.
      assert (Hfn : b * (a mod b) < 2 ^ Z.of_nat n).
      { rewrite Nat2Z.inj_succ, Z.pow_succ_r in Hf by lia.
        assert (b * b <= b * (b * (a / b))) by nia. nia. }
      specialize (IH b (a mod b) ltac:(lia) ltac:(lia) Hfn).
      destruct (egcd n b (a mod b)) as [u v].
      rewrite Z.gcd_comm, <- (Z.gcd_mod a b) by lia. rewrite Z.gcd_comm, <- IH.
      rewrite H1 at 1. ring.
Qed.

(** [Field::invert] on non-zero elements (0 is mapped to 0, the value used by [Assigned::evaluate]). *)
Definition Finv (a : F p) : F p :=
  if Fis0 a then F0 else of_Z p (snd (egcd (2 * Pos.size_nat p)%nat P (val a))).
Definition Fdiv (a b : F p) : F p := Fmul a (Finv b).

Lemma Pos_size_bound q : Z.pos q < 2 ^ Z.of_nat (Pos.size_nat q).
Proof.
  induction q; cbn [Pos.size_nat]; rewrite ?Nat2Z.inj_succ, ?Z.pow_succ_r by lia; try lia.
Qed.

Lemma Finv_0 : Finv F0 = F0.
Proof. reflexivity. Qed.

Lemma Finv_l (a : F p) : prime P -> a <> F0 -> Fmul (Finv a) a = F1.
Proof.
  intros Hp Ha. unfold Finv. apply Fis0_false in Ha. rewrite Ha.
  pose proof (val_bounds a) as Hb. unfold Fis0 in Ha. apply Z.eqb_neq in Ha.
  pose proof (egcd_correct (2 * Pos.size_nat p)%nat P (val a)) as HE.
  destruct (egcd _ P (val a)) as [u v]. cbn [snd].
  assert (HB : P * val a < 2 ^ Z.of_nat (2 * Pos.size_nat p)).
  { pose proof (Pos_size_bound p). rewrite Nat2Z.inj_mul.
    replace (Z.of_nat 2 * Z.of_nat (Pos.size_nat p)) with (Z.of_nat (Pos.size_nat p) + Z.of_nat (Pos.size_nat p)) by lia.
    rewrite Z.pow_add_r by lia. nia. }
  specialize (HE ltac:(lia) ltac:(lia) HB).
  assert (Hg : Z.gcd P (val a) = 1).
  { assert (rel_prime (val a) P).
    { apply rel_prime_le_prime; auto; lia. }
    apply rel_prime_sym in H. apply Zgcd_1_rel_prime in H. exact H. }
  rewrite Hg in HE.
  apply F_eq. cbn. rewrite Z.mul_mod_idemp_l by lia.
  replace (v * val a) with (1 + (- u) * P) by lia.
  rewrite Z.mod_add by lia. reflexivity.
Qed.

Lemma F1_neq_0 : prime P -> F1 <> F0.
Proof.
  intros Hp H. apply (f_equal val) in H. simpl in H. destruct Hp as [Hp _].
  rewrite Z.mod_1_l, Z.mod_0_l in H by lia. lia.
Qed.

Lemma F_field : prime P -> field_theory F0 F1 Fadd Fmul Fsub Fopp Fdiv Finv (@eq (F p)).
Proof.
  intros Hp. constructor.
  - apply F_ring.
  - apply (F1_neq_0 Hp).
  - reflexivity.
  - intros. now apply Finv_l.
Qed.

Lemma F_integral : prime P -> forall a b : F p, Fmul a b = F0 -> a = F0 \/ b = F0.
Proof.
  intros Hp a b H. apply (f_equal val) in H. change (val F0) with 0 in H. cbn in H.
  apply Z.mod_divide in H; [|lia].
  apply prime_mult in H; auto.
  pose proof (val_bounds a). pose proof (val_bounds b).
  destruct H as [H|H]; [left|right]; apply F_eq; change (val F0) with 0.
  - destruct (Z.eq_dec (val a) 0); auto. apply Z.divide_pos_le in H; lia.
  - destruct (Z.eq_dec (val b) 0); auto. apply Z.divide_pos_le in H; lia.
Qed.

(** Field exponentiation by a natural number (specification). *)
Fixpoint Fpow (a : F p) (n : nat) : F p :=
  match n with O => F1 | S n => Fmul a (Fpow a n) end.

(** [F::CAPACITY] and [F::NUM_BITS] of the ff crate: NUM_BITS is the bit length of p, CAPACITY = NUM_BITS - 1. *)
Definition CAPACITY : nat := Z.to_nat (Z.log2 P).
Definition NUM_BITS : nat := S CAPACITY.

Lemma CAPACITY_bound : 2 ^ Z.of_nat CAPACITY <= P < 2 ^ Z.of_nat NUM_BITS.
Proof.
  unfold NUM_BITS, CAPACITY. rewrite Nat2Z.inj_succ. pose proof (Z.log2_nonneg P).
  rewrite Z2Nat.id by lia. apply Z.log2_spec. lia.
Qed.

Lemma val_add (a b : F p) : val (Fadd a b) = (val a + val b) mod P.
Proof. reflexivity. Qed.
Lemma val_mul (a b : F p) : val (Fmul a b) = (val a * val b) mod P.
Proof. reflexivity. Qed.
Lemma val_sub (a b : F p) : val (Fsub a b) = (val a - val b) mod P.
Proof. reflexivity. Qed.
Lemma val_opp (a : F p) : val (Fopp a) = (- val a) mod P.
Proof. reflexivity. Qed.
Lemma val_0 : val F0 = 0.
Proof. reflexivity. Qed.
Lemma val_1 : prime P -> val F1 = 1.
Proof. intros [H _]. simpl. apply Z.mod_1_l. lia. Qed.

Lemma pow2_lt_prime : prime P -> 2 < P -> 2 ^ Z.of_nat CAPACITY < P.
Proof.
  intros Hp H2. pose proof CAPACITY_bound as [H _].
  destruct (Z.eq_dec (2 ^ Z.of_nat CAPACITY) P) as [E|E]; [|lia].
  exfalso. destruct CAPACITY as [|n] eqn:EC.
  - simpl in E. lia.
  - rewrite Nat2Z.inj_succ, Z.pow_succ_r in E by lia.
    assert (Hd : (2 | P)) by (exists (2 ^ Z.of_nat n); lia).
    apply prime_divisors in Hd; auto. lia.
Qed.
End FieldOps.

Arguments F0 {p}. Arguments F1 {p}.
Arguments Fadd {p}. Arguments Fmul {p}. Arguments Fsub {p}. Arguments Fopp {p}.
Arguments Feqb {p}. Arguments Fis0 {p}. Arguments Finv {p}. Arguments Fdiv {p}. Arguments Fpow {p}.

Declare Scope F_scope.
Delimit Scope F_scope with F.
Infix "+" := Fadd : F_scope.
Infix "*" := Fmul : F_scope.
Infix "-" := Fsub : F_scope.
Notation "- x" := (Fopp x) : F_scope.
Notation "0" := F0 : F_scope.
Notation "1" := F1 : F_scope.
Bind Scope F_scope with F.

(** BN254 scalar field modulus (halo2curves bn256::Fr), used only for concrete counterexamples. *)
Definition bn254_r : positive :=
  21888242871839275222246405745257275088548364400416034343698204186575808495617%positive.
