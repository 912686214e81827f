(** Integer facts used for limb representations: signed digit vectors, truncated products, carry chains, CRT. *)
From Coq Require Import ZArith Lia List Bool Znumtheory Ring.
From Verif Require Import Field Spec GateProofs.
Import ListNotations.
Local Open Scope Z_scope.

Fixpoint map2 {A B C} (f : A -> B -> C) (a : list A) (b : list B) : list C :=
  match a, b with x :: a, y :: b => f x y :: map2 f a b | _, _ => [] end.
Lemma map2_length {A B C} (f : A -> B -> C) a : forall b, length a = length b -> length (map2 f a b) = length a.
Proof. induction a; intros [|y b] H; cbn in *; auto; try discriminate. Qed.
Lemma map2_combine {A B C} (f : A -> B -> C) a : forall b, map2 f a b = map (fun xy => f (fst xy) (snd xy)) (combine a b).
Proof. induction a; intros [|y b]; cbn; f_equal; auto. Qed.
Lemma Forall_map2 {A B C} (f : A -> B -> C) (P : A -> Prop) (Q : B -> Prop) (R : C -> Prop) :
  (forall x y, P x -> Q y -> R (f x y)) -> forall a b, Forall P a -> Forall Q b -> Forall R (map2 f a b).
Proof. intros H a b Ha. revert b. induction Ha; intros b Hb; cbn; auto. destruct Hb; cbn; auto. Qed.

(** ** signed digit vectors *)
Section Digits.
Variable n : nat.
Notation B := (2 ^ Z.of_nat n).
Notation U := (undigits n).

Lemma U_app a b : U (a ++ b) = U a + 2 ^ Z.of_nat (n * length a) * U b.
Proof.
  induction a as [|x a IH]; cbn [app undigits length].
  - rewrite Nat.mul_0_r. change (2 ^ Z.of_nat 0) with 1. lia.
  - rewrite IH. replace (n * S (length a))%nat with (n + n * length a)%nat by lia. rewrite pow2_add. ring.
Qed.
Lemma U_add a : forall b, length a = length b -> U (map2 Z.add a b) = U a + U b.
Proof. induction a as [|x a IH]; intros [|y b] H; cbn [map2 undigits length] in *; try discriminate; auto. rewrite IH by lia. ring. Qed.
Lemma U_sub a : forall b, length a = length b -> U (map2 Z.sub a b) = U a - U b.
Proof. induction a as [|x a IH]; intros [|y b] H; cbn [map2 undigits length] in *; try discriminate; auto. rewrite IH by lia. ring. Qed.
Lemma U_scale c a : U (map (fun x => x * c) a) = U a * c.
Proof. induction a as [|x a IH]; cbn [map undigits]; auto. rewrite IH. ring. Qed.
Lemma U_muladd c a : forall b, length a = length b -> U (map2 (fun x y => x * c + y) a b) = U a * c + U b.
Proof. induction a as [|x a IH]; intros [|y b] H; cbn [map2 undigits length] in *; try discriminate; auto. rewrite IH by lia. ring. Qed.
Lemma U_opp a : U (map Z.opp a) = - U a.
Proof. induction a as [|x a IH]; cbn [map undigits]; auto. rewrite IH. ring. Qed.

(** bounds *)
Lemma U_abs_bound D a : Forall (fun x => Z.abs x <= D) a -> 0 <= D -> Z.abs (U a) * (B - 1) <= D * (2 ^ Z.of_nat (n * length a) - 1).
Proof.
  intros H HD. pose proof (pow2_pos n) as HB. induction H as [|x a Hx _ IH]; cbn [undigits length].
  - rewrite Nat.mul_0_r. change (2 ^ Z.of_nat 0) with 1. change (Z.abs 0) with 0. lia.
  - replace (n * S (length a))%nat with (n + n * length a)%nat by lia. rewrite pow2_add.
    set (W := 2 ^ Z.of_nat (n * length a)) in *. assert (Z.abs (x + B * U a) <= Z.abs x + B * Z.abs (U a)).
    { rewrite Z.abs_triangle. rewrite Z.abs_mul. rewrite (Z.abs_eq B) by lia. lia. }
    nia.
Qed.

(** truncated product *)
Fixpoint dotZ (a b : list Z) : Z := match a, b with x :: a, y :: b => x * y + dotZ a b | _, _ => 0 end.
Definition conv (a b : list Z) (i : nat) : Z := dotZ (firstn (S i) a) (rev (firstn (S i) b)).
Definition tmul (a b : list Z) : list Z := map (conv a b) (seq 0 (length a)).

Lemma rev_firstn_S (b : list Z) i : (i < length b)%nat -> rev (firstn (S i) b) = nth i b 0 :: rev (firstn i b).
Proof.
  intros H. rewrite <- (rev_involutive (firstn i b)), <- rev_unit, rev_involutive.
  f_equal. revert i H. induction b as [|y b IH]; intros i H; cbn in H; [lia|]. destruct i as [|i]; [reflexivity|].
  cbn [firstn nth app]. f_equal. rewrite <- IH by lia. reflexivity.
Qed.
Lemma conv_cons x a b i : (i < length b)%nat -> conv (x :: a) b i = x * nth i b 0 + dotZ (firstn i a) (rev (firstn i b)).
Proof. intros H. unfold conv. rewrite rev_firstn_S by auto. cbn [firstn dotZ]. reflexivity. Qed.

Lemma U_map_nth (b : list Z) k : (k <= length b)%nat -> U (map (fun i => nth i b 0) (seq 0 k)) = U (firstn k b).
Proof.
  revert b. induction k as [|k IH]; intros b H; [reflexivity|]. destruct b as [|y b]; cbn in H; [lia|].
  cbn [seq map firstn undigits nth]. rewrite <- seq_shift, map_map. cbn [nth]. rewrite IH by lia. reflexivity.
Qed.
Lemma U_map_shift (f g : nat -> Z) c k :
  (forall i, f i = c i + match i with O => 0 | S j => g j end) ->
  U (map f (seq 0 (S k))) = U (map c (seq 0 (S k))) + B * U (map g (seq 0 k)).
Proof.
  intros H.
  assert (E : U (map f (seq 0 (S k))) = U (map c (seq 0 (S k))) + U (map (fun i => match i with O => 0 | S j => g j end) (seq 0 (S k)))).
  { generalize (seq 0 (S k)). intros l. induction l as [|i l IH]; cbn [map undigits]; auto. rewrite IH, H. ring. }
  rewrite E. f_equal. cbn [seq map undigits]. rewrite <- seq_shift, map_map. rewrite Z.add_0_l. reflexivity.
Qed.

Lemma tmul_gen a : forall b k, (k <= length a)%nat -> (k <= length b)%nat ->
  (2 ^ Z.of_nat (n * k) | U (map (conv a b) (seq 0 k)) - U a * U b).
Proof.
  induction a as [|x a IH]; intros b k Ha Hb; cbn [length] in Ha.
  - assert (k = O) by lia. subst. rewrite Nat.mul_0_r. apply Z.divide_1_l.
  - destruct k as [|k]; [rewrite Nat.mul_0_r; apply Z.divide_1_l|].
    assert (E : U (map (conv (x :: a) b) (seq 0 (S k))) =
        U (map (fun i => x * nth i b 0) (seq 0 (S k))) + B * U (map (conv a b) (seq 0 k))).
    { rewrite <- (U_map_shift (fun i => x * nth i b 0 + match i with O => 0 | S j => conv a b j end) (conv a b)); [|reflexivity].
      f_equal. apply map_ext_in. intros i Hi. apply in_seq in Hi. rewrite conv_cons by lia. destruct i as [|i]; [reflexivity|].
      reflexivity. }
    rewrite E. clear E.
    assert (E : U (map (fun i => x * nth i b 0) (seq 0 (S k))) = x * U (firstn (S k) b)).
    { rewrite <- U_map_nth by lia. rewrite (Z.mul_comm x), <- U_scale, map_map. f_equal. apply map_ext. intros. ring. }
    rewrite E. clear E.
    destruct (IH b k ltac:(lia) ltac:(lia)) as [q Hq].
    assert (Eb : U b = U (firstn (S k) b) + 2 ^ Z.of_nat (n * S k) * U (skipn (S k) b)).
    { rewrite <- (firstn_skipn (S k) b) at 1. rewrite U_app. rewrite firstn_length_le by lia. reflexivity. }
    replace (U (map (conv a b) (seq 0 k))) with (U a * U b + q * 2 ^ Z.of_nat (n * k)) by lia.
    replace (n * S k)%nat with (n + n * k)%nat in * by lia. rewrite pow2_add in *.
    exists (q - x * U (skipn (S k) b)). cbn [undigits]. rewrite Eb. ring.
Qed.
Lemma tmul_spec a b : length a = length b -> (2 ^ Z.of_nat (n * length a) | U (tmul a b) - U a * U b).
Proof. intros H. unfold tmul. apply tmul_gen; lia. Qed.
Lemma tmul_length a b : length (tmul a b) = length a.
Proof. unfold tmul. now rewrite map_length, seq_length. Qed.

Lemma dotZ_bound D E : 0 <= D -> 0 <= E -> forall a b, Forall (fun x => Z.abs x <= D) a -> Forall (fun x => Z.abs x <= E) b ->
  Z.abs (dotZ a b) <= Z.of_nat (length a) * (D * E).
Proof.
  intros HD HE a b Ha. revert b. induction Ha as [|x a Hx _ IH]; intros b Hb; [cbn; lia|].
  destruct Hb as [|y b Hy Hb]; [cbn [dotZ]; nia|]. cbn [dotZ length]. specialize (IH b Hb). rewrite Nat2Z.inj_succ.
  assert (Z.abs (x * y) <= D * E) by (rewrite Z.abs_mul; nia). lia.
Qed.
Lemma Forall_firstn' {A} (P : A -> Prop) k l : Forall P l -> Forall P (firstn k l).
Proof. intros H. rewrite <- (firstn_skipn k l) in H. apply Forall_app in H. tauto. Qed.
Lemma conv_bound D E a b i : 0 <= D -> 0 <= E -> Forall (fun x => Z.abs x <= D) a -> Forall (fun x => Z.abs x <= E) b -> (i < length a)%nat ->
  Z.abs (conv a b i) <= Z.of_nat (length a) * (D * E).
Proof.
  intros HD HE Ha Hb Hi. unfold conv.
  pose proof (dotZ_bound D E HD HE (firstn (S i) a) (rev (firstn (S i) b)) (Forall_firstn' _ _ _ Ha)) as H.
  rewrite firstn_length_le in H by lia.
  assert (Forall (fun x => Z.abs x <= E) (rev (firstn (S i) b))). { apply Forall_rev, Forall_firstn', Hb. }
  specialize (H H0). assert (Z.of_nat (S i) * (D * E) <= Z.of_nat (length a) * (D * E)) by nia. lia.
Qed.

(** carry chain: [c_i + d_i B = d_(i-1)] *)
Fixpoint chain_ok (prev : Z) (c d : list Z) : Prop :=
  match c, d with
  | [], [] => True
  | x :: c, y :: d => x + y * B = prev /\ chain_ok y c d
  | _, _ => False
  end.
Lemma last_cons' (d : list Z) : forall y z, last (y :: d) z = last d y.
Proof.
  induction d as [|x d IH]; intros y z; [reflexivity|]. change (last (y :: x :: d) z) with (last (x :: d) z).
  rewrite (IH x z), (IH x y). reflexivity.
Qed.
Lemma chain_U c : forall d prev, chain_ok prev c d -> U c + last d prev * 2 ^ Z.of_nat (n * length c) = prev.
Proof.
  induction c as [|x c IH]; intros [|y d] prev H; cbn [chain_ok] in H; try contradiction.
  - cbn [undigits last length]. rewrite Nat.mul_0_r. change (2 ^ Z.of_nat 0) with 1. lia.
  - destruct H as [H1 H2]. specialize (IH d y H2). cbn [undigits length].
    replace (n * S (length c))%nat with (n + n * length c)%nat by lia. rewrite pow2_add.
    rewrite (last_cons' d y prev).
    nia.
Qed.
Lemma chain_divide c d : chain_ok 0 c d -> (2 ^ Z.of_nat (n * length c) | U c).
Proof. intros H. apply chain_U in H. exists (- last d 0). lia. Qed.
End Digits.

(** ** CRT *)
Lemma crt_zero p t D : prime (Z.pos p) -> 2 < Z.pos p -> (2 ^ Z.of_nat t | D) -> (Z.pos p | D) -> Z.abs D < 2 ^ Z.of_nat t * Z.pos p -> D = 0.
Proof.
  intros Hp H2 [q Hq] HP HB. pose proof (pow2_pos t) as Ht. subst D.
  assert (RP : rel_prime (Z.pos p) (2 ^ Z.of_nat t)).
  { clear - Hp H2. induction t as [|t IH].
    - apply rel_prime_sym, rel_prime_1.
    - rewrite pow2_S. apply rel_prime_mult; [|exact IH]. apply (prime_rel_prime _ Hp).
      intros HD. apply Z.divide_pos_le in HD; lia. }
  rewrite Z.mul_comm in HP. apply Gauss in HP; auto. destruct HP as [r ->].
  destruct (Z.eq_dec r 0) as [->|Hr]; [lia|]. exfalso. rewrite !Z.abs_mul, (Z.abs_eq (2 ^ _)), (Z.abs_eq (Z.pos p)) in HB by lia.
  assert (1 <= Z.abs r) by lia. nia.
Qed.

(** ** field images *)
Section FieldImage.
Context {p : positive}.
Notation Fp := (F p).
Add Ring Fring : (F_ring p) (morphism (F_morph p), constants [Fcst]).
Lemma of_Z_inj x y : of_Z p x = of_Z p y -> Z.abs (x - y) < Z.pos p -> x = y.
Proof.
  intros H HB. apply of_Z_eq_iff in H. assert (HD : (Z.pos p | x - y)).
  { apply Z.mod_divide; [lia|]. rewrite Zminus_mod, H, Z.sub_diag. reflexivity. }
  destruct HD as [q Hq]. destruct (Z.eq_dec q 0) as [->|]; [lia|]. rewrite Hq, Z.abs_mul in HB.
  assert (1 <= Z.abs q) by lia. rewrite (Z.abs_eq (Z.pos p)) in HB by lia. nia.
Qed.
Lemma of_Z_divide x : of_Z p x = F0 -> (Z.pos p | x).
Proof.
  intros H. unfold F0 in H. apply of_Z_eq_iff in H. apply Z.mod_divide; [lia|]. rewrite H. reflexivity.
Qed.
Lemma dot_of_Z a : forall b, dot (map (of_Z p) a) (map (of_Z p) b) = of_Z p (dotZ a b).
Proof. induction a as [|x a IH]; intros [|y b]; cbn [map dot dotZ]; auto. rewrite IH, of_Z_add, of_Z_mul. reflexivity. Qed.
(** the powers of the limb base *)
Fixpoint fbases (n k : nat) (c : Z) : list Fp :=
  match k with O => [] | S k => of_Z p c :: fbases n k (2 ^ Z.of_nat n * c) end.
Lemma dot_bases n ls : forall c, dot (map (of_Z p) ls) (fbases n (length ls) c) = of_Z p (c * undigits n ls).
Proof.
  induction ls as [|x ls IH]; intros c; cbn [map dot fbases length undigits].
  - now rewrite Z.mul_0_r.
  - rewrite IH, <- of_Z_mul, <- of_Z_add. f_equal. ring.
Qed.
Lemma fbases_length n k : forall c, length (fbases n k c) = k.
Proof. induction k; intros; cbn; auto. Qed.
Lemma map_of_Z_val (l : list Fp) : map (of_Z p) (map val l) = l.
Proof. rewrite map_map. rewrite <- (map_id l) at 2. apply map_ext. apply of_Z_val. Qed.
End FieldImage.
