(** Limbwise operations on CRT integers. *)
From Coq Require Import ZArith Znumtheory Lia List Bool Ring.
From Verif Require Import Field Spec Context ContextProofs Utils Logic Gate GateProofs ChainProofs IPProofs BitProofs PowProofs IPComp Derived
  RegionGets Calc CalcH RegionPrev BigPrims BigNum BigInt BigSpec.
Import ListNotations.
Local Open Scope Z_scope.

Section Ops.
Context {p : positive}.
Notation Fp := (F p).
Notation AV := (AV p).
Notation crt := (crt p).
Variable lb : nat.
Notation env := (env (p:=p)).
Notation hcalc := (hcalc lb).
Add Ring Fring : (F_ring p) (morphism (F_morph p), constants [Fcst]).

Lemma flat_map_one (l : list AV) : flat_map one l = l.
Proof. induction l; cbn; f_equal; auto. Qed.
Lemma Forall2_map2 {A B C D} (e : C -> D) (g : A -> B -> D) (a : list A) : forall (b : list B) (out : list C), length a = length b ->
  Forall2 (fun xy o => e o = g (fst xy) (snd xy)) (combine a b) out -> map e out = map2 g a b.
Proof. induction a as [|x a IH]; intros [|y b] out HL H; cbn in *; try discriminate; inversion H; subst; auto. cbn. f_equal; auto. Qed.
Lemma map2_map {A B C D E} (f : C -> D -> E) (g : A -> C) (h : B -> D) a : forall b, map2 f (map g a) (map h b) = map2 (fun x y => f (g x) (h y)) a b.
Proof. induction a as [|x a IH]; intros [|y b]; cbn; f_equal; auto. Qed.
Lemma map_map2 {A B C D} (h : C -> D) (f : A -> B -> C) a : forall b, map h (map2 f a b) = map2 (fun x y => h (f x y)) a b.
Proof. induction a as [|x a IH]; intros [|y b]; cbn; f_equal; auto. Qed.
Lemma map2_ext {A B C} (f g : A -> B -> C) : (forall x y, f x y = g x y) -> forall a b, map2 f a b = map2 g a b.
Proof. intros H a. induction a as [|x a IH]; intros [|y b]; cbn; f_equal; auto. Qed.

Lemma h_limbwise_e L (Pre : env -> Prop) (Hon : Prop) f (g : env -> Fp -> Fp -> Fp) (a b : list AV) :
  (forall x y, In x L -> In y L -> hcalc L Pre Hon (f x y) (fun _ => True) (fun e o => e o = g e (e x) (e y)) one) ->
  incl a L -> incl b L -> length a = length b ->
  hcalc L Pre Hon (limbwise f a b) (fun o => length o = length a) (fun e o => map e o = map2 (g e) (map e a) (map e b)) (fun o => o).
Proof.
  intros HF Ha Hb HL. unfold limbwise. apply h_assert_bind; [intros; now apply Nat.eqb_eq|]. intros _.
  eapply h_post; [apply h_mapM with (P := fun _ _ => True) (R := fun e xy o => e o = g e (e (fst xy)) (e (snd xy))) (cs := one)| | |]; cbv beta.
  - intros [x y] Hin. pose proof (in_combine_l _ _ _ _ Hin). pose proof (in_combine_r _ _ _ _ Hin). apply HF; auto.
  - intros o H. apply Forall2_len in H. rewrite combine_length in H. lia.
  - intros e o _ _ H. rewrite map2_map. apply Forall2_map2; auto.
  - intros o _. rewrite flat_map_one. intros x Hx. apply in_or_app; auto.
Qed.
Lemma h_limbwise L (Pre : env -> Prop) (Hon : Prop) f (g : Fp -> Fp -> Fp) (a b : list AV) :
  (forall x y, In x L -> In y L -> hcalc L Pre Hon (f x y) (fun _ => True) (fun e o => e o = g (e x) (e y)) one) ->
  incl a L -> incl b L -> length a = length b ->
  hcalc L Pre Hon (limbwise f a b) (fun o => length o = length a) (fun e o => map e o = map2 g (map e a) (map e b)) (fun o => o).
Proof. intros. apply h_limbwise_e with (g := fun _ => g); auto. Qed.
Lemma h_maplimbs L (Pre : env -> Prop) (Hon : Prop) f (g : Fp -> Fp) (a : list AV) :
  (forall x, In x L -> hcalc L Pre Hon (f x) (fun _ => True) (fun e o => e o = g (e x)) one) -> incl a L ->
  hcalc L Pre Hon (mapM f a) (fun o => length o = length a) (fun e o => map e o = map g (map e a)) (fun o => o).
Proof.
  intros HF Ha.
  eapply h_post; [apply h_mapM with (P := fun _ _ => True) (R := fun e x o => e o = g (e x)) (cs := one)| | |]; cbv beta.
  - intros x Hx. auto.
  - intros o H. now apply Forall2_len in H.
  - intros e o _ _ H. rewrite map_map. clear - H. induction H; cbn; f_equal; auto.
  - intros o _. rewrite flat_map_one. intros x Hx. apply in_or_app; auto.
Qed.

Definition cpre (L : list AV) (c : crt) : Prop := incl (ccells c) L.
Lemma cpre_nat L c : cpre L c -> In (c_nat c) L.
Proof. intros H. apply H. now left. Qed.
Lemma cpre_limbs L c : cpre L c -> incl (c_limbs c) L.
Proof. intros H x Hx. apply H. now right. Qed.
Lemma cpre_app L L' c : cpre L c -> cpre (L' ++ L) c.
Proof. intros H x Hx. apply in_or_app; auto. Qed.
Lemma cpre_mono L L' c : incl L L' -> cpre L c -> cpre L' c.
Proof. intros H H1 x Hx. auto. Qed.

(** a limbwise operation followed by the same operation on the native cell *)
Lemma h_crt_op L (Pre : env -> Prop) (Hon : Prop) (ml : M p (list AV)) (mn : M p AV) (P1 : list AV -> Prop) (R1 : env -> list AV -> Prop) (R2 : env -> AV -> Prop)
    (bits : nat) (v : Z) (m : M p crt) :
  hcalc L Pre Hon ml P1 R1 (fun o => o) ->
  hcalc L Pre Hon mn (fun _ => True) R2 one ->
  (forall s, m s = bind ml (fun l => bind mn (fun n => ret (mkCrt (mkOvi l bits) n v))) s) ->
  hcalc L Pre Hon m (fun c => P1 (c_limbs c) /\ c_bits c = bits /\ c_val c = v) (fun e c => R1 e (c_limbs c) /\ R2 e (c_nat c)) ccells.
Proof.
  intros H1 H2 HE. eapply h_ext; [exact HE|]. eapply h_bind; [exact H1|]. cbv beta. intros l Hl.
  eapply h_bind. { eapply h_sub; [exact H2| | |]; cbv beta; auto. - intros x Hx. apply in_or_app; auto. - tauto. }
  cbv beta. intros n _. apply h_ret; cbn; auto.
  - intros x [<-|Hx]; [now left|right]. apply in_or_app. auto.
  - tauto.
Qed.

(** *** consequences for the represented integers *)
Lemma pow_max_l a b : 2 ^ Z.of_nat a <= 2 ^ Z.of_nat (Nat.max a b).
Proof. apply pow2_le. lia. Qed.
Lemma pow_max_r a b : 2 ^ Z.of_nat b <= 2 ^ Z.of_nat (Nat.max a b).
Proof. apply pow2_le. lia. Qed.

Lemma crep_len (e : env) (c : crt) ls : map e (c_limbs c) = map (of_Z p) ls -> length ls = length (c_limbs c).
Proof. intros H. apply (f_equal (@length _)) in H. rewrite !map_length in H. auto. Qed.

Lemma crep_bin n (e : env) (a b c : crt) x y (fz : Z -> Z -> Z) (ff : Fp -> Fp -> Fp) :
  length (c_limbs a) = length (c_limbs b) -> length (c_limbs c) = length (c_limbs a) ->
  (forall u v, of_Z p (fz u v) = ff (of_Z p u) (of_Z p v)) ->
  (forall la lb', length la = length lb' -> undigits n (map2 fz la lb') = fz (undigits n la) (undigits n lb')) ->
  (forall d u v u' v', (d | u - u') -> (d | v - v') -> (d | fz u v - fz u' v')) ->
  (forall u v, Z.abs u <= 2 ^ Z.of_nat (c_bits a) -> Z.abs v <= 2 ^ Z.of_nat (c_bits b) -> Z.abs (fz u v) <= 2 ^ Z.of_nat (c_bits c)) ->
  map e (c_limbs c) = map2 ff (map e (c_limbs a)) (map e (c_limbs b)) -> e (c_nat c) = ff (e (c_nat a)) (e (c_nat b)) ->
  crep n e a x -> crep n e b y -> crep n e c (fz x y).
Proof.
  intros HL HC HF HU HD HB EL EN (la & A1 & A2 & A3 & A4) (lb' & B1 & B2 & B3 & B4).
  pose proof (crep_len _ _ _ A1) as La. pose proof (crep_len _ _ _ B1) as Lb.
  exists (map2 fz la lb'). split; [|split; [|split]].
  - rewrite EL, A1, B1, map2_map, map_map2. apply map2_ext. intros; now rewrite HF.
  - eapply Forall_map2; [|exact A2|exact B2]. auto.
  - rewrite HC, HU by lia. rewrite <- HL in B3. now apply HD.
  - rewrite EN, A4, B4, HF. reflexivity.
Qed.

Definition binop_spec (n : nat) (a b : crt) (fz : Z -> Z -> Z) (e : env) (c : crt) : Prop :=
  forall x y, crep n e a x -> crep n e b y -> crep n e c (fz x y).

Lemma h_add_crt L (Pre : env -> Prop) (Hon : Prop) (a b : crt) : cpre L a -> cpre L b -> length (c_limbs a) = length (c_limbs b) ->
  hcalc L Pre Hon (add_crt a b) (fun c => length (c_limbs c) = length (c_limbs a) /\ c_bits c = (Nat.max (c_bits a) (c_bits b) + 1)%nat /\ c_val c = c_val a + c_val b)
    (fun e c => forall n, binop_spec n a b Z.add e c) ccells.
Proof.
  intros Ha Hb HL. eapply h_post.
  - eapply h_crt_op with (v := c_val a + c_val b) (bits := (Nat.max (c_bits a) (c_bits b) + 1)%nat).
    + apply h_limbwise with (f := fun x y => add (Existing x) (Existing y)) (g := Fadd); [|exact (cpre_limbs _ _ Ha)|exact (cpre_limbs _ _ Hb)|exact HL].
      intros x y Hx Hy. apply calc_h, (calc_add lb L Pre (Existing x) (Existing y)); auto.
    + apply calc_h, (calc_add lb L Pre (Existing (c_nat a)) (Existing (c_nat b))); cbn; auto using cpre_nat.
    + intros s. unfold add_crt, add_assign, c_limbs, c_bits, bind, ret. destruct (limbwise _ _ _ s) as [[? ?]|]; reflexivity.
  - auto.
  - cbv beta. intros e c (P1 & P2 & P3) _ [E1 E2] n x y. cbn [qe] in E2. eapply crep_bin with (ff := Fadd); eauto using of_Z_add, U_add.
    + intros d u v u' v' [q1 Q1] [q2 Q2]. exists (q1 + q2). lia.
    + intros u v Hu Hv. rewrite P2. pose proof (pow_max_l (c_bits a) (c_bits b)). pose proof (pow_max_r (c_bits a) (c_bits b)).
      rewrite pow2_add. change (2 ^ Z.of_nat 1) with 2. lia.
  - intros c _ z Hz. apply in_or_app; auto.
Qed.
Lemma h_sub_crt L (Pre : env -> Prop) (Hon : Prop) (a b : crt) : cpre L a -> cpre L b -> length (c_limbs a) = length (c_limbs b) ->
  hcalc L Pre Hon (sub_crt a b) (fun c => length (c_limbs c) = length (c_limbs a) /\ c_bits c = (Nat.max (c_bits a) (c_bits b) + 1)%nat /\ c_val c = c_val a - c_val b)
    (fun e c => forall n, binop_spec n a b Z.sub e c) ccells.
Proof.
  intros Ha Hb HL. eapply h_post.
  - eapply h_crt_op with (v := c_val a - c_val b) (bits := (Nat.max (c_bits a) (c_bits b) + 1)%nat).
    + apply h_limbwise with (f := fun x y => sub (Existing x) (Existing y)) (g := Fsub); [|exact (cpre_limbs _ _ Ha)|exact (cpre_limbs _ _ Hb)|exact HL].
      intros x y Hx Hy. apply calc_h, (calc_sub lb L Pre (Existing x) (Existing y)); auto.
    + apply calc_h, (calc_sub lb L Pre (Existing (c_nat a)) (Existing (c_nat b))); cbn; auto using cpre_nat.
    + intros s. unfold sub_crt, sub_assign, c_limbs, c_bits, bind, ret. destruct (limbwise _ _ _ s) as [[? ?]|]; reflexivity.
  - auto.
  - cbv beta. intros e c (P1 & P2 & P3) _ [E1 E2] n x y. cbn [qe] in E2. eapply crep_bin with (ff := Fsub); eauto using of_Z_sub, U_sub.
    + intros d u v u' v' [q1 Q1] [q2 Q2]. exists (q1 - q2). lia.
    + intros u v Hu Hv. rewrite P2. pose proof (pow_max_l (c_bits a) (c_bits b)). pose proof (pow_max_r (c_bits a) (c_bits b)).
      rewrite pow2_add. change (2 ^ Z.of_nat 1) with 2. lia.
  - intros c _ z Hz. apply in_or_app; auto.
Qed.

(** *** products *)
Lemma map_firstn' {A B} (f : A -> B) k l : map f (firstn k l) = firstn k (map f l).
Proof. symmetry. apply firstn_map. Qed.
Lemma incl_firstn {A} k (l L : list A) : incl l L -> incl (firstn k l) L.
Proof. intros H x Hx. apply H. rewrite <- (firstn_skipn k l). apply in_or_app; auto. Qed.
Lemma h_mul_limbs L (Pre : env -> Prop) (Hon : Prop) (a b : list AV) : incl a L -> incl b L -> length a = length b ->
  hcalc L Pre Hon (mapM (fun i => inner_product (map Existing (firstn (S i) a)) (map Existing (rev (firstn (S i) b)))) (seq 0 (length a)))
    (fun o => length o = length a)
    (fun e o => map e o = map (fun i => dot (firstn (S i) (map e a)) (rev (firstn (S i) (map e b)))) (seq 0 (length a))) (fun o => o).
Proof.
  intros Ha Hb HL.
  eapply h_post; [apply h_mapM with (P := fun _ _ => True) (R := fun e i o => e o = dot (firstn (S i) (map e a)) (rev (firstn (S i) (map e b)))) (cs := one)| | |]; cbv beta.
  - intros i Hi. apply in_seq in Hi. apply calc_h. eapply calc_weaken; [apply (calc_inner_product lb L Pre)| | | | |]; cbv beta.
    + rewrite !map_length, rev_length, !firstn_length_le by lia. reflexivity.
    + apply qin_existing, incl_firstn, Ha.
    + apply qin_existing. intros x Hx. apply in_rev in Hx. revert x Hx. apply incl_firstn, Hb.
    + apply incl_refl.
    + auto.
    + auto.
    + intros e o _ _ E. rewrite E, !qe_existing, map_rev, !map_firstn'. reflexivity.
    + intros o _ x Hx. apply in_or_app; auto.
  - intros o H. apply Forall2_len in H. now rewrite seq_length in H.
  - intros e o _ _ H. clear - H. induction H; cbn [map]; f_equal; auto.
  - intros o _. rewrite flat_map_one. intros x Hx. apply in_or_app; auto.
Qed.
Lemma mul_crep n (e : env) (a b c : crt) x y kl :
  length (c_limbs a) = length (c_limbs b) -> length (c_limbs c) = length (c_limbs a) -> Z.of_nat (length (c_limbs a)) <= 2 ^ Z.of_nat kl ->
  c_bits c = (kl + c_bits a + c_bits b)%nat ->
  map e (c_limbs c) = map (fun i => dot (firstn (S i) (map e (c_limbs a))) (rev (firstn (S i) (map e (c_limbs b))))) (seq 0 (length (c_limbs a))) ->
  e (c_nat c) = (e (c_nat a) * e (c_nat b))%F ->
  crep n e a x -> crep n e b y -> crep n e c (x * y).
Proof.
  intros HL HC HK HB EL EN (la & A1 & A2 & A3 & A4) (lb' & B1 & B2 & B3 & B4).
  pose proof (crep_len _ _ _ A1) as La. pose proof (crep_len _ _ _ B1) as Lb.
  exists (tmul la lb'). split; [|split; [|split]].
  - rewrite EL, A1, B1. unfold tmul. rewrite map_map, La. apply map_ext. intros i. unfold conv.
    rewrite <- dot_of_Z, map_rev, !map_firstn'. reflexivity.
  - unfold tmul. apply Forall_map, Forall_forall. intros i Hi. apply in_seq in Hi.
    pose proof (conv_bound (2 ^ Z.of_nat (c_bits a)) (2 ^ Z.of_nat (c_bits b)) la lb' i) as H.
    pose proof (pow2_pos (c_bits a)). pose proof (pow2_pos (c_bits b)).
    specialize (H ltac:(lia) ltac:(lia) A2 B2 ltac:(lia)). rewrite HB, !pow2_add. rewrite La in H.
    assert (0 <= 2 ^ Z.of_nat (c_bits a) * 2 ^ Z.of_nat (c_bits b)) by nia. nia.
  - rewrite HC. pose proof (tmul_spec n la lb' ltac:(lia)) as H. rewrite La in H. rewrite HL in A3 |- *. rewrite HL in H.
    destruct H as [q Q]. destruct A3 as [q1 Q1]. destruct B3 as [q2 Q2].
    exists (q + q1 * undigits n lb' + x * q2). 
    replace (undigits n (tmul la lb') - x * y) with ((undigits n (tmul la lb') - undigits n la * undigits n lb') + (undigits n la - x) * undigits n lb' + x * (undigits n lb' - y)) by ring.
    rewrite Q, Q1, Q2. ring.
  - rewrite EN, A4, B4, of_Z_mul. reflexivity.
Qed.
Lemma h_mul_crt L (Pre : env -> Prop) (Hon : Prop) (a b : crt) kl : cpre L a -> cpre L b -> length (c_limbs a) = length (c_limbs b) ->
  Z.of_nat (length (c_limbs a)) <= 2 ^ Z.of_nat kl ->
  hcalc L Pre Hon (mul_crt a b kl) (fun c => length (c_limbs c) = length (c_limbs a) /\ c_bits c = (kl + c_bits a + c_bits b)%nat /\ c_val c = c_val a * c_val b)
    (fun e c => forall n, binop_spec n a b Z.mul e c) ccells.
Proof.
  intros Ha Hb HL HK. eapply h_post.
  - eapply h_crt_op with (v := c_val a * c_val b) (bits := (kl + c_bits a + c_bits b)%nat).
    + apply h_mul_limbs; [exact (cpre_limbs _ _ Ha)|exact (cpre_limbs _ _ Hb)|exact HL].
    + apply calc_h, (calc_mul lb L Pre (Existing (c_nat a)) (Existing (c_nat b))); cbn; auto using cpre_nat.
    + intros s. unfold mul_crt, mul_truncate, c_limbs, c_bits in *. rewrite HL, Nat.eqb_refl. unfold bind, assert_, ret. destruct (mapM _ _ s) as [[? ?]|]; reflexivity.
  - auto.
  - cbv beta. intros e c (P1 & P2 & P3) _ [E1 E2] n x y. cbn [qe] in E2. eapply mul_crep; eauto.
  - intros c _ z Hz. apply in_or_app; auto.
Qed.

(** *** scalars *)
Lemma i64_scalar_spec c cc : i64_scalar (p:=p) c = Some cc -> fst cc = of_Z p c /\ snd cc = Z.abs c /\ Z.abs c < 2 ^ 63.
Proof.
  unfold i64_scalar. destruct (Z.leb_spec (- 2 ^ 63) c); [|discriminate]. destruct (Z.ltb_spec c (2 ^ 63)); [|discriminate]. cbn [andb].
  destruct (Z.leb_spec 0 c); [intros [= <-]; cbn [fst snd]; repeat split; auto; lia|].
  destruct (Z.eqb_spec c (- 2 ^ 63)); [discriminate|]. intros [= <-]. cbn [fst snd]. rewrite of_Z_opp. split; [ring|]. lia.
Qed.
Lemma i64_scalar_total c : - 2 ^ 63 < c < 2 ^ 63 -> exists cc, i64_scalar (p:=p) c = Some cc.
Proof.
  intros H. unfold i64_scalar. destruct (Z.leb_spec (- 2 ^ 63) c); [|lia]. destruct (Z.ltb_spec c (2 ^ 63)); [|lia]. cbn [andb].
  destruct (Z.leb_spec 0 c); eauto. destruct (Z.eqb_spec c (- 2 ^ 63)); [lia|eauto].
Qed.
Lemma scalar_bits c : Z.abs c < 2 ^ 63 -> Z.abs c <= 2 ^ Z.of_nat (log2_ceil (Z.abs c)).
Proof.
  intros H. destruct (Z.eq_dec (Z.abs c) 0) as [->|]; [rewrite log2_ceil_0; cbn; lia|].
  apply log2_ceil_spec. assert (2 ^ 63 < 2 ^ 64) by (apply Z.pow_lt_mono_r; lia). lia.
Qed.
Lemma map2_same {A B} (f : A -> A -> B) l : map2 f l l = map (fun x => f x x) l.
Proof. induction l; cbn; f_equal; auto. Qed.
Lemma h_scalar_mul_crt L (Pre : env -> Prop) (Hon : Prop) (a : crt) k : cpre L a -> (Hon -> - 2 ^ 63 < k < 2 ^ 63) ->
  hcalc L Pre Hon (scalar_mul_crt a k) (fun c => length (c_limbs c) = length (c_limbs a) /\ c_bits c = (c_bits a + log2_ceil (Z.abs k))%nat /\ c_val c = c_val a * k)
    (fun e c => forall n x, crep n e a x -> crep n e c (x * k)) ccells.
Proof.
  intros Ha HK. unfold scalar_mul_crt. apply h_lift_bind. { intros Hh _ _. apply i64_scalar_total; auto. }
  intros cc Hcc. apply i64_scalar_spec in Hcc as (C1 & C2 & C3). rewrite C1, C2. eapply h_post.
  - eapply h_crt_op with (v := c_val a * k) (bits := (c_bits a + log2_ceil (Z.abs k))%nat).
    + apply h_maplimbs with (f := fun x => mul (Existing x) (Constant (of_Z p k))) (g := fun x => (x * of_Z p k)%F); [|exact (cpre_limbs _ _ Ha)].
      intros x Hx. apply calc_h, (calc_mul lb L Pre (Existing x) (Constant (of_Z p k))); cbn; auto.
    + apply calc_h, (calc_mul lb L Pre (Existing (c_nat a)) (Constant (of_Z p k))); cbn; auto using cpre_nat.
    + intros s. unfold scalar_mul_assign, c_limbs, c_bits, bind, ret. destruct (mapM _ _ s) as [[? ?]|]; reflexivity.
  - auto.
  - cbv beta. intros e c (P1 & P2 & P3) _ [E1 E2] n x Hx. cbn [qe] in E2.
    change (x * k) with ((fun u _ => u * k) x x).
    eapply crep_bin with (ff := fun x _ => (x * of_Z p k)%F) (a := a) (b := a); auto.
    + intros u _. apply of_Z_mul.
    + intros la lb' HL. revert lb' HL. induction la as [|u la IH]; intros [|w lb'] HL; cbn [map2 undigits length] in *; try discriminate; auto.
      rewrite IH by lia. ring.
    + intros d u v u' v' [q1 Q1] _. exists (q1 * k). replace (u * k - u' * k) with ((u - u') * k) by ring. rewrite Q1. ring.
    + intros u _ Hu _. rewrite P2, pow2_add, Z.abs_mul. apply Z.mul_le_mono_nonneg; auto using scalar_bits; lia.
    + rewrite E1, map2_same. reflexivity.
  - intros c _ z Hz. apply in_or_app; auto.
Qed.
Lemma h_scalar_mul_add_crt L (Pre : env -> Prop) (Hon : Prop) (a b : crt) k : cpre L a -> cpre L b -> length (c_limbs a) = length (c_limbs b) ->
  (Hon -> - 2 ^ 63 < k < 2 ^ 63) ->
  hcalc L Pre Hon (scalar_mul_add_crt a b k)
    (fun c => length (c_limbs c) = length (c_limbs a) /\ c_bits c = (Nat.max (c_bits a + log2_ceil (Z.abs k)) (c_bits b) + 1)%nat /\ c_val c = c_val a * k + c_val b)
    (fun e c => forall n, binop_spec n a b (fun x y => x * k + y) e c) ccells.
Proof.
  intros Ha Hb HL HK. unfold scalar_mul_add_crt. apply h_lift_bind. { intros Hh _ _. apply i64_scalar_total; auto. }
  intros cc Hcc. apply i64_scalar_spec in Hcc as (C1 & C2 & C3). rewrite C1, C2. eapply h_post.
  - eapply h_crt_op with (v := c_val a * k + c_val b) (bits := (Nat.max (c_bits a + log2_ceil (Z.abs k)) (c_bits b) + 1)%nat).
    + apply h_limbwise with (f := fun x y => mul_add (Existing x) (Constant (of_Z p k)) (Existing y)) (g := fun x y => (x * of_Z p k + y)%F);
        [|exact (cpre_limbs _ _ Ha)|exact (cpre_limbs _ _ Hb)|exact HL].
      intros x y Hx Hy. apply calc_h, (calc_mul_add lb L Pre (Existing x) (Constant (of_Z p k)) (Existing y)); cbn; auto.
    + apply calc_h, (calc_mul_add lb L Pre (Existing (c_nat a)) (Constant (of_Z p k)) (Existing (c_nat b))); cbn; auto using cpre_nat.
    + intros s. unfold scalar_mul_add_assign, c_limbs, c_bits, bind, ret. destruct (limbwise _ _ _ s) as [[? ?]|]; reflexivity.
  - auto.
  - cbv beta. intros e c (P1 & P2 & P3) _ [E1 E2] n x y. cbn [qe] in E2.
    eapply crep_bin with (ff := fun x y => (x * of_Z p k + y)%F) (fz := fun x y => x * k + y); eauto using U_muladd.
    + intros u v. now rewrite of_Z_add, of_Z_mul.
    + intros d u v u' v' [q1 Q1] [q2 Q2]. exists (q1 * k + q2). replace (u * k + v - (u' * k + v')) with ((u - u') * k + (v - v')) by ring. rewrite Q1, Q2. ring.
    + intros u v Hu Hv. rewrite P2. pose proof (pow_max_l (c_bits a + log2_ceil (Z.abs k)) (c_bits b)). pose proof (pow_max_r (c_bits a + log2_ceil (Z.abs k)) (c_bits b)).
      assert (Z.abs (u * k) <= 2 ^ Z.of_nat (c_bits a + log2_ceil (Z.abs k))).
      { rewrite pow2_add, Z.abs_mul. apply Z.mul_le_mono_nonneg; auto using scalar_bits; lia. }
      rewrite pow2_add. change (2 ^ Z.of_nat 1) with 2. lia.
  - intros c _ z Hz. apply in_or_app; auto.
Qed.
End Ops.
