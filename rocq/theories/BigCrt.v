(** carry_mod and check_carry_mod_to_zero: the CRT checks. *)
From Coq Require Import ZArith Znumtheory Lia List Bool Ring.
From Verif Require Import Field Spec Context ContextProofs Utils Logic Gate GateProofs ChainProofs IPProofs BitProofs PowProofs IPComp Derived
  Range RangeProofs RangeProofs2 RangeProofs3 RegionGets Calc CalcH RegionPrev RegionLast BigPrims BigNum BigInt BigSpec BigOps BigSel BigCmp BigSub BigCarry BigMod BigCrtNum.
Import ListNotations.
Local Open Scope Z_scope.

Section Crt.
Context {p : positive}.
Notation Fp := (F p).
Notation AV := (AV p).
Notation crt := (crt p).
Variable lb : nat.
Notation env := (env (p:=p)).
Notation hcalc := (hcalc lb).
Notation hcalc_at := (hcalc_at lb).
Hypothesis Hp : prime (Z.pos p).
Hypothesis Hlb : (1 <= lb < 64)%nat.
Hypothesis Hlb2 : (2 * lb <= CAPACITY p)%nat.
Add Ring Fring : (F_ring p) (morphism (F_morph p), constants [Fcst]).

(** the arguments describe the modulus [m] in [k] limbs of [n] bits *)
Definition modp_ok (P : modp p) (n k : nat) (m : Z) : Prop :=
  l_bits P = n /\ l_bases P = fbases n k 1 /\ l_base_big P = 2 ^ Z.of_nat n /\ mod_vec P = map (of_Z p) (digits n k m) /\
  mod_native P = of_Z p m /\ modulus_ P = m /\ Z.of_nat k < 2 ^ Z.of_nat (k_bits P) /\ (k_bits P + 2 <= n)%nat.
(** sizes: at least two limbs, a modulus that fits and leaves at least two bits for the last limb of the quotient *)
Definition sizes_ok (n k : nat) (m : Z) : Prop :=
  (2 <= k)%nat /\ (64 <= n < 128)%nat /\ 0 < m < 2 ^ Z.of_nat (n * k) /\ (bits m + n * (k - 1) + 4 <= n * k + NUM_BITS p)%nat /\ (NUM_BITS p < bits m + 2)%nat.

Lemma p_gt_2 : 2 < Z.pos p.
Proof. pose proof (CAPACITY_bound p) as [H _]. pose proof (pow2_le 2 (CAPACITY p) ltac:(lia)) as H2. change (2 ^ Z.of_nat 2) with 4 in H2. lia. Qed.

Lemma quot_max_bits_spec n k m : sizes_ok n k m -> exists qmb, quot_max_bits (p:=p) k n m = Some qmb /\ (qmb + bits m + 2 = n * k + NUM_BITS p)%nat /\ (n * (k - 1) + 2 <= qmb)%nat.
Proof.
  intros (H1 & H2 & H3 & H4 & H5). exists (n * k - 1 + NUM_BITS p - 1 - bits m)%nat. unfold quot_max_bits.
  assert (1 <= n * k)%nat by nia. assert (1 <= NUM_BITS p)%nat by (unfold NUM_BITS; lia).
  destruct (Nat.leb_spec 1 k); [|lia]. destruct (Nat.leb_spec 1 (n * k)); [|lia]. destruct (Nat.leb_spec 1 (n * k - 1 + NUM_BITS p)); [|lia].
  destruct (Nat.leb_spec (bits m) (n * k - 1 + NUM_BITS p - 1)); [|lia]. cbn [andb]. split; auto. lia.
Qed.
Lemma nth_fbases1 n k : (2 <= k)%nat -> nth_error (fbases (p:=p) n k 1) 1 = Some (of_Z p (2 ^ Z.of_nat n)).
Proof. intros H. destruct k as [|[|k]]; try lia. cbn. now rewrite Z.mul_1_r. Qed.

Lemma map_nth_error_inv {A B} (f : A -> B) (l : list A) (l' : list B) : map f l = l' -> forall i a, nth_error l i = Some a -> nth_error l' i = Some (f a).
Proof. intros <- i a H. now rewrite nth_error_map, H. Qed.

(** the honest quotient *)
Lemma hon_quot n k m qmb x : sizes_ok n k m -> (qmb + bits m + 2 = n * k + NUM_BITS p)%nat -> (n * (k - 1) + 2 <= qmb)%nat ->
  8 * Z.abs x < 2 ^ Z.of_nat (n * k + NUM_BITS p) ->
  Z.abs (x / m) < 2 ^ Z.of_nat (n * k) /\ - 2 ^ Z.of_nat qmb <= x / m < 2 ^ Z.of_nat qmb.
Proof.
  intros (H1 & H2 & H3 & H4 & H5) E1 E2 Hx. destruct (bits_low m ltac:(lia)) as [Hb1 Hb2].
  assert (E : 2 ^ Z.of_nat (n * k + NUM_BITS p) = 8 * (2 ^ (Z.of_nat (bits m) - 1) * 2 ^ Z.of_nat qmb)).
  { replace (Z.of_nat (bits m) - 1) with (Z.of_nat (bits m - 1)) by lia. rewrite <- pow2_add. change 8 with (2 ^ Z.of_nat 3). rewrite <- pow2_add. f_equal. lia. }
  pose proof (pow2_pos qmb) as Hq. set (Q := 2 ^ Z.of_nat qmb) in *. set (c := 2 ^ (Z.of_nat (bits m) - 1)) in *.
  assert (Hx2 : Z.abs x < m * Q) by nia.
  assert (HQ : - Q <= x / m < Q). { split; [apply Z.div_le_lower_bound; lia|apply Z.div_lt_upper_bound; lia]. }
  split; auto. assert (Hlt : 2 ^ Z.of_nat qmb < 2 ^ Z.of_nat (n * k)) by (apply pow2_lt; lia). fold Q in Hlt. lia.
Qed.

Lemma crep_len' n (e : env) (a : crt) x k : crep n e a x -> length (c_limbs a) = k ->
  exists ls, map e (c_limbs a) = map (of_Z p) ls /\ length ls = k /\ Forall (fun l => Z.abs l <= 2 ^ Z.of_nat (c_bits a)) ls /\
    (2 ^ Z.of_nat (n * k) | undigits n ls - x) /\ e (c_nat a) = of_Z p x.
Proof. intros (ls & E1 & E2 & E3 & E4) <-. exists ls. split; auto. split; [|auto]. apply (f_equal (@length _)) in E1. now rewrite !map_length in E1. Qed.

(** the integers behind the quotient limbs *)
Definition quot_rc (k n ql : nat) (e : env) (quot : list AV) : Prop :=
  forall i a, nth_error quot i = Some a -> exists z, e a = of_Z p z /\ let b := if Nat.eqb i (k - 1) then ql else n in - 2 ^ Z.of_nat b <= z < 2 ^ Z.of_nat b.
Lemma quot_small n k ql (qs : list Z) : (1 <= k)%nat -> length qs = k -> (ql <= n)%nat ->
  (forall i z, nth_error qs i = Some z -> let b := if Nat.eqb i (k - 1) then ql else n in - 2 ^ Z.of_nat b <= z < 2 ^ Z.of_nat b) ->
  Forall (fun x => Z.abs x <= 2 ^ Z.of_nat n) qs.
Proof.
  intros _ HL Hq H. apply Forall_forall. intros x Hx. apply In_nth_error in Hx as [i Hi]. specialize (H i x Hi). cbv zeta in H. pose proof (pow2_le _ _ Hq).
  destruct (Nat.eqb i (k - 1)); lia.
Qed.

(** soundness of the two checks together *)
Lemma crt_sound n k m qmb (e : env) al quot check cb om (os : list Z) rb x : sizes_ok n k m -> (qmb + bits m + 2 = n * k + NUM_BITS p)%nat -> (n * (k - 1) + 2 <= qmb)%nat ->
  length al = k -> length quot = k -> length os = k -> 0 <= om ->
  (exists ls, map e al = map (of_Z p) ls /\ length ls = k /\ Forall (fun l => Z.abs l <= 2 ^ Z.of_nat cb) ls /\ (2 ^ Z.of_nat (n * k) | undigits n ls - x)) ->
  quot_rc k n (qmb - n * (k - 1)) e quot -> Forall (fun x => Z.abs x <= om) os -> 0 <= undigits n os < 2 ^ Z.of_nat (bits m) ->
  map e check = map (chk (map (of_Z p) (digits n k m)) (map e quot) (map e al) (map (of_Z p) os)) (seq 0 k) ->
  carry_snd n rb e check -> Z.of_nat k * (2 ^ Z.of_nat n * 2 ^ Z.of_nat n) + 2 ^ Z.of_nat cb + om + 2 ^ Z.of_nat (rb + n) + 2 ^ Z.of_nat rb < Z.pos p ->
  (of_Z p (undigits n os) + of_Z p m * dot (map e quot) (fbases n k 1))%F = of_Z p x ->
  8 * Z.abs x < 2 ^ Z.of_nat (n * k + NUM_BITS p) -> (m | undigits n os - x).
Proof.
  intros SZ E1 E2 La Lq Lo Hom (ls & EL & Ll & Fl & Dl) HQ Fo HO HC HS HB HN Hx. pose proof SZ as (H1 & H2 & H3 & H4 & H5).
  destruct (choose_list e _ _ HQ) as (qs & EQ & Lqs & HQs). rewrite Lq in Lqs.
  assert (Hql : (qmb - n * (k - 1) <= n)%nat) by nia.
  pose proof (quot_small n k _ qs ltac:(lia) Lqs Hql HQs) as Fq.
  pose proof (quot_bound n k _ qs ltac:(lia) ltac:(lia) Lqs HQs) as BQ.
  destruct (check_ints n k m ls qs os cb om ltac:(lia) Ll Lqs Lo Hom Fq Fl Fo ltac:(lia)) as (Fd & Ld & Dd).
  set (ds := map2 Z.add (map2 Z.sub (tmul qs (digits n k m)) ls) os) in *.
  assert (EC : map e check = map (of_Z p) ds).
  { rewrite HC, EQ, EL. rewrite <- Ll at 2. rewrite (chk_of_Z lb Hlb Hlb2) by (rewrite ?digits_length; lia). reflexivity. }
  assert (Lc : length check = k). { apply (f_equal (@length _)) in EC. rewrite !map_length in EC. lia. }
  pose proof (HS ds _ EC Fd HB) as DD. rewrite Lc in DD.
  rewrite EQ in HN. replace (fbases n k 1) with (fbases (p:=p) n (length qs) 1) in HN by now rewrite Lqs. rewrite dot_bases, <- of_Z_mul, <- of_Z_add, Z.mul_1_l in HN.
  assert (EX : undigits n os + m * undigits n qs = x).
  { apply (crt_core p n k qmb m); auto using p_gt_2; try lia.
    - destruct DD as [u1 U1]. destruct Dd as [u2 U2]. destruct Dl as [u3 U3]. exists (u1 - u2 + u3). lia.
    - apply of_Z_divide. rewrite of_Z_sub, HN. ring. }
  exists (- undigits n qs). lia.
Qed.

Lemma hon_carry n k m (al quot check : list AV) cb om (os : list Z) rb x : sizes_ok n k m ->
  length al = k -> length quot = k -> length os = k -> 0 <= om ->
  (exists ls, map hval al = map (of_Z p) ls /\ length ls = k /\ Forall (fun l => Z.abs l <= 2 ^ Z.of_nat cb) ls /\ (2 ^ Z.of_nat (n * k) | undigits n ls - x)) ->
  map hval quot = map (of_Z p) (sdigits n k (x / m)) -> Z.abs (x / m) < 2 ^ Z.of_nat (n * k) ->
  Forall (fun x => Z.abs x <= om) os -> undigits n os = x mod m ->
  map hval check = map (chk (map (of_Z p) (digits n k m)) (map hval quot) (map hval al) (map (of_Z p) os)) (seq 0 k) ->
  let A := Z.of_nat k * (2 ^ Z.of_nat n * 2 ^ Z.of_nat n) + 2 ^ Z.of_nat cb + om in
  2 * A < Z.pos p -> A < 2 ^ Z.of_nat rb * (2 ^ Z.of_nat n - 1) -> (rb + 1 <= CAPACITY p)%nat -> carry_hon n rb check.
Proof.
  intros SZ La Lq Lo Hom (ls & EL & Ll & Fl & Dl) EQ HQ Fo HO HC A A1 A2 A3. pose proof SZ as (H1 & H2 & H3 & H4 & H5).
  set (qs := sdigits n k (x / m)) in *. assert (Lqs : length qs = k) by apply sdigits_length.
  assert (Fq : Forall (fun x => Z.abs x <= 2 ^ Z.of_nat n) qs). { eapply Forall_impl; [|apply sdigits_bound]. cbv beta. intros; lia. }
  destruct (check_ints n k m ls qs os cb om ltac:(lia) Ll Lqs Lo Hom Fq Fl Fo ltac:(lia)) as (Fd & Ld & Dd).
  set (ds := map2 Z.add (map2 Z.sub (tmul qs (digits n k m)) ls) os) in *.
  assert (EC : map hval check = map (of_Z p) ds).
  { rewrite HC, EQ, EL. rewrite <- Ll at 2. rewrite (chk_of_Z lb Hlb Hlb2) by (rewrite ?digits_length; lia). reflexivity. }
  assert (Lc : length check = k). { apply (f_equal (@length _)) in EC. rewrite !map_length in EC. lia. }
  split; auto. exists ds, A. split; auto. split; auto. split; auto. split; auto. rewrite Lc.
  unfold qs in Dd. rewrite sdigits_undigits in Dd by auto. destruct Dd as [u2 U2]. destruct Dl as [u3 U3]. exists (u2 - u3).
  rewrite HO in U2. pose proof (Z.div_mod x m ltac:(lia)). lia.
Qed.

Lemma hon_quot_rc n k m qmb x quot : sizes_ok n k m -> (n * (k - 1) + 2 <= qmb)%nat -> map hval quot = map (of_Z p) (sdigits n k (x / m)) ->
  Z.abs (x / m) < 2 ^ Z.of_nat (n * k) -> - 2 ^ Z.of_nat qmb <= x / m < 2 ^ Z.of_nat qmb -> quot_rc k n (qmb - n * (k - 1)) hval quot.
Proof.
  intros (H1 & H2 & H3 & H4 & H5) E2 EQ HQ HB i a Hi. pose proof (map_nth_error_inv _ _ _ EQ _ _ Hi) as Hz. rewrite nth_error_map in Hz.
  destruct (nth_error (sdigits n k (x / m)) i) as [z|] eqn:Ez; [|discriminate]. injection Hz as Hz. exists z. split; auto.
  destruct (Nat.eqb_spec i (k - 1)) as [->|Hik]; cbv zeta.
  - apply (sdigits_top n k _ (x / m)); auto; [lia|]. replace (n * (k - 1) + (qmb - n * (k - 1)))%nat with qmb by lia. auto.
  - pose proof (sdigits_bound n k (x / m)) as HF. rewrite Forall_forall in HF. specialize (HF z (nth_error_In _ _ Ez)). cbv beta in HF. lia.
Qed.

Variables (P : modp p) (n k : nat) (m : Z).
Hypothesis HP : modp_ok P n k m.
Hypothesis SZ : sizes_ok n k m.

Lemma h_native_end L (Pre : env -> Prop) (Hon : Prop) out qn an : incl out L -> In qn L -> In an L -> length out = k ->
  (Hon -> Pre hval -> (dot (map hval out) (fbases n k 1) + of_Z p m * hval qn)%F = hval an) ->
  hcalc L Pre Hon (bind (evaluate_native out (l_bases P)) (fun o => bind (assign_region [Constant (mod_native P); Existing qn; Existing an] [-1]) (fun _ => ret o)))
    (fun _ => True) (fun e o => e o = dot (map e out) (fbases n k 1) /\ (e o + of_Z p m * e qn)%F = e an) one.
Proof.
  intros HI Iq Ia HL HH. destruct HP as (P1 & P2 & P3 & P4 & P5 & P6 & _). rewrite P2, P5.
  eapply h_bind_at with (x := fun o => o); [apply (h_evaluate_native lb); [auto|rewrite fbases_length; auto]|apply (leaves_evaluate_native lb); rewrite fbases_length; auto|].
  cbv beta. intros o _.
  eapply at_ext with (m' := bind (region_gets [Constant (of_Z p m); Existing qn; Existing an] (-1 :: []) []) (fun _ => ret o)).
  { intros s. unfold region_gets, gets, mapM, bind. destruct (assign_region _ _ s) as [[u s1]|]; reflexivity. }
  eapply at_bind; [apply (at_region_gets lb) with (qs := [])|].
  - now left.
  - repeat apply Forall_cons; cbn; auto.
  - cbn. lia.
  - intros z [].
  - constructor.
  - intros Hh [Hpre E]. split; [intros z []|]. unfold prev_sem. cbn. fold (hval qn). fold (hval an). rewrite E. auto.
  - cbv beta. intros xs _. apply h_ret; auto.
    + intros z [<-|[]]. apply in_or_app. right. now left.
    + intros e [[Hpre E] (v & [V1 V2] & PS & _)]. split; auto.
      pose proof (V1 0%nat _ eq_refl) as v0. pose proof (V1 1%nat _ eq_refl) as v1. pose proof (V1 2%nat _ eq_refl) as v2. cbn in v0, v1, v2.
      unfold prev_sem in PS. rewrite v0, <- v1, <- v2 in PS. exact PS.
Qed.

Lemma h_carry_mod_crt L (Pre : env -> Prop) (Hon : Prop) (a : crt) : cpre L a -> length (c_limbs a) = k ->
  (carry_range_bits lb (check_bits n (c_bits a) (k_bits P)) n + n + 2 <= CAPACITY p)%nat ->
  (Hon -> (n * (k - 1) <= bits m)%nat) ->
  (Hon -> Pre hval -> crep n hval a (c_val a) /\ 8 * Z.abs (c_val a) < 2 ^ Z.of_nat (n * k + NUM_BITS p)) ->
  hcalc L Pre Hon (carry_mod_crt lb P a)
    (fun c => length (c_limbs c) = k /\ c_bits c = n /\ c_val c = c_val a mod m /\ map hval (c_limbs c) = map (of_Z p) (digits n k (c_val a mod m)))
    (fun e c => forall x, crep n e a x -> 8 * Z.abs x < 2 ^ Z.of_nat (n * k + NUM_BITS p) -> exists z, proper n e c z /\ z < 2 ^ Z.of_nat (bits m) /\ (m | z - x)) ccells.
Proof.
  intros Ca La HC HH1 HH2. pose proof HP as (P1 & P2 & P3 & P4 & P5 & P6 & P7 & P8). pose proof SZ as (H1 & H2 & H3 & H4 & H5).
  unfold carry_mod_crt. rewrite P1, P6, La.
  destruct (quot_max_bits_spec n k m SZ) as (qmb & Eq & Q1 & Q2).
  apply h_lift_bind. { eauto. } intros qmb' Eq'. assert (qmb' = qmb) by congruence. subst qmb'. clear Eq'.
  apply h_assert_bind. { intros _ _. apply Nat.leb_le. lia. } intros _. cbv zeta.
  apply h_assert_bind. { intros Hh _. apply Nat.leb_le. auto. } intros Hbm. apply Nat.leb_le in Hbm.
  apply h_lift_bind. { intros _ _ _. rewrite decompose_bigint_sdigits by lia. eauto. }
  intros ov Eov. rewrite decompose_bigint_sdigits in Eov by lia. injection Eov as <-.
  apply h_lift_bind. { intros _ _ _. rewrite decompose_bigint_sdigits by lia. eauto. }
  intros qv Eqv. rewrite decompose_bigint_sdigits in Eqv by lia. injection Eqv as <-.
  apply h_assert_bind. { intros _ _. apply Nat.eqb_eq. rewrite P4, map_length. apply digits_length. } intros _.
  set (X := c_val a) in *. set (ol := (bits m - n * (k - 1))%nat). set (ql := (qmb - n * (k - 1))%nat).
  pose proof (Z.mod_pos_bound X m ltac:(lia)) as HXm. pose proof (bits_up m ltac:(lia)) as Hbits.
  assert (Hbnk : (bits m <= n * k)%nat). { apply bits_le; lia. }
  assert (Hnk : (n * k = n * (k - 1) + n)%nat) by nia.
  assert (Esd : sdigits n k (X mod m) = digits n k (X mod m)). { unfold sdigits. destruct (Z.ltb_spec (X mod m) 0); [lia|auto]. } rewrite Esd.
  eapply h_bind; [apply (h_carry_mod_loop lb Hlb Hlb2 L Pre Hon P (c_limbs a))|].
  { now apply cpre_limbs. } { rewrite map_length, sdigits_length; lia. } { rewrite map_length, digits_length; lia. } { rewrite P4, map_length, digits_length; lia. }
  cbv beta. intros [[quot out] check]. cbv iota beta. rewrite La. intros (Lq & Lo & Lc & Vq & Vo).
  rewrite P4.
  (* range checks *)
  assert (CAPn : (n + 2 <= CAPACITY p)%nat).
  { pose proof (carry_range_bits_bounds lb (check_bits n (c_bits a) (k_bits P)) n ltac:(lia) ltac:(unfold check_bits; lia)). lia. }
  eapply h_bind; [apply (h_rc_out lb Hp Hlb Hlb2) with (k := k) (n := n) (lbits := ol)|].
  { intros z Hz. apply in_or_app. left. unfold cells3. cbn. apply in_or_app. right. apply in_or_app; auto. } { auto. }
  { intros _ _. split; [lia|]. split; [unfold ol; lia|]. intros i b Hi. pose proof (map_nth_error_inv _ _ _ Vo _ _ Hi) as Hz. rewrite nth_error_map in Hz.
    destruct (nth_error (digits n k (X mod m)) i) as [z|] eqn:Ez; [|discriminate]. injection Hz as Hz. rewrite <- Hz.
    pose proof (digits_bound n k (X mod m)) as HF. rewrite Forall_forall in HF. specialize (HF z (nth_error_In _ _ Ez)). cbv beta in HF.
    rewrite val_of_Z_small by (pose proof (pow2_le_p lb Hlb Hlb2 n ltac:(lia)); lia).
    destruct (Nat.eqb_spec i (k - 1)) as [->|]; [|lia]. apply digits_top in Ez; [|lia|lia]. subst z.
    apply Z.div_lt_upper_bound; [apply pow2_pos|]. rewrite <- pow2_add. unfold ol. replace (n * (k - 1) + (bits m - n * (k - 1)))%nat with (bits m) by lia. lia. }
  cbv beta. intros [] _. cbn [app].
  eapply h_bind; [apply (h_rc_quot lb Hp Hlb Hlb2) with (k := k) (n := n) (lbits := ql)|].
  { intros z Hz. apply in_or_app. left. unfold cells3. cbn. apply in_or_app; auto. } { auto. } { rewrite P2. apply nth_fbases1. lia. }
  { intros Hh [[Hpre _] _]. destruct (HH2 Hh Hpre) as [Hcr Hx]. destruct (hon_quot n k m qmb X SZ Q1 Q2 Hx) as [B1 B2].
    split; [lia|]. split; [unfold ql; lia|]. exact (hon_quot_rc n k m qmb X quot SZ Q2 Vq B1 B2). }
  cbv beta. intros [] _. cbn [app].
  apply h_lift_bind. { intros _ _ _. rewrite P2, nth_fbases1 by lia. eauto. } intros b1 Eb1. rewrite P2, nth_fbases1 in Eb1 by lia. injection Eb1 as <-.
  rewrite P3. fold (check_bits n (c_bits a) (k_bits P)). set (CB := check_bits n (c_bits a) (k_bits P)) in *.
  destruct (check_max_bounds p lb n k (c_bits a) (k_bits P) CB ltac:(lia) ltac:(lia) ltac:(lia) ltac:(unfold CB, check_bits; lia) ltac:(unfold CB, check_bits; lia) HC) as (M1 & M2 & M3 & M4).
  unfold check_max in M1, M2, M3.
  assert (OD : Forall (fun x => Z.abs x <= 2 ^ Z.of_nat n) (digits n k (X mod m))). { eapply Forall_impl; [|apply digits_bound]. cbv beta. intros; lia. }
  eapply h_bind; [apply (h_check_carry_to_zero lb Hp Hlb Hlb2) with (n := n)|].
  { lia. } { cbn. intros z Hz. apply in_or_app. left. unfold cells3. cbn. apply in_or_app. right. apply in_or_app; auto. } { intros _. cbn. unfold CB, check_bits. lia. }
  { cbn [o_bits o_limbs]. intros Hh [[[Hpre HL] _] _]. destruct (HH2 Hh Hpre) as [Hcr Hx]. destruct (hon_quot n k m qmb X SZ Q1 Q2 Hx) as [B1 B2].
    destruct (crep_len' _ _ _ _ k Hcr La) as (ls & L1 & L2 & L3 & L4 & L5).
    rewrite Vo in HL.
    eapply (hon_carry n k m (c_limbs a) quot check (c_bits a) (2 ^ Z.of_nat n) (digits n k (X mod m)) _ X); eauto 7; try lia.
    - apply digits_length.
    - rewrite undigits_digits, Z.mod_small; lia. }
  cbv beta. intros [] _. cbn [app o_bits o_limbs].
  eapply h_bind; [apply (h_evaluate_native lb) with (limbs := quot) (bases := l_bases P)|].
  { intros z Hz. apply in_or_app. left. unfold cells3. cbn. apply in_or_app; auto. } { rewrite P2, fbases_length; lia. }
  cbv beta. intros qn _.
  eapply h_ext with (m' := bind (bind (evaluate_native out (l_bases P)) (fun o => bind (assign_region [Constant (mod_native P); Existing qn; Existing (c_nat a)] [-1]) (fun _ => ret o)))
     (fun on => ret (mkCrt (mkOvi out n) on (X mod m)))).
  { intros s. unfold bind. destruct (evaluate_native out (l_bases P) s) as [[o s1]|]; [|reflexivity]. destruct (assign_region _ _ s1) as [[u s2]|]; reflexivity. }
  eapply h_bind; [apply h_native_end|].
  { intros z Hz. apply in_or_app. right. apply in_or_app. left. unfold cells3. cbn. apply in_or_app. right. apply in_or_app; auto. }
  { now left. } { apply in_or_app. right. apply in_or_app. right. now apply cpre_nat. } { auto. }
  { intros Hh [[[[[Hpre HL] _] _] _] En]. destruct (HH2 Hh Hpre) as [Hcr Hx]. destruct (hon_quot n k m qmb X SZ Q1 Q2 Hx) as [B1 B2].
    destruct (crep_len' _ _ _ _ k Hcr La) as (ls & L1 & L2 & L3 & L4 & L5). rewrite En, P2, Vo, Vq, L5.
    replace (fbases n k 1) with (fbases (p:=p) n (length (digits n k (X mod m))) 1) at 1 by now rewrite digits_length.
    replace (fbases n k 1) with (fbases (p:=p) n (length (sdigits n k (X / m))) 1) by now rewrite sdigits_length.
    rewrite !dot_bases, !Z.mul_1_l, sdigits_undigits, undigits_digits, Z.mod_small by lia. rewrite <- of_Z_mul, <- of_Z_add. f_equal.
    pose proof (Z.div_mod X m ltac:(lia)). lia. }
  cbv beta. intros on _. apply h_ret.
  - unfold c_limbs, c_bits. cbn. auto.
  - unfold ccells, c_limbs. cbn. intros z [<-|Hz]; [now left|]. right. right. apply in_or_app. left. unfold cells3. cbn. apply in_or_app. right. apply in_or_app; auto.
  - intros e [[[[[[Hpre HL] HO] HQ] HS] En] [Eo EN]] x Hx Bx. cbn [o_bits] in HS.
    destruct (crep_len' _ _ _ _ k Hx La) as (ls & L1 & L2 & L3 & L4 & L5).
    set (os := map (fun c => val (e c)) out).
    assert (Eos : map e out = map (of_Z p) os). { unfold os. rewrite <- (map_map e val). symmetry. apply map_of_Z_val. }
    assert (Los : length os = k). { unfold os. rewrite map_length. auto. }
    destruct (out_bound n k ol os ltac:(lia) Los ltac:(unfold ol; lia)) as [B1 B2].
    { intros i z Hz. unfold os in Hz. rewrite nth_error_map in Hz. destruct (nth_error out i) as [c|] eqn:Ec; [|discriminate]. injection Hz as <-.
      split; [apply val_bounds|]. exact (HO i c Ec). }
    replace (n * (k - 1) + ol)%nat with (bits m) in B1 by (unfold ol; lia).
    assert (EO : e on = of_Z p (undigits n os)).
    { rewrite Eo, Eos. replace (fbases n k 1) with (fbases (p:=p) n (length os) 1) by now rewrite Los. now rewrite dot_bases, Z.mul_1_l. }
    exists (undigits n os). split; [|split; [lia|]].
    + unfold proper, c_bits, c_limbs. cbn. split; auto. split; [|auto]. unfold os in B2. apply Forall_map in B2. eapply Forall_impl; [|exact B2]. cbv beta. intros c Hc. lia.
    + eapply (crt_sound n k m qmb e (c_limbs a) quot check (c_bits a) (2 ^ Z.of_nat n) os); eauto 7; try lia.
      * eapply Forall_impl; [|exact B2]. cbv beta. intros; lia.
      * rewrite <- Eos. exact HL.
      * rewrite <- EO, <- P2, <- En, EN. exact L5.
Qed.

Lemma h_check_carry_mod_to_zero L (Pre : env -> Prop) (Hon : Prop) (a : crt) : cpre L a -> length (c_limbs a) = k ->
  (carry_range_bits lb (Nat.max (c_bits a) (2 * n + k_bits P)) n + n + 2 <= CAPACITY p)%nat ->
  (Hon -> Pre hval -> crep n hval a (c_val a) /\ 8 * Z.abs (c_val a) < 2 ^ Z.of_nat (n * k + NUM_BITS p) /\ c_val a mod m = 0) ->
  hcalc L Pre Hon (check_carry_mod_to_zero lb P a) (fun _ => True)
    (fun e _ => forall x, crep n e a x -> 8 * Z.abs x < 2 ^ Z.of_nat (n * k + NUM_BITS p) -> (m | x)) (fun _ => []).
Proof.
  intros Ca La HC HH2. pose proof HP as (P1 & P2 & P3 & P4 & P5 & P6 & P7 & P8). pose proof SZ as (H1 & H2 & H3 & H4 & H5).
  unfold check_carry_mod_to_zero. rewrite P1, P6, La.
  destruct (quot_max_bits_spec n k m SZ) as (qmb & Eq & Q1 & Q2).
  apply h_lift_bind. { eauto. } intros qmb' Eq'. assert (qmb' = qmb) by congruence. subst qmb'. clear Eq'.
  apply h_assert_bind. { intros _ _. apply Nat.ltb_lt. lia. } intros _.
  apply h_assert_bind. { intros _ _. apply Nat.leb_le. lia. } intros _. cbv zeta.
  apply h_lift_bind. { intros _ _ _. rewrite decompose_bigint_sdigits by lia. eauto. }
  intros qv Eqv. rewrite decompose_bigint_sdigits in Eqv by lia. injection Eqv as <-.
  apply h_assert_bind. { intros _ _. apply Nat.leb_le. rewrite P4, map_length, digits_length. lia. } intros _.
  set (X := c_val a) in *. set (ql := (qmb - n * (k - 1))%nat).
  assert (Hnk : (n * k = n * (k - 1) + n)%nat) by nia.
  eapply h_bind; [apply (h_check_mod_loop lb Hlb Hlb2 L Pre Hon P (c_limbs a))|].
  { now apply cpre_limbs. } { rewrite map_length, sdigits_length; lia. } { rewrite P4, map_length, digits_length; lia. }
  cbv beta. intros [quot check]. cbv iota beta. rewrite La. intros (Lq & Lc & Vq).
  rewrite P4.
  assert (CAPn : (n + 2 <= CAPACITY p)%nat).
  { pose proof (carry_range_bits_bounds lb (Nat.max (c_bits a) (2 * n + k_bits P)) n ltac:(lia) ltac:(lia)). lia. }
  eapply h_bind; [apply (h_rc_quot lb Hp Hlb Hlb2) with (k := k) (n := n) (lbits := ql)|].
  { intros z Hz. apply in_or_app. left. unfold cells2. cbn. apply in_or_app; auto. } { auto. } { rewrite P2. apply nth_fbases1. lia. }
  { intros Hh [Hpre _]. destruct (HH2 Hh Hpre) as (Hcr & Hx & _). destruct (hon_quot n k m qmb X SZ Q1 Q2 Hx) as [B1 B2].
    split; [lia|]. split; [unfold ql; lia|]. exact (hon_quot_rc n k m qmb X quot SZ Q2 Vq B1 B2). }
  cbv beta. intros [] _. cbn [app].
  apply h_lift_bind. { intros _ _ _. rewrite P2, nth_fbases1 by lia. eauto. } intros b1 Eb1. rewrite P2, nth_fbases1 in Eb1 by lia. injection Eb1 as <-.
  rewrite P3. set (CB := Nat.max (c_bits a) (2 * n + k_bits P)) in *.
  destruct (check_max0_bounds p lb n k (c_bits a) (k_bits P) CB ltac:(lia) ltac:(lia) ltac:(lia) ltac:(lia) ltac:(reflexivity) HC) as (M1 & M2 & M3 & M4).
  unfold check_max0 in M1, M2, M3.
  assert (OD : Forall (fun x => Z.abs x <= 0) (repeat 0 k)). { apply Forall_forall. intros x Hx. apply repeat_spec in Hx. subst x. cbn. lia. }
  assert (OU : undigits n (repeat 0 k) = 0). { clear. induction k as [|j IH]; cbn; [auto|]. rewrite IH. lia. }
  assert (OL : length (repeat 0 k) = k) by apply repeat_length.
  assert (HLr : forall e : env, map e check = map (chk (map (of_Z p) (digits n k m)) (map e quot) (map e (c_limbs a)) []) (seq 0 k) ->
     map e check = map (chk (map (of_Z p) (digits n k m)) (map e quot) (map e (c_limbs a)) (map (of_Z p) (repeat 0 k))) (seq 0 k)).
  { intros e ->. apply map_ext. intros i. rewrite chk_nil. now rewrite map_length, La. }
  eapply h_bind; [apply (h_check_carry_to_zero lb Hp Hlb Hlb2) with (n := n)|].
  { lia. } { cbn. intros z Hz. apply in_or_app. left. unfold cells2. cbn. apply in_or_app; auto. } { intros _. cbn. unfold CB. lia. }
  { cbn [o_bits o_limbs]. intros Hh [[Hpre HL] _]. destruct (HH2 Hh Hpre) as (Hcr & Hx & H0). destruct (hon_quot n k m qmb X SZ Q1 Q2 Hx) as [B1 B2].
    destruct (crep_len' _ _ _ _ k Hcr La) as (ls & L1 & L2 & L3 & L4 & L5). apply HLr in HL.
    eapply (hon_carry n k m (c_limbs a) quot check (c_bits a) 0 (repeat 0 k) _ X); eauto 7; try lia. }
  cbv beta. intros [] _. cbn [app o_bits o_limbs].
  eapply h_bind; [apply (h_evaluate_native lb) with (limbs := quot) (bases := l_bases P)|].
  { intros z Hz. apply in_or_app. left. unfold cells2. cbn. apply in_or_app; auto. } { rewrite P2, fbases_length; lia. }
  cbv beta. intros qn _.
  eapply h_ext with (m' := bind (region_gets [Constant F0; Constant (mod_native P); Existing qn; Existing (c_nat a)] [0] []) (fun _ => ret tt)).
  { intros s. unfold region_gets, gets, mapM, bind, ret. destruct (assign_region _ _ s) as [[[] s1]|]; reflexivity. }
  eapply h_bind; [apply (h_region_gets lb) with (qs := [])|].
  { repeat apply Forall_cons; cbn; auto. right. apply in_or_app. right. now apply cpre_nat. }
  { intros o [<-|[]]. cbn. lia. } { constructor. }
  { intros Hh [[[[Hpre HL] _] _] En] o [Ho|[]]. assert (o = 0%nat) by lia. subst o. destruct (HH2 Hh Hpre) as (Hcr & Hx & H0). destruct (hon_quot n k m qmb X SZ Q1 Q2 Hx) as [B1 B2].
    destruct (crep_len' _ _ _ _ k Hcr La) as (ls & L1 & L2 & L3 & L4 & L5). unfold qvals. cbn. fold (hval qn). fold (hval (c_nat a)). rewrite En, P2, P5, L5, Vq.
    replace (fbases n k 1) with (fbases (p:=p) n (length (sdigits n k (X / m))) 1) by now rewrite sdigits_length.
    rewrite !dot_bases, !Z.mul_1_l, sdigits_undigits by lia. rewrite <- of_Z_mul.
    pose proof (Z.div_mod X m ltac:(lia)) as HD. rewrite H0, Z.add_0_r in HD. rewrite <- HD. ring. }
  cbv beta. intros xs _. apply h_ret; auto.
  - intros z [].
  - intros e [[[[[Hpre HL] HQ] HS] En] (v & RE & _)] x Hx Bx. cbn [o_bits] in HS. destruct RE as [V1 V2].
    destruct (crep_len' _ _ _ _ k Hx La) as (ls & L1 & L2 & L3 & L4 & L5).
    pose proof (V1 0%nat _ eq_refl) as v0. pose proof (V1 1%nat _ eq_refl) as v1. pose proof (V1 2%nat _ eq_refl) as v2. pose proof (V1 3%nat _ eq_refl) as v3. cbn in v0, v1, v2, v3.
    specialize (V2 0%nat (or_introl eq_refl)). cbn in V2.
    assert (Hm : (m | 0 - x)).
    { rewrite <- OU. apply HLr in HL. eapply (crt_sound n k m qmb e (c_limbs a) quot check (c_bits a) 0 (repeat 0 k)); eauto 7.
      - lia.
      - rewrite OU. pose proof (pow2_pos (bits m)). lia.
      - lia.
      - rewrite OU, <- L5, v3, <- V2, v1, <- v2, v0, P5, En, P2. change (of_Z p 0) with (@F0 p). ring. }
    destruct Hm as [u Hu]. exists (- u). lia.
Qed.
End Crt.
