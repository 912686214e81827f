(** Property theorems C45-C50 about halo2-ecc's big integers (bigint/*.rs). Reading guide: see PropsGate.v for [sound]/[comp].
    BigSpec.v says what the cells of a CRT integer represent: [crep n e c x] (overflowed limbs, integer [x] known modulo [2^(n*k)] and [p])
    and [proper n e c x] (the limbs are the base-[2^n] digits of [x]). [lb] is lookup_bits. *)
From Coq Require Import ZArith Znumtheory Lia List Bool.
From Verif Require Import Field Spec Context ContextProofs Utils Logic Gate GateProofs ChainProofs IPProofs BitProofs PowProofs IPComp Derived Calc CalcH
  Range RangeProofs RangeProofs2 RangeProofs3 BigInt BigSpec BigNum BigPrims BigOps BigSel BigCmp BigSub BigCarry BigMod BigCrtNum BigCrt SatCheck.
Import ListNotations.
Local Open Scope Z_scope.

Section Tools.
Context {p : positive} (lb : nat).
Notation T := (fun _ : env (p:=p) => True).
Lemma h_sound {B} L (m : M p B) P R cs : hcalc lb L T False m P R cs -> sound lb m P (fun sg o => R (avs sg) o).
Proof. intros [S _]. eapply sound_weaken; [exact S|auto|]. cbv beta. auto. Qed.
Lemma h_comp {B} L (m : M p B) P R cs : hcalc lb L T True m P R cs -> Forall good L ->
  comp lb (fun rho => Forall (av_ok rho) L) m (fun o => P o /\ Forall good (cs o) /\ R hval o) (fun rho o => Forall (av_ok rho) (cs o)).
Proof. intros [_ C] G. apply C; auto. Qed.
End Tools.

(** The honest prover's view of a CRT integer: every cell carries a value, and the values (and the BigInt kept beside them) represent [x]. *)
Definition hcrep {p} (n : nat) (c : crt p) (x : Z) : Prop := Forall good (ccells c) /\ crep n hval c x /\ c_val c = x.
Definition hproper {p} (n : nat) (c : crt p) (x : Z) : Prop := Forall good (ccells c) /\ proper n hval c x /\ c_val c = x.
Definition oks {p} (l : list (AV p)) (rho : cell -> F p) : Prop := Forall (av_ok rho) l.

Section Ops.
Context (p : positive) (lb : nat) (Hp : prime (Z.pos p)) (Hlb : (1 <= lb < 64)%nat) (Hlb2 : (2 * lb <= CAPACITY p)%nat).
Notation U := (fun _ _ => True).
Notation crt := (crt p).
Notation AV := (AV p).

(** every assignment that satisfies the constraints and gives [a], [b] the meaning [x], [y] gives the result the meaning [f x y] *)
Definition computes2 (n : nat) (a b : crt) (f : Z -> Z -> Z) (m : M p crt) : Prop :=
  sound lb m (fun c => length (c_limbs c) = length (c_limbs a))
    (fun sg c => forall x y, crep n (avs sg) a x -> crep n (avs sg) b y -> crep n (avs sg) c (f x y)).
(** the honest prover never gets stuck and computes [f x y] *)
Definition complete2 (n : nat) (a b : crt) (f : Z -> Z -> Z) (m : M p crt) : Prop :=
  forall x y, hcrep n a x -> hcrep n b y ->
  comp lb (oks (ccells a ++ ccells b)) m (fun c => hcrep n c (f x y)) (fun rho c => oks (ccells c) rho).

Lemma cpre_l (a b : crt) : cpre (ccells a ++ ccells b) a. Proof. unfold cpre. apply incl_appl, incl_refl. Qed.
Lemma cpre_r (a b : crt) : cpre (ccells a ++ ccells b) b. Proof. unfold cpre. apply incl_appr, incl_refl. Qed.
Lemma bin_both (n : nat) (a b : crt) f m bits :
  (forall Hon, hcalc lb (ccells a ++ ccells b) (fun _ => True) Hon m
     (fun c => length (c_limbs c) = length (c_limbs a) /\ c_bits c = bits /\ c_val c = f (c_val a) (c_val b))
     (fun e c => forall n, binop_spec n a b f e c) ccells) ->
  computes2 n a b f m /\ complete2 n a b f m.
Proof.
  intros H. split.
  - eapply sound_weaken; [apply (h_sound lb _ _ _ _ _ (H False))| |]; cbv beta; [tauto|]. intros sg c _ K. apply (K n).
  - intros x y (Ga & Ra & Va) (Gb & Rb & Vb). eapply comp_weaken; [apply (h_comp lb _ _ _ _ _ (H True))| | |]; cbv beta; auto.
    + apply Forall_app; auto.
    + intros c ((_ & _ & V) & G & R). split; [exact G|]. split; [now apply R|]. now rewrite V, Va, Vb.
Qed.

(** ** C45: the no-carry operations compute the named integer operation, soundly and completely *)
Theorem C45_no_carry_ops : forall (n : nat) (a b : crt), length (c_limbs a) = length (c_limbs b) ->
  (computes2 n a b Z.add (add_crt a b) /\ complete2 n a b Z.add (add_crt a b)) /\
  (computes2 n a b Z.sub (sub_crt a b) /\ complete2 n a b Z.sub (sub_crt a b)) /\
  (forall kl, Z.of_nat (length (c_limbs a)) <= 2 ^ Z.of_nat kl ->
     computes2 n a b Z.mul (mul_crt a b kl) /\ complete2 n a b Z.mul (mul_crt a b kl)) /\
  (forall k, - 2 ^ 63 < k < 2 ^ 63 ->
     computes2 n a b (fun x y => x * k + y) (scalar_mul_add_crt a b k) /\ complete2 n a b (fun x y => x * k + y) (scalar_mul_add_crt a b k)).
Proof.
  intros n a b HL. split; [|split; [|split]].
  - eapply bin_both. intros Hon. apply h_add_crt; auto using cpre_l, cpre_r.
  - eapply bin_both. intros Hon. apply h_sub_crt; auto using cpre_l, cpre_r.
  - intros kl Hk. eapply bin_both. intros Hon. apply h_mul_crt; auto using cpre_l, cpre_r.
  - intros k Hk. eapply (bin_both n a b (fun x y => x * k + y)). intros Hon. apply h_scalar_mul_add_crt; auto using cpre_l, cpre_r.
Qed.
Theorem C45_scalar_mul_no_carry : forall (n : nat) (a : crt) (k : Z), - 2 ^ 63 < k < 2 ^ 63 ->
  sound lb (scalar_mul_crt a k) (fun c => length (c_limbs c) = length (c_limbs a)) (fun sg c => forall x, crep n (avs sg) a x -> crep n (avs sg) c (x * k)) /\
  (forall x, hcrep n a x -> comp lb (oks (ccells a)) (scalar_mul_crt a k) (fun c => hcrep n c (x * k)) (fun rho c => oks (ccells c) rho)).
Proof.
  intros n a k Hk. pose proof (fun Hon => h_scalar_mul_crt lb (ccells a) (fun _ => True) Hon a k (incl_refl _) (fun _ => Hk)) as H. split.
  - eapply sound_weaken; [apply (h_sound lb _ _ _ _ _ (H False))| |]; cbv beta; [tauto|]. intros sg c _ K. apply (K n).
  - intros x (Ga & Ra & Va). eapply comp_weaken; [apply (h_comp lb _ _ _ _ _ (H True))| | |]; cbv beta; auto.
    intros c ((_ & _ & V) & G & R). split; [exact G|]. split; [now apply R|]. now rewrite V, Va.
Qed.
(** the limbs may not overflow the field silently: the bound on the limbs recorded in the result is the one [crep] uses *)
Theorem C45_limb_bounds : forall (a b : crt), length (c_limbs a) = length (c_limbs b) ->
  sound lb (add_crt a b) (fun c => c_bits c = (Nat.max (c_bits a) (c_bits b) + 1)%nat) U /\
  sound lb (sub_crt a b) (fun c => c_bits c = (Nat.max (c_bits a) (c_bits b) + 1)%nat) U /\
  (forall kl, Z.of_nat (length (c_limbs a)) <= 2 ^ Z.of_nat kl -> sound lb (mul_crt a b kl) (fun c => c_bits c = (kl + c_bits a + c_bits b)%nat) U) /\
  (forall k, - 2 ^ 63 < k < 2 ^ 63 -> sound lb (scalar_mul_add_crt a b k) (fun c => c_bits c = (Nat.max (c_bits a + log2_ceil (Z.abs k)) (c_bits b) + 1)%nat) U /\
             sound lb (scalar_mul_crt a k) (fun c => c_bits c = (c_bits a + log2_ceil (Z.abs k))%nat) U).
Proof.
  intros a b HL.
  assert (W : forall m f bits, hcalc lb (ccells a ++ ccells b) (fun _ => True) False m
     (fun c => length (c_limbs c) = length (c_limbs a) /\ c_bits c = bits /\ c_val c = f)
     (fun e c => True) ccells -> sound lb m (fun c => c_bits c = bits) U).
  { intros m f bits H. eapply sound_weaken; [apply (h_sound lb _ _ _ _ _ H)| |]; cbv beta; tauto. }
  assert (W2 : forall m P (R : env -> crt -> Prop) cs, hcalc lb (ccells a ++ ccells b) (fun _ => True) False m P R cs -> hcalc lb (ccells a ++ ccells b) (fun _ => True) False m P (fun _ _ => True) cs).
  { intros m P R cs H. eapply h_post; [exact H|auto|auto|]. intros c _. apply incl_appl, incl_refl. }
  split; [|split; [|split]].
  - eapply W, W2; eapply h_add_crt; auto using cpre_l, cpre_r.
  - eapply W, W2; eapply h_sub_crt; auto using cpre_l, cpre_r.
  - intros kl Hk. eapply W, W2; eapply h_mul_crt; auto using cpre_l, cpre_r.
  - intros k Hk. split; [eapply W, W2; eapply h_scalar_mul_add_crt|eapply W, W2; eapply h_scalar_mul_crt]; auto using cpre_l, cpre_r.
Qed.

(** ** C46: comparison and subtraction of proper big integers *)
Theorem C46_sub_sound : forall (n : nat) (a b : crt), (1 <= n)%nat -> (n + 2 <= CAPACITY p)%nat ->
  sound lb (big_sub_crt lb a b n (of_Z p (2 ^ Z.of_nat n))) (fun r => length (c_limbs (fst r)) = length (c_limbs a))
    (fun sg r => forall x y, proper n (avs sg) a x -> proper n (avs sg) b y ->
       avs sg (snd r) = (if x <? y then F1 else F0) /\ (y <= x -> proper n (avs sg) (fst r) (x - y))).
Proof.
  intros n a b Hn Hc.
  pose proof (fun Hon H1 H2 => h_big_sub_crt lb Hp Hlb Hlb2 (ccells a ++ ccells b) (fun _ => True) Hon n a b Hn Hc (cpre_l a b) (cpre_r a b) H1 H2) as HH.
  eapply sound_weaken; [apply (h_sound lb _ _ _ _ _ (HH False ltac:(tauto) ltac:(tauto)))| |]; cbv beta; [tauto|].
  intros sg r _ H x y Hx Hy. destruct (H x y Hx Hy) as (E & _ & _ & K). rewrite E. split; [now destruct (x <? y)|auto].
Qed.
Theorem C46_sub_complete : forall (n : nat) (a b : crt) (x y : Z), (1 <= n)%nat -> (n + 2 <= CAPACITY p)%nat ->
  length (c_limbs a) = length (c_limbs b) -> c_limbs a <> [] -> lwidth (p:=p) lb n -> hproper n a x -> hproper n b y ->
  comp lb (oks (ccells a ++ ccells b)) (big_sub_crt lb a b n (of_Z p (2 ^ Z.of_nat n)))
    (fun r => hval (snd r) = (if x <? y then F1 else F0) /\ (y <= x -> hproper n (fst r) (x - y))) (fun rho r => oks (snd r :: ccells (fst r)) rho).
Proof.
  intros n a b x y Hn Hc HL Hne HW (Ga & Ra & Va) (Gb & Rb & Vb).
  pose proof (fun Hon H1 H2 => h_big_sub_crt lb Hp Hlb Hlb2 (ccells a ++ ccells b) (fun _ => True) Hon n a b Hn Hc (cpre_l a b) (cpre_r a b) H1 H2) as HH.
  eapply comp_weaken; [apply (h_comp lb _ _ _ _ _ (HH True ltac:(auto) ltac:(intros _ _; split; [auto|split; [apply Ra|apply Rb]]))); apply Forall_app; auto| | |]; cbv beta; auto.
  - intros r ((_ & _ & V & _) & G & R). destruct (R x y Ra Rb) as (E & _ & _ & K). rewrite E. split; [now destruct (x <? y)|].
    intros Hle. inversion G as [|? ? _ G']; subst. split; [exact G'|]. split; auto.
Qed.
Theorem C46_big_less_than : forall (n : nat) (a b : list AV), (1 <= n)%nat -> (n + 2 <= CAPACITY p)%nat ->
  let num (e : env) (l : list AV) := undigits n (map (fun c => val (e c)) l) in
  let ok (e : env) (l : list AV) := Forall (fun c => val (e c) < 2 ^ Z.of_nat n) l in
  sound lb (big_less_than lb a b n (of_Z p (2 ^ Z.of_nat n))) (fun _ => length a = length b)
    (fun sg o => ok (avs sg) a -> ok (avs sg) b -> avs sg o = if num (avs sg) a <? num (avs sg) b then F1 else F0) /\
  (length a = length b -> a <> [] -> lwidth (p:=p) lb n -> Forall good (a ++ b) -> ok hval a -> ok hval b ->
   comp lb (oks (a ++ b)) (big_less_than lb a b n (of_Z p (2 ^ Z.of_nat n)))
     (fun o => good o /\ hval o = if num hval a <? num hval b then F1 else F0) (fun rho o => av_ok rho o)).
Proof.
  intros n a b Hn Hc num ok.
  assert (H : forall Hon : Prop, (Hon -> length a = length b /\ a <> []) -> (Hon -> lwidth (p:=p) lb n /\ ok hval a /\ ok hval b) ->
     hcalc lb (a ++ b) (fun _ => True) Hon (big_less_than lb a b n (of_Z p (2 ^ Z.of_nat n))) (fun _ => length a = length b /\ a <> [])
       (fun e o => lt_n e n a -> lt_n e n b -> e o = fbool (ev e n a <? ev e n b)) one).
  { intros Hon H1 H2. apply (h_big_less_than lb Hp Hlb Hlb2); auto; [apply incl_appl, incl_refl|apply incl_appr, incl_refl]. }
  split.
  - eapply sound_weaken; [apply (h_sound lb _ _ _ _ _ (H False ltac:(tauto) ltac:(tauto)))| |]; cbv beta; [tauto|].
    intros sg o _ K Ka Kb. rewrite (K Ka Kb). unfold ev, num. now destruct (_ <? _).
  - intros HL Hne HW G Oa Ob. eapply comp_weaken; [apply (h_comp lb _ _ _ _ _ (H True ltac:(auto) ltac:(auto)) G)| | |]; cbv beta; auto.
    + intros o (_ & Go & R). split; [now inversion Go|]. rewrite (R Oa Ob). unfold ev, num. now destruct (_ <? _).
    + intros rho o _ _ K. now inversion K.
Qed.

(** ** C47: zero, equality and parity tests *)
Theorem C47_big_is_zero : forall (n : nat) (a : crt), 
  sound lb (big_is_zero_positive (c_trunc a)) (fun _ => True) (fun sg o => forall x, proper n (avs sg) a x -> avs sg o = if x =? 0 then F1 else F0) /\
  sound lb (big_is_zero (c_limbs a)) (fun _ => c_limbs a <> [])
    (fun sg o => (avs sg o = if forallb (fun l => Fis0 (avs sg l)) (c_limbs a) then F1 else F0) /\
                 forall x, proper n (avs sg) a x -> avs sg o = if x =? 0 then F1 else F0) /\
  (forall x, c_limbs a <> [] -> hproper n a x ->
     comp lb (oks (c_limbs a)) (big_is_zero (c_limbs a)) (fun o => good o /\ hval o = if x =? 0 then F1 else F0) (fun rho o => av_ok rho o)) /\
  (forall x, c_limbs a <> [] -> (n + Nat.log2 (length (c_limbs a)) < CAPACITY p)%nat -> hproper n a x ->
     comp lb (oks (c_limbs a)) (big_is_zero_positive (c_trunc a)) (fun o => good o /\ hval o = if x =? 0 then F1 else F0) (fun rho o => av_ok rho o)).
Proof.
  intros n a.
  assert (H1 : forall Hon : Prop, (Hon -> c_limbs a <> [] /\ (c_bits a + Nat.log2 (length (c_limbs a)) < CAPACITY p)%nat) -> hcalc lb (c_limbs a) (fun _ => True) Hon (big_is_zero_positive (c_trunc a)) (fun _ => True)
    (fun e o => Forall (fun x => val (e x) <= 2 ^ Z.of_nat (c_bits a)) (c_limbs a) -> e o = fbool (all0 e (c_limbs a))) one).
  { intros Hon K. apply (h_big_is_zero_positive lb Hp Hlb Hlb2); auto. apply incl_refl. }
  pose proof (fun Hon => h_big_is_zero lb Hp (c_limbs a) (fun _ => True) Hon (c_limbs a) (incl_refl _)) as H2.
  split; [|split; [|split]].
  - eapply sound_weaken; [apply (h_sound lb _ _ _ _ _ (H1 False ltac:(tauto)))| |]; cbv beta; auto.
    intros sg o _ K x Hx. rewrite K by (eapply (proper_le lb Hlb Hlb2); eauto). erewrite (proper_all0 lb Hlb Hlb2) by eauto. now destruct (x =? 0).
  - eapply sound_weaken; [apply (h_sound lb _ _ _ _ _ (H2 False ltac:(tauto)))| |]; cbv beta; auto.
    intros sg o _ K. split. { rewrite K. unfold all0. now destruct (forallb _ _). }
    intros x Hx. rewrite K. erewrite (proper_all0 lb Hlb Hlb2) by eauto. now destruct (x =? 0).
  - intros x Hne (G & Rx & V). inversion G as [|? ? _ G']; subst. eapply comp_weaken; [apply (h_comp lb _ _ _ _ _ (H2 True ltac:(auto)) G')| | |]; cbv beta; auto.
    + intros o (_ & Go & R). split; [now inversion Go|]. rewrite R. erewrite (proper_all0 lb Hlb Hlb2) by eauto. now destruct (c_val a =? 0).
    + intros rho o _ _ K. now inversion K.
  - intros x Hne Hc (G & Rx & V). inversion G as [|? ? _ G']; subst.
    assert (Eb : c_bits a = n) by apply Rx.
    eapply comp_weaken; [apply (h_comp lb _ _ _ _ _ (H1 True ltac:(rewrite Eb; auto)) G')| | |]; cbv beta; auto.
    + intros o (_ & Go & R). split; [now inversion Go|]. rewrite R by (eapply (proper_le lb Hlb Hlb2); eauto). erewrite (proper_all0 lb Hlb Hlb2) by eauto. now destruct (c_val a =? 0).
    + intros rho o _ _ K. now inversion K.
Qed.
Theorem C47_big_is_equal : forall (n : nat) (a b : crt),
  sound lb (big_is_equal (c_limbs a) (c_limbs b)) (fun _ => length (c_limbs a) = length (c_limbs b))
    (fun sg o => forall x y, proper n (avs sg) a x -> proper n (avs sg) b y -> avs sg o = if x =? y then F1 else F0) /\
  (forall x y, length (c_limbs a) = length (c_limbs b) -> c_limbs a <> [] -> hproper n a x -> hproper n b y ->
     comp lb (oks (c_limbs a ++ c_limbs b)) (big_is_equal (c_limbs a) (c_limbs b)) (fun o => good o /\ hval o = if x =? y then F1 else F0) (fun rho o => av_ok rho o)).
Proof.
  intros n a b.
  pose proof (fun Hon => h_big_is_equal lb Hp Hlb Hlb2 (c_limbs a ++ c_limbs b) (fun _ => True) Hon (c_limbs a) (c_limbs b) ltac:(apply incl_appl, incl_refl) ltac:(apply incl_appr, incl_refl)) as H.
  split.
  - intros s o s' W E. destruct (h_sound lb _ _ _ _ _ (H False ltac:(tauto)) s o s' W E) as (W' & X & [HL _] & K). split; auto. split; auto. split; auto.
    intros sg HS x y Hx Hy. rewrite (K sg HS). erewrite (proper_alleq lb Hlb Hlb2) by eauto. now destruct (x =? y).
  - intros x y HL Hne (Ga & Ra & Va) (Gb & Rb & Vb). inversion Ga as [|? ? _ Ga']; subst. inversion Gb as [|? ? _ Gb']; subst.
    eapply comp_weaken; [apply (h_comp lb _ _ _ _ _ (H True ltac:(auto))); apply Forall_app; auto| | |]; cbv beta; auto.
    + intros o (_ & Go & R). split; [now inversion Go|]. rewrite R. erewrite (proper_alleq lb Hlb Hlb2) by eauto. now destruct (_ =? _).
    + intros rho o _ _ K. now inversion K.
Qed.
Theorem C47_big_is_even : forall (n : nat) (a : crt), c_limbs a <> [] -> (1 <= n <= CAPACITY p)%nat ->
  sound lb (big_is_even lb (c_trunc a) n) (fun _ => True)
    (fun sg o => forall x, proper n (avs sg) a x -> avs sg o = if Z.even x then F1 else F0) /\
  (forall x, hproper n a x ->
     comp lb (oks (c_limbs a)) (big_is_even lb (c_trunc a) n) (fun o => good o /\ hval o = if Z.even x then F1 else F0) (fun rho o => av_ok rho o)).
Proof.
  intros n a Hne Hn. destruct (c_limbs a) as [|a0 rest] eqn:EL; [congruence|].
  pose proof (fun Hon => h_big_is_even lb Hp Hlb Hlb2 (c_limbs a) (fun _ => True) Hon (c_trunc a) n a0 rest EL (incl_refl _) Hn) as H.
  split.
  - eapply sound_weaken; [apply (h_sound lb _ _ _ _ _ (H False ltac:(tauto)))| |]; cbv beta; auto.
    intros sg o _ [_ K] x Hx. rewrite K, (proper_even lb Hlb Hlb2 n (avs sg) a x a0 rest (proj1 Hn) EL Hx). now destruct (Z.even x).
  - intros x (Ga & Ra & Va). inversion Ga as [|? ? _ Ga']; subst.
    assert (L0 : val (hval a0) < 2 ^ Z.of_nat n). { destruct Ra as (_ & F & _). rewrite EL in F. now inversion F. }
    rewrite <- EL. eapply comp_weaken; [apply (h_comp lb _ _ _ _ _ (H True ltac:(auto)) Ga')| | |]; cbv beta; auto.
    + intros o (_ & Go & _ & R). split; [now inversion Go|]. rewrite R, (proper_even lb Hlb Hlb2 n hval a _ a0 rest (proj1 Hn) EL Ra). now destruct (Z.even _).
    + intros rho o _ _ K. now inversion K.
Qed.
End Ops.

Section Carry.
Context (p : positive) (lb : nat) (Hp : prime (Z.pos p)) (Hlb : (1 <= lb < 64)%nat) (Hlb2 : (2 * lb <= CAPACITY p)%nat).

(** the limbs of [a] hold the integers [ls], each of absolute value at most [2^max_limb_bits] *)
Definition holds_limbs (e : env) (a : ovi p) (ls : list Z) : Prop :=
  map e (o_limbs a) = map (of_Z p) ls /\ Forall (fun l => Z.abs l <= 2 ^ Z.of_nat (o_bits a)) ls.
Lemma crb_ge (mb n : nat) : (n <= mb)%nat -> (mb + 1 <= carry_range_bits lb mb n + n)%nat.
Proof.
  clear - Hlb. intros H. unfold carry_range_bits. pose proof (Nat.div_mod (mb - n + 1 + lb) lb ltac:(lia)) as D. pose proof (Nat.mod_upper_bound (mb - n + 1 + lb) lb ltac:(lia)).
  rewrite (Nat.mul_comm lb) in D. lia.
Qed.
(** ** C48: the carry check forces the number spelled by the limbs to be 0 modulo 2^(n*k) — provided nothing wraps around the field *)
Theorem C48_check_carry_to_zero_sound : forall (a : ovi p) (n : nat), (1 <= n)%nat -> (carry_range_bits lb (o_bits a) n + n + 2 <= CAPACITY p)%nat ->
  sound lb (check_carry_to_zero lb a n (of_Z p (2 ^ Z.of_nat n)) (2 ^ Z.of_nat n)) (fun _ => (n <= o_bits a)%nat)
    (fun sg _ => forall ls, holds_limbs (avs sg) a ls -> (2 ^ Z.of_nat (n * length (o_limbs a)) | undigits n ls)).
Proof.
  intros a n Hn HC.
  intros s o s' W E. destruct (h_sound lb _ _ _ _ _ (h_check_carry_to_zero lb Hp Hlb Hlb2 (o_limbs a) (fun _ => True) False a n Hn (incl_refl _) ltac:(tauto) ltac:(tauto)) s o s' W E) as (W' & X & Hb & K).
  split; auto. split; auto. split; auto. intros sg HS ls (E1 & E2). apply (K sg HS ls (2 ^ Z.of_nat (o_bits a))); auto.
  pose proof (crb_ge (o_bits a) n Hb). set (rb := carry_range_bits lb (o_bits a) n) in *.
  pose proof (CAPACITY_bound p) as HB. 
  assert (2 ^ Z.of_nat (o_bits a) <= 2 ^ Z.of_nat (rb + n)) by (apply pow2_le; lia).
  assert (2 ^ Z.of_nat rb <= 2 ^ Z.of_nat (rb + n)) by (apply pow2_le; lia).
  assert (2 ^ Z.of_nat (rb + n + 2) <= 2 ^ Z.of_nat (CAPACITY p)) by (apply pow2_le; lia).
  rewrite (pow2_add (rb + n) 2) in *. change (2 ^ Z.of_nat 2) with 4 in *. pose proof (pow2_pos (rb + n)). clear - HB H0 H1 H2 H3. lia.
Qed.
Theorem C48_check_carry_to_zero_complete : forall (a : ovi p) (n : nat) (ls : list Z), (2 <= n)%nat -> (n <= o_bits a)%nat ->
  (carry_range_bits lb (o_bits a) n + 1 <= CAPACITY p)%nat -> (o_bits a + 2 <= CAPACITY p)%nat ->
  Forall good (o_limbs a) -> holds_limbs hval a ls -> (2 ^ Z.of_nat (n * length (o_limbs a)) | undigits n ls) ->
  comp lb (oks (o_limbs a)) (check_carry_to_zero lb a n (of_Z p (2 ^ Z.of_nat n)) (2 ^ Z.of_nat n)) (fun _ => True) (fun _ _ => True).
Proof.
  intros a n ls Hn Hb Hc Hc2 G (E1 & E2) D.
  assert (CH : carry_hon n (carry_range_bits lb (o_bits a) n) (o_limbs a)).
  { split; [exact Hc|]. exists ls, (2 ^ Z.of_nat (o_bits a)). split; [exact E1|]. split; [exact E2|]. split; [|split; [|exact D]].
    - pose proof (CAPACITY_bound p) as HB. pose proof (pow2_le (o_bits a + 2) (CAPACITY p) Hc2) as H. rewrite pow2_add in H. change (2 ^ Z.of_nat 2) with 4 in H.
      pose proof (pow2_pos (o_bits a)). lia.
    - pose proof (crb_ge (o_bits a) n Hb) as H. set (rb := carry_range_bits lb (o_bits a) n) in *.
      assert (H1 : 2 ^ Z.of_nat (o_bits a + 1) <= 2 ^ Z.of_nat (rb + n)) by (apply pow2_le; lia).
      assert (H2 : 2 ^ Z.of_nat 2 <= 2 ^ Z.of_nat n) by (apply pow2_le; lia). change (2 ^ Z.of_nat 2) with 4 in H2.
      rewrite !pow2_add in H1. change (2 ^ Z.of_nat 1) with 2 in H1. pose proof (pow2_pos rb). clear - H1 H2 H0. nia. }
  eapply comp_weaken; [apply (h_comp lb _ _ _ _ _ (h_check_carry_to_zero lb Hp Hlb Hlb2 (o_limbs a) (fun _ => True) True a n ltac:(lia) (incl_refl _) (fun _ => Hb) (fun _ _ => CH)) G)| | |]; cbv beta; auto.
Qed.
End Carry.

(** ** Concrete non-trivial runs over F_10007 with 3-bit limbs (two of them) and lookup_bits = 3: every constraint of the run is checked *)
Section Examples.
Local Open Scope monad_scope.
Definition RP : positive := 10007.
Definition mk (x : Z) : M RP (crt RP) := l0 <- load_witness (of_Z RP (x mod 8)) ;; l1 <- load_witness (of_Z RP (x / 8)) ;; v <- load_witness (of_Z RP x) ;; ret (mkCrt (mkOvi [l0; l1] 3) v x).
Definition crt_is (c : crt RP) (ls : list Z) (nat v : Z) : bool :=
  forallb (fun q => avz (fst q) =? snd q) (combine (c_limbs c) ls) && (Nat.eqb (length (c_limbs c)) (length ls)) && (avz (c_nat c) =? nat) && (c_val c =? v).
Example C45_example : run_ok 3 (a <- mk 53 ;; b <- mk 22 ;; s <- add_crt a b ;; d <- sub_crt b a ;; m <- mul_crt a b 1 ;; k <- scalar_mul_crt a (-5) ;; ret (s, d, m, k))
  (fun r => let '(s, d, m, k) := r in crt_is s [11; 8] 75 75 && crt_is d [1; 10003] 9976 (-31) && crt_is m [30; 46] 1166 1166 && crt_is k [9982; 9977] 9742 (-265)) = true.
Proof. vm_compute. reflexivity. Qed.
Example C46_C47_example : run_ok 3 (a <- mk 53 ;; b <- mk 22 ;; z <- mk 0 ;; s <- big_sub_crt 3 a b 3 (of_Z RP 8) ;; t <- big_sub_crt 3 b a 3 (of_Z RP 8) ;;
    i <- big_is_zero_positive (c_trunc z) ;; j <- big_is_zero_positive (c_trunc a) ;; e <- big_is_equal (c_limbs a) (c_limbs b) ;; e' <- big_is_equal (c_limbs a) (c_limbs a) ;;
    v <- big_is_even 3 (c_trunc a) 3 ;; v' <- big_is_even 3 (c_trunc b) 3 ;; ret (s, t, [i; j; e; e'; v; v']))
  (fun r => let '(s, t, l) := r in crt_is (fst s) [7; 3] 31 31 && (avz (snd s) =? 0) && (avz (snd t) =? 1) && forallb (fun q => avz (fst q) =? snd q) (combine l [1; 0; 0; 1; 0; 1])) = true.
Proof. vm_compute. reflexivity. Qed.
(** limbs [16; 6] spell 16 + 6 * 8 = 64 = 8 * 8; limbs [16; 5] spell 56, not a multiple of 64 *)
Example C48_example : run_ok 3 (x <- load_witness (of_Z RP 16) ;; y <- load_witness (of_Z RP 6) ;; check_carry_to_zero 3 (mkOvi [x; y] 5) 3 (of_Z RP 8) 8) (fun _ => true) = true /\
  run_ok 3 (x <- load_witness (of_Z RP 16) ;; y <- load_witness (of_Z RP 5) ;; check_carry_to_zero 3 (mkOvi [x; y] 5) 3 (of_Z RP 8) 8) (fun _ => true) = false.
Proof. split; vm_compute; reflexivity. Qed.
End Examples.
