(** Property theorems C79-C81: halo2-ecc/src/bn254/pairing.rs. Reading guide: [sound]/[comp] as in PropsGate.v, [carrieds]/[hcarrieds] as in PropsExt.v,
    Fp12 values [w6], [enc] and [^^] as in PropsFinal.v. The textbook side is MillerSpec.v: [twist] embeds the twist's points in E(Fp12), [chord_at] and [tangent_at] are
    lines over Fp12, [pt_add], [pt_dbl] the affine group law of the twist, [miller] Miller's algorithm for the optimal Ate pairing. *)
From Coq Require Import ZArith NArith Znumtheory Lia List Bool Ring.
From Verif Require Import Field Spec Context ContextProofs Utils Logic Gate GateProofs ChainProofs IPProofs BitProofs PowProofs IPComp Derived Calc CalcH
  Range RangeProofs RangeProofs2 RangeProofs3 BigInt BigSpec BigNum BigPrims BigOps BigSel BigCmp BigSub BigCarry BigMod BigCrtNum BigCrt
  FpChip FpProofs FpProofs2 FpProofs3 FpField FpField2 FpField3 Pocklington Bn254Primes PropsBigInt PropsFp Ecc PropsNaf FieldExt ExtSpec ExtSpec2 ExtProofs ExtProofs2 ExtProofs3 ExtProofs4 ExtProofs5 PropsExt PropsExt2
  RingPow CycSpec FrobSpec Cyclo Fp12Field FinalExp GaussOps FinalProofs FinalProofs2 FinalProofs3 FinalHigh PropsFinal
  MillerSpec MillerAlg Pairing EccProofs EccProofs3 PairOps PairOps2 PairOps3 PairOps4 PairOps5 Bls BlsAlg.
Import ListNotations.
Local Open Scope Z_scope.

Section PairingProps.
Context (p m : positive) (lb : nat) (Hp : prime (Z.pos p)) (Hlb : (1 <= lb < 64)%nat) (Hlb2 : (2 * lb <= CAPACITY p)%nat) (Hm : prime (Z.pos m)).
Context (n k : nat) (ch : fpchip p) (HN : fpchip_new m n k = Some ch) (HK : fp_params (p:=p) lb m n k).
Notation vec := (list (crt p)).
Notation carrieds := (carrieds (p:=p) m n).
Notation hcarrieds := (hcarrieds (p:=p) m n k).
Notation vlimbs_eq := (vlimbs_eq (p:=p) k).
Notation W := (2 ^ Z.of_nat (n * k + NUM_BITS p)).
Notation M2 := (2 ^ Z.of_nat (bits (Z.pos m))).
Notation room := (ExtProofs.room (p:=p) lb n k).
Notation lg := (log2_ceil (Z.of_nat k)).
(** [XI_0] and the room its products need *)
Context (xi0 : Z) (Hxi1 : 1 <= Z.abs xi0) (Hxi : - 2 ^ 63 < xi0 < 2 ^ 63 - 1).
Context (Hroom : room (lg + n + n + 9 + Nat.max (log2_ceil (Z.abs xi0)) (log2_ceil (Z.abs (xi0 + 1))) + 1)) (HB : 8 * ((12 * Z.abs xi0 + 12) * (M2 * M2) + 2 * M2) < W).
(** the field: [Fp2Chip::new]'s check, [q = 1 mod 6], and [xi^((q^2-1)/6)] a primitive sixth root of unity *)
Context (H3' : ext_new_ok m = true) (H6 : Z.pos m mod 6 = 1) (Hz6 : primitive6 (m:=m) xi0).
(** halo2curves' table: [FROBENIUS_COEFF_FQ12_C1[j] = xi^((q^j-1)/6)] *)
Context (ftab : list (x2 m)) (Htab : forall j, (j < 12)%nat -> nth_error ftab j = Some (npow x2_1 x2_mul (xi (m:=m) xi0) ((N.pos m ^ N.of_nat j - 1) / 6))).
Notation q := (N.pos m).
Notation w6 := (w6 (m:=m)).
Notation wmul := (w6_mul (m:=m) xi0).
Notation "x ^^ e" := (npow (w6_1 (m:=m)) wmul x e) (at level 30).
Notation hint2 := (quot2 m).
Notation hint12 := (quot12 m xi0).
Let Hm1 : 1 < Z.pos m. Proof. pose proof (prime_ge_2 _ Hm). lia. Qed.
Let HM : Z.pos m < M2. Proof. exact (m_le_M2 lb m Hlb Hlb2 Hm1). Qed.
Let H3 : Z.pos m mod 4 = 3. Proof. pose proof (proj1 (Z.eqb_eq _ _) H3') as E. now rewrite (modulus_correct Hm1) in E. Qed.
Let T : env (p:=p) -> Prop := fun _ => True.
Ltac snd H := eapply sound_weaken; [apply (h_sound lb _ _ _ _ _ H)|cbv beta|cbv beta]; auto.
Ltac cmp H := eapply comp_weaken; [apply (h_comp lb _ _ _ _ _ H)|cbv beta|cbv beta|cbv beta]; auto.
Let Hh2 : forall x y : x2 m, hint2 [fst x; Datatypes.snd x] [fst y; Datatypes.snd y] = [fst (x2_mul x (x2_inv y)); Datatypes.snd (x2_mul x (x2_inv y))].
Proof. intros [] []. reflexivity. Qed.
Let Hh12l : forall u v : list (F m), length u = 12%nat -> length v = 12%nat -> length (hint12 u v) = 12%nat.
Proof. intros u v Hu Hv. unfold quot12. apply x12_mul_length; auto. now apply x12_inv_length. Qed.
Let Hh12 : forall x y : w6, unit12 m xi0 y -> x12_mul xi0 (hint12 (enc x) (enc y)) (enc y) = enc x.
Proof.
  intros x y (z & E). apply (x12_quot' m Hm xi0 H3); try apply enc_len. apply (x12_unit_iff xi0 Hm H3); [apply enc_len|]. exists (enc z). split; [apply enc_len|]. rewrite enc_mul, E. apply enc_1.
Qed.
Let unz (x : w6) : x <> w6_0 -> unit12 m xi0 x. Proof. intros N. exact (w6_field xi0 Hm H3 H6 Hz6 x N). Qed.
(** an Fp12 chip value: 12 coordinates of [k] limbs of [n] bits *)
Notation shape12 := (fun o : vec => length o = 12%nat /\ vlimbs_eq o n).
Let cv e (a : vec) (x : w6) : carrieds e a (enc x) -> wred m n False e a x. Proof. apply carrieds_vred. Qed.
Let vc h e (a : vec) (x : w6) : wred m n h e a x -> carrieds e a (enc x). Proof. apply vred_carrieds. Qed.
Let hv (a : vec) (x : w6) : hcarrieds a (enc x) -> wred m n True hval a x. Proof. apply hcarrieds_vred. exact HM. Qed.
Let vh (a : vec) (x : w6) : Forall good (cells a) -> vlimbs_eq a n -> wred m n True hval a x -> hcarrieds a (enc x). Proof. intros. now apply vred_hcarrieds. Qed.
Let hl (a : vec) (x : w6) : hcarrieds a (enc x) -> ok12 n k a. Proof. intros H. split; [rewrite (hcarrieds_len _ _ _ _ _ H); apply enc_len|exact (hcarrieds_vlimbs _ _ _ _ _ H)]. Qed.


Notation pt2 := (pt2 (m:=m)).
Notation g2pt := (g2pt p).
Notation ecpt := (ecpt p).
(** a point of E'(Fp2) and of E(Fp), coordinate by coordinate: carried under an assignment / by the honest prover *)
Definition gcarried (e : env) (Q : g2pt) (A : pt2) : Prop := carrieds e (gx Q) (l2 (fst A)) /\ carrieds e (gy Q) (l2 (Datatypes.snd A)).
Definition hgcarried (Q : g2pt) (A : pt2) : Prop := hcarrieds (gx Q) (l2 (fst A)) /\ hcarrieds (gy Q) (l2 (Datatypes.snd A)).
Definition pcarried (e : env) (P : ecpt) (T : F m * F m) : Prop := PropsFp.carried (p:=p) m n e (px P) (fst T) /\ PropsFp.carried (p:=p) m n e (py P) (Datatypes.snd T).
Definition hpcarried (P : ecpt) (T : F m * F m) : Prop := PropsFp.hcarried (p:=p) m n k (px P) (fst T) /\ PropsFp.hcarried (p:=p) m n k (py P) (Datatypes.snd T).
(** an Fp12 element as six Fp2 coefficients, [None] for 0 *)
Definition scarried (e : env) (s : list (option vec)) (x : w6) : Prop := Forall2 (fun c v => match c with None => v = x2_0 | Some a => carrieds e a (l2 v) end) s (w6_list x).
Definition hscarried (s : list (option vec)) (x : w6) : Prop := Forall2 (fun c v => match c with None => v = x2_0 | Some a => hcarrieds a (l2 v) end) s (w6_list x).
Definition gshape (Q : g2pt) : Prop := (length (gx Q) = 2%nat /\ vlimbs_eq (gx Q) n) /\ (length (gy Q) = 2%nat /\ vlimbs_eq (gy Q) n).
Definition pshape (P : ecpt) : Prop := isk k (px P) n /\ isk k (py P) n.
Definition sshape (s : list (option vec)) : Prop := length s = 6%nat /\ Forall (fun c => match c with None => True | Some a => length a = 2%nat /\ vlimbs_eq a n end) s /\ exists j a, nth_error s j = Some (Some a).
Definition gcells (Q : g2pt) : list (AV p) := cells (gx Q) ++ cells (gy Q).
Definition pcells (P : ecpt) : list (AV p) := BigSpec.ccells (px P) ++ BigSpec.ccells (py P).
Definition scells (s : list (option vec)) : list (AV p) := flat_map (fun c => match c with None => [] | Some a => cells a end) s.
Let cg e Q A : gcarried e Q A -> gred m n False e Q A. Proof. intros [X Y]. split; now apply carrieds_vred. Qed.
Let gc h e Q A : gred m n h e Q A -> gcarried e Q A. Proof. intros [X Y]. split; eapply vred_carrieds; eauto. Qed.
Let hg Q A : hgcarried Q A -> gred m n True hval Q A. Proof. intros [X Y]. split; now apply hcarrieds_vred with (k:=k). Qed.
Let gh Q A : Forall good (gcells Q) -> gshape Q -> gred m n True hval Q A -> hgcarried Q A.
Proof. intros G [[_ K1] [_ K2]] [X Y]. apply Forall_app in G as [G1 G2]. split; now apply vred_hcarrieds. Qed.
Let hgs Q A : hgcarried Q A -> gshape Q /\ Forall good (gcells Q).
Proof.
  intros [X Y]. split; [|apply Forall_app; split; [exact (hcarrieds_good _ _ _ _ _ X)|exact (hcarrieds_good _ _ _ _ _ Y)]].
  split; (split; [|]); try (exact (hcarrieds_vlimbs _ _ _ _ _ X) || exact (hcarrieds_vlimbs _ _ _ _ _ Y)); [now rewrite (hcarrieds_len _ _ _ _ _ X)|now rewrite (hcarrieds_len _ _ _ _ _ Y)].
Qed.
Let cp e P T' : pcarried e P T' -> pred1 m n False e P T'. Proof. intros [X Y]. split; now apply carried_fred. Qed.
Let hp P T' : hpcarried P T' -> pred1 m n True hval P T'. Proof. intros [X Y]. split; now apply hcarried_fred with (k:=k). Qed.
Let hps P T' : hpcarried P T' -> pshape P /\ Forall good (pcells P).
Proof. intros [(G1 & K1 & _) (G2 & K2 & _)]. split; [split; auto|]. apply Forall_app; auto. Qed.
Let cs e s x : scarried e s x -> sred m n False e s x.
Proof. apply F2_impl. intros [a|] v; cbn; [apply carrieds_vred|auto]. Qed.
Let sc h e s x : sred m n h e s x -> scarried e s x.
Proof. apply F2_impl. intros [a|] v; cbn; [apply vred_carrieds|auto]. Qed.
Let hs s x : hscarried s x -> sred m n True hval s x.
Proof. apply F2_impl. intros [a|] v; cbn; [now apply hcarrieds_vred|auto]. Qed.
Let sh s x : Forall good (scells s) -> sshape s -> sred m n True hval s x -> hscarried s x.
Proof.
  intros G (_ & K & _) R. unfold hscarried, sred in *. induction R as [|c v s ys V R IH]; [constructor|]. unfold scells in G. cbn [flat_map] in G. apply Forall_app in G as [G1 G2]. inversion K as [|? ? K1 K2]; subst.
  constructor; [|auto]. destruct c as [a|]; [|exact V]. destruct K1 as [_ K1]. apply vred_hcarrieds; auto.
Qed.
Let hss s x : hscarried s x -> (exists j a, nth_error s j = Some (Some a)) -> sshape s /\ Forall good (scells s).
Proof.
  intros H E. split; [split; [|split; [|exact E]]|]; clear E.
  - apply Forall2_len in H. rewrite H. destruct x as [[[[[x0 x1] x2'] x3] x4] x5]. reflexivity.
  - unfold hscarried in H. revert H. generalize (w6_list x). intros ys H. induction H as [|[a|] y s ys V R IH]; constructor; auto. split; [now rewrite (hcarrieds_len _ _ _ _ _ V)|exact (hcarrieds_vlimbs _ _ _ _ _ V)].
  - unfold hscarried in H. revert H. generalize (w6_list x). intros ys H. induction H as [|[a|] y s ys V R IH]; [constructor| |]; unfold scells; cbn [flat_map]; apply Forall_app; split; auto. exact (hcarrieds_good _ _ _ _ _ V).
Qed.

(** ** C79: lines, sparse products, the twist *)
Notation chord A B T := (chord_at xi0 (twist xi0 A) (twist xi0 B) (embed T)).
Notation tang A T := (tangent_at xi0 (twist xi0 A) (embed T)).
Notation gframe := (fun o : g2pt => Forall good (gcells o)).
Theorem C79_lines_sound : forall (Q0 Q1 : g2pt) (P : ecpt), gshape Q0 -> gshape Q1 -> pshape P ->
  sound lb (sparse_line_function_unequal lb ch Q0 Q1 P) sshape (fun sg o => forall A B T, gcarried (avs sg) Q0 A -> gcarried (avs sg) Q1 B -> pcarried (avs sg) P T -> scarried (avs sg) o (chord A B T)) /\
  sound lb (sparse_line_function_equal lb ch xi0 Q0 P) sshape (fun sg o => forall A T, gcarried (avs sg) Q0 A -> pcarried (avs sg) P T -> scarried (avs sg) o (tang A T)).
Proof.
  intros Q0 Q1 P K0 K1 KP. split.
  - pose proof (L_unequal lb m Hp Hlb Hlb2 Hm1 ch n k HN HK xi0 Hxi Hroom HB (gcells Q0 ++ gcells Q1 ++ pcells P) T False Q0 Q1 P ltac:(apply incl_appl, incl_refl) ltac:(apply incl_appr, incl_appl, incl_refl) ltac:(apply incl_appr, incl_appr, incl_refl) K0 K1 KP ltac:(intros [])) as H. snd H.
    intros sg o _ R A B T' HA HB' HT. eapply sc, (R False); auto.
  - pose proof (L_equal lb m Hp Hlb Hlb2 Hm1 ch n k HN HK xi0 Hxi1 Hxi Hroom HB (gcells Q0 ++ pcells P) T False Q0 P ltac:(apply incl_appl, incl_refl) ltac:(apply incl_appr, incl_refl) K0 KP ltac:(intros [])) as H. snd H.
    intros sg o _ R A T' HA HT. eapply sc, (R False); auto.
Qed.
Theorem C79_lines_complete : forall (Q0 Q1 : g2pt) (P : ecpt) (A B : pt2) (T' : F m * F m), hgcarried Q0 A -> hgcarried Q1 B -> hpcarried P T' ->
  comp lb (oks (gcells Q0 ++ gcells Q1 ++ pcells P)) (sparse_line_function_unequal lb ch Q0 Q1 P) (fun o => sshape o /\ hscarried o (chord A B T')) (fun rho o => oks (scells o) rho) /\
  comp lb (oks (gcells Q0 ++ pcells P)) (sparse_line_function_equal lb ch xi0 Q0 P) (fun o => sshape o /\ hscarried o (tang A T')) (fun rho o => oks (scells o) rho).
Proof.
  intros Q0 Q1 P A B T' HA HB' HT. destruct (hgs _ _ HA) as [K0 G0], (hgs _ _ HB') as [K1 G1], (hps _ _ HT) as [KP GP]. pose proof (hg _ _ HA) as RA. pose proof (hg _ _ HB') as RB. pose proof (hp _ _ HT) as RT. split.
  - assert (GG : Forall good (gcells Q0 ++ gcells Q1 ++ pcells P)) by (repeat (apply Forall_app; split; auto)).
    pose proof (L_unequal lb m Hp Hlb Hlb2 Hm1 ch n k HN HK xi0 Hxi Hroom HB (gcells Q0 ++ gcells Q1 ++ pcells P) T True Q0 Q1 P ltac:(apply incl_appl, incl_refl) ltac:(apply incl_appr, incl_appl, incl_refl) ltac:(apply incl_appr, incl_appr, incl_refl) K0 K1 KP ltac:(intros _ _; exists A, B, T'; auto)) as H. cmp H.
    intros o (Ko & Go & R). split; auto.
  - assert (GG : Forall good (gcells Q0 ++ pcells P)) by (repeat (apply Forall_app; split; auto)).
    pose proof (L_equal lb m Hp Hlb Hlb2 Hm1 ch n k HN HK xi0 Hxi1 Hxi Hroom HB (gcells Q0 ++ pcells P) T True Q0 P ltac:(apply incl_appl, incl_refl) ltac:(apply incl_appr, incl_refl) K0 KP ltac:(intros _ _; exists A, T'; auto)) as H. cmp H.
    intros o (Ko & Go & R). split; auto.
Qed.
Theorem C79_multiply_sound : forall (f : vec) (s : list (option vec)) (Q0 Q1 : g2pt) (P : ecpt), length f = 12%nat -> vlimbs_eq f n -> sshape s -> gshape Q0 -> gshape Q1 -> pshape P ->
  sound lb (sparse_fp12_multiply lb ch xi0 f s) shape12 (fun sg o => forall x y, carrieds (avs sg) f (enc x) -> scarried (avs sg) s y -> carrieds (avs sg) o (enc (wmul x y))) /\
  sound lb (fp12_multiply_with_line_unequal lb ch xi0 f Q0 Q1 P) shape12 (fun sg o => forall x A B T, carrieds (avs sg) f (enc x) -> gcarried (avs sg) Q0 A -> gcarried (avs sg) Q1 B -> pcarried (avs sg) P T ->
    carrieds (avs sg) o (enc (wmul x (chord A B T)))) /\
  sound lb (fp12_multiply_with_line_equal lb ch xi0 f Q0 P) shape12 (fun sg o => forall x A T, carrieds (avs sg) f (enc x) -> gcarried (avs sg) Q0 A -> pcarried (avs sg) P T -> carrieds (avs sg) o (enc (wmul x (tang A T)))).
Proof.
  intros f s Q0 Q1 P Lf Kf Ks K0 K1 KP. split; [|split].
  - pose proof (W_sparse lb m Hp Hlb Hlb2 Hm1 ch n k HN HK xi0 Hxi1 Hxi Hroom HB f s (conj Lf Kf) Ks (cells f ++ scells s) T False ltac:(apply incl_appl, incl_refl) ltac:(apply incl_appr, incl_refl) ltac:(intros [])) as H. snd H.
    intros sg o _ R x y Hx Hy. eapply vc, (R False); auto.
  - pose proof (W_line_unequal lb m Hp Hlb Hlb2 Hm1 ch n k HN HK xi0 Hxi1 Hxi Hroom HB (cells f ++ gcells Q0 ++ gcells Q1 ++ pcells P) T False f Q0 Q1 P ltac:(apply incl_appl, incl_refl) ltac:(apply incl_appr, incl_appl, incl_refl) ltac:(apply incl_appr, incl_appr, incl_appl, incl_refl) ltac:(apply incl_appr, incl_appr, incl_appr, incl_refl) (conj Lf Kf) K0 K1 KP ltac:(intros [])) as H. snd H.
    intros sg o _ R x A B T' Hx HA HB' HT. eapply vc, (R False); auto.
  - pose proof (W_line_equal lb m Hp Hlb Hlb2 Hm1 ch n k HN HK xi0 Hxi1 Hxi Hroom HB (cells f ++ gcells Q0 ++ pcells P) T False f Q0 P ltac:(apply incl_appl, incl_refl) ltac:(apply incl_appr, incl_appl, incl_refl) ltac:(apply incl_appr, incl_appr, incl_refl) (conj Lf Kf) K0 KP ltac:(intros [])) as H. snd H.
    intros sg o _ R x A T' Hx HA HT. eapply vc, (R False); auto.
Qed.
Theorem C79_multiply_complete : forall (f : vec) (s : list (option vec)) (Q0 Q1 : g2pt) (P : ecpt) (x y : w6) (A B : pt2) (T' : F m * F m), hcarrieds f (enc x) ->
  (hscarried s y -> (exists j a, nth_error s j = Some (Some a)) -> comp lb (oks (cells f ++ scells s)) (sparse_fp12_multiply lb ch xi0 f s) (fun o => hcarrieds o (enc (wmul x y))) (fun rho o => oks (cells o) rho)) /\
  (hgcarried Q0 A -> hgcarried Q1 B -> hpcarried P T' ->
   comp lb (oks (cells f ++ gcells Q0 ++ gcells Q1 ++ pcells P)) (fp12_multiply_with_line_unequal lb ch xi0 f Q0 Q1 P) (fun o => hcarrieds o (enc (wmul x (chord A B T')))) (fun rho o => oks (cells o) rho) /\
   comp lb (oks (cells f ++ gcells Q0 ++ pcells P)) (fp12_multiply_with_line_equal lb ch xi0 f Q0 P) (fun o => hcarrieds o (enc (wmul x (tang A T')))) (fun rho o => oks (cells o) rho)).
Proof.
  intros f s Q0 Q1 P x y A B T' Hx. pose proof (hcarrieds_good _ _ _ _ _ Hx) as Gf. change (Forall good (cells f)) in Gf. pose proof (hl _ _ Hx) as Kf. split; [intros Hy E|intros HA HB' HT].
  - destruct (hss _ _ Hy E) as [Ks Gs]. assert (GG : Forall good (cells f ++ scells s)) by (apply Forall_app; split; auto). pose proof (hs _ _ Hy) as Ry. pose proof (hv _ _ Hx) as Rx.
    pose proof (W_sparse lb m Hp Hlb Hlb2 Hm1 ch n k HN HK xi0 Hxi1 Hxi Hroom HB f s Kf Ks (cells f ++ scells s) T True ltac:(apply incl_appl, incl_refl) ltac:(apply incl_appr, incl_refl) ltac:(intros _ _; exists x, y; auto)) as H. cmp H.
    intros o ((Lo & Ko) & Go & R). apply vh; auto.
  - destruct (hgs _ _ HA) as [K0 G0], (hgs _ _ HB') as [K1 G1], (hps _ _ HT) as [KP GP]. pose proof (hg _ _ HA) as RA. pose proof (hg _ _ HB') as RB. pose proof (hp _ _ HT) as RT. pose proof (hv _ _ Hx) as Rx. split.
    + assert (GG : Forall good (cells f ++ gcells Q0 ++ gcells Q1 ++ pcells P)) by (repeat (apply Forall_app; split; auto)).
      pose proof (W_line_unequal lb m Hp Hlb Hlb2 Hm1 ch n k HN HK xi0 Hxi1 Hxi Hroom HB (cells f ++ gcells Q0 ++ gcells Q1 ++ pcells P) T True f Q0 Q1 P ltac:(apply incl_appl, incl_refl) ltac:(apply incl_appr, incl_appl, incl_refl) ltac:(apply incl_appr, incl_appr, incl_appl, incl_refl) ltac:(apply incl_appr, incl_appr, incl_appr, incl_refl) Kf K0 K1 KP ltac:(intros _ _; exists x, A, B, T'; auto)) as H. cmp H.
      intros o ((Lo & Ko) & Go & R). apply vh; auto.
    + assert (GG : Forall good (cells f ++ gcells Q0 ++ pcells P)) by (repeat (apply Forall_app; split; auto)).
      pose proof (W_line_equal lb m Hp Hlb Hlb2 Hm1 ch n k HN HK xi0 Hxi1 Hxi Hroom HB (cells f ++ gcells Q0 ++ pcells P) T True f Q0 P ltac:(apply incl_appl, incl_refl) ltac:(apply incl_appr, incl_appl, incl_refl) ltac:(apply incl_appr, incl_appr, incl_refl) Kf K0 KP ltac:(intros _ _; exists x, A, T'; auto)) as H. cmp H.
      intros o ((Lo & Ko) & Go & R). apply vh; auto.
Qed.
(** the curve operations over Fp2 the Miller loop uses ([hint2]: the honest prover's quotients) *)
Let il {A} (x y : list A) : incl x (x ++ y). Proof. apply incl_appl, incl_refl. Qed.
Let ir {A} (x y : list A) : incl y (x ++ y). Proof. apply incl_appr, incl_refl. Qed.
Notation frobenius Q := (bind (load_c2_c3 m ch ftab) (fun cs => twisted_frobenius lb ch Q (fst cs) (Datatypes.snd cs))).
Notation neg_frobenius Q := (bind (load_c2_c3 m ch ftab) (fun cs => neg_twisted_frobenius lb ch Q (fst cs) (Datatypes.snd cs))).
Notation wpow x e := (npow (w6_1 (m:=m)) wmul x e).
(** [B] is the image of [A] under the [q]-power Frobenius endomorphism of E(Fp12) *)
Definition is_frob (A B : pt2) : Prop := twist xi0 B = (wpow (fst (twist xi0 A)) q, wpow (Datatypes.snd (twist xi0 A)) q).
Let Htab' : forall j : nat, (j < 12)%nat -> nth_error ftab j = Some (gam (m:=m) xi0 j). Proof. exact Htab. Qed.
Notation g1 := (gam (m:=m) xi0 1).
Add Ring X2rf : (x2_ring (m:=m)).
Lemma H_frob L (Hon : Prop) (Q : g2pt) : incl (gcells Q) L -> gshape Q -> (Hon -> zcap (p:=p) n k) -> (Hon -> exists A : pt2, gred m n True hval Q A) ->
  hcalc lb L T Hon (frobenius Q) gshape (fun e o => forall h (A : pt2), gred m n h e Q A -> gred m n h e o (pt_frob xi0 A)) gcells /\
  hcalc lb L T Hon (neg_frobenius Q) gshape (fun e o => forall h (A : pt2), gred m n h e Q A -> gred m n h e o (pt_neg (pt_frob xi0 A))) gcells.
Proof.
  intros CQ KQ HZ HH. split.
  - eapply h_bind; [exact (W_load lb m Hp Hlb Hlb2 Hm1 ch n k HN HK xi0 HB ftab Htab' L T Hon)|]. cbv beta. intros c23 [K2 K3].
    eapply h_post; [eapply (G_frob lb m Hp Hlb Hlb2 Hm1 ch n k HN HK xi0 Hxi Hroom HB _ _ Hon Q (fst c23) (Datatypes.snd c23) (x2_mul g1 g1) (x2_mul (x2_mul g1 g1) g1))| | |]; auto.
    + apply incl_appr, CQ.
    + intros x Hx. apply in_or_app. left. apply in_or_app. auto.
    + intros x Hx. apply in_or_app. left. apply in_or_app. auto.
    + intros e [_ R]. exact R.
  - eapply h_bind; [exact (W_load lb m Hp Hlb Hlb2 Hm1 ch n k HN HK xi0 HB ftab Htab' L T Hon)|]. cbv beta. intros c23 [K2 K3].
    eapply h_post; [eapply (G_neg_frob lb m Hp Hlb Hlb2 Hm1 ch n k HN HK xi0 Hxi Hroom HB _ _ Hon Q (fst c23) (Datatypes.snd c23) (x2_mul g1 g1) (x2_mul (x2_mul g1 g1) g1))| | |]; auto.
    + apply incl_appr, CQ.
    + intros x Hx. apply in_or_app. left. apply in_or_app. auto.
    + intros x Hx. apply in_or_app. left. apply in_or_app. auto.
    + intros e [_ R]. exact R.
    + cbv beta. intros e o _ _ R h A HA. specialize (R h A HA). assert (E : x2_mul (x2_mul (x2_mul g1 g1) g1) (x2_opp (x2_conj (Datatypes.snd A))) = x2_opp (x2_mul (x2_mul (x2_mul g1 g1) g1) (x2_conj (Datatypes.snd A)))) by ring. rewrite E in R. exact R.
Qed.
Let frob_is A : is_frob A (pt_frob xi0 A). Proof. exact (twist_frob xi0 Hm H3 H6 A). Qed.
Theorem C79_twist_sound : forall (Q0 Q1 : g2pt), gshape Q0 -> gshape Q1 ->
  sound lb (g2_double lb m ch hint2 Q0) gshape (fun sg o => forall A S, gcarried (avs sg) Q0 A -> pt_dbl A = Some S -> gcarried (avs sg) o S) /\
  sound lb (g2_add_unequal lb m ch hint2 Q0 Q1) gshape (fun sg o => forall A B S, gcarried (avs sg) Q0 A -> gcarried (avs sg) Q1 B -> pt_add A B = Some S -> gcarried (avs sg) o S) /\
  sound lb (g2_negate lb ch Q0) gshape (fun sg o => forall A, gcarried (avs sg) Q0 A -> gcarried (avs sg) o (pt_neg A)) /\
  sound lb (frobenius Q0) gshape (fun sg o => forall A, gcarried (avs sg) Q0 A -> exists B, is_frob A B /\ gcarried (avs sg) o B) /\
  sound lb (neg_frobenius Q0) gshape (fun sg o => forall A, gcarried (avs sg) Q0 A -> exists B, is_frob A B /\ gcarried (avs sg) o (pt_neg B)).
Proof.
  intros Q0 Q1 K0 K1. split; [|split; [|split; [|split]]].
  - pose proof (G_double lb m Hp Hlb Hlb2 Hm1 ch n k HN HK xi0 Hxi Hroom HB hint2 Hm H3 H6 Hh2 (gcells Q0) T False Q0 (incl_refl _) K0 ltac:(intros [])) as H. snd H.
    intros sg o _ R A S HA E. eapply gc, (R False); eauto.
  - pose proof (G_add lb m Hp Hlb Hlb2 Hm1 ch n k HN HK xi0 Hxi Hroom HB hint2 Hm H3 Hh2 (gcells Q0 ++ gcells Q1) T False Q0 Q1 (il _ _) (ir _ _) K0 K1 ltac:(intros [])) as H. snd H.
    intros sg o _ R A B S HA HB' E. eapply gc, (R False); eauto.
  - pose proof (G_negate lb m Hp Hlb Hlb2 Hm1 ch n k HN HK (gcells Q0) T False Q0 (incl_refl _) K0 ltac:(intros []) ltac:(intros [])) as H. snd H.
    intros sg o _ R A HA. eapply gc, (R False); eauto.
  - destruct (H_frob (gcells Q0) False Q0 (incl_refl _) K0 ltac:(intros []) ltac:(intros [])) as [H _]. snd H.
    intros sg o _ R A HA. exists (pt_frob xi0 A). split; auto. eapply gc, (R False); eauto.
  - destruct (H_frob (gcells Q0) False Q0 (incl_refl _) K0 ltac:(intros []) ltac:(intros [])) as [_ H]. snd H.
    intros sg o _ R A HA. exists (pt_frob xi0 A). split; auto. eapply gc, (R False); eauto.
Qed.
Theorem C79_twist_complete : forall (Q0 Q1 : g2pt) (A B S : pt2), zcap (p:=p) n k -> hgcarried Q0 A -> hgcarried Q1 B ->
  (pt_dbl A = Some S -> comp lb (oks (gcells Q0)) (g2_double lb m ch hint2 Q0) (fun o => hgcarried o S) (fun rho o => oks (gcells o) rho)) /\
  (pt_add A B = Some S -> comp lb (oks (gcells Q0 ++ gcells Q1)) (g2_add_unequal lb m ch hint2 Q0 Q1) (fun o => hgcarried o S) (fun rho o => oks (gcells o) rho)) /\
  comp lb (oks (gcells Q0)) (g2_negate lb ch Q0) (fun o => hgcarried o (pt_neg A)) (fun rho o => oks (gcells o) rho) /\
  (is_frob A S -> comp lb (oks (gcells Q0)) (frobenius Q0) (fun o => exists B', is_frob A B' /\ hgcarried o B') (fun rho o => oks (gcells o) rho) /\
                  comp lb (oks (gcells Q0)) (neg_frobenius Q0) (fun o => exists B', is_frob A B' /\ hgcarried o (pt_neg B')) (fun rho o => oks (gcells o) rho)).
Proof.
  intros Q0 Q1 A B S HZ HA HB'. destruct (hgs _ _ HA) as [K0 G0], (hgs _ _ HB') as [K1 G1]. pose proof (hg _ _ HA) as RA. pose proof (hg _ _ HB') as RB. split; [|split; [|split; [|intros _; split]]].
  - intros E. pose proof (G_double lb m Hp Hlb Hlb2 Hm1 ch n k HN HK xi0 Hxi Hroom HB hint2 Hm H3 H6 Hh2 (gcells Q0) T True Q0 (incl_refl _) K0 ltac:(intros _ _; exists A, S; auto)) as H. cmp H.
    intros o (Ko & Go & R). apply gh; auto. eapply (R True); eauto.
  - intros E. pose proof (G_add lb m Hp Hlb Hlb2 Hm1 ch n k HN HK xi0 Hxi Hroom HB hint2 Hm H3 Hh2 (gcells Q0 ++ gcells Q1) T True Q0 Q1 (il _ _) (ir _ _) K0 K1 ltac:(intros _ _; exists A, B, S; auto)) as H. cmp H.
    + apply Forall_app; auto.
    + intros o (Ko & Go & R). apply gh; auto. eapply (R True); eauto.
  - pose proof (G_negate lb m Hp Hlb Hlb2 Hm1 ch n k HN HK (gcells Q0) T True Q0 (incl_refl _) K0 ltac:(auto) ltac:(intros _ _; exists A; auto)) as H. cmp H.
    intros o (Ko & Go & R). apply gh; auto.
  - destruct (H_frob (gcells Q0) True Q0 (incl_refl _) K0 ltac:(auto) ltac:(intros _; exists A; auto)) as [H _]. cmp H.
    intros o (Ko & Go & R). exists (pt_frob xi0 A). split; auto.
  - destruct (H_frob (gcells Q0) True Q0 (incl_refl _) K0 ltac:(auto) ltac:(intros _; exists A; auto)) as [_ H]. cmp H.
    intros o (Ko & Go & R). exists (pt_frob xi0 A). split; auto.
Qed.

(** ** C80: the Miller loops. [digits naf]: the digits from the most significant non-zero one down *)
Notation digits naf := (drop_zeros (rev naf)).
Definition naf_ok (naf : list Z) : Prop := Forall (fun d => -1 <= d <= 1) naf /\ (2 <= length (digits naf))%nat.
Notation mill Q P naf := (miller_loop_BN lb m ch xi0 ftab hint2 Q P naf).
Notation multi pairs naf := (multi_miller_loop_BN lb m ch xi0 ftab hint2 pairs naf).
Notation cells2 := (fun ab : ecpt * g2pt => pcells (fst ab) ++ gcells (Datatypes.snd ab)).
Theorem C80_miller_sound : forall (Q : g2pt) (P : ecpt) (naf : list Z), gshape Q -> pshape P ->
  sound lb (mill Q P naf) shape12 (fun sg o => forall A T w, gcarried (avs sg) Q A -> pcarried (avs sg) P T -> miller xi0 A T (digits naf) = Some w -> carrieds (avs sg) o (enc w)).
Proof.
  intros Q P naf KQ KP. pose proof (W_miller lb m Hp Hlb Hlb2 Hm1 ch n k HN HK xi0 Hxi1 Hxi Hroom HB hint2 ftab Hm H3 H6 Htab' Hh2 (gcells Q ++ pcells P) T False Q P naf (il _ _) (ir _ _) KQ KP ltac:(intros []) ltac:(intros []) ltac:(intros [])) as H. snd H.
  intros sg o _ R A T' w HA HT E. eapply vc, (R False); eauto.
Qed.
Theorem C80_miller_complete : forall (Q : g2pt) (P : ecpt) (naf : list Z) (A : pt2) (T' : F m * F m) (w : w6), zcap (p:=p) n k -> naf_ok naf -> hgcarried Q A -> hpcarried P T' -> miller xi0 A T' (digits naf) = Some w ->
  comp lb (oks (gcells Q ++ pcells P)) (mill Q P naf) (fun o => hcarrieds o (enc w)) (fun rho o => oks (cells o) rho).
Proof.
  intros Q P naf A T' w HZ HD HA HT E. destruct (hgs _ _ HA) as [KQ GQ], (hps _ _ HT) as [KP GP]. pose proof (hg _ _ HA) as RA. pose proof (hp _ _ HT) as RT.
  pose proof (W_miller lb m Hp Hlb Hlb2 Hm1 ch n k HN HK xi0 Hxi1 Hxi Hroom HB hint2 ftab Hm H3 H6 Htab' Hh2 (gcells Q ++ pcells P) T True Q P naf (il _ _) (ir _ _) KQ KP ltac:(auto) ltac:(intros _; exact HD) ltac:(intros _ _; exists A, T', w; auto)) as H. cmp H.
  - apply Forall_app; auto.
  - intros o ((Lo & Ko) & Go & R). apply vh; auto. eapply (R True); eauto.
Qed.
Theorem C80_multi_sound : forall (pairs : list (ecpt * g2pt)) (naf : list Z), Forall (fun ab => pshape (fst ab) /\ gshape (Datatypes.snd ab)) pairs ->
  sound lb (multi pairs naf) shape12 (fun sg o => forall pv w, Forall2 (fun ab ta => pcarried (avs sg) (fst ab) (fst ta) /\ gcarried (avs sg) (Datatypes.snd ab) (Datatypes.snd ta)) pairs pv ->
    millers xi0 pv (digits naf) = Some w -> carrieds (avs sg) o (enc w)).
Proof.
  intros pairs naf KP. pose proof (W_multi lb m Hp Hlb Hlb2 Hm1 ch n k HN HK xi0 Hxi1 Hxi Hroom HB hint2 ftab Hm H3 H6 Htab' Hh2 (flat_map cells2 pairs) T False pairs naf
     ltac:(intros ab Hab x Hx; apply in_flat_map; exists ab; split; auto) KP ltac:(intros []) ltac:(intros []) ltac:(intros []) ltac:(intros [])) as H. snd H.
  intros sg o _ R pv w HV E. eapply vc, (R False); eauto. revert HV. apply F2_impl. intros ab ta [X Y]. split; auto.
Qed.
Theorem C80_multi_complete : forall (pairs : list (ecpt * g2pt)) (naf : list Z) pv w, zcap (p:=p) n k -> naf_ok naf -> hd 0 (digits naf) = 1 -> pairs <> [] ->
  Forall2 (fun ab ta => hpcarried (fst ab) (fst ta) /\ hgcarried (Datatypes.snd ab) (Datatypes.snd ta)) pairs pv -> millers xi0 pv (digits naf) = Some w ->
  comp lb (oks (flat_map cells2 pairs)) (multi pairs naf) (fun o => hcarrieds o (enc w)) (fun rho o => oks (cells o) rho).
Proof.
  intros pairs naf pv w HZ [HD HD2] Hd NE HV E.
  assert (KP : Forall (fun ab => pshape (fst ab) /\ gshape (Datatypes.snd ab)) pairs /\ Forall good (flat_map cells2 pairs)).
  { clear - HV hgs hps. induction HV as [|ab ta pairs pv [X Y] HV [I1 I2]]; [split; constructor|]. destruct (hps _ _ X), (hgs _ _ Y). split; [constructor; auto|]. cbn [flat_map]. apply Forall_app. split; auto. apply Forall_app; auto. }
  destruct KP as [KP GP].
  assert (RV : Forall2 (PairOps5.prel m n True hval) pairs pv). { revert HV. apply F2_impl. intros ab ta [X Y]. split; auto. }
  pose proof (W_multi lb m Hp Hlb Hlb2 Hm1 ch n k HN HK xi0 Hxi1 Hxi Hroom HB hint2 ftab Hm H3 H6 Htab' Hh2 (flat_map cells2 pairs) T True pairs naf
     ltac:(intros ab Hab x Hx; apply in_flat_map; exists ab; split; auto) KP ltac:(auto) ltac:(intros _; split; [exact HD|split; [exact HD2|exact Hd]]) ltac:(auto) ltac:(intros _ _; exists pv, w; auto)) as H. cmp H.
  intros o ((Lo & Ko) & Go & R). apply vh; auto. eapply (R True); eauto.
Qed.
(** what is multiplied is never 0 *)
Theorem C80_miller_nonzero : forall (A : pt2) (X Y : F m) (ds : list Z) (w : w6), Y <> F0 -> miller xi0 A (X, Y) ds = Some w ->
  (** the last line joins points with different x *)
  (forall d ds' f R R', ds = d :: ds' -> miller_iters xi0 A (X, Y) (w6_1, signed d A) ds' = Some (f, R) -> pt_add R (pt_frob xi0 A) = Some R' -> fst R' <> fst (pt_frob xi0 (pt_frob xi0 A))) -> w <> w6_0.
Proof. exact (miller_n0 xi0 Hm H3 H6 Hz6). Qed.

(** ** C81: the pairing and the pairing check on a BN curve *)
Context (bx : Z) (Hbx : 0 < bx <= 2 ^ 63) (Hq : Z.pos m = 36 * bx ^ 4 + 36 * bx ^ 3 + 24 * bx ^ 2 + 6 * bx + 1).
Context (naf : list Z).
Notation r := (Z.to_N (group_order bx)).
Notation EXP := ((q ^ 12 - 1) / r)%N.
Notation EASY := ((q ^ 6 - 1) * (q ^ 2 + 1))%N.
Notation prng Q P := (pairing lb m ch xi0 ftab hint2 hint12 naf bx Q P).
Notation check Q P T S := (pairing_check lb m ch xi0 ftab hint2 hint12 naf bx Q P T S).
Notation decs w := (forall j, (1 <= j <= (Z.to_N bx + 1) * Z.to_N bx * Z.to_N bx)%N -> decompressible m ((w ^^ EASY) ^^ j)).
Let exps : exists l, (r * l = q ^ 4 - q ^ 2 + 1)%N /\ (EXP * r = q ^ 12 - 1)%N /\ (EXP = l * ((q ^ 2 + 1) * (q ^ 6 - 1)))%N.
Proof.
  destruct (HA_eq lb m Hlb Hlb2 Hm1 n k xi0 HB bx ltac:(lia) Hq) as (l & _ & E2). change (Z.to_N (bn_rpoly bx)) with r in E2. exists l. split; [exact E2|].
  assert (RZ : r <> 0%N).
  { intros E0. rewrite E0 in E2. pose proof (PHI_q2 (m:=m)) as E. change (0 * l)%N with 0%N in E2. rewrite <- E2 in E. assert (G : (q ^ 2 <= q ^ 4)%N) by (apply N.pow_le_mono_r; lia). generalize dependent (q ^ 4)%N. generalize dependent (q ^ 2)%N. clear. intros; lia. }
  assert (X : (EXP = l * ((q ^ 2 + 1) * (q ^ 6 - 1)))%N). { rewrite <- (PHI_q12 (m:=m)), <- E2. replace (r * l * (q ^ 2 + 1) * (q ^ 6 - 1))%N with (l * ((q ^ 2 + 1) * (q ^ 6 - 1)) * r)%N by ring. now apply N.div_mul. }
  split; [|exact X]. rewrite X, <- (PHI_q12 (m:=m)), <- E2. ring.
Qed.
Theorem C81_pairing_sound : forall (Q : g2pt) (P : ecpt), gshape Q -> pshape P -> prime (group_order bx) ->
  sound lb (prng Q P) shape12 (fun sg o => forall A T w, gcarried (avs sg) Q A -> pcarried (avs sg) P T -> miller xi0 A T (digits naf) = Some w -> w <> w6_0 ->
    (w ^^ EXP <> w6_1 -> carrieds (avs sg) o (enc (w ^^ EXP))) /\ (carrieds (avs sg) o (enc w6_1) -> w ^^ EXP = w6_1)).
Proof.
  intros Q P KQ KP Pr. unfold pairing. eapply sound_bind; [exact (C80_miller_sound Q P naf KQ KP)|]. cbv beta. intros f [Lf Kf].
  eapply sound_weaken; [exact (C78_final_exp_sound p m lb Hp Hlb Hlb2 Hm n k ch HN HK xi0 Hxi1 Hxi Hroom HB H3' H6 Hz6 ftab Htab bx Hbx Hq f Lf Kf Pr)|auto|]. cbv beta.
  intros sg o _ R RM A T' w HA HT E N. apply R; auto. eapply RM; eauto.
Qed.
Theorem C81_pairing_complete : forall (Q : g2pt) (P : ecpt) (A : pt2) (T' : F m * F m) (w : w6), zcap (p:=p) n k -> naf_ok naf -> hgcarried Q A -> hpcarried P T' -> miller xi0 A T' (digits naf) = Some w -> w <> w6_0 -> decs w ->
  comp lb (oks (gcells Q ++ pcells P)) (prng Q P) (fun o => hcarrieds o (enc (w ^^ EXP))) (fun rho o => oks (cells o) rho).
Proof.
  intros Q P A T' w HZ HD HA HT E N D. unfold pairing. eapply comp_bind; [exact (C80_miller_complete Q P naf A T' w HZ HD HA HT E)|auto|]. cbv beta. intros f Hf.
  eapply comp_weaken; [exact (C78_final_exp_complete p m lb Hp Hlb Hlb2 Hm n k ch HN HK xi0 Hxi1 Hxi Hroom HB H3' H6 Hz6 ftab Htab bx Hbx Hq f w HZ Hf N D)| | |]; cbv beta; auto. intros rho [_ X]. exact X.
Qed.
Let negP (P : ecpt) : pshape P -> sound lb (ecc_negate lb ch P) pshape (fun sg o => forall T, pcarried (avs sg) P T -> pcarried (avs sg) o (neg1 T)).
Proof.
  intros KP. pose proof (l_negate lb m Hp Hlb Hlb2 Hm1 ch n k HN HK (pcells P) T False P (incl_refl _) KP ltac:(intros []) ltac:(intros [])) as H. snd H.
  intros sg o _ R T' HT. destruct (R False _ _ (cp _ _ _ HT)) as [X Y]. split; eapply fred_carried; eauto.
Qed.
Let hnegP (P : ecpt) T' : zcap (p:=p) n k -> hpcarried P T' -> comp lb (oks (pcells P)) (ecc_negate lb ch P) (fun o => hpcarried o (neg1 T')) (fun rho o => oks (pcells o) rho).
Proof.
  intros HZ HT. destruct (hps _ _ HT) as [KP GP]. pose proof (hp _ _ HT) as RT.
  pose proof (l_negate lb m Hp Hlb Hlb2 Hm1 ch n k HN HK (pcells P) T True P (incl_refl _) KP ltac:(auto) ltac:(intros _ _; exists (fst T'), (Datatypes.snd T'); exact RT)) as H. cmp H.
  intros o ((K1 & K2) & Go & R). destruct (R True _ _ RT) as [X Y]. apply Forall_app in Go as [G1 G2]. split; apply fred_hcarried; auto.
Qed.
Let Eeven1 (x y w' : w6) : x <> w6_0 -> pm w' (x ^^ (q ^ 6)) -> (wmul w' y ^^ EXP = w6_1 <-> x ^^ EXP = y ^^ EXP).
Proof.
  intros N H. destruct exps as (l & El & Er & EE). pose proof (neg_inverts xi0 Hm H3 H6 Hz6 x w' r l EXP El Er EE N H) as I. pose proof (w6_ring (m:=m) xi0) as WR. rewrite (npow_base _ _ _ _ _ _ WR). set (a := w' ^^ EXP) in *. set (b := x ^^ EXP) in *. set (c := y ^^ EXP) in *. clearbody a b c.
  split; [intros E|intros <-; exact I]. transitivity (wmul b (wmul a c)); [rewrite E, (Rmul_comm WR); symmetry; apply (Rmul_1_l WR)|]. rewrite (Rmul_assoc WR), (Rmul_comm WR b a), I. apply (Rmul_1_l WR).
Qed.
(** the check accepts only equal pairings [e(A, P) = e(B, S)], [e(A, P) = miller(A, P)^((q^12 - 1)/r)] *)
Add Ring W6rp : (w6_ring (m:=m) xi0).
Theorem C81_check_sound : forall (Q : g2pt) (P : ecpt) (Q' : g2pt) (P' : ecpt), gshape Q -> pshape P -> gshape Q' -> pshape P' -> prime (group_order bx) ->
  sound lb (check Q P Q' P') (fun _ => True) (fun sg _ => forall A T B S w1 w2, gcarried (avs sg) Q A -> pcarried (avs sg) P T -> gcarried (avs sg) Q' B -> pcarried (avs sg) P' S ->
    miller xi0 A T (digits naf) = Some w1 -> miller xi0 B S (digits naf) = Some w2 -> w1 <> w6_0 -> w2 <> w6_0 -> w1 ^^ EXP = w2 ^^ EXP).
Proof.
  intros Q P Q' P' KQ KP KQ' KP' Pr. unfold pairing_check.
  eapply sound_bind; [exact (negP P KP)|]. cbv beta. intros nP KnP.
  assert (K2 : Forall (fun ab : ecpt * g2pt => pshape (fst ab) /\ gshape (Datatypes.snd ab)) [(nP, Q); (P', Q')]) by (constructor; [split; assumption|constructor; [split; assumption|constructor]]).
  eapply sound_bind; [exact (C80_multi_sound [(nP, Q); (P', Q')] naf K2)|]. cbv beta. intros f [Lf Kf].
  eapply sound_bind; [exact (C78_final_exp_sound p m lb Hp Hlb Hlb2 Hm n k ch HN HK xi0 Hxi1 Hxi Hroom HB H3' H6 Hz6 ftab Htab bx Hbx Hq f Lf Kf Pr)|]. cbv beta. intros g [Lg Kg].
  eapply sound_bind; [exact (proj1 (proj2 (proj2 (C72_load p m lb Hp Hlb Hlb2 Hm n k ch HN HK (x12_1 (m:=m))))))|]. cbv beta. intros one [L1 K1].
  eapply sound_weaken; [exact (proj1 (proj2 (proj2 (proj2 (C72_tests_sound p m lb Hp Hlb Hlb2 Hm n k ch HN HK g one Kg K1)))))|auto|]. cbv beta.
  intros sg o _ RE R1 RF RM RN A T' B S w1 w2 HA HT HB' HS E1 E2 N1 N2.
  destruct (miller_neg xi0 Hm H3 H6 Hz6 A T' (digits naf) w1 E1) as (w1' & E1' & PM).
  assert (EM : millers xi0 [(neg1 T', A); (S, B)] (digits naf) = Some (wmul w1' w2)). { cbn [millers]. rewrite E1', E2. f_equal. ring. }
  assert (RM' : carrieds (avs sg) f (enc (wmul w1' w2))).
  { apply (RM [(neg1 T', A); (S, B)] _); [|exact EM]. constructor; [split; [apply RN; exact HT|exact HA]|constructor; [split; [exact HS|exact HB']|constructor]]. }
  assert (NP : wmul w1' w2 <> w6_0).
  { apply (w6_no_zero_div xi0 Hm H3 H6 Hz6); auto. apply (pm_n0 xi0 _ _ PM). now apply (npow_n0 xi0 Hm H3 H6 Hz6). }
  destruct (RF _ RM' NP) as [RF1 _].
  assert (C1 : carrieds (avs sg) one (enc w6_1)).
  { rewrite enc_1. revert R1. apply F2_impl. intros c v Hc. exists (val v). pose proof (val_bounds m v). split; [exact Hc|split; [lia|apply of_Z_val]]. }
  apply (Eeven1 w1 w2 w1' N1 PM).
  destruct (list_eq_dec (F_dec m) (enc (wmul w1' w2 ^^ EXP)) (enc w6_1)) as [X|X]; [now apply enc_inj in X|].
  assert (NX : wmul w1' w2 ^^ EXP <> w6_1) by (intros Y; apply X; now rewrite Y).
  destruct (RE _ _ (RF1 NX) C1) as [_ Y]. elim X. apply Y. rewrite Lg, L1. reflexivity.
Qed.
(** and the honest prover passes whenever the pairings are equal *)
Theorem C81_check_complete : forall (Q : g2pt) (P : ecpt) (Q' : g2pt) (P' : ecpt) (A B : pt2) (T1 T2 : F m * F m) (w1 w2 : w6), zcap (p:=p) n k -> naf_ok naf -> hd 0 (digits naf) = 1 ->
  hgcarried Q A -> hpcarried P T1 -> hgcarried Q' B -> hpcarried P' T2 -> miller xi0 A T1 (digits naf) = Some w1 -> miller xi0 B T2 (digits naf) = Some w2 -> w1 <> w6_0 -> w2 <> w6_0 ->
  (forall w1', miller xi0 A (neg1 T1) (digits naf) = Some w1' -> decs (wmul w1' w2)) -> w1 ^^ EXP = w2 ^^ EXP ->
  comp lb (oks (gcells Q ++ pcells P ++ gcells Q' ++ pcells P')) (check Q P Q' P') (fun _ => True) (fun _ _ => True).
Proof.
  intros Q P Q' P' A B T1 T2 w1 w2 HZ HD Hd HA HT HB' HS E1 E2 N1 N2 D EQ. unfold pairing_check.
  destruct (miller_neg xi0 Hm H3 H6 Hz6 A T1 (digits naf) w1 E1) as (w1' & E1' & PM). specialize (D w1' E1').
  assert (EM : millers xi0 [(neg1 T1, A); (T2, B)] (digits naf) = Some (wmul w1' w2)). { cbn [millers]. rewrite E1', E2. f_equal. ring. }
  assert (NP : wmul w1' w2 <> w6_0). { apply (w6_no_zero_div xi0 Hm H3 H6 Hz6); auto. apply (pm_n0 xi0 _ _ PM). now apply (npow_n0 xi0 Hm H3 H6 Hz6). }
  assert (W1 : wmul w1' w2 ^^ EXP = w6_1) by now apply (Eeven1 w1 w2 w1' N1 PM).
  eapply comp_bind; [exact (hnegP P T1 HZ HT)| |].
  { cbv beta. intros rho G. apply Forall_app in G as [_ G]. apply Forall_app in G as [G _]. exact G. }
  cbv beta. intros nP HnP.
  assert (HV : Forall2 (fun (ab : ecpt * g2pt) ta => hpcarried (fst ab) (fst ta) /\ hgcarried (Datatypes.snd ab) (Datatypes.snd ta)) [(nP, Q); (P', Q')] [(neg1 T1, A); (T2, B)]).
  { constructor; [split; assumption|constructor; [split; assumption|constructor]]. }
  eapply comp_bind; [exact (C80_multi_complete [(nP, Q); (P', Q')] naf _ _ HZ HD Hd ltac:(discriminate) HV EM)| |].
  { cbv beta. intros rho [G Gn]. apply Forall_app in G as [G1 G]. apply Forall_app in G as [G2 G]. apply Forall_app in G as [G3 G4]. cbn [flat_map fst Datatypes.snd]. apply Forall_app; split; [apply Forall_app; split; assumption|]. apply Forall_app; split; [apply Forall_app; split; assumption|constructor]. }
  cbv beta. intros f Hf.
  eapply comp_bind; [exact (C78_final_exp_complete p m lb Hp Hlb Hlb2 Hm n k ch HN HK xi0 Hxi1 Hxi Hroom HB H3' H6 Hz6 ftab Htab bx Hbx Hq f _ HZ Hf NP D)| |]; cbv beta.
  { intros rho [_ X]. exact X. }
  intros g Hg. rewrite W1 in Hg.
  eapply comp_bind; [exact (proj2 (proj2 (proj2 (proj2 (proj2 (C72_load p m lb Hp Hlb Hlb2 Hm n k ch HN HK (x12_1 (m:=m))))))))|cbv beta; auto|]. cbv beta. intros one H1'.
  assert (NG : g <> []) by (intros ->; inversion Hg). assert (LG : length g = length one) by (rewrite (hcarrieds_len _ _ _ _ _ Hg), (hcarrieds_len _ _ _ _ _ H1'); reflexivity).
  eapply comp_weaken; [exact (proj2 (proj2 (proj2 (C72_tests_complete p m lb Hp Hlb Hlb2 Hm n k ch HN HK g one _ _ NG LG HZ Hg H1'))) eq_refl)| | |]; cbv beta; auto.
  intros rho [[_ X] Y]. apply Forall_app; auto.
Qed.

(** ** C82: the BLS verification equation [e(sig, g1) = e(msg, pk)] *)
Notation bls g1 sig pk msg := (bls_verify lb m ch xi0 ftab hint2 hint12 naf bx g1 sig pk msg).
Let w6_dec (x y : w6) : {x = y} + {x <> y}.
Proof. destruct (list_eq_dec (F_dec m) (enc x) (enc y)) as [E|E]; [left; now apply enc_inj|right; intros ->; now apply E]. Qed.
Let eqs_false (u v : list (F m)) : u <> v -> eqs m u v = false. Proof. intros N. destruct (eqs m u v) eqn:E; [|reflexivity]. now apply (eqs_eq m lb Hlb) in E. Qed.
(** the output is 1 only if the equation holds, and 0 if it does not *)
Theorem C82_bls_sound : forall (g1 : ecpt) (sig : g2pt) (pk : ecpt) (msg : g2pt), pshape g1 -> gshape sig -> pshape pk -> gshape msg -> prime (group_order bx) ->
  sound lb (bls g1 sig pk msg) (fun _ => True) (fun sg o => forall G A K B w1 w2, pcarried (avs sg) g1 G -> gcarried (avs sg) sig A -> pcarried (avs sg) pk K -> gcarried (avs sg) msg B ->
    miller xi0 A G (digits naf) = Some w1 -> miller xi0 B K (digits naf) = Some w2 -> w1 <> w6_0 -> w2 <> w6_0 ->
    (avs sg o = F1 -> w1 ^^ EXP = w2 ^^ EXP) /\ (w1 ^^ EXP <> w2 ^^ EXP -> avs sg o = F0)).
Proof.
  intros g1 sig pk msg KG KA KK KB Pr. unfold bls_verify.
  eapply sound_bind; [exact (proj1 (proj2 (proj2 (C79_twist_sound sig sig KA KA))))|]. cbv beta. intros ns Kns.
  assert (K2 : Forall (fun ab : ecpt * g2pt => pshape (fst ab) /\ gshape (Datatypes.snd ab)) [(g1, ns); (pk, msg)]) by (constructor; [split; assumption|constructor; [split; assumption|constructor]]).
  eapply sound_bind; [exact (C80_multi_sound [(g1, ns); (pk, msg)] naf K2)|]. cbv beta. intros f [Lf Kf].
  eapply sound_bind; [exact (C78_final_exp_sound p m lb Hp Hlb Hlb2 Hm n k ch HN HK xi0 Hxi1 Hxi Hroom HB H3' H6 Hz6 ftab Htab bx Hbx Hq f Lf Kf Pr)|]. cbv beta. intros g [Lg Kg].
  eapply sound_bind; [exact (proj1 (proj2 (proj2 (C72_load p m lb Hp Hlb Hlb2 Hm n k ch HN HK (x12_1 (m:=m))))))|]. cbv beta. intros one [L1 K1].
  eapply sound_weaken; [exact (proj1 (proj2 (C72_tests_sound p m lb Hp Hlb Hlb2 Hm n k ch HN HK g one Kg K1)))|auto|]. cbv beta.
  intros sg o _ RE R1 RF RM RN G A K B w1 w2 HG HA HK' HB' E1 E2 N1 N2.
  pose proof (miller_negQ xi0 Hm H3 H6 Hz6 A G (digits naf) w1 E1) as E1'. set (w1' := w1 ^^ (q ^ 6)) in *. assert (PM : pm w1' (w1 ^^ (q ^ 6))) by (left; reflexivity). clearbody w1'.
  assert (EM : millers xi0 [(G, pt_neg A); (K, B)] (digits naf) = Some (wmul w1' w2)). { cbn [millers]. rewrite E1', E2. f_equal. ring. }
  assert (RM' : carrieds (avs sg) f (enc (wmul w1' w2))).
  { apply (RM [(G, pt_neg A); (K, B)] _); [|exact EM]. constructor; [split; [exact HG|apply RN; exact HA]|constructor; [split; [exact HK'|exact HB']|constructor]]. }
  assert (NP : wmul w1' w2 <> w6_0).
  { apply (w6_no_zero_div xi0 Hm H3 H6 Hz6); auto. apply (pm_n0 xi0 _ _ PM). now apply (npow_n0 xi0 Hm H3 H6 Hz6). }
  destruct (RF _ RM' NP) as [RF1 _].
  assert (C1 : carrieds (avs sg) one (enc w6_1)).
  { rewrite enc_1. revert R1. apply F2_impl. intros c v Hc. exists (val v). pose proof (val_bounds m v). split; [exact Hc|split; [lia|apply (of_Z_val m)]]. }
  assert (S2 : w1 ^^ EXP <> w2 ^^ EXP -> avs sg o = F0).
  { intros NE. assert (NX : wmul w1' w2 ^^ EXP <> w6_1) by (intros Y; apply NE, (Eeven1 w1 w2 w1' N1 PM); exact Y).
    destruct (RE _ _ (RF1 NX) C1) as (_ & _ & ->). rewrite eqs_false; [reflexivity|]. intros Y. now apply enc_inj in Y. }
  split; [|exact S2]. intros O. destruct (w6_dec (w1 ^^ EXP) (w2 ^^ EXP)) as [Y|Y]; [exact Y|]. rewrite (S2 Y) in O. symmetry in O. now apply (F1_neq_0 p Hp) in O.
Qed.
Theorem C82_bls_complete : forall (g1 : ecpt) (sig : g2pt) (pk : ecpt) (msg : g2pt) (G K : F m * F m) (A B : pt2) (w1 w2 : w6), zcap (p:=p) n k -> naf_ok naf -> hd 0 (digits naf) = 1 ->
  hpcarried g1 G -> hgcarried sig A -> hpcarried pk K -> hgcarried msg B -> miller xi0 A G (digits naf) = Some w1 -> miller xi0 B K (digits naf) = Some w2 -> w1 <> w6_0 -> w2 <> w6_0 ->
  (forall w1', miller xi0 (pt_neg A) G (digits naf) = Some w1' -> decs (wmul w1' w2)) ->
  comp lb (oks (pcells g1 ++ gcells sig ++ pcells pk ++ gcells msg)) (bls g1 sig pk msg)
    (fun o => good o /\ (w1 ^^ EXP = w2 ^^ EXP -> hval o = F1) /\ (w1 ^^ EXP <> w2 ^^ EXP -> hval o = F0)) (fun rho o => av_ok rho o).
Proof.
  intros g1 sig pk msg G K A B w1 w2 HZ HD Hd HG HA HK' HB' E1 E2 N1 N2 D. unfold bls_verify.
  pose proof (miller_negQ xi0 Hm H3 H6 Hz6 A G (digits naf) w1 E1) as E1'. set (w1' := w1 ^^ (q ^ 6)) in *. assert (PM : pm w1' (w1 ^^ (q ^ 6))) by (left; reflexivity). clearbody w1'. specialize (D w1' E1').
  assert (EM : millers xi0 [(G, pt_neg A); (K, B)] (digits naf) = Some (wmul w1' w2)). { cbn [millers]. rewrite E1', E2. f_equal. ring. }
  assert (NP : wmul w1' w2 <> w6_0). { apply (w6_no_zero_div xi0 Hm H3 H6 Hz6); auto. apply (pm_n0 xi0 _ _ PM). now apply (npow_n0 xi0 Hm H3 H6 Hz6). }
  eapply comp_bind; [exact (proj1 (proj2 (proj2 (C79_twist_complete sig sig A A A HZ HA HA))))| |].
  { cbv beta. intros rho X. apply Forall_app in X as [_ X]. apply Forall_app in X as [X _]. exact X. }
  cbv beta. intros ns Hns.
  assert (HV : Forall2 (fun (ab : ecpt * g2pt) ta => hpcarried (fst ab) (fst ta) /\ hgcarried (Datatypes.snd ab) (Datatypes.snd ta)) [(g1, ns); (pk, msg)] [(G, pt_neg A); (K, B)]).
  { constructor; [split; assumption|constructor; [split; assumption|constructor]]. }
  eapply comp_bind; [exact (C80_multi_complete [(g1, ns); (pk, msg)] naf _ _ HZ HD Hd ltac:(discriminate) HV EM)| |].
  { cbv beta. intros rho [X Gn]. apply Forall_app in X as [X1 X]. apply Forall_app in X as [X2 X]. apply Forall_app in X as [X3 X4]. cbn [flat_map fst Datatypes.snd]. apply Forall_app; split; [apply Forall_app; split; assumption|]. apply Forall_app; split; [apply Forall_app; split; assumption|constructor]. }
  cbv beta. intros f Hf.
  eapply comp_bind; [exact (C78_final_exp_complete p m lb Hp Hlb Hlb2 Hm n k ch HN HK xi0 Hxi1 Hxi Hroom HB H3' H6 Hz6 ftab Htab bx Hbx Hq f _ HZ Hf NP D)| |]; cbv beta.
  { intros rho [_ X]. exact X. }
  intros g Hg.
  eapply comp_bind; [exact (proj2 (proj2 (proj2 (proj2 (proj2 (C72_load p m lb Hp Hlb Hlb2 Hm n k ch HN HK (x12_1 (m:=m))))))))|cbv beta; auto|]. cbv beta. intros one H1'.
  assert (NG : g <> []) by (intros ->; pose proof (hcarrieds_len _ _ _ _ _ Hg) as X; rewrite enc_len in X; discriminate). assert (LG : length g = length one) by (rewrite (hcarrieds_len _ _ _ _ _ Hg), (hcarrieds_len _ _ _ _ _ H1'), enc_len; reflexivity).
  eapply comp_weaken; [exact (proj1 (proj2 (C72_tests_complete p m lb Hp Hlb Hlb2 Hm n k ch HN HK g one _ _ NG LG HZ Hg H1')))| | |]; cbv beta; auto.
  - intros rho [[_ X] Y]. apply Forall_app; auto.
  - intros o [Go Ho]. split; [exact Go|split; intros X; rewrite Ho].
    + apply (Eeven1 w1 w2 w1' N1 PM) in X. rewrite X, enc_1. assert (eqs m x12_1 x12_1 = true) as -> by now apply (eqs_eq m lb Hlb). reflexivity.
    + rewrite eqs_false; [reflexivity|]. rewrite <- enc_1. intros Y. apply enc_inj in Y. apply X, (Eeven1 w1 w2 w1' N1 PM). exact Y.
Qed.
End PairingProps.
