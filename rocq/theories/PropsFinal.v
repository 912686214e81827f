(** Property theorems C76-C78: the Frobenius map, the cyclotomic arithmetic and the final exponentiation of halo2-ecc/src/bn254/final_exp.rs.
    Reading guide: [sound]/[comp] as in PropsGate.v, [carrieds]/[hcarrieds] as in PropsExt.v. An Fp12 value is a tuple [x : w6] of six Fp2 coefficients
    of [1, w, ..., w^5], with the schoolbook product [w6_mul] ([w^6 = xi0 + u]); [enc x] is its list of 12 coordinates in the order of fp12.rs:24-25;
    [x ^^ e] is the [e]-fold product. [q] is the base field's size. *)
From Coq Require Import ZArith NArith Znumtheory Lia List Bool Ring.
From Verif Require Import Field Spec Context ContextProofs Utils Logic Gate GateProofs ChainProofs IPProofs BitProofs PowProofs IPComp Derived Calc CalcH
  Range RangeProofs RangeProofs2 RangeProofs3 BigInt BigSpec BigNum BigPrims BigOps BigSel BigCmp BigSub BigCarry BigMod BigCrtNum BigCrt
  FpChip FpProofs FpProofs2 FpProofs3 FpField FpField2 FpField3 Pocklington Bn254Primes PropsBigInt PropsFp Ecc PropsNaf FieldExt ExtSpec ExtSpec2 ExtProofs ExtProofs2 ExtProofs3 ExtProofs4 ExtProofs5 PropsExt PropsExt2
  RingPow CycSpec FrobSpec Cyclo Fp12Field FinalExp GaussOps FinalProofs FinalProofs2 FinalProofs3 FinalHigh.
Import ListNotations.
Local Open Scope Z_scope.

Section Final.
Context (p m : positive) (lb : nat) (Hp : prime (Z.pos p)) (Hlb : (1 <= lb < 64)%nat) (Hlb2 : (2 * lb <= CAPACITY p)%nat) (Hm : prime (Z.pos m)).
Context (n k : nat) (ch : fpchip p) (HN : fpchip_new m n k = Some ch) (HK : fp_params (p:=p) lb m n k).
Notation vec := (list (crt p)).
Notation carrieds := (carrieds (p:=p) m n).
Notation hcarrieds := (hcarrieds (p:=p) m n k).
Notation vlimbs_eq := (vlimbs_eq (p:=p) k).
Notation W := (2 ^ Z.of_nat (n * k + NUM_BITS p)).
Notation M2 := (2 ^ Z.of_nat (bits (Z.pos m))).
Notation room := (ExtProofs.room (p:=p) lb n k).
Notation lg := (log2_ceil (Z.of_nat k)).
(** [XI_0] and the room its products need *)
Context (xi0 : Z) (Hxi1 : 1 <= Z.abs xi0) (Hxi : - 2 ^ 63 < xi0 < 2 ^ 63 - 1).
Context (Hroom : room (lg + n + n + 9 + Nat.max (log2_ceil (Z.abs xi0)) (log2_ceil (Z.abs (xi0 + 1))) + 1)) (HB : 8 * ((12 * Z.abs xi0 + 12) * (M2 * M2) + 2 * M2) < W).
(** the field: [Fp2Chip::new]'s check, [q = 1 mod 6], and [xi^((q^2-1)/6)] a primitive sixth root of unity *)
Context (H3' : ext_new_ok m = true) (H6 : Z.pos m mod 6 = 1) (Hz6 : primitive6 (m:=m) xi0).
(** halo2curves' table: [FROBENIUS_COEFF_FQ12_C1[j] = xi^((q^j-1)/6)] *)
Context (ftab : list (x2 m)) (Htab : forall j, (j < 12)%nat -> nth_error ftab j = Some (npow x2_1 x2_mul (xi (m:=m) xi0) ((N.pos m ^ N.of_nat j - 1) / 6))).
Notation q := (N.pos m).
Notation w6 := (w6 (m:=m)).
Notation wmul := (w6_mul (m:=m) xi0).
Notation "x ^^ e" := (npow (w6_1 (m:=m)) wmul x e) (at level 30).
Notation hint2 := (quot2 m).
Notation hint12 := (quot12 m xi0).
Let Hm1 : 1 < Z.pos m. Proof. pose proof (prime_ge_2 _ Hm). lia. Qed.
Let HM : Z.pos m < M2. Proof. exact (m_le_M2 lb m Hlb Hlb2 Hm1). Qed.
Let H3 : Z.pos m mod 4 = 3. Proof. pose proof (proj1 (Z.eqb_eq _ _) H3') as E. now rewrite (modulus_correct Hm1) in E. Qed.
Let T : env (p:=p) -> Prop := fun _ => True.
Ltac snd H := eapply sound_weaken; [apply (h_sound lb _ _ _ _ _ H)|cbv beta|cbv beta]; auto.
Ltac cmp H := eapply comp_weaken; [apply (h_comp lb _ _ _ _ _ H)|cbv beta|cbv beta|cbv beta]; auto.
Let Hh2 : forall x y : x2 m, hint2 [fst x; Datatypes.snd x] [fst y; Datatypes.snd y] = [fst (x2_mul x (x2_inv y)); Datatypes.snd (x2_mul x (x2_inv y))].
Proof. intros [] []. reflexivity. Qed.
Let Hh12l : forall u v : list (F m), length u = 12%nat -> length v = 12%nat -> length (hint12 u v) = 12%nat.
Proof. intros u v Hu Hv. unfold quot12. apply x12_mul_length; auto. now apply x12_inv_length. Qed.
Let Hh12 : forall x y : w6, unit12 m xi0 y -> x12_mul xi0 (hint12 (enc x) (enc y)) (enc y) = enc x.
Proof.
  intros x y (z & E). apply (x12_quot' m Hm xi0 H3); try apply enc_len. apply (x12_unit_iff xi0 Hm H3); [apply enc_len|]. exists (enc z). split; [apply enc_len|]. rewrite enc_mul, E. apply enc_1.
Qed.
Let unz (x : w6) : x <> w6_0 -> unit12 m xi0 x. Proof. intros N. exact (w6_field xi0 Hm H3 H6 Hz6 x N). Qed.
(** an Fp12 chip value: 12 coordinates of [k] limbs of [n] bits *)
Notation shape12 := (fun o : vec => length o = 12%nat /\ vlimbs_eq o n).
Let cv e (a : vec) (x : w6) : carrieds e a (enc x) -> wred m n False e a x. Proof. apply carrieds_vred. Qed.
Let vc h e (a : vec) (x : w6) : wred m n h e a x -> carrieds e a (enc x). Proof. apply vred_carrieds. Qed.
Let hv (a : vec) (x : w6) : hcarrieds a (enc x) -> wred m n True hval a x. Proof. apply hcarrieds_vred. exact HM. Qed.
Let vh (a : vec) (x : w6) : Forall good (cells a) -> vlimbs_eq a n -> wred m n True hval a x -> hcarrieds a (enc x). Proof. intros. now apply vred_hcarrieds. Qed.
Let hl (a : vec) (x : w6) : hcarrieds a (enc x) -> ok12 n k a. Proof. intros H. split; [rewrite (hcarrieds_len _ _ _ _ _ H); apply enc_len|exact (hcarrieds_vlimbs _ _ _ _ _ H)]. Qed.

Lemma carrieds_fun e (a : vec) u v : carrieds e a u -> carrieds e a v -> u = v.
Proof.
  intros Hu. revert v. induction Hu as [|c x a u (z & Z1 & _ & <-) Hu IH]; intros v Hv; inversion Hv as [|? y ? v' (z' & Z1' & _ & <-) Hv']; subst; [reflexivity|].
  f_equal; auto. destruct Z1 as (_ & _ & -> & _), Z1' as (_ & _ & -> & _). reflexivity.
Qed.

(** ** C76: the Frobenius map *)
Notation frob a j := (frobenius_map lb m ch ftab a j).
Theorem C76_frobenius_sound : forall (a : vec) (j : nat), length a = 12%nat -> vlimbs_eq a n ->
  sound lb (frob a j) shape12 (fun sg o => forall x, carrieds (avs sg) a (enc x) -> carrieds (avs sg) o (enc (x ^^ (q ^ N.of_nat j)))).
Proof.
  intros a j La Ka. pose proof (W_frob lb m Hp Hlb Hlb2 Hm1 ch n k HN HK xi0 Hxi1 Hxi Hroom HB ftab Hm H3 H6 Htab Hz6 (cells a) T False a j (incl_refl _) (conj La Ka) ltac:(intros []) ltac:(intros [])) as H. snd H.
  intros sg o _ R x Hx. eapply vc, (R False). auto.
Qed.
Theorem C76_frobenius_complete : forall (a : vec) (j : nat) (x : w6), zcap (p:=p) n k -> hcarrieds a (enc x) ->
  comp lb (oks (cells a)) (frob a j) (fun o => hcarrieds o (enc (x ^^ (q ^ N.of_nat j)))) (fun rho o => oks (cells o) rho).
Proof.
  intros a j x HZ Hx. pose proof (hcarrieds_good _ _ _ _ _ Hx) as Ga.
  pose proof (W_frob lb m Hp Hlb Hlb2 Hm1 ch n k HN HK xi0 Hxi1 Hxi Hroom HB ftab Hm H3 H6 Htab Hz6 (cells a) T True a j (incl_refl _) (hl a x Hx) ltac:(auto) ltac:(intros _ _; exists x; auto)) as H. cmp H.
  intros o ((Lo & Ko) & Go & R). apply vh; auto.
Qed.
(** the conjugation of Fp12Chip is the sixth power of it *)
Theorem C76_conjugate : forall (a : vec), length a = 12%nat -> vlimbs_eq a n ->
  sound lb (fp12_conjugate lb ch a) shape12 (fun sg o => forall x, carrieds (avs sg) a (enc x) -> carrieds (avs sg) o (enc (x ^^ (q ^ 6)))).
Proof.
  intros a La Ka. pose proof (W_conj lb m Hp Hlb Hlb2 Hm1 ch n k HN HK xi0 Hm H3 H6 Hz6 (cells a) T False a (incl_refl _) (conj La Ka) ltac:(intros []) ltac:(intros [])) as H. snd H.
  intros sg o _ R x Hx. eapply vc, (R False). auto.
Qed.

(** ** C77: powers and the compressed cyclotomic arithmetic *)
(** [x] lies in the cyclotomic subgroup *)
Definition cyclotomic (x : w6) : Prop := x ^^ (q ^ 4 - q ^ 2 + 1) = w6_1.
(** the compression of [x]: its coefficients of [w, w^4, w^2, w^5] *)
Definition compressed (x : w6) : list (x2 m) := let '(_, x1, x2, _, x4, x5) := x in [x1; x4; x2; x5].
Definition ccarried (e : env) (c : list vec) (x : w6) : Prop := Forall2 (fun v y => carrieds e v (l2 y)) c (compressed x).
Definition hccarried (c : list vec) (x : w6) : Prop := Forall2 (fun v y => hcarrieds v (l2 y)) c (compressed x).
Definition cshape (c : list vec) : Prop := length c = 4%nat /\ Forall (fun v => length v = 2%nat /\ vlimbs_eq v n) c.
Definition ccells (c : list vec) : list (AV p) := flat_map cells c.
(** the honest prover can decompress [x] *)
Definition decompressible (x : w6) : Prop := let '(_, _, x2, _, x4, x5) := x in x4 <> x2_0 \/ x2_mul x2 x5 = x2_0.
Let cr e c x : ccarried e c x -> reds m n False e c (FinalHigh.cmp m x).
Proof. apply F2_impl. intros v y. apply carrieds_vred. Qed.
Let rc h e c x : reds m n h e c (FinalHigh.cmp m x) -> ccarried e c x.
Proof. apply F2_impl. intros v y. apply vred_carrieds. Qed.
Let hcr c x : hccarried c x -> reds m n True hval c (FinalHigh.cmp m x).
Proof. apply F2_impl. intros v y. now apply hcarrieds_vred. Qed.
Let rhc c x : Forall good (ccells c) -> cshape c -> reds m n True hval c (FinalHigh.cmp m x) -> hccarried c x.
Proof.
  intros G [_ K] R. unfold hccarried. change (FinalHigh.cmp m x) with (compressed x) in R. induction R as [|v y c ys V R IH]; [constructor|]. unfold ccells in G. cbn [flat_map] in G. apply Forall_app in G as [G1 G2]. inversion K as [|? ? [_ K1] K2]; subst.
  constructor; [|auto]. apply vred_hcarrieds; auto.
Qed.
Let hcs c x : hccarried c x -> cshape c /\ Forall good (ccells c).
Proof.
  intros H. split; [split|].
  - apply Forall2_len in H. rewrite H. destruct x as [[[[[x0 x1] x2'] x3] x4] x5]. reflexivity.
  - unfold hccarried in H. revert H. generalize (compressed x). intros ys H. induction H as [|v y c ys V R IH]; constructor; auto. split; [now rewrite (hcarrieds_len _ _ _ _ _ V)|exact (hcarrieds_vlimbs _ _ _ _ _ V)].
  - unfold hccarried in H. revert H. generalize (compressed x). intros ys H. induction H as [|v y c ys V R IH]; [constructor|]. unfold ccells. cbn [flat_map]. apply Forall_app. split; auto. exact (hcarrieds_good _ _ _ _ _ V).
Qed.
Notation decompress c := (cyclotomic_decompress lb m ch xi0 hint2 c).
Notation csquare c := (cyclotomic_square lb ch xi0 c).
Theorem C77_compressed_sound : forall (a : vec) (c : list vec), length a = 12%nat -> vlimbs_eq a n -> cshape c ->
  sound lb (cyclotomic_compress a) cshape (fun sg o => forall x, carrieds (avs sg) a (enc x) -> ccarried (avs sg) o x) /\
  sound lb (csquare c) cshape (fun sg o => forall x, cyclotomic x -> ccarried (avs sg) c x -> ccarried (avs sg) o (wmul x x)) /\
  (** the identity excepted: see [C77_decompress_one_refuted] *)
  sound lb (decompress c) shape12 (fun sg o => forall x, cyclotomic x -> ccarried (avs sg) c x -> x <> w6_1 -> carrieds (avs sg) o (enc x)).
Proof.
  intros a c La Ka Kc. split; [|split].
  - pose proof (W_compress lb m Hlb Hlb2 n k xi0 HB (cells a) T False a (incl_refl _) (conj La Ka)) as H. snd H.
    intros sg o _ R x Hx. eapply rc, (R False). auto.
  - pose proof (W_square lb m Hp Hlb Hlb2 Hm1 ch n k HN HK xi0 Hxi Hroom HB Hm H3 H6 Hz6 (ccells c) T False c (incl_refl _) Kc ltac:(intros [])) as H. snd H.
    intros sg o _ R x Cx Hx. eapply rc, (R False); auto.
  - pose proof (W_decompress lb m Hp Hlb Hlb2 Hm1 ch n k HN HK xi0 Hxi1 Hxi Hroom HB hint2 Hm H3 H6 Hz6 Hh2 (ccells c) T False c (incl_refl _) Kc ltac:(intros []) ltac:(intros [])) as H. snd H.
    intros sg o _ R x Cx Hx N. eapply vc, (R False); auto.
Qed.
Theorem C77_compressed_complete : forall (a : vec) (c : list vec) (x : w6), zcap (p:=p) n k ->
  (hcarrieds a (enc x) -> comp lb (oks (cells a)) (cyclotomic_compress a) (fun o => hccarried o x) (fun rho o => oks (ccells o) rho)) /\
  (hccarried c x -> cyclotomic x -> comp lb (oks (ccells c)) (csquare c) (fun o => hccarried o (wmul x x)) (fun rho o => oks (ccells o) rho)) /\
  (hccarried c x -> cyclotomic x -> decompressible x -> comp lb (oks (ccells c)) (decompress c) (fun o => hcarrieds o (enc x)) (fun rho o => oks (cells o) rho)).
Proof.
  intros a c x HZ. split; [|split].
  - intros Hx. pose proof (hcarrieds_good _ _ _ _ _ Hx) as Ga. pose proof (W_compress lb m Hlb Hlb2 n k xi0 HB (cells a) T True a (incl_refl _) (hl a x Hx)) as H. cmp H.
    intros o (Ko & Go & R). apply rhc; auto.
  - intros Hc Cx. destruct (hcs c x Hc) as [Kc Gc]. pose proof (W_square lb m Hp Hlb Hlb2 Hm1 ch n k HN HK xi0 Hxi Hroom HB Hm H3 H6 Hz6 (ccells c) T True c (incl_refl _) Kc ltac:(intros _ _; exists x; auto)) as H. cmp H.
    intros o (Ko & Go & R). apply rhc; auto.
  - intros Hc Cx Dx. destruct (hcs c x Hc) as [Kc Gc]. pose proof (W_decompress lb m Hp Hlb Hlb2 Hm1 ch n k HN HK xi0 Hxi1 Hxi Hroom HB hint2 Hm H3 H6 Hz6 Hh2 (ccells c) T True c (incl_refl _) Kc ltac:(auto) ltac:(intros _ _; exists x; auto)) as H. cmp H.
    intros o ((Lo & Ko) & Go & R). apply vh; auto.
Qed.
(** decompressing the compression of 1 divides 0 by 0: a prover who answers that division with [t] satisfies every constraint, and the output is
    [1 + 2 xi t^2 + t w^3] instead of 1 *)
Definition answer0 (t : x2 m) (u v : list (F m)) : list (F m) := if forallb Fis0 v then l2 t else hint2 u v.
Theorem C77_decompress_one_refuted : forall (c : list vec) (t : x2 m), zcap (p:=p) n k -> hccarried c w6_1 ->
  comp lb (oks (ccells c)) (cyclotomic_decompress lb m ch xi0 (answer0 t) c)
    (fun o => hcarrieds o (enc (x2_add x2_1 (x2_mul (x2_add x2_1 x2_1) (x2_mul (xi (m:=m) xi0) (x2_mul t t))), x2_0, x2_0, t, x2_0, x2_0))) (fun rho o => oks (cells o) rho).
Proof.
  intros c t HZ Hc. destruct (hcs c _ Hc) as [Kc Gc]. pose proof (hcr _ _ Hc) as Rc. unfold w6_1, w6_c in Rc. cbn [FinalHigh.cmp] in Rc.
  destruct (c4 n k c Kc) as (g2 & g3 & g4 & g5 & ->). destruct Kc as [_ Kc].
  assert (XR := x2_ring (m:=m)). Add Ring X2ringz : (x2_ring (m:=m)).
  assert (A0 : forall u : list (F m), answer0 t u [fst (x2_0 (m:=m)); Datatypes.snd (x2_0 (m:=m))] = [fst t; Datatypes.snd t]).
  { intros u. unfold answer0. replace (forallb Fis0 [fst (x2_0 (m:=m)); Datatypes.snd (x2_0 (m:=m))]) with true; [reflexivity|]. symmetry. cbn [forallb fst Datatypes.snd x2_0]. rewrite (proj2 (Fis0_true m F0) eq_refl). reflexivity. }
  assert (D0 : den1 m x2_0 = x2_0) by (unfold den1; ring). assert (N1 : num1 m xi0 x2_0 x2_0 x2_0 = x2_0) by (unfold num1; ring). assert (N0 : num0 m x2_0 x2_0 = x2_0) by (unfold num0; ring).
  assert (Al : forall u v : list (F m), length u = 2%nat -> length v = 2%nat -> length (answer0 t u v) = 2%nat).
  { intros u v Hu Hv. unfold answer0. destruct (forallb Fis0 v); [reflexivity|]. apply len2 in Hu as (? & ? & ->), Hv as (? & ? & ->). reflexivity. }
  pose proof (l_decompress lb m Hp Hlb Hlb2 Hm1 ch n k HN HK xi0 (answer0 t) Al Hxi1 Hxi Hroom HB (ccells [g2; g3; g4; g5]) T True g2 g3 g4 g5 Kc (incl_refl _) ltac:(auto)) as H.
  assert (HH : True -> T hval -> exists x2 x3 x4 x5 w1 w0, reds m n True hval [g2; g3; g4; g5] [x2; x3; x4; x5] /\
     answer0 t [fst (num1 m xi0 x3 x4 x5); Datatypes.snd (num1 m xi0 x3 x4 x5)] [fst (den1 m x2); Datatypes.snd (den1 m x2)] = [fst w1; Datatypes.snd w1] /\ x2_mul w1 (den1 m x2) = num1 m xi0 x3 x4 x5 /\
     answer0 t [fst (num0 m x4 x5); Datatypes.snd (num0 m x4 x5)] [fst x3; Datatypes.snd x3] = [fst w0; Datatypes.snd w0] /\ x2_mul w0 x3 = num0 m x4 x5).
  { intros _ _. exists x2_0, x2_0, x2_0, x2_0, t, t. rewrite D0, N1, N0, !A0. split; [exact Rc|]. split; [reflexivity|]. split; [ring|]. split; [reflexivity|ring]. }
  specialize (H HH). clear HH. cmp H.
  intros o ((Lo & Ko) & Go & R). apply vh; auto. destruct (R True _ _ _ _ Rc) as (w1 & w0 & y1 & _ & _ & Ey & Ew & V). destruct (Ew I) as [_ E0]. rewrite A0 in E0.
  rewrite (proj2 (x2_is0_eq _) eq_refl) in Ey. assert (Et : w0 = t) by (destruct w0, t; cbn [fst Datatypes.snd] in E0; congruence). rewrite Et in Ey. subst y1.
  unfold wred. replace (x2_add x2_1 (x2_mul (x2_add x2_1 x2_1) (x2_mul (xi (m:=m) xi0) (x2_mul t t)))) with (dec_y0 m xi0 x2_0 x2_0 x2_0 x2_0 t) by (unfold dec_y0; ring). exact V.
Qed.
(** the exponent is a little-endian list of u64 limbs; an exponent 0 returns the base itself *)
Notation E := limbs_value.
Notation power x e := (if Z.eqb (E e) 0 then x else x ^^ Z.to_N (E e)).
Notation fpow a e := (fp12_pow lb m ch xi0 hint12 a e).
Notation cpow a e := (cyclotomic_pow lb m ch xi0 hint2 hint12 a e).
Theorem C77_pow_sound : forall (a : vec) (e : list Z), length a = 12%nat -> vlimbs_eq a n -> u64s e ->
  sound lb (fpow a e) shape12 (fun sg o => forall x, carrieds (avs sg) a (enc x) -> x <> w6_0 -> carrieds (avs sg) o (enc (power x e))) /\
  (** in compressed form: for cyclotomic [x] with [x, x^2, ..., x^(E+1)] all different from 1 *)
  sound lb (cpow a e) shape12 (fun sg o => forall x, carrieds (avs sg) a (enc x) -> cyclotomic x -> (forall j, (1 <= j <= Z.to_N (E e) + 1)%N -> x ^^ j <> w6_1) -> carrieds (avs sg) o (enc (power x e))).
Proof.
  intros a e La Ka He. split.
  - pose proof (W_pow lb m Hp Hlb Hlb2 Hm1 ch n k HN HK xi0 Hxi1 Hxi Hroom HB hint12 Hh12l Hh12 (cells a) T False a e (incl_refl _) (conj La Ka) He ltac:(intros []) ltac:(intros [])) as H. snd H.
    intros sg o _ R x Hx N. eapply vc, (R False); auto.
  - pose proof (W_cpow lb m Hp Hlb Hlb2 Hm1 ch n k HN HK xi0 Hxi1 Hxi Hroom HB hint2 hint12 Hm H3 H6 Hz6 Hh2 Hh12l Hh12 (cells a) T False a e (incl_refl _) (conj La Ka) He ltac:(intros []) ltac:(intros []) ltac:(intros [])) as H. snd H.
    intros sg o _ R x Hx Cx N. eapply vc, (R False); auto. intros j Hj. left. auto.
Qed.
Theorem C77_pow_complete : forall (a : vec) (e : list Z) (x : w6), u64s e -> e <> [] -> E e <= 2 ^ (64 * Z.of_nat (length e) - 1) -> hcarrieds a (enc x) ->
  (x <> w6_0 -> comp lb (oks (cells a)) (fpow a e) (fun o => hcarrieds o (enc (power x e))) (fun rho o => oks (cells o) rho)) /\
  (zcap (p:=p) n k -> cyclotomic x -> (forall j, (1 <= j <= Z.to_N (E e) + 1)%N -> decompressible (x ^^ j)) ->
     comp lb (oks (cells a)) (cpow a e) (fun o => hcarrieds o (enc (power x e))) (fun rho o => oks (cells o) rho)).
Proof.
  intros a e x He Ne Be Hx. pose proof (hcarrieds_good _ _ _ _ _ Hx) as Ga. split.
  - intros N. pose proof (W_pow lb m Hp Hlb Hlb2 Hm1 ch n k HN HK xi0 Hxi1 Hxi Hroom HB hint12 Hh12l Hh12 (cells a) T True a e (incl_refl _) (hl a x Hx) He ltac:(auto) ltac:(intros _ _; exists x; auto)) as H. cmp H.
    intros o ((Lo & Ko) & Go & R). apply vh; auto; apply (R True); auto.
  - intros HZ Cx D. pose proof (W_cpow lb m Hp Hlb Hlb2 Hm1 ch n k HN HK xi0 Hxi1 Hxi Hroom HB hint2 hint12 Hm H3 H6 Hz6 Hh2 Hh12l Hh12 (cells a) T True a e (incl_refl _) (hl a x Hx) He ltac:(auto) ltac:(auto) ltac:(intros _ _; exists x; split; [auto|split; [exact Cx|exact D]])) as H. cmp H.
    intros o ((Lo & Ko) & Go & R). apply vh; auto; apply (R True); auto; intros j Hj; now right.
Qed.

(** ** C78: the final exponentiation *)
(** a BN field: [q] and the group order [r] are the BN polynomials at the parameter [bx] (the constant BN_X, one u64 limb) *)
Context (bx : Z) (Hbx : 0 < bx <= 2 ^ 63) (Hq : Z.pos m = 36 * bx ^ 4 + 36 * bx ^ 3 + 24 * bx ^ 2 + 6 * bx + 1).
Definition group_order : Z := 36 * bx ^ 4 + 36 * bx ^ 3 + 18 * bx ^ 2 + 6 * bx + 1.
Notation r := (Z.to_N group_order).
Notation final a := (final_exp lb m ch xi0 ftab hint2 hint12 bx a).
Notation easy a := (easy_part lb m ch xi0 ftab hint12 a).
Notation EASY := ((q ^ 6 - 1) * (q ^ 2 + 1))%N.
Theorem C78_easy_part : forall (a : vec), length a = 12%nat -> vlimbs_eq a n ->
  sound lb (easy a) shape12 (fun sg o => forall x, carrieds (avs sg) a (enc x) -> x <> w6_0 -> cyclotomic (x ^^ EASY) /\ carrieds (avs sg) o (enc (x ^^ EASY))) /\
  (forall x, zcap (p:=p) n k -> hcarrieds a (enc x) -> x <> w6_0 -> comp lb (oks (cells a)) (easy a) (fun o => hcarrieds o (enc (x ^^ EASY))) (fun rho o => oks (cells o) rho)).
Proof.
  intros a La Ka. split.
  - pose proof (W_easy lb m Hp Hlb Hlb2 Hm1 ch n k HN HK xi0 Hxi1 Hxi Hroom HB hint12 ftab Hm H3 H6 Htab Hz6 Hh12l Hh12 (cells a) T False a (incl_refl _) (conj La Ka) ltac:(intros []) ltac:(intros [])) as H. snd H.
    intros sg o _ R x Hx N. split; [exact (easy_cyc lb m Hlb Hlb2 Hm1 n k xi0 Hxi1 Hxi HB Hm H3 H6 Hz6 x (unz x N))|]. eapply vc, (R False); auto.
  - intros x HZ Hx N. pose proof (hcarrieds_good _ _ _ _ _ Hx) as Ga.
    pose proof (W_easy lb m Hp Hlb Hlb2 Hm1 ch n k HN HK xi0 Hxi1 Hxi Hroom HB hint12 ftab Hm H3 H6 Htab Hz6 Hh12l Hh12 (cells a) T True a (incl_refl _) (hl a x Hx) ltac:(auto) ltac:(intros _ _; exists x; auto)) as H. cmp H.
    intros o ((Lo & Ko) & Go & R). apply vh; auto; apply (R True); auto.
Qed.
(** small powers of an element of the cyclotomic subgroup are not 1 as soon as its [PHI/r]-th power is not *)
Lemma small_powers (y : w6) l : prime group_order -> (r * l = q ^ 4 - q ^ 2 + 1)%N -> cyclotomic y -> y ^^ l <> w6_1 -> forall j, (1 <= j < r)%N -> y ^^ j <> w6_1.
Proof.
  intros Pr El Cy Nl j Hj Ej. apply Nl.
  assert (G : rel_prime (Z.of_N j) group_order). { apply rel_prime_sym, prime_rel_prime; auto. intros D. apply Z.divide_pos_le in D; [|lia]. pose proof (prime_ge_2 _ Pr). lia. }
  apply rel_prime_bezout in G. destruct G as [u v Euv]. pose proof (prime_ge_2 _ Pr) as R2.
  (* u j + v r = 1; make u non-negative and v non-positive *)
  set (t := Z.abs u + Z.abs v + 1). set (u' := Z.to_N (u + t * group_order)). set (v' := Z.to_N (t * Z.of_N j - v)).
  assert (U : (u' * j = v' * r + 1)%N).
  { apply N2Z.inj. rewrite N2Z.inj_add, !N2Z.inj_mul. unfold u', v'. assert (J1 : 1 <= Z.of_N j) by lia. assert (P1 : 0 <= u + t * group_order) by (clear - R2; unfold t; generalize dependent group_order; intros; nia). assert (P2 : 0 <= t * Z.of_N j - v) by (clear - J1; unfold t; nia). rewrite !Z2N.id by lia. change (Z.of_N 1) with 1. clear - Euv. generalize dependent group_order. intros. nia. }
  pose proof (w6_ring (m:=m) xi0) as WR.
  transitivity (y ^^ (l * (v' * r + 1))).
  - replace (l * (v' * r + 1))%N with (r * l * v' + l)%N by lia. rewrite El. rewrite (npow_add _ _ _ _ _ _ WR), (npow_mul _ _ _ _ _ _ WR y (q ^ 4 - q ^ 2 + 1)). unfold cyclotomic in Cy. rewrite Cy, (npow_one _ _ _ _ _ _ WR). symmetry. apply (Rmul_1_l WR).
  - rewrite <- U. replace (l * (u' * j))%N with (j * (u' * l))%N by lia. rewrite (npow_mul _ _ _ _ _ _ WR), Ej. apply (npow_one _ _ _ _ _ _ WR).
Qed.
Theorem C78_final_exp_sound : forall (a : vec), length a = 12%nat -> vlimbs_eq a n -> prime group_order ->
  sound lb (final a) shape12 (fun sg o => forall x, carrieds (avs sg) a (enc x) -> x <> w6_0 ->
    (** exact whenever the true result is not 1 ... *)
    (x ^^ ((q ^ 12 - 1) / r) <> w6_1 -> carrieds (avs sg) o (enc (x ^^ ((q ^ 12 - 1) / r)))) /\
    (** ... so an output of 1 (a pairing check) is never a lie *)
    (carrieds (avs sg) o (enc w6_1) -> x ^^ ((q ^ 12 - 1) / r) = w6_1)).
Proof.
  intros a La Ka Pr.
  pose proof (W_final lb m Hp Hlb Hlb2 Hm1 ch n k HN HK xi0 Hxi1 Hxi Hroom HB hint2 hint12 ftab Hm H3 H6 Htab Hz6 Hh2 Hh12l Hh12 bx (cells a) T False a ltac:(lia) ltac:(intros []) Hq (incl_refl _) (conj La Ka) ltac:(intros []) ltac:(intros [])) as H. snd H.
  intros sg o _ R x Hx N.
  assert (X1 : x ^^ ((q ^ 12 - 1) / r) <> w6_1 -> carrieds (avs sg) o (enc (x ^^ ((q ^ 12 - 1) / r)))).
  { intros N1. eapply vc, (R False); auto. intros j Hj. left.
    destruct (HA_eq lb m Hlb Hlb2 Hm1 n k xi0 HB bx ltac:(lia) Hq) as (l & _ & E2).
    apply (small_powers _ l Pr E2).
    - exact (easy_cyc lb m Hlb Hlb2 Hm1 n k xi0 Hxi1 Hxi HB Hm H3 H6 Hz6 x (unz x N)).
    - intros E1. apply N1. etransitivity; [|exact E1]. rewrite <- (npow_mul _ _ _ _ _ _ (w6_ring (m:=m) xi0)). f_equal. rewrite <- PHI_q12, <- E2. change (Z.to_N (bn_rpoly bx)) with r.
      assert (RZ : r <> 0%N) by (pose proof (prime_ge_2 _ Pr); lia). replace (r * l * (q ^ 2 + 1) * (q ^ 6 - 1))%N with (EASY * l * r)%N by ring. now rewrite N.div_mul.
    - split; [lia|]. eapply N.le_lt_trans; [apply Hj|]. apply N2Z.inj_lt. rewrite !N2Z.inj_mul, N2Z.inj_add, !Z2N.id by (unfold group_order; lia || (pose proof (prime_ge_2 _ Pr); lia)). change (Z.of_N 1) with 1. unfold group_order. clear - Hbx.
      assert (bx ^ 4 = bx * (bx * bx * bx)) as -> by ring. assert (bx ^ 3 = bx * bx * bx) as -> by ring. assert (bx ^ 2 = bx * bx) as -> by ring. nia. }
  split; [exact X1|]. intros O1.
  set (y := x ^^ ((q ^ 12 - 1) / r)) in *. destruct (list_eq_dec (F_dec m) (enc y) (enc w6_1)) as [E1|NE]; [now apply enc_inj in E1|]. exfalso.
  assert (N1 : y <> w6_1) by congruence. specialize (X1 N1). exact (NE (carrieds_fun _ _ _ _ X1 O1)).
Qed.
Theorem C78_final_exp_complete : forall (a : vec) (x : w6), zcap (p:=p) n k -> hcarrieds a (enc x) -> x <> w6_0 ->
  (** the honest prover needs every power [(x^EASY)^j], [j <= (bx+1) bx^2], to be decompressible *)
  (forall j, (1 <= j <= (Z.to_N bx + 1) * Z.to_N bx * Z.to_N bx)%N -> decompressible ((x ^^ EASY) ^^ j)) ->
  comp lb (oks (cells a)) (final a) (fun o => hcarrieds o (enc (x ^^ ((q ^ 12 - 1) / r)))) (fun rho o => oks (cells o) rho).
Proof.
  intros a x HZ Hx N D. pose proof (hcarrieds_good _ _ _ _ _ Hx) as Ga.
  pose proof (W_final lb m Hp Hlb Hlb2 Hm1 ch n k HN HK xi0 Hxi1 Hxi Hroom HB hint2 hint12 ftab Hm H3 H6 Htab Hz6 Hh2 Hh12l Hh12 bx (cells a) T True a ltac:(lia) ltac:(intros _; lia) Hq (incl_refl _) (hl a x Hx) ltac:(auto) ltac:(intros _ _; exists x; split; [auto|split; [auto|exact D]])) as H. cmp H.
  intros o ((Lo & Ko) & Go & R). apply vh; auto; apply (R True); auto; intros j Hj; now right.
Qed.
End Final.
