(** Completeness beside C59: the sum of points of a curve over the chip's prime field is accepted whenever no partial sum, started at the random point, meets
    the next point's x-coordinate. Reading guide: as in PropsEcc.v; [psum] the sum in the group (PropsMsm.v). *)
From Coq Require Import ZArith Znumtheory Lia List Bool Ring.
From Verif Require Import Field Spec Context ContextProofs Utils Logic Gate GateProofs ChainProofs IPProofs BitProofs PowProofs IPComp Derived Calc CalcH
  Range RangeProofs RangeProofs2 RangeProofs3 BigInt BigSpec BigNum BigPrims BigOps BigSel BigCmp BigSub BigCarry BigMod BigCrtNum BigCrt
  FpChip FpProofs FpProofs2 FpProofs3 FpField FpField2 FpField3 Pocklington Bn254Primes PropsBigInt PropsFp EcGroup EccFacts Ecc EccProofs EccProofs3 PropsEcc PropsMsm.
Import ListNotations.
Local Open Scope Z_scope.

Section Sum.
Context (p m : positive) (lb : nat) (Hp : prime (Z.pos p)) (Hlb : (1 <= lb < 64)%nat) (Hlb2 : (2 * lb <= CAPACITY p)%nat) (Hm : prime (Z.pos m)) (H3 : 3 < Z.pos m).
Context (n k : nat) (ch : fpchip p) (HN : fpchip_new m n k = Some ch) (HK : fp_params (p:=p) lb m n k).
Notation M2 := (2 ^ Z.of_nat (bits (Z.pos m))).
Notation W := (2 ^ Z.of_nat (n * k + NUM_BITS p)).
Notation lg := (log2_ceil (Z.of_nat k)).
Context (HE1 : (Nat.max (lg + 2 * n + 5) (2 * n + bit_length (Z.of_nat k)) + lb + 2 <= CAPACITY p)%nat) (HE2 : 64 * (M2 * M2) < W).
(** the curve y^2 = x^3 + b, non-singular *)
Context (b : F m) (Hb : b <> F0).
Notation ecpt := (ecpt p).
Notation hat_pt := (hat_pt (p:=p) m n k).
Notation shape := (shape (p:=p) n k).
Notation pcells P := (ccells (px P) ++ ccells (py P)).
Notation okp := (fun (rho : cell -> F p) P => oks (pcells P) rho).
Notation psum := (PropsMsm.psum m).
Let Hm1 : 1 < Z.pos m. Proof. lia. Qed.
Let TT : env (p:=p) -> Prop := fun _ => True.
Ltac cmp H := eapply comp_weaken; [apply (h_comp lb _ _ _ _ _ H)|cbv beta|cbv beta|cbv beta]; auto.
(** the partial sums in the group, as long as each next point has a different x *)
Fixpoint esums (x y : F m) (Ks : list (F m * F m)) : option (F m * F m) :=
  match Ks with
  | [] => Some (x, y)
  | K :: Ks => if Feqb x (fst K) then None else match eadd m (Some (x, y)) (Some K) with None => None | Some U => esums (fst U) (snd U) Ks end
  end.
Let hshape P x y : hat_pt P x y -> shape P. Proof. intros [A B]. split; [exact (proj1 (proj2 A))|exact (proj1 (proj2 B))]. Qed.
Lemma strict_complete P x y : hat_pt P x y -> comp lb (oks (pcells P)) (into_strict_point lb ch P) (fun R => hat_pt R x y) okp.
Proof.
  intros HP. pose proof (l_into_strict lb m Hp Hlb Hlb2 Hm1 ch n k HN HK (pcells P) TT True P (incl_refl _) (hshape _ _ _ HP) ltac:(intros _ _; exists x, y; exact (hat_pred p m lb Hlb Hlb2 H3 n k HE1 HE2 P x y HP))) as H. cmp H.
  - eapply hat_good; eauto.
  - intros o (-> & _ & _). exact HP.
Qed.
Lemma fold_complete : forall (points : list ecpt) (Ks : list (F m * F m)) acc x y x' y', hat_pt acc x y -> Forall2 (fun P K => hat_pt P (fst K) (snd K)) points Ks -> esums x y Ks = Some (x', y') ->
  comp lb (fun rho => oks (pcells acc) rho /\ oks (flat_map (fun P => pcells P) points) rho)
    (foldM (fun acc point => bind (ec_add_unequal lb m ch (Strict acc) (NonStrict point) true) (into_strict_point lb ch)) points acc) (fun R => hat_pt R x' y') okp.
Proof.
  induction points as [|P points IH]; intros Ks acc x y x' y' Ha H2 E; inversion H2 as [|? K ? Ks' HP H2']; subst; cbn [esums] in E; cbn [foldM].
  - injection E as <- <-. apply comp_ret; [exact Ha|]. tauto.
  - destruct (Feqb x (fst K)) eqn:D; [discriminate|]. destruct K as [u v]. cbn [fst snd] in *. destruct (eadd m (Some (x, y)) (Some (u, v))) as [[x1 y1]|] eqn:E1; [|discriminate]. cbn [fst snd] in E.
    eapply comp_bind with (H1 := fun rho => oks (pcells acc) rho /\ oks (pcells P) rho) (P1 := fun R => hat_pt R x1 y1) (Q1 := okp).
    + eapply comp_bind; [apply (C54_add_unequal_complete p m lb Hp Hlb Hlb2 Hm H3 n k ch HN HK HE1 HE2 (Strict acc) (NonStrict P) true x y u v); cbn [cpt]; eauto; now apply Feqb_neq|cbv beta; intros rho [A B]; apply Forall_app; split; assumption|].
      cbv beta. intros a (x3 & y3 & A & E3). rewrite E1 in E3. injection E3 as <- <-. eapply comp_weaken; [apply (strict_complete a _ _ A)| | |]; cbv beta; tauto.
    + intros rho [A B]. split; [exact A|]. apply Forall_app in B. tauto.
    + cbv beta. intros a Ha'. eapply comp_weaken; [apply (IH Ks' a x1 y1 x' y' Ha' H2' E)| | |]; cbv beta; auto.
      intros rho [[_ B] C]. split; [exact C|]. apply Forall_app in B. tauto.
Qed.
Let esums_psum : forall Ks x y x' y', onc2 m b x y -> Forall (fun K => onc2 m b (fst K) (snd K)) Ks -> esums x y Ks = Some (x', y') -> eadd m (Some (x, y)) (psum (map Some Ks)) = Some (x', y').
Proof.
  induction Ks as [|[u v] Ks IH]; intros x y x' y' O OK E; cbn [esums fst snd] in E.
  - injection E as <- <-. apply (eadd_0_r m).
  - inversion OK as [|? ? O1 O2]; subst. cbn [fst snd] in O1. destruct (Feqb x u); [discriminate|]. destruct (eadd m (Some (x, y)) (Some (u, v))) as [[x1 y1]|] eqn:E1; [|discriminate]. cbn [fst snd] in E.
    pose proof (eadd_onc m Hm H3 b (Some (x, y)) (Some (u, v)) O O1) as OU. rewrite E1 in OU.
    cbn [map PropsMsm.psum fold_right]. change (fold_right (EcGroup.eadd m) None (map Some Ks)) with (psum (map Some Ks)).
    assert (On : Forall (onc m b) (map Some Ks)). { clear - O2. induction O2 as [|[s t] Ks O _ IH]; constructor; auto. }
    rewrite <- (eadd_assoc m Hm H3 b Hb (Some (x, y)) (Some (u, v)) _ O O1 (psum_onc m Hm H3 b _ On)), E1. apply IH; auto.
Qed.
(** the honest prover can sum points of the curve whenever, from the random point on, no partial sum has the x-coordinate of the next point and the last one does
    not have the random point's *)
Theorem C59_sum_complete : forall (ax ay : F m) (points : list ecpt) (Ks : list (F m * F m)) (x y : F m), onc2 m b ax ay -> Forall (fun K => onc2 m b (fst K) (snd K)) Ks ->
  Forall2 (fun P K => hat_pt P (fst K) (snd K)) points Ks -> esums ax ay Ks = Some (x, y) -> x <> ax ->
  comp lb (oks (flat_map (fun P => pcells P) points)) (ecc_sum lb m ch b ax ay points) (fun R => exists u v, hat_pt R u v /\ psum (map Some Ks) = Some (u, v)) okp.
Proof.
  intros ax ay points Ks x y OA OK H2 E N. unfold ecc_sum.
  eapply comp_bind; [apply (proj2 (proj2 (proj2 (C55_load_private p m lb Hp Hlb Hlb2 H3 n k ch HN HK HE1 HE2 b ax ay)) OA))|cbv beta; auto|]. cbv beta. intros A0 HA0.
  eapply comp_bind; [apply (strict_complete A0 _ _ HA0)|cbv beta; intros rho [_ A]; exact A|]. cbv beta. intros A1 HA1.
  eapply comp_bind; [apply (fold_complete points Ks A1 ax ay x y HA1 H2 E)|cbv beta; intros rho [[B _] A]; split; assumption|]. cbv beta. intros acc Hacc.
  eapply comp_weaken; [apply (C54_sub_unequal_complete p m lb Hp Hlb Hlb2 Hm H3 n k ch HN HK HE1 HE2 (Strict acc) (Strict A1) true x y ax ay); cbn [cpt]; eauto| | |]; cbv beta; auto.
  - intros rho [[[_ _] A] B]. cbn [cpt]. apply Forall_app; split; assumption.
  - intros R (u & v & HR & ES). exists u, v. split; [exact HR|]. rewrite <- ES, <- (esums_psum Ks ax ay x y OA OK E).
    assert (On : Forall (onc m b) (map Some Ks)). { clear - OK. induction OK as [|[s t] Ks O _ IH]; constructor; auto. }
    pose proof (psum_onc m Hm H3 b _ On) as OS. pose (g0 := Some (ax, ay) : pt m). assert (O0 : onc m b g0) by exact OA.
    change (psum (map Some Ks) = eadd m (eadd m g0 (psum (map Some Ks))) (eneg m g0)). rewrite (eadd_comm m Hm H3 b g0 _ O0 OS).
    rewrite (eadd_assoc m Hm H3 b Hb _ _ _ OS O0 (eneg_onc m Hm b _ O0)), (eadd_neg_r m Hm). symmetry. apply (eadd_0_r m).
Qed.
End Sum.
