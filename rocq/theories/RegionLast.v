(** Corollaries of the region rules for regions of which one or two cells are read. *)
From Coq Require Import ZArith Znumtheory Lia List Bool Ring.
From Verif Require Import Field Spec Context ContextProofs Utils Logic Gate GateProofs RegionGets Calc CalcH RegionPrev.
Import ListNotations.
Local Open Scope Z_scope.

Section RegionLast.
Context {p : positive}.
Notation Fp := (F p).
Notation AV := (AV p).
Variable lb : nat.
Notation env := (env (p:=p)).
Notation hcalc := (hcalc lb).
Notation hcalc_at := (hcalc_at lb).

Lemma ctx_last_get (s : st p) : ctx_last s = ctx_get (-1) s.
Proof.
  unfold ctx_last, ctx_get. change (-1 <? 0) with true. cbv iota. destruct (alen s) as [|n] eqn:E.
  - cbn. unfold alen in E. destruct (advice s); [reflexivity|discriminate].
  - destruct (Z.ltb_spec (Z.of_nat (S n) + -1) 0); [lia|]. now replace (Z.to_nat (Z.of_nat (S n) + -1)) with (S n - 1)%nat by lia.
Qed.
Lemma gets1 k (s : st p) : gets [k] s = bind (ctx_get (- Z.of_nat k)) (fun x => ret [x]) s.
Proof. unfold gets, mapM, bind. destruct (ctx_get (- Z.of_nat k) s) as [[x s1]|]; reflexivity. Qed.
Lemma region_get1 {B} l offs k (f : AV -> M p B) (g : list AV -> M p B) : (forall x, g [x] = f x) -> forall s,
  bind (bind (assign_region l offs) (fun _ => ctx_get (- Z.of_nat k))) f s = bind (region_gets l offs [k]) g s.
Proof.
  intros Hg s. unfold region_gets, bind at 1 2 3 4. destruct (assign_region l offs s) as [[u s1]|]; [|reflexivity].
  unfold gets, mapM, bind. destruct (ctx_get (- Z.of_nat k) s1) as [[x s2]|]; [|reflexivity]. cbn. now rewrite Hg.
Qed.

Lemma h_region1 L (Pre : env -> Prop) (Hon : Prop) l offs k q :
  Forall (rin L) l -> (forall o, In o offs -> 0 <= o /\ o + 3 < Z.of_nat (length l)) ->
  (0 < k <= length l)%nat -> nth_error l (length l - k) = Some q ->
  (Hon -> Pre hval -> gates_ok (qvals l) offs) ->
  hcalc L Pre Hon (bind (assign_region l offs) (fun _ => ctx_get (- Z.of_nat k))) (wit_is q)
    (fun e x => exists v, region_e e v l offs /\ e x = v (length l - k)%nat) one.
Proof.
  intros HR HO Hk Hq HG.
  eapply h_ext with (m' := bind (region_gets l offs [k]) (fun xs => lift (hd_error xs))).
  { intros s. rewrite <- (region_get1 l offs k (fun x => ret x)) by reflexivity. unfold bind.
    destruct (assign_region l offs s) as [[u s1]|]; [|reflexivity]. destruct (ctx_get (- Z.of_nat k) s1) as [[x s2]|]; reflexivity. }
  eapply h_bind; [apply (h_region_gets lb L Pre Hon l offs [k] [q]); auto|].
  cbv beta. intros xs Hx. inversion Hx as [|? x ? xs' Hw Hx']; subst. inversion Hx'; subst. cbn [hd_error].
  apply h_ret; auto.
  - intros y [<-|[]]. now left.
  - intros e [_ (v & R1 & R2)]. exists v. split; auto. inversion R2; subst. auto.
Qed.
Lemma h_region_last L (Pre : env -> Prop) (Hon : Prop) l offs q :
  Forall (rin L) l -> (forall o, In o offs -> 0 <= o /\ o + 3 < Z.of_nat (length l)) ->
  nth_error l (length l - 1) = Some q ->
  (Hon -> Pre hval -> gates_ok (qvals l) offs) ->
  hcalc L Pre Hon (assign_region_last l offs) (wit_is q)
    (fun e x => exists v, region_e e v l offs /\ e x = v (length l - 1)%nat) one.
Proof.
  intros HR HO Hq HG. eapply h_ext; [|apply (h_region1 L Pre Hon l offs 1 q); auto].
  - intros s. unfold assign_region_last, bind. destruct (assign_region l offs s) as [[u s1]|]; [|reflexivity]. apply ctx_last_get.
  - destruct l; [discriminate|cbn; lia].
Qed.
Lemma at_region_last y L (Pre : env -> Prop) (Hon : Prop) l offs q :
  In y L -> Forall (rin L) l -> (2 < length l)%nat -> (forall o, In o offs -> 0 <= o /\ o + 3 < Z.of_nat (length l)) ->
  nth_error l (length l - 1) = Some q ->
  (Hon -> Pre hval -> gates_ok (qvals l) offs /\ prev_sem (hval y) (qvals l)) ->
  hcalc_at y L Pre Hon (assign_region_last l (-1 :: offs)) (wit_is q)
    (fun e x => exists v, region_e e v l offs /\ prev_sem (e y) v /\ e x = v (length l - 1)%nat) one.
Proof.
  intros Hy HR Hl HO Hq HG.
  eapply at_ext with (m' := bind (region_gets l (-1 :: offs) [1%nat]) (fun xs => lift (hd_error xs))).
  { intros s. unfold assign_region_last, region_gets, bind. destruct (assign_region l (-1 :: offs) s) as [[u s1]|]; [|reflexivity].
    rewrite ctx_last_get. unfold gets, mapM, bind. destruct (ctx_get (- Z.of_nat 1) s1) as [[x s2]|] eqn:E; change (- Z.of_nat 1) with (-1) in E; rewrite E; reflexivity. }
  eapply at_bind; [apply (at_region_gets lb y L Pre Hon l offs [1%nat] [q]); auto|].
  { constructor; auto. split; auto. lia. }
  cbv beta. intros xs Hx. inversion Hx as [|? x ? xs' Hw Hx']; subst. inversion Hx'; subst. cbn [hd_error].
  apply h_ret; auto.
  - intros z [<-|[]]. now left.
  - intros e [_ (v & R1 & R2 & R3)]. exists v. split; auto. split; auto. inversion R3; subst. auto.
Qed.
End RegionLast.
