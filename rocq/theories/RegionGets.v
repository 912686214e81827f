(** Rules for a region followed by several [ctx.get(-k)]. *)
From Coq Require Import ZArith Znumtheory Lia List Bool Ring.
From Verif Require Import Field Spec Context ContextProofs Utils Logic Gate GateProofs.
Import ListNotations.
Local Open Scope Z_scope.
Local Open Scope monad_scope.

Section Gets.
Context {p : positive} (lb : nat).
Notation Fp := (F p).
Notation sound := (sound (p:=p) lb).
Notation comp := (comp (p:=p) lb).

Lemma sound_ext {A} (m m' : M p A) P Q : (forall s, m s = m' s) -> sound m' P Q -> sound m P Q.
Proof. intros E H s a s' W R. rewrite E in R. eauto. Qed.
Lemma comp_ext {A} H (m m' : M p A) P Q : (forall s, m s = m' s) -> comp H m' P Q -> comp H m P Q.
Proof. intros E C s W. destruct (C s W) as (a & s' & R & X). exists a, s'. rewrite E. auto. Qed.

Definition gets (ks : list nat) : M p (list (AV p)) := mapM (fun k => ctx_get (- Z.of_nat k)) ks.
Definition region_gets l offs ks : M p (list (AV p)) := bind (assign_region l offs) (fun _ => gets ks).

Lemma gets_region s s1 l ks : forall xs s2, wf s1 -> advice s1 = advice s ++ l -> ext s s1 ->
  Forall (fun k => (0 < k <= length l)%nat) ks -> gets ks s1 = Some (xs, s2) ->
  s2 = s1 /\ Forall2 (fun k x => av_in s1 x /\ nth_error l (length l - k) = Some (av_val x) /\ av_cell x <> None /\
     forall sg, avs sg x = rv sg s (length l - k)) ks xs.
Proof.
  unfold gets. induction ks as [|k ks IH]; intros xs s2 W A X HF H; cbn [mapM] in H.
  - injection H as <- <-. auto.
  - inversion HF; subst. apply bind_inv in H as (x & s3 & E & H). apply bind_inv in H as (ys & s4 & E2 & H). injection H as <- <-.
    apply (ctx_get_region s) with (l := l) in E as (-> & B1 & B2 & B3 & B4); auto.
    apply IH in E2 as (-> & E2); auto. split; auto. constructor; auto. repeat split; auto. congruence.
Qed.

Lemma sound_region_gets l offs ks : Forall (fun o => 0 <= o) offs -> Forall (fun k => (0 < k <= length l)%nat) ks ->
  sound (region_gets l offs ks) (fun xs => length xs = length ks)
   (fun sg xs => exists v, region_sem sg v l offs /\ Forall2 (fun k x => avs sg x = v (length l - k)%nat) ks xs).
Proof.
  intros HO HK s a s' W H. unfold region_gets in H. apply bind_inv in H as (u & s1 & E1 & E2).
  apply assign_region_spec in E1 as (W1 & X1 & A1 & _ & _ & _ & _ & _ & S1); auto.
  apply (gets_region s) with (l := map qadv l) in E2 as (-> & F); auto; [|rewrite map_length; auto].
  split; auto. split; auto. split; [symmetry; clear - F; induction F; cbn; auto|]. intros sg HS. apply S1 in HS as [_ HR].
  exists (rv sg s). split; auto. clear - F. rewrite map_length in F. induction F; constructor; auto. apply H.
Qed.

Lemma gets_total s s1 l ks : advice s1 = advice s ++ l -> Forall (fun k => (0 < k <= length l)%nat) ks ->
  exists xs, gets ks s1 = Some (xs, s1).
Proof.
  intros A HF. unfold gets. induction ks as [|k ks IH]; cbn [mapM]; [exists []; reflexivity|]. inversion HF; subst.
  destruct (ctx_get_region_total s s1 l k A H1) as [x E]. destruct (IH H2) as [xs E2]. exists (x :: xs).
  unfold bind. rewrite E, E2. reflexivity.
Qed.

Lemma comp_region_gets l offs ks qs :
  Forall q_cell_ok l -> (forall o, In o offs -> 0 <= o /\ o + 3 < Z.of_nat (length l)) ->
  Forall2 (fun k q => (0 < k <= length l)%nat /\ nth_error l (length l - k) = Some q) ks qs -> gates_ok (qvals l) offs ->
  comp (fun rho => Forall (q_ok rho) l) (region_gets l offs ks)
    (fun xs => Forall2 (fun q x => av_val x = qadv q /\ av_cell x <> None) qs xs) (fun rho xs => Forall (av_ok rho) xs).
Proof.
  intros HF HO Hk HG s W.
  destruct (assign_region_total l offs s W HF) as [s1 E1]; [intros o Ho; apply HO in Ho; lia|].
  pose proof E1 as E1'. apply assign_region_spec in E1' as (W1 & X1 & A1 & _ & _ & _ & _ & _ & S1); auto.
  2:{ rewrite Forall_forall. intros o Ho. apply HO in Ho. lia. }
  assert (HK : Forall (fun k => (0 < k <= length (map qadv l))%nat) ks).
  { rewrite map_length. clear - Hk. induction Hk; constructor; auto. apply H. }
  destruct (gets_total s s1 (map qadv l) ks A1 HK) as [xs Ex].
  exists xs, s1. split; [unfold region_gets, bind; rewrite E1; exact Ex|]. split; auto. split; auto.
  apply (gets_region s) with (l := map qadv l) in Ex as (_ & F); auto. rewrite map_length in F.
  split.
  - clear - F Hk. revert xs F. induction Hk; intros xs F; inversion F; subst; constructor; auto.
    destruct H as [_ H]. destruct H2 as (_ & H2 & H3 & _). rewrite nth_error_map, H in H2. injection H2 as H2. auto.
  - intros rho HA HS HR. split.
    + apply S1. split; auto. eapply honest_region; eauto. intros j Hj. apply HO in Hj. lia.
    + clear - F HA. induction F; constructor; auto. eapply av_in_ok; eauto. apply H.
Qed.
End Gets.
