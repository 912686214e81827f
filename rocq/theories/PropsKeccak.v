(** Properties of the Keccak circuit (hashes/zkevm/src/keccak/vanilla). *)
From Coq Require Import ZArith List Bool Lia.
From Verif Require Import Field KecCircuit KecSpec KecClaim KecAttack KecAttack2.
Import ListNotations.
Local Open Scope Z_scope.

(** C66. The statement of soundness is [kec_sound] (file KecClaim). It is false for most parameters: with 28 rows per round and k = 14, the
    parameters of the first test of vanilla/tests.rs, some lookups are not created at all, and for any list of messages there is an accepted table
    that declares the digest zero for each of them. *)
Definition attacked_params : list (nat * nat) :=
  [(12, 16); (12, 28); (14, 16); (14, 24); (14, 28); (16, 22); (16, 28); (16, 32); (18, 22); (18, 28)]%nat.
Lemma attacked_ok : forall k rr, In (k, rr) attacked_params ->
  kec_attackable k rr = true /\ kec_config k rr = Some (kec_gates (kec_conf k rr), kc_lookups (kec_conf k rr)).
Proof.
  assert (H : forallb (fun kr => kec_attackable (fst kr) (snd kr) &&
                match kec_config (fst kr) (snd kr) with Some _ => true | None => false end) attacked_params = true).
  { vm_compute. reflexivity. }
  intros k rr Hin. pose proof (proj1 (forallb_forall _ _) H (k, rr) Hin) as E. cbv beta in E. apply andb_true_iff in E as [E1 E2].
  split; [exact E1|]. clear - E2. change (fst (k, rr)) with k in E2. change (snd (k, rr)) with rr in E2. revert E2. unfold kec_config. cbv zeta. generalize (kec_conf k rr). intros cf.
  destruct (kc_ok cf && forallb (fun e => (kdegree e <=? 3)%nat) (kec_gates cf)); [reflexivity | discriminate].
Qed.
Theorem C66_keccak_zero_digests_refuted (p : positive) (k rr : nat) (msgs : list (list Z)) (rows usable : Z) :
  In (k, rr) attacked_params ->
  let nb := length (flat_map (fun m => seq 0 (S (length m / 136))) msgs) in
  Z.of_nat rr * (1 + 25 * Z.of_nat nb) <= usable -> usable <= rows ->
  exists t : ktable p, krows t = rows /\ kaccepted k rr t usable nb /\
    exists ldss, concat ldss = kloaded_blocks rr t nb /\ Forall2 (fun lds msg => kdeclares lds msg 0 0) ldss msgs.
Proof. intros Hin. destruct (attacked_ok k rr Hin) as [H1 H2]. exact (kec_zero_digests p k rr msgs rows usable H1 H2). Qed.
Theorem C66_keccak_sound_refuted (p : positive) (k rr : nat) : In (k, rr) attacked_params -> ~ kec_sound p k rr.
Proof.
  intros Hin Hs.
  destruct (C66_keccak_zero_digests_refuted p k rr [[]] (2 ^ 20) (2 ^ 20) Hin) as (t & Ht & Hacc & ldss & Hc & Hd).
  - cbn in Hin. intuition (match goal with H : (_, _) = (_, _) |- _ => injection H as <- <- end; vm_compute; discriminate).
  - lia.
  - inversion Hd as [|lds m l1 l2 Hm Hrest]; subst. inversion Hrest; subst. cbn [concat] in Hc. rewrite app_nil_r in Hc.
    assert (Hm' : kdeclares (firstn 1 (skipn 0 (kloaded_blocks rr t 1))) [] 0 0).
    { rewrite Hc in Hm. exact Hm. }
    destruct (Hs t (2 ^ 20) 1%nat 0%nat 1%nat [] 0 0 Hacc ltac:(constructor) ltac:(lia) ltac:(lia) ltac:(lia) ltac:(now left) Hm') as [Hlo _].
    rewrite keccak256_empty in Hlo. vm_compute in Hlo. discriminate.
Qed.
(** The constants of param.rs are those of the specification. *)
Theorem C66_keccak_constants :
  (forall r, (r < 24)%nat -> nth r ROUND_CST 0 = round_const r) /\ nth 24 ROUND_CST 0 = 0 /\
  (forall x y, (x < 5)%nat -> (y < 5)%nat -> Z.of_nat (nth y (nth x RHO_MATRIX []) 0%nat) = rho_offset x y).
Proof.
  split; [|split; [reflexivity|]].
  - intros r Hr. do 24 (destruct r as [|r]; [reflexivity|]). lia.
  - intros x y Hx Hy. do 5 (destruct x as [|x]; [do 5 (destruct y as [|y]; [reflexivity|]); lia|]). lia.
Qed.
(** three bytes, with the first test's parameters: two to the fourteen rows hold the message's block *)
Example C66_example : exists t : ktable 13, krows t = 2 ^ 14 /\ kaccepted 14 28 t (2 ^ 14 - 6) 1 /\
  kdeclares (kloaded_blocks 28 t 1) [1; 2; 3] 0 0.
Proof.
  destruct (C66_keccak_zero_digests_refuted 13 14 28 [[1; 2; 3]] (2 ^ 14) (2 ^ 14 - 6)) as (t & H1 & H2 & ldss & H3 & H4).
  - cbn; auto 10.
  - cbn; lia.
  - lia.
  - exists t. split; [exact H1|]. split; [exact H2|]. inversion H4 as [|lds m l1 l2 Hm Hr]; subst. inversion Hr; subst.
    cbn [concat] in H3. rewrite app_nil_r in H3. subst lds. exact Hm.
Qed.
