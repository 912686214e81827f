(** Assembly of C39. *)
From Coq Require Import ZArith Znumtheory Lia List Bool Arith Ring.
From Verif Require Import Field GateProofs Det PoseidonMds PoseidonSpec PoseidonOpt.
Import ListNotations.
Local Open Scope F_scope.

Section Opt2.
Context {p : positive}.
Add Ring Fring : (F_ring p) (morphism (F_morph p), constants [Fcst]).
Notation vec := (list (F p)).
Notation mat := (list (list (F p))).
Hypothesis Hp : prime (Z.pos p).

Lemma fold_full_len T (M : mat) l : wf_mat T M -> forall s, length s = T -> length (fold_left (full_round M) l s) = T.
Proof. intros HM. induction l as [|c l IH]; intros s Hs; [auto|]. cbn. apply IH. apply full_round_len; auto. Qed.
Lemma fold_partial_len T (M : mat) l : wf_mat T M -> forall s, length s = T -> length (fold_left (partial_round M) l s) = T.
Proof. intros HM. induction l as [|c l IH]; intros s Hs; [auto|]. cbn. apply IH. apply partial_round_len; auto. Qed.
Lemma fold_snoc_full (M : mat) l s : l <> [] ->
  full_round M (fold_left (full_round M) (removelast l) s) (last l []) = fold_left (full_round M) l s.
Proof. intros H. rewrite (app_removelast_last [] H) at 3. rewrite fold_left_app. reflexivity. Qed.

Theorem opt_rounds_correct T RATE r_f r_p (cs : list vec) (mds mds_inv : mat) sp :
  (0 < T)%nat -> (r_f mod 2 = 0)%nat ->
  wf_mat T mds -> Forall (fun c => length c = T) cs ->
  mat_mul T mds mds_inv = mat_identity T ->
  opt_spec_new T RATE r_f r_p cs mds mds_inv = Some sp ->
  length (nth 0 (oc_start (os_consts sp)) []) = T /\
  forall s, length s = T ->
    opt_rounds T sp (add_vec s (nth 0 (oc_start (os_consts sp)) [])) = poseidon_perm r_f r_p mds cs s.
Proof.
  intros HT Hev HM Hcs Hinv H. unfold opt_spec_new, calculate_optimized_constants in H.
  set (h := (r_f / 2)%nat) in *.
  assert (Hrf : r_f = (h + h)%nat).
  { unfold h. pose proof (Nat.div_mod r_f 2 ltac:(lia)). lia. }
  clearbody h. subst r_f.
  destruct (Nat.eqb_spec (length cs) (h + h + r_p)) as [Hlen|]; [|discriminate]. cbn [negb] in H.
  destruct (Nat.eqb_spec h 0) as [|Hh]; [discriminate|].
  (* split the constants *)
  assert (exists A B C, cs = A ++ B ++ C /\ length A = h /\ length B = r_p /\ length C = h) as (A & B & C & -> & HA & HB & HC).
  { exists (firstn h cs), (firstn r_p (skipn h cs)), (skipn r_p (skipn h cs)).
    rewrite !firstn_skipn. split; [reflexivity|]. rewrite !firstn_length, !skipn_length. lia. }
  clear Hlen. apply Forall_app in Hcs as [HAf Hcs]. apply Forall_app in Hcs as [HBf HCf].
  destruct A as [|c0 A]; [cbn in HA; lia|]. destruct C as [|e0 C]; [cbn in HC; lia|].
  cbn [length] in HA, HC.
  assert (E1 : firstn (h - 1) (skipn 1 ((c0 :: A) ++ B ++ e0 :: C)) = A).
  { cbn [app skipn]. rewrite firstn_app. replace (h - 1 - length A)%nat with 0%nat by lia.
    rewrite firstn_all2 by lia. apply app_nil_r. }
  assert (E2 : nth (h + r_p) ((c0 :: A) ++ B ++ e0 :: C) [] = e0).
  { rewrite app_nth2 by (cbn [length]; lia). cbn [length]. rewrite app_nth2 by lia.
    replace (h + r_p - S (length A) - length B)%nat with 0%nat by lia. reflexivity. }
  assert (E3 : firstn r_p (skipn h (rev (skipn h ((c0 :: A) ++ B ++ e0 :: C)))) = rev B).
  { rewrite (skipn_app h (c0 :: A)). rewrite (skipn_all2 (c0 :: A)) by (cbn [length]; lia). cbn [length]. replace (h - S (length A))%nat with 0%nat by lia.
    cbn [app skipn]. rewrite rev_app_distr. rewrite skipn_app.
    rewrite skipn_all2 by (rewrite rev_length; cbn; lia). rewrite rev_length. cbn [length].
    replace (h - S (length C))%nat with 0%nat by lia. cbn [app skipn]. apply firstn_all2. rewrite rev_length. lia. }
  assert (E4 : firstn (h - 1) (skipn (h + r_p + 1) ((c0 :: A) ++ B ++ e0 :: C)) = C).
  { rewrite app_assoc. rewrite (skipn_app _ ((c0 :: A) ++ B)). rewrite (skipn_all2 ((c0 :: A) ++ B)) by (rewrite app_length; cbn [length]; lia).
    rewrite app_length. cbn [length app]. replace (h + r_p + 1 - (S (length A) + length B))%nat with 1%nat by lia.
    cbn [skipn]. apply firstn_all2. lia. }
  rewrite E1, E2, E3, E4 in H. rewrite partial_consts_rev in H.
  assert (He0 : length e0 = T) by (pose proof (Forall_inv HCf); auto).
  assert (Hc0 : length c0 = T) by (pose proof (Forall_inv HAf); auto).
  pose proof (popt_len T mds_inv B e0 He0) as [Hal Hkl].
  destruct (popt T mds_inv B e0) as [acc ks] eqn:Epo. cbn [fst snd] in *.
  unfold calculate_sparse_matrices in H.
  destruct (sparse_loop T RATE (mat_transpose T mds) r_p (mat_transpose T mds) []) as [[sps acc']|] eqn:Esl; [|discriminate].
  cbn [option_map] in H. injection H as <-.
  cbn [os_consts oc_start]. cbn [app nth]. split; [exact Hc0|].
  apply (sparse_loop_chain Hp T mds RATE r_p _ _ (fun i j => if (i =? j)%nat then 1 else 0)) in Esl.
  2:{ cbn. auto. }
  2:{ intros i j Hi Hj. unfold mat_transpose. rewrite ent_tab2 by auto. unfold fmul_m.
      rewrite (bsum_single T i); auto.
      - rewrite Nat.eqb_refl. ring.
      - intros k Hk Hki. destruct (Nat.eqb_spec i k); [lia|ring]. }
  destruct Esl as [Hspl (P & Hch & Hacc')].
  intros s Hs. unfold opt_rounds. cbn [os_rf os_consts os_mds os_pre_sparse os_sparse oc_start oc_partial oc_end].
  assert (Hh2 : ((h + h) / 2 = h)%nat). { replace (h + h)%nat with (h * 2)%nat by lia. apply Nat.div_mul; lia. }
  rewrite Hh2.
  (* first full rounds *)
  cbn [skipn]. rewrite (firstn_app (h - 1)). rewrite map_length. replace (h - 1 - length A)%nat with 0%nat by lia.
  rewrite firstn_all2 by (rewrite map_length; lia). cbn [firstn]. rewrite app_nil_r.
  assert (HAf' : Forall (fun c => length c = T) A) by (eapply Forall_inv_tail; eauto).
  rewrite (rounds_correct T mds mds_inv HM Hinv A s c0 Hs Hc0 HAf').
  set (LA := c0 :: A) in *.
  set (sA := fold_left (full_round mds) (removelast LA) s).
  assert (HsA : length sA = T) by (apply fold_full_len; auto).
  assert (HlA : length (last LA []) = T).
  { rewrite Forall_forall in HAf. apply HAf. destruct (exists_last (l:=LA)) as (l' & a & Ea); [discriminate|].
    rewrite Ea, last_last. apply in_or_app. right. left. reflexivity. }
  rewrite (app_comm_cons (map (mul_vector T mds_inv) A)). rewrite last_last.
  set (s2 := mul_vector T (mat_transpose T acc') _).
  set (x := fold_left (full_round mds) LA s).
  assert (Hx : full_round mds sA (last LA []) = x) by (apply fold_snoc_full; discriminate).
  rewrite rev_involutive.
  pose proof (partial_correct T mds mds_inv HM Hinv B sps P x e0 Hch ltac:(cbn in Hspl; lia)) as PC.
  rewrite Epo in PC. cbn [fst snd] in PC.
  assert (Hxl : length x = T) by (apply fold_full_len; auto).
  rewrite (PC Hxl He0 HBf HT s2).
  2:{ apply tab_len. }
  2:{ intros i Hi. unfold s2. rewrite vget_mul_vector by auto.
      rewrite (mv_ext T _ (fmul_m T P (ent mds)) _ (vget (n_sbox_full (add_vec sA (last LA [])) (mul_vector T mds_inv acc)))); auto.
      2:{ intros j Hj. unfold mat_transpose. rewrite ent_tab2 by auto. apply Hacc'; auto. }
      rewrite <- mv_mv. apply mv_ext; auto. intros j Hj.
      rewrite <- vget_mul_vector by auto. rewrite (full_step T mds mds_inv HM Hinv) by auto. rewrite Hx.
      apply vget_add_vec; lia. }
  set (y := fold_left (partial_round mds) B x).
  assert (Hyl : length y = T) by (apply fold_partial_len; auto).
  rewrite (rounds_correct T mds mds_inv HM Hinv C y e0 Hyl He0) by (eapply Forall_inv_tail; eauto).
  set (LC := e0 :: C) in *.
  rewrite rounds_final; auto.
  - rewrite fold_snoc_full by discriminate.
    unfold poseidon_perm. rewrite Hh2. change (c0 :: A ++ B ++ LC) with (LA ++ B ++ LC).
    rewrite (firstn_app h LA). replace (h - length LA)%nat with 0%nat by (unfold LA; cbn [length]; lia). cbn [firstn].
    rewrite app_nil_r. rewrite (firstn_all2 LA) by (unfold LA; cbn [length]; lia).
    rewrite (skipn_app h LA). replace (h - length LA)%nat with 0%nat by (unfold LA; cbn [length]; lia). rewrite (skipn_all2 LA) by (unfold LA; cbn [length]; lia).
    cbn [app skipn]. rewrite (firstn_app r_p B). replace (r_p - length B)%nat with 0%nat by lia. cbn [firstn].
    rewrite app_nil_r, (firstn_all2 B) by lia.
    rewrite app_assoc. rewrite (skipn_app (h + r_p) (LA ++ B)). rewrite (skipn_all2 (LA ++ B)) by (rewrite app_length; cbn [length]; unfold LA; cbn [length]; lia).
    rewrite app_length. replace (h + r_p - (length LA + length B))%nat with 0%nat by (unfold LA; cbn [length]; lia). reflexivity.
  - apply fold_full_len; auto.
  - rewrite Forall_forall in HCf. apply HCf. destruct (exists_last (l:=LC)) as (l' & a & Ea); [discriminate|].
    rewrite Ea, last_last. apply in_or_app. right. left. reflexivity.
Qed.
End Opt2.
