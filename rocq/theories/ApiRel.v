(** C18 / C19 for every program over the API. *)
From Coq Require Import ZArith Lia List Bool.
From Verif Require Import Field Spec Context ContextProofs Utils Gate Range Rel RelGate RelRange Api.
Import ListNotations.
Local Open Scope Z_scope.
Local Open Scope monad_scope.

Section ApiRel.
Context {p : positive} (lb : nat).
Notation Fp := (F p).
Notation envR m := (Forall2 (@avR p m)).

Definition argR (m : bool) (a b : arg p) : Prop :=
  match a, b with Ref i, Ref j => i = j | Wit v, Wit w => eqm m v w | Cst c, Cst d => c = d | _, _ => False end.
Lemma eqm_false {A} (x y : A) : eqm false x y.
Proof. exact I. Qed.
Lemma argR_refl m a : argR m a a.
Proof. destruct a; cbn; auto. apply eqm_refl. Qed.
Lemma argR_era a b : era a = era b -> argR false a b.
Proof. destruct a, b; cbn; intros [=]; auto. Qed.
Lemma argRs_era l l' : map era l = map era l' -> Forall2 (argR false) l l'.
Proof. revert l'. induction l; intros [|]; cbn; intros [=]; constructor; auto using argR_era. Qed.
Lemma argRs_refl m l : Forall2 (argR m) l l.
Proof. apply Forall2_refl, argR_refl. Qed.
Lemma wits_era (l l' : list Fp) : map (fun _ => @F0 p) l = map (fun _ => F0) l' -> Forall2 (eqm false) l l'.
Proof. revert l'. induction l; intros [|]; cbn; intros [=]; constructor; auto. all: exact I. Qed.
Definition tR m (x y : Fp * arg p * arg p) : Prop := fst (fst x) = fst (fst y) /\ argR m (snd (fst x)) (snd (fst y)) /\ argR m (snd x) (snd y).
Lemma tR_refl m l : Forall2 (tR m) l l.
Proof. apply Forall2_refl. intros [[c a] b]. repeat split; cbn; apply argR_refl. Qed.
Lemma tR_era l l' : map (fun '(c, a, b) => (c : Fp, era a, era b)) l = map (fun '(c, a, b) => (c, era a, era b)) l' -> Forall2 (tR false) l l'.
Proof.
  revert l'. induction l as [|[[c a] b] l IH]; intros [|[[c' a'] b'] l']; cbn; intros [=]; constructor; auto.
  split; [auto|]. split; cbn; now apply argR_era.
Qed.

Lemma rel_getv m e e' i : envR m e e' -> rel m (getv e i) (getv e' i) (avR m).
Proof. intros. now apply rel_lift_nth. Qed.
Lemma rel_geta m e e' a a' : envR m e e' -> argR m a a' -> rel m (geta e a) (geta e' a') (qR m).
Proof.
  intros He Ha. destruct a, a'; cbn in Ha; try contradiction; subst; cbn [geta].
  - eapply rel_bind; [now apply rel_getv|]. intros. now apply rel_ret.
  - now apply rel_ret.
  - now apply rel_ret.
Qed.
Lemma rel_getvs m e e' l : envR m e e' -> rel m (getvs e l) (getvs e' l) (envR m).
Proof. intros. eapply rel_mapM; [apply (Forall2_refl eq); auto|]. intros ? ? <-. now apply rel_getv. Qed.
Lemma rel_getas m e e' l l' : envR m e e' -> Forall2 (argR m) l l' -> rel m (getas e l) (getas e' l') (Forall2 (qR m)).
Proof. intros. eapply rel_mapM; [eauto|]. intros. now apply rel_geta. Qed.
Lemma rel_triples m e e' l l' : envR m e e' -> Forall2 (tR m) l l' -> rel m (mapM (triple e) l) (mapM (triple e') l') (Forall2 (spcR m)).
Proof.
  intros. eapply rel_mapM; [eauto|]. intros [[c a] b] [[c' a'] b'] (H1 & H2 & H3). cbn in *. subst c'.
  eapply rel_bind; [eapply rel_geta; eauto|]. intros. eapply rel_bind; [eapply rel_geta; eauto|]. intros. apply rel_ret. repeat split; auto.
Qed.
Lemma rel_points m e e' l : envR m e e' -> rel m (mapM (point e) l) (mapM (point e') l) (Forall2 (ptR m)).
Proof.
  intros. eapply rel_mapM; [apply (Forall2_refl eq); auto|]. intros ? ? <-. unfold point. eapply rel_bind; [eapply rel_getv; eauto|]. intros.
  eapply rel_bind; [eapply rel_getv; eauto|]. intros. apply rel_ret. split; auto.
Qed.
Lemma rel_getvss m e e' l : envR m e e' -> rel m (mapM (getvs e) l) (mapM (getvs e') l) (Forall2 (envR m)).
Proof. intros. eapply rel_mapM; [apply (Forall2_refl eq); auto|]. intros ? ? <-. now apply rel_getvs. Qed.
Lemma rel_one m x y : rel m x y (@avR p m) -> rel m (one x) (one y) (envR m).
Proof. intros. eapply rel_bind; [eauto|]. intros. apply rel_ret. auto. Qed.
Lemma rel_nil m (x y : M p unit) : rel m x y (fun _ _ => True) -> rel m (nil_ x) (nil_ y) (envR m).
Proof. intros. eapply rel_bind; [eauto|]. intros. apply rel_ret. auto. Qed.
Lemma rel_pair m x y : rel m x y (@ptR p m) -> rel m (pair_ x) (pair_ y) (envR m).
Proof. intros. eapply rel_bind; [eauto|]. intros ? ? [? ?]. apply rel_ret. auto. Qed.
Lemma rel_o1 m f e e' a a' : envR m e e' -> argR m a a' -> (forall x x', qR m x x' -> rel m (f x) (f x') (avR m)) -> rel m (o1 f e a) (o1 f e' a') (envR m).
Proof. intros. eapply rel_bind; [eapply rel_geta; eauto|]. intros. apply rel_one. auto. Qed.
Lemma rel_o2 m f e e' a a' b b' : envR m e e' -> argR m a a' -> argR m b b' ->
  (forall x x' y y', qR m x x' -> qR m y y' -> rel m (f x y) (f x' y') (avR m)) -> rel m (o2 f e a b) (o2 f e' a' b') (envR m).
Proof. intros. eapply rel_bind; [eapply rel_geta; eauto|]. intros. eapply rel_bind; [eapply rel_geta; eauto|]. intros. apply rel_one. auto. Qed.
Lemma rel_o3 m f e e' a a' b b' c c' : envR m e e' -> argR m a a' -> argR m b b' -> argR m c c' ->
  (forall x x' y y' z z', qR m x x' -> qR m y y' -> qR m z z' -> rel m (f x y z) (f x' y' z') (avR m)) -> rel m (o3 f e a b c) (o3 f e' a' b' c') (envR m).
Proof.
  intros. eapply rel_bind; [eapply rel_geta; eauto|]. intros. eapply rel_bind; [eapply rel_geta; eauto|]. intros.
  eapply rel_bind; [eapply rel_geta; eauto|]. intros. apply rel_one. auto.
Qed.

Hint Resolve eqm_false argR_refl argRs_refl tR_refl argR_era argRs_era tR_era wits_era Forall2_eqm_refl eqm_refl : api.
Ltac gets := repeat match goal with
  | |- rel _ (bind (getv _ _) _) _ _ => eapply rel_bind; [apply rel_getv; eassumption|intros ? ? ?]
  | |- rel _ (bind (geta _ _) _) _ _ => eapply rel_bind; [apply rel_geta; [eassumption|auto with api]|intros ? ? ?]
  | |- rel _ (bind (getvs _ _) _) _ _ => eapply rel_bind; [apply rel_getvs; eassumption|intros ? ? ?]
  | |- rel _ (bind (getas _ _) _) _ _ => eapply rel_bind; [apply rel_getas; [eassumption|auto with api]|intros ? ? ?]
  | |- rel _ (bind (mapM (triple _) _) _) _ _ => eapply rel_bind; [apply rel_triples; [eassumption|auto with api]|intros ? ? ?]
  | |- rel _ (bind (mapM (point _) _) _) _ _ => eapply rel_bind; [apply rel_points; eassumption|intros ? ? ?]
  | |- rel _ (bind (mapM (getvs _) _) _) _ _ => eapply rel_bind; [apply rel_getvss; eassumption|intros ? ? ?]
  end.
Hint Resolve rel_add rel_sub rel_sub_mul rel_neg rel_mul rel_mul_add rel_mul_not rel_div_unsafe rel_assert_bit rel_or rel_xor rel_select rel_or_and rel_sum
  rel_partial_sums rel_accumulated_product rel_inner_product rel_inner_product_left_last rel_inner_product_with_sums rel_sum_products rel_is_zero rel_is_equal
  rel_bits_to_indicator rel_idx_to_indicator rel_select_by_indicator rel_select_from_idx rel_select_array rel_num_to_bits rel_bits_to_num rel_pow_var rel_lagrange
  rel_range_check rel_check_less_than rel_check_less_than_safe rel_check_big_less_than_safe rel_is_less_than rel_is_less_than_safe rel_is_big_less_than_safe
  rel_div_mod rel_div_mod_var rel_get_last_bit rel_decompose_le rel_limbs_to_num rel_right_rotate rel_left_rotate
  rel_load_witness rel_load_constant rel_load_constants rel_load_zero rel_constrain_equal rel_assert_is_const rel_witnesses : api.
Lemma rel_inc m a a' : qR m a a' -> rel m (inc (p:=p) a) (inc a') (avR m).
Proof. intros. apply rel_add; auto. reflexivity. Qed.
Lemma rel_dec m a a' : qR m a a' -> rel m (dec (p:=p) a) (dec a') (avR m).
Proof. intros. apply rel_sub; auto. reflexivity. Qed.
Lemma rel_not m a a' : qR m a a' -> rel m (not (p:=p) a) (not a') (avR m).
Proof. intros. apply rel_sub; auto. reflexivity. Qed.
Lemma rel_and m a a' b b' : qR m a a' -> qR m b b' -> rel m (and (p:=p) a b) (and a' b') (avR m).
Proof. intros. apply rel_mul; auto. Qed.
Hint Resolve rel_inc rel_dec rel_not rel_and : api.
Ltac fin := first
  [ apply rel_o1; [eassumption|auto with api|intros; auto with api]
  | apply rel_o2; [eassumption|auto with api|auto with api|intros; auto with api]
  | apply rel_o3; [eassumption|auto with api|auto with api|auto with api|intros; auto with api]
  | gets; first [apply rel_one; solve [auto with api] | apply rel_nil; solve [auto with api] | apply rel_pair; solve [auto with api] | (first [apply rel_witnesses|apply rel_load_constants|apply rel_partial_sums|apply rel_accumulated_product|apply rel_inner_product_with_sums|apply rel_bits_to_indicator|apply rel_idx_to_indicator|apply rel_select_array|apply rel_num_to_bits|apply rel_decompose_le]; solve [auto with api])] ].

Lemma rel_exec_W o e e' : envR true e e' -> rel true (exec lb o e) (exec lb o e') (envR true).
Proof.
  intros He. destruct o; cbn [exec]; try solve [fin].
  - gets. apply rel_pair. apply rel_inner_product_left_last; auto.
  - gets. eapply rel_bind; [apply rel_inner_product_left; eauto|]. intros ? ? [? ?]. apply rel_ret. auto.
Qed.
Lemma rel_exec_S o o' e e' : erase o = erase o' -> envR false e e' -> rel false (exec lb o e) (exec lb o' e') (envR false).
Proof.
  intros Ho He. destruct o; destruct o'; try discriminate Ho; cbn [erase] in Ho; try (injection Ho; intros; subst); cbn [exec]; try solve [fin].
  - gets. apply rel_pair. apply rel_inner_product_left_last; auto.
  - gets. eapply rel_bind; [apply rel_inner_product_left; eauto|]. intros ? ? [? ?]. apply rel_ret. auto.
Qed.
Lemma rel_prog_W l : forall e e', envR true e e' -> rel true (run_prog lb l e) (run_prog lb l e') (envR true).
Proof.
  induction l as [|o l IH]; intros e e' He; cbn [run_prog]; [now apply rel_ret|].
  eapply rel_bind; [apply rel_exec_W; eauto|]. intros. apply IH. now apply Forall2_app.
Qed.
Lemma rel_prog_S l : forall l' e e', same_shape l l' -> envR false e e' -> rel false (run_prog lb l e) (run_prog lb l' e') (envR false).
Proof.
  unfold same_shape. induction l as [|o l IH]; intros [|o' l'] e e' Hs He; cbn [map] in Hs; try discriminate Hs; cbn [run_prog]; [now apply rel_ret|].
  injection Hs as H1 H2. eapply rel_bind; [apply rel_exec_S; eauto|]. intros. apply IH; auto. now apply Forall2_app.
Qed.
Lemma stR_new mode ph tid cid : stR (p:=p) mode (new_ctx false ph tid cid) (new_ctx mode ph tid cid).
Proof. constructor; cbn; auto; destruct mode; auto. Qed.
End ApiRel.
