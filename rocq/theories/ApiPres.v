(** Every program over the public API keeps the context invariant (Pres.v). *)
From Coq Require Import ZArith Lia List Bool.
From Verif Require Import Field Spec Context ContextProofs Utils Gate Range RelGate Pres PresGate PresRange Api.
Import ListNotations.
Local Open Scope Z_scope.
Local Open Scope monad_scope.

Section ApiPres.
Context {p : positive} (lb : nat).
Notation Fp := (F p).
Notation qc := (qcell p).
Notation AV := (AV p).
Notation O1 := (fun a : AV => [a]).
Notation ID := (fun l : list AV => l).
Implicit Types (e : env p).

(** documented precondition of [select_by_indicator] / [select_array_by_indicator] (flex_gate/mod.rs 742-745, 799-802): as many indicators as values *)
Definition op_ok (o : op p) : Prop :=
  match o with
  | OSelectByIndicator l i => (length l <= length i)%nat
  | OSelectArray l i => (length l <= length i)%nat
  | _ => True
  end.

Lemma pres_getv L e i : incl e L -> pres L (getv e i) O1.
Proof. apply pres_lift_nth. Qed.
Lemma pres_geta L e (a : arg p) : incl e L -> pres L (geta e a) qav.
Proof. intros. destruct a; cbn [geta]; [|prun|prun]. eapply pres_bind; [now apply pres_getv|]. intros x. prun. Qed.
Lemma pres_getvs L e l : incl e L -> pres L (getvs e l) ID.
Proof. intros. apply pres_mapM1. intros. now apply pres_getv. Qed.
Lemma pres_getas L e l : incl e L -> pres L (getas e l) (qavs (p:=p)).
Proof. intros. apply pres_mapM. intros. now apply pres_geta. Qed.
Lemma pres_one L (m : M p AV) : pres L m O1 -> pres L (one m) ID.
Proof. intros. unfold one. eapply pres_bind; [eassumption|]. intros x. prun. Qed.
Lemma pres_nil L (m : M p unit) : pres L m (fun _ => []) -> pres L (nil_ m) ID.
Proof. intros. unfold nil_. eapply pres_bind; [eassumption|]. intros x. prun. Qed.
Lemma pres_pair L (m : M p (AV * AV)) : pres L m (fun r => [fst r; snd r]) -> pres L (pair_ m) ID.
Proof. intros. unfold pair_. eapply pres_bind; [eassumption|]. intros x. prun. Qed.
Lemma pres_o1 L e f a : incl e L -> (forall L x, incl (qav x) L -> pres L (f x) O1) -> pres L (o1 f e a) ID.
Proof. intros. unfold o1. eapply pres_bind; [now apply pres_geta|]. intros x. apply pres_one, H0. now apply incl_appl. Qed.
Lemma pres_o2 L e f a b : incl e L -> (forall L x y, incl (qav x) L -> incl (qav y) L -> pres L (f x y) O1) -> pres L (o2 f e a b) ID.
Proof. intros. unfold o2. eapply pres_bind; [now apply pres_geta|]. intros x. eapply pres_bind; [apply pres_geta; now apply incl_appr|]. intros y. apply pres_one, H0; sub. Qed.
Lemma pres_o3 L e f a b c : incl e L -> (forall L x y z, incl (qav x) L -> incl (qav y) L -> incl (qav z) L -> pres L (f x y z) O1) -> pres L (o3 f e a b c) ID.
Proof.
  intros. unfold o3. eapply pres_bind; [now apply pres_geta|]. intros x. eapply pres_bind; [apply pres_geta; now apply incl_appr|]. intros y.
  eapply pres_bind; [apply pres_geta; do 2 apply incl_appr; auto|]. intros z. apply pres_one, H0; sub.
Qed.
Lemma pres_triples L e l : incl e L -> pres L (mapM (triple e) l) (tavs (p:=p)).
Proof.
  intros. apply pres_mapM. intros [[c a] b] _. cbn [triple]. eapply pres_bind; [now apply pres_geta|]. intros x. eapply pres_bind; [apply pres_geta; now apply incl_appr|].
  intros y. apply pres_ret. sub.
Qed.
Lemma pres_points L e l : incl e L -> pres L (mapM (point e) l) (cavs (p:=p)).
Proof.
  intros. apply pres_mapM. intros [a b] _. unfold point. eapply pres_bind; [now apply pres_getv|]. intros x. eapply pres_bind; [apply pres_getv; now apply incl_appr|].
  intros y. apply pres_ret. sub.
Qed.
Lemma flat_map_id_concat (l : list (list AV)) : flat_map (fun x => x) l = concat l.
Proof. induction l; cbn; congruence. Qed.

Ltac geth := match goal with
  | |- pres _ (getv _ _) _ => apply pres_getv | |- pres _ (geta _ _) _ => apply pres_geta | |- pres _ (getvs _ _) _ => apply pres_getvs
  | |- pres _ (getas _ _) _ => apply pres_getas | |- pres _ (mapM (triple _) _) _ => apply pres_triples | |- pres _ (mapM (point _) _) _ => apply pres_points end;
  repeat apply incl_appr; apply incl_refl.
Ltac gets := repeat (eapply pres_bind; [solve [geth]|intros ?]).
Ltac lf := first [apply incl_refl | apply incl_appl, incl_refl | apply incl_appr; lf].
Ltac inn := first [apply in_or_app; left; cbn; now auto | apply in_or_app; right; inn].
Ltac side := solve [lf | inn].
Ltac fin := match goal with
  | |- pres _ (one _) _ => apply pres_one | |- pres _ (nil_ _) _ => apply pres_nil | |- pres _ (pair_ _) _ => apply pres_pair | |- _ => idtac end.
Ltac opl := match goal with |- pres _ ?m _ => match m with
  | load_witness _ => apply pres_load_witness | load_constant _ => apply pres_load_constant | load_constants _ => apply pres_load_constants
  | load_zero => apply pres_load_zero | assign_witnesses _ => apply pres_assign_witnesses
  | constrain_equal _ _ => apply pres_constrain_equal | assert_is_const _ _ => apply pres_assert_is_const | assert_bit _ => apply pres_assert_bit
  | add _ _ => apply pres_add | sub _ _ => apply pres_sub_ | mul _ _ => apply pres_mul | mul_not _ _ => apply pres_mul_not | div_unsafe _ _ => apply pres_div_unsafe
  | inc _ => apply pres_add | dec _ => apply pres_sub_ | neg _ => apply pres_neg | not _ => apply pres_sub_ | and _ _ => apply pres_mul
  | or _ _ => apply pres_or | xor _ _ => apply pres_xor | is_equal _ _ => apply pres_is_equal
  | sub_mul _ _ _ => apply pres_sub_mul | mul_add _ _ _ => apply pres_mul_add | select _ _ _ => apply pres_select | or_and _ _ _ => apply pres_or_and
  | sum _ => apply pres_sum | partial_sums _ => apply pres_partial_sums | accumulated_product _ _ => apply pres_accumulated_product
  | inner_product _ _ => apply pres_inner_product | inner_product_left_last _ _ => apply pres_inner_product_left_last
  | inner_product_left _ _ => apply pres_inner_product_left
  | inner_product_with_sums _ _ => apply pres_inner_product_with_sums | sum_products_with_coeff_and_var _ _ => apply pres_sum_products
  | bits_to_indicator _ => apply pres_bits_to_indicator | idx_to_indicator _ _ => apply pres_idx_to_indicator | select_from_idx _ _ => apply pres_select_from_idx
  | is_zero _ => apply pres_is_zero | num_to_bits _ _ => apply pres_num_to_bits | bits_to_num _ => apply pres_bits_to_num | pow_var _ _ _ => apply pres_pow_var
  | lagrange_and_eval _ _ => apply pres_lagrange
  | range_check _ _ _ => apply pres_range_check | check_less_than _ _ _ _ => apply pres_check_less_than | check_less_than_safe _ _ _ => apply pres_check_less_than_safe
  | check_big_less_than_safe _ _ _ => apply pres_check_big_less_than_safe | is_less_than _ _ _ _ => apply pres_is_less_than
  | is_less_than_safe _ _ _ => apply pres_is_less_than_safe | is_big_less_than_safe _ _ _ => apply pres_is_big_less_than_safe
  | div_mod _ _ _ _ => apply pres_div_mod | div_mod_var _ _ _ _ _ => apply pres_div_mod_var | get_last_bit _ _ _ => apply pres_get_last_bit
  | decompose_le _ _ _ _ => apply pres_decompose_le | limbs_to_num _ _ => apply pres_limbs_to_num
  | const_right_rotate _ _ _ _ => apply pres_right_rotate | const_left_rotate _ _ _ _ => apply pres_left_rotate
  end end.
Ltac osplit := match goal with
  | |- pres _ (o1 _ _ _) _ => apply pres_o1 | |- pres _ (o2 _ _ _ _) _ => apply pres_o2 | |- pres _ (o3 _ _ _ _ _) _ => apply pres_o3 end;
  [assumption|intros; opl; first [assumption|intros ? []]].

Lemma pres_sbi l i e : (length l <= length i)%nat -> pres e (x <- getas e l ;; y <- getvs e i ;; one (select_by_indicator x y)) ID.
Proof.
  intros H. eapply pres_bind_P with (P := fun r : list qc => length r = length l); [apply pres_getas, incl_refl|intros; eapply mapM_len; eassumption|]. intros x Hx.
  eapply pres_bind_P with (P := fun r : list AV => length r = length i); [apply pres_getvs; lf|intros; eapply mapM_len; eassumption|]. intros y Hy.
  apply pres_one, pres_select_by_indicator; [lia|lf|lf].
Qed.
Lemma pres_sba l i e : (length l <= length i)%nat -> pres e (x <- mapM (getvs e) l ;; y <- getvs e i ;; select_array_by_indicator x y) ID.
Proof.
  intros H. eapply pres_bind_P with (P := fun r : list (list AV) => length r = length l); [|intros; eapply mapM_len; eassumption|].
  { apply pres_mapM. intros. apply pres_getvs, incl_refl. }
  intros x Hx. eapply pres_bind_P with (P := fun r : list AV => length r = length i); [apply pres_getvs; lf|intros; eapply mapM_len; eassumption|]. intros y Hy.
  apply pres_select_array; [lia| |lf]. rewrite flat_map_id_concat. lf.
Qed.

Theorem pres_exec o e : op_ok o -> pres e (exec lb o e) ID.
Proof.
  intros Hok. pose proof (incl_refl e) as He. destruct o; cbn [exec op_ok] in *; try solve [osplit]; try (now apply pres_sbi); try (now apply pres_sba); gets; try solve [fin; opl; try side].
  eapply pres_bind; [apply pres_inner_product_left; lf|]. intros r. apply pres_ret. lf.
Qed.
Theorem pres_prog l : forall e, Forall op_ok l -> pres e (run_prog lb l e) ID.
Proof.
  induction l as [|o l IH]; intros e H; cbn [run_prog]. { apply pres_ret, incl_refl. }
  inversion H; subst. eapply pres_bind; [now apply pres_exec|]. intros r. cbv beta. eapply pres_sub; [apply IH; auto|]. apply incl_app; lf.
Qed.
End ApiPres.
