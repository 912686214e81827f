(** Honest values of primitive calls used by the big-integer chips, and cells left at the end of the advice. *)
From Coq Require Import ZArith Znumtheory Lia List Bool Ring.
From Verif Require Import Field Spec Context ContextProofs Utils Logic Gate GateProofs ChainProofs IPProofs BitProofs PowProofs IPComp Derived
  RegionGets Calc CalcH RegionPrev.
Import ListNotations.
Local Open Scope Z_scope.

Section Prims.
Context {p : positive}.
Notation Fp := (F p).
Notation AV := (AV p).
Variable lb : nat.
Notation sound := (sound lb).
Notation comp := (comp lb).
Notation env := (env (p:=p)).
Notation hcalc := (hcalc lb).
Implicit Types (a b : list (qcell p)) (s : st p).

Lemma ip_cells_qh : forall a b (s0 : Fp) cells, length a = length b -> ip_cells s0 (combine a b) = Some cells -> Forall q_cell_ok cells ->
  exists xs ys, Forall2 qh a xs /\ Forall2 qh b ys.
Proof.
  induction a as [|x a IH]; intros [|y b] s0 cells HL H HF; cbn [combine ip_cells length] in *; try discriminate.
  - exists [], []. auto.
  - destruct (q_value x) as [vx|] eqn:Ex; [|discriminate]. destruct (q_value y) as [vy|] eqn:Ey; [|discriminate].
    destruct (ip_cells _ (combine a b)) as [c|] eqn:E; [|discriminate]. injection H as <-.
    inversion HF as [|? ? Cx HF1]; subst. inversion HF1 as [|? ? Cy HF2]; subst. inversion HF2 as [|? ? _ HF3]; subst.
    destruct (IH b _ _ ltac:(lia) E HF3) as (xs & ys & A & B).
    exists (vx :: xs), (vy :: ys). split; constructor; auto; split; auto.
Qed.
Lemma ip_run_qh a b s one s' : wf s -> length a = length b -> inner_product_simple a b s = Some (one, s') ->
  exists xs ys, Forall2 qh a xs /\ Forall2 qh b ys.
Proof.
  intros W HL H. unfold inner_product_simple in H.
  apply bind_inv in H as (cells & s1 & E1 & H). apply lift_inv in E1 as [E1 ->].
  apply bind_inv in H as (w & s1 & E2 & H). unfold ctx_wgo in E2. injection E2 as <- <-.
  rewrite (wf_wgo _ W) in H.
  apply bind_inv in H as (u & s1 & E2 & H). injection H as <- <-.
  apply assign_region_spec in E2 as (_ & _ & _ & _ & _ & HF & _); auto using offs3_nonneg.
  unfold ip_region in E1. destruct (starts_with_one b) eqn:Eone.
  - destruct b as [|[?|?|?|c] b]; try discriminate. destruct a as [|a0 a]; [discriminate|]. cbn [tl] in E1.
    destruct (q_value a0) as [v0|] eqn:E0; [|discriminate].
    destruct (ip_cells v0 (combine a b)) as [cl|] eqn:Ec; [|discriminate]. injection E1 as <-.
    inversion HF as [|? ? C0 HF']; subst. cbn [length] in HL.
    destruct (ip_cells_qh a b _ _ ltac:(lia) Ec HF') as (xs & ys & A & B).
    exists (v0 :: xs), (c :: ys). split; constructor; auto; split; cbn; auto.
  - destruct (ip_cells F0 (combine a b)) as [cl|] eqn:Ec; [|discriminate]. injection E1 as <-.
    inversion HF as [|? ? C0 HF']; subst. eapply ip_cells_qh; eauto.
Qed.
Lemma ipll_run_qh a b s o s' : wf s -> length a = length b -> inner_product_left_last a b s = Some (o, s') ->
  exists xs ys, Forall2 qh a xs /\ Forall2 qh b ys.
Proof.
  intros W HL H. unfold inner_product_left_last in H. apply bind_inv in H as (row & s0 & E0 & H). injection E0 as <- <-.
  apply bind_inv in H as (one & s1 & E1 & H). eapply ip_run_qh; eauto.
Qed.

Lemma last_leaves s x s' : wf s -> (0 < alen s)%nat -> ctx_last s = Some (x, s') -> ends_at s' x.
Proof. intros W HA H. apply last_at in H as (-> & A1); auto. split; auto. Qed.
Lemma leaves_inner_product a b : length a = length b -> leaves_last (inner_product a b) (fun x => x).
Proof.
  intros HL s o s' W H. unfold inner_product in H. apply bind_inv in H as (one & s1 & E1 & E2).
  apply (ip_core_sound lb) in E1 as (W1 & _ & _ & _ & L1 & _); auto. eapply last_leaves; eauto. lia.
Qed.
Lemma leaves_ipll a b : length a = length b -> leaves_last (inner_product_left_last a b) fst.
Proof.
  intros HL s o s' W H. unfold inner_product_left_last in H. apply bind_inv in H as (row & s0 & E0 & H). injection E0 as <- <-.
  apply bind_inv in H as (one & s1 & E1 & H). apply (ip_core_sound lb) in E1 as (W1 & _ & _ & _ & L1 & _); auto.
  apply bind_inv in H as (al & s2 & E2 & H). apply bind_inv in H as (lst & s3 & E3 & H). injection H as <- <-. cbn [fst].
  assert (s2 = s1).
  { assert (Hn : forall i, ctx_get (Z.of_nat i) s1 = Some (al, s2) -> s2 = s1). { intros i Hi. now apply get_at in Hi as [? _]. }
    destruct one; [destruct (Nat.eqb (length a) 1); [eauto|]|];
      apply bind_inv in E2 as (u & s4 & E4 & E2); apply assert_inv in E4 as [_ ->]; eauto. }
  subst s2. eapply last_leaves; eauto. lia.
Qed.

(** the inner product with one fresh witness at the end of the left operand *)
Lemma h_ipll L (Pre : env -> Prop) (Hon : Prop) (l : list AV) w (c : list Fp) : incl l L -> length c = S (length l) ->
  hcalc L Pre Hon (inner_product_left_last (map Existing l ++ [Witness w]) (map Constant c))
    (fun o => hval (snd o) = w) (fun e o => e (fst o) = dot (map e l ++ [e (snd o)]) c) (fun o => [fst o; snd o]).
Proof.
  intros HI Hc.
  assert (HL : length (map Existing l ++ [Witness w]) = length (map (@Constant p) c)).
  { rewrite app_length, !map_length. cbn. lia. }
  assert (QB : forall sg ys, Forall2 (qsem sg) (map (@Constant p) c) ys -> ys = c).
  { clear. intros sg. induction c as [|x c IH]; intros ys H; inversion H; subst; auto. f_equal; auto. }
  assert (QHB : forall ys, Forall2 qh (map (@Constant p) c) ys -> ys = c).
  { clear. induction c as [|x c IH]; intros ys H; inversion H as [|? ? ? ? [H1 _] H2]; subst; auto. cbn in H1. injection H1 as ->. f_equal; auto. }
  assert (QHA : forall xs, Forall2 qh (map Existing l ++ [Witness w]) xs -> xs = map hval l ++ [w]).
  { clear. induction l as [|x l IH]; intros xs H; cbn [map app] in H.
    - inversion H as [|? ? ? ? [H1 _] H2]; subst. inversion H2; subst. cbn in H1. injection H1 as ->. reflexivity.
    - inversion H as [|? ? ? ? [H1 _] H2]; subst. cbn [map app]. f_equal; auto. cbn in H1. unfold hval, av_value in *.
      destruct (av_val x); cbn in *; congruence. }
  split.
  - intros s o s' W H. destruct (ipll_run_qh _ _ _ _ _ W HL H) as (xs & ys & QA & QBb).
    destruct (inner_product_left_last_comp lb _ _ xs ys QA QBb HL ltac:(destruct l; discriminate) s W) as (o' & s'' & E & _ & _ & [_ P2] & _).
    rewrite E in H. injection H as -> ->. rewrite (QHA _ QA), last_last in P2.
    destruct (inner_product_left_last_sound lb _ _ HL s o s' W E) as (W' & X & _ & K).
    split; auto. split; auto. split; [now apply hv_hval|]. intros sg HS _.
    destruct (K sg HS) as (zs & us & Z1 & Z2 & Z3 & Z4). apply QB in Z2. subst us.
    apply Forall2_app_inv_l in Z1 as (z1 & z2 & Z1a & Z1b & ->). inversion Z1b as [|? z ? ? Hz Hn]; subst. inversion Hn; subst.
    rewrite last_last in Z4. rewrite Z3, Z4. f_equal. f_equal. clear - Z1a. revert z1 Z1a. induction l as [|x l IH]; intros z1 H; inversion H as [|? ? ? ? H1 H2]; subst; auto.
    cbn in H1. cbn [map]. subst. f_equal; auto.
  - intros HG _ _.
    assert (QA : Forall2 qh (map Existing l ++ [Witness w]) (map hval l ++ [w])).
    { apply Forall2_app; [|constructor; [apply qh_witness|constructor]]. clear - HG HI.
      induction l as [|x l IH]; cbn [map]; constructor.
      - apply qh_existing. rewrite Forall_forall in HG. apply HG, HI. now left.
      - apply IH. intros y Hy. apply HI. now right. }
    assert (QBb : Forall2 qh (map (@Constant p) c) c).
    { clear. induction c; cbn [map]; constructor; auto using qh_const. }
    eapply comp_weaken; [apply (inner_product_left_last_comp lb _ _ _ _ QA QBb HL ltac:(destruct l; discriminate))| | |]; cbv beta.
    + intros rho HF. split.
      * apply Forall_app; split; [|constructor; cbn; auto]. apply Forall_forall. intros q Hq. apply in_map_iff in Hq as (x & <- & Hx).
        rewrite Forall_forall in HF. cbn. auto.
      * apply Forall_forall. intros q Hq. apply in_map_iff in Hq as (x & <- & Hx). exact I.
    + intros o [P1 P2]. rewrite last_last in P2. split; [now apply hv_hval|]. split; [constructor; [eauto using hv_good|constructor; [eauto using hv_good|constructor]]|].
      rewrite (hv_hval _ _ P1), (hv_hval _ _ P2). reflexivity.
    + intros rho o _ _ [? ?]. constructor; auto.
Qed.

(** fresh witnesses *)
Lemma h_assign_witnesses L (Pre : env -> Prop) (Hon : Prop) (ws : list Fp) :
  hcalc L Pre Hon (assign_witnesses ws) (fun xs => length xs = length ws /\ map hval xs = ws) (fun _ _ => True) (fun xs => xs).
Proof.
  assert (G : forall s xs s', wf s -> assign_witnesses ws s = Some (xs, s') -> assign_region (map Witness ws) [] s = Some (tt, s') /\
     wf s' /\ ext s s' /\ Forall2 hv xs ws /\ (forall lb sg, Sat lb sg s' <-> Sat lb sg s /\ region_sem sg (rv sg s) (map Witness ws) []) /\
     forall rho, Agree rho s' -> Forall (av_ok rho) xs).
  { intros s xs s' W H. unfold assign_witnesses in H. apply bind_inv in H as (row & s0 & E0 & H). injection E0 as <- <-.
    apply bind_inv in H as ([] & s1 & E1 & H). injection H as <- <-. pose proof E1 as E1'.
    apply assign_region_spec in E1 as (W1 & X1 & A1 & _ & _ & _ & _ & _ & S1); auto.
    split; auto. split; auto. split; auto.
    assert (SK : skipn (alen s) (advice s1) = map (fun w => ATriv w) ws).
    { rewrite A1. unfold alen. rewrite skipn_app, Nat.sub_diag, skipn_all. cbn [app]. rewrite skipn_O, map_map. reflexivity. }
    assert (LN : (alen s1 - alen s)%nat = length ws).
    { unfold alen. rewrite A1, app_length, !map_length. lia. }
    rewrite SK, LN.
    assert (AT : forall i w, nth_error ws i = Some w -> nth_error (advice s1) (alen s + i) = Some (ATriv w)).
    { intros i w Hi. rewrite A1, nth_error_app2 by (unfold alen; lia). replace (alen s + i - length (advice s))%nat with i by (unfold alen; lia).
      rewrite map_map, nth_error_map, Hi. reflexivity. }
    assert (K : forall l k, (forall i w, nth_error l i = Some w -> nth_error (advice s1) (alen s + (k + i)) = Some (ATriv w)) ->
       Forall2 (fun x w => hv x w /\ av_in s1 x)
         (map (fun '(i, v) => mk_av s1 v (alen s + i)%nat) (combine (seq k (length l)) (map (fun w => ATriv w) l))) l).
    { induction l as [|w l IH]; intros k Hl; cbn [length seq map combine]; constructor.
      - pose proof (Hl O w eq_refl) as H0. rewrite Nat.add_0_r in H0. unfold mk_av. rewrite (wf_wgo _ W1). split; [split; cbn; auto; discriminate|].
        exists (alen s + k)%nat. cbn. auto.
      - apply IH. intros i w' Hi. specialize (Hl (S i) w' Hi). now rewrite <- Nat.add_succ_comm in Hl. }
    specialize (K ws O AT).
    split; [|split; [exact S1|]].
    - clear - K. induction K; constructor; auto. apply H.
    - intros rho HA. clear - K HA. induction K; constructor; auto. eapply av_in_ok; eauto. apply H. }
  split.
  - intros s xs s' W H. destruct (G _ _ _ W H) as (_ & W1 & X1 & HV & _ & _). split; auto. split; auto. split; auto.
    split; [eapply Forall2_len; eauto|now apply hv_hval_l].
  - intros _ _ _ s W. destruct (assign_region_total (map Witness ws) [] s W) as [s1 E1].
    { apply Forall_forall. intros q Hq. apply in_map_iff in Hq as (x & <- & _). exact I. }
    { intros o []. }
    assert (E : exists xs, assign_witnesses ws s = Some (xs, s1)).
    { unfold assign_witnesses, bind, ctx_len. rewrite E1. eauto. }
    destruct E as [xs E]. exists xs, s1. split; auto. destruct (G _ _ _ W E) as (_ & W1 & X1 & HV & HS & HO). split; auto. split; auto.
    split; [split; [split; [eapply Forall2_len; eauto|now apply hv_hval_l]|split; auto; eauto using hv_good_l]|].
    intros rho HA HS0 _. split; auto. apply HS. split; auto. split; [|intros k []].
    intros i q Hq. rewrite nth_error_map in Hq. destruct (nth_error ws i); [|discriminate]. injection Hq as <-. exact I.
Qed.
End Prims.
