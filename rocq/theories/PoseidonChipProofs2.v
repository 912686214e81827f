(** Absorption, permutation and hashing circuits. *)
From Coq Require Import ZArith Lia List Bool Znumtheory Ring Arith.
From Verif Require Import Field Context ContextProofs Spec Logic Utils Gate GateProofs ChainProofs IPProofs BitProofs PowProofs IPComp Derived Calc
  Range RangeProofs SafeTypes SafeProofs SafeProofs2 Det PoseidonMds PoseidonSpec PoseidonOpt PoseidonOpt2 PoseidonChip PoseidonChipProofs.
Import ListNotations.
Local Open Scope nat_scope.

Section PC2.
Context {p : positive}.
Add Ring Fring : (F_ring p) (morphism (F_morph p), constants [Fcst]).
Notation Fp := (F p).
Notation AV := (AV p).
Variable lb : nat.
Hypothesis Hp : prime (Z.pos p).
Notation calc := (calc lb).
Notation env := (env (p:=p)).
Variables (T RATE : nat).

Lemma nth_skipn' {A} n (l : list A) i d : nth i (skipn n l) d = nth (n + i) l d.
Proof. revert l. induction n as [|n IH]; intros [|x l]; cbn; auto. now destruct i. Qed.
Lemma vget_map_d {A} (v : A -> Fp) l i d : i < length l -> vget (map v l) i = v (nth i l d).
Proof. intros H. unfold vget. rewrite (nth_indep _ _ (v d)) by now rewrite map_length. apply map_nth. Qed.
Lemma vget_app (a b : list Fp) i : vget (a ++ b) i = if i <? length a then vget a i else vget b (i - length a).
Proof. unfold vget. destruct (Nat.ltb_spec i (length a)); [apply app_nth1|apply app_nth2]; lia. Qed.

Definition dAV : AV := mkAV AZero None.

Lemma absorb_calc L Pre (s inputs : list AV) pre : incl s L -> incl inputs L -> length s = T -> length pre = T -> length inputs < T ->
  calc L Pre (absorb_with_pre_constants T s inputs pre) (fun o => length o = T)
    (fun e o => map e o = n_absorb T pre (map e inputs) (map e s)) self.
Proof.
  intros Hs Hi HT Hpre HL. unfold absorb_with_pre_constants.
  apply calc_assert_bind; [now apply Nat.ltb_lt|].
  eapply calc_lift_bind. { apply (nth_error_nth' s dAV); lia. }
  eapply calc_lift_bind. { apply (nth_error_nth' pre F0); lia. }
  eapply calc_bind; [apply calc_add; cbn; auto|]. { apply Hs, nth_In. lia. }
  intros y0 _.
  set (sp := combine s pre). assert (Hsp : length sp = T) by (unfold sp; rewrite combine_length; lia).
  assert (Hspn : forall i, nth i sp (dAV, F0) = (nth i s dAV, nth i pre F0)) by (intros; unfold sp; apply combine_nth; lia).
  eapply calc_bind.
  { apply (calc_mapM_fn lb _ _ _ (fun e (t : (AV * Fp) * AV) => e (fst (fst t)) + e (snd t) + snd (fst t))%F).
    intros [[x c] y] Hin. cbn [fst snd]. eapply calc_post; [apply calc_sum|auto|].
    - apply Forall_cons; [|apply Forall_cons; [|apply Forall_cons; [|apply Forall_nil]]]; cbn [qin]; auto.
      + right. apply Hs. apply in_combine_l in Hin. apply in_skipn in Hin. eapply in_combine_l; eauto.
      + right. apply Hi. eapply in_combine_r; eauto.
    - cbn. intros e o _ _ ->. ring. }
  intros y1 Hy1. cbv beta in Hy1. rewrite combine_length, skipn_length, Hsp in Hy1.
  set (tl := skipn (length inputs + 1) sp). assert (Htl : length tl = T - (length inputs + 1)) by (unfold tl; rewrite skipn_length; lia).
  eapply calc_bind.
  { apply (calc_mapM_fn lb _ _ _ (fun e (t : nat * (AV * Fp)) => e (fst (snd t)) + (if Nat.eqb (fst t) 0 then (1 + snd (snd t)) else snd (snd t)))%F).
    intros [j [x c]] Hin. cbn [fst snd]. apply calc_add; cbn; auto.
    apply in_or_app. right. right. apply Hs. apply in_combine_r in Hin. apply in_skipn in Hin. eapply in_combine_l; eauto. }
  intros y2 Hy2. cbv beta in Hy2. rewrite combine_length, seq_length, Htl in Hy2.
  apply calc_ret.
  - cbn [length]. rewrite app_length. lia.
  - unfold self. intros a [<-|Ha].
    + apply in_or_app; right. apply in_or_app; right. now left.
    + apply in_app_or in Ha as [Ha|Ha]; apply in_or_app; [right; apply in_or_app; left|left]; exact Ha.
  - intros e [[[_ E0] E1] E2]. cbn [map]. rewrite map_app, E1, E2. clear E1 E2.
    apply (vec_ext T).
    + cbn [length]. rewrite app_length, !map_length, !combine_length, seq_length, skipn_length. lia.
    + apply tab_len.
    + intros i Hlt. unfold n_absorb. rewrite vget_tab by auto. rewrite map_length.
      destruct i as [|i].
      { cbn [Nat.eqb]. change (vget (?x :: ?l) 0) with x. rewrite E0. cbn [qe]. rewrite (vget_map_d e s 0 dAV) by lia. reflexivity. }
      change (S i =? 0) with false. cbv iota. change (vget (?x :: ?l) (S i)) with (vget l i).
      rewrite vget_app, map_length, combine_length, skipn_length, Hsp.
      replace (Nat.min (T - 1) (length inputs)) with (length inputs) by lia.
      destruct (Nat.ltb_spec i (length inputs)); destruct (Nat.leb_spec (S i) (length inputs)); try lia.
      * rewrite (vget_map2 _ (skipn 1 sp) inputs i (dAV, F0) dAV) by (rewrite ?skipn_length; lia).
        rewrite nth_skipn', Hspn. cbn [fst snd]. rewrite !(vget_map_d e _ _ dAV) by lia.
        replace (S i - 1) with i by lia. reflexivity.
      * rewrite (vget_map2 _ (seq 0 (length tl)) tl (i - length inputs) 0 (dAV, F0)) by (rewrite ?seq_length; lia).
        rewrite seq_nth by lia. unfold tl. rewrite nth_skipn', Hspn. cbn [fst snd].
        replace (length inputs + 1 + (i - length inputs)) with (S i) by lia.
        rewrite !(vget_map_d e _ _ dAV) by lia. cbn [Nat.add].
        destruct (Nat.eqb_spec (i - length inputs) 0); destruct (Nat.eqb_spec (S i) (length inputs + 1)); try lia; reflexivity.
Qed.

(** ** variable-length absorption *)
Ltac memb := cbn [qin]; unfold self, one in *; rewrite ?in_app_iff; cbn [In]; tauto.
Lemma set_nth_some {A} (l : list A) i x : i < length l -> set_nth l i x = Some (firstn i l ++ x :: skipn (S i) l).
Proof. revert i. induction l as [|y l IH]; intros [|i] H; cbn in *; try lia; auto. rewrite IH by lia. reflexivity. Qed.
Definition upd {A} (l : list A) i x := firstn i l ++ x :: skipn (S i) l.
Lemma upd_len {A} (l : list A) i x : i < length l -> length (upd l i x) = length l.
Proof. intros. unfold upd. rewrite app_length. cbn [length]. rewrite firstn_length, skipn_length. lia. Qed.
Lemma upd_nth {A} (l : list A) i x j d : i < length l -> nth j (upd l i x) d = if j =? i then x else nth j l d.
Proof.
  intros H. unfold upd. assert (Hf : length (firstn i l) = i) by (rewrite firstn_length; lia).
  destruct (Nat.eqb_spec j i) as [->|Hj].
  - rewrite app_nth2 by lia. rewrite Hf, Nat.sub_diag. reflexivity.
  - destruct (Nat.lt_ge_cases j i).
    + rewrite app_nth1 by lia. rewrite <- (firstn_skipn i l) at 2. rewrite app_nth1 by lia. reflexivity.
    + rewrite app_nth2 by lia. rewrite Hf. destruct (j - i) as [|k] eqn:E; [lia|]. cbn [nth].
      rewrite nth_skipn'. f_equal. lia.
Qed.
Lemma upd_in {A} (l : list A) i x a : In a (upd l i x) -> a = x \/ In a l.
Proof.
  unfold upd. intros H. apply in_app_or in H as [H|[H|H]]; auto.
  - right. eapply in_firstn; eauto.
  - right. eapply in_skipn; eauto.
Qed.

Lemma calc_idx_to_indicator L Pre (idx : AV) n : In idx L ->
  calc L Pre (idx_to_indicator (Existing idx) n) (fun o => length o = n) (fun e o => map e o = idx_ind (e idx) n) self.
Proof.
  intros Hi. apply (calc_prim_l lb L Pre _ _ (fun e => idx_ind (e idx) n) (fun rho => q_ok rho (Existing idx))).
  - eapply sound_weaken; [apply (idx_to_indicator_sound lb Hp)|auto|]. cbv beta. intros sg o _ (x & Hx & E). cbn in Hx. now subst x.
  - intros HG. apply (idx_to_indicator_comp lb Hp). apply qh_existing. rewrite Forall_forall in HG. now apply HG.
  - intros rho HF. cbn. rewrite Forall_forall in HF. auto.
  - intros o Ho. apply Forall2_len in Ho. unfold idx_ind in Ho. now rewrite map_length, seq_length in Ho.
Qed.
Lemma calc_partial_sums L Pre (l : list AV) : incl l L -> l <> [] ->
  calc L Pre (partial_sums (map Existing l)) (fun o => length o = length l) (fun e o => map e o = prefix_sums (map e l)) self.
Proof.
  intros Hi Hn. apply (calc_prim_l lb L Pre _ _ (fun e => prefix_sums (map e l)) (fun rho => Forall (q_ok rho) (map Existing l))).
  - intros s o s' W E.
    destruct (partial_sums_sound lb (map Existing l) s o s' W E) as (W1 & X1 & _ & K).
    destruct (partial_sums_len lb (map Existing l) s o s' W E) as (_ & _ & PL & _).
    do 2 (split; auto). split.
    { rewrite PL. destruct l; [congruence|]. cbn. now rewrite map_length. }
    intros sg HS. destruct (K sg HS) as (xs & Hxs & Eo). rewrite Eo.
    assert (Ex : xs = map (avs sg) l).
    { clear - Hxs. revert xs Hxs. induction l as [|a l IH]; intros xs Hxs; inversion Hxs; subst; auto. cbn. cbn in H1. subst. f_equal. auto. }
    subst xs. destruct l; [congruence|]. reflexivity.
  - intros HG. eapply comp_weaken; [apply (partial_sums_comp lb (map Existing l) (map hval l))|auto| |auto].
    + apply qh_existing_l. apply good_hv_l. rewrite Forall_forall in *. auto.
    + cbv beta. intros o Ho. destruct l; [congruence|]. exact Ho.
  - intros rho HF. apply q_ok_existing_l. rewrite Forall_forall in *. auto.
  - intros o Ho. apply Forall2_len in Ho. rewrite Ho. unfold prefix_sums. now rewrite map_length, seq_length, map_length.
Qed.

Hypothesis HTR : T = S RATE.
Hypothesis HR : 0 < RATE.

(** the loop that adds the masked inputs and the padding one *)
Lemma absorb_loop_calc L Pre (padded ind s : list AV) : incl padded L -> incl ind L -> incl s L ->
  length padded = RATE -> length ind = RATE -> length s = T ->
  calc L Pre (foldM (absorb_var_step T padded ind) (seq 0 RATE) s) (fun o => length o = T)
    (fun e o => map e o = tab T (fun i => if i =? 0 then e (nth i s dAV)
        else if i =? 1 then e (nth i s dAV) + e (nth (i - 1) padded dAV)
        else e (nth i s dAV) + e (nth (i - 1) padded dAV) + e (nth (i - 2) ind dAV)))%F self.
Proof.
  intros Hpa Hin Hs Lp Li Ls.
  pose (val := fun (e : env) (k i : nat) => (if i =? 0 then e (nth i s dAV)
        else (e (nth i s dAV) + (if i <=? k then e (nth (i - 1) padded dAV) else 0) + (if (2 <=? i) && (i <=? k + 1) then e (nth (i - 2) ind dAV) else 0)))%F).
  eapply calc_weaken; [apply (calc_foldM lb L Pre (absorb_var_step T padded ind) (fun done b => length b = T)
     (fun e done b => forall i, i < T -> e (nth i b dAV) = val e (length done) i) self (seq 0 RATE) s)| | | | |].
  - intros done x rest b El Hb.
    assert (Hx : x = length done).
    { assert (H := f_equal (fun l => nth (length done) l 0) El). cbv beta in H. rewrite app_nth2, Nat.sub_diag in H by lia. cbn in H.
      rewrite seq_nth in H; [lia|]. apply (f_equal (@length nat)) in El. rewrite seq_length, app_length in El. cbn in El. lia. }
    assert (Hd : length done < RATE). { apply (f_equal (@length nat)) in El. rewrite seq_length, app_length in El. cbn in El. lia. }
    clear El. subst x. unfold absorb_var_step. set (k := length done) in *.
    eapply calc_lift_bind. { apply (nth_error_nth' b dAV); lia. }
    eapply calc_lift_bind. { apply (nth_error_nth' padded dAV); lia. }
    eapply calc_bind; [apply calc_add; cbn; apply in_or_app|].
    { left. unfold self. apply nth_In. lia. } { right. apply Hpa, nth_In. lia. }
    intros y _. eapply calc_lift_bind. { apply set_nth_some. lia. }
    fold (upd b (k + 1) y). set (s1 := upd b (k + 1) y). assert (Ls1 : length s1 = T) by (unfold s1; rewrite upd_len; lia).
    assert (Hs1 : incl s1 ([y] ++ b ++ L)).
    { intros a Ha. apply upd_in in Ha as [->|Ha]; [now left|apply in_or_app; right; apply in_or_app; left; exact Ha]. }
    destruct (Nat.ltb_spec (k + 2) T) as [Hk|Hk].
    + eapply calc_lift_bind. { apply (nth_error_nth' s1 dAV); lia. }
      eapply calc_lift_bind. { apply (nth_error_nth' ind dAV); lia. }
      eapply calc_bind; [apply calc_add|].
      { cbn [qin]. apply Hs1. apply nth_In. lia. } { assert (Hz : In (nth k ind dAV) L) by (apply Hin, nth_In; lia). memb. }
      intros z _. eapply calc_lift. { apply set_nth_some. lia. }
      * fold (upd s1 (k + 2) z). rewrite upd_len; lia.
      * fold (upd s1 (k + 2) z). unfold self. intros a Ha. apply upd_in in Ha as [->|Ha]; [now left|]. right. now apply Hs1.
      * fold (upd s1 (k + 2) z). intros e [[[HPre HJ] Hy] Hz] i Hi. rewrite app_length. cbn [length]. fold k. cbn [qe] in Hy, Hz.
        rewrite upd_nth by lia. unfold s1 in *. rewrite !upd_nth in * by lia.
        destruct (Nat.eqb_spec (k + 2) (k + 1)); [lia|].
        unfold val in *. destruct (Nat.eqb_spec i (k + 2)) as [->|H2].
        { rewrite Hz, HJ by lia. destruct (Nat.eqb_spec (k + 2) 0); [lia|].
          destruct (Nat.leb_spec (k + 2) k), (Nat.leb_spec (k + 2) (k + 1)), (Nat.leb_spec (k + 2) (k + 1 + 1)), (Nat.leb_spec 2 (k + 2)); try lia.
          cbn [andb]. replace (k + 2 - 2) with k by lia. ring. }
        destruct (Nat.eqb_spec i (k + 1)) as [->|H1].
        { rewrite Hy, HJ by lia. destruct (Nat.eqb_spec (k + 1) 0); [lia|].
          destruct (Nat.leb_spec (k + 1) k), (Nat.leb_spec (k + 1) (k + 1)), (Nat.leb_spec (k + 1) (k + 1 + 1)); try lia.
          destruct (2 <=? k + 1); cbn [andb]; replace (k + 1 - 1) with k by lia; ring. }
        rewrite HJ by lia. destruct (i =? 0); [reflexivity|].
        destruct (Nat.leb_spec i k), (Nat.leb_spec i (k + 1)), (Nat.leb_spec i (k + 1 + 1)); try lia; destruct (2 <=? i); reflexivity.
    + apply calc_ret; auto.
      intros e [[HPre HJ] Hy] i Hi. rewrite app_length. cbn [length]. fold k. cbn [qe] in Hy.
      unfold s1 in *. rewrite !upd_nth in * by lia. unfold val in *.
      destruct (Nat.eqb_spec i (k + 1)) as [->|H1].
      { rewrite Hy, HJ by lia. destruct (Nat.eqb_spec (k + 1) 0); [lia|].
        destruct (Nat.leb_spec (k + 1) k), (Nat.leb_spec (k + 1) (k + 1)), (Nat.leb_spec (k + 1) (k + 1 + 1)); try lia.
        destruct (2 <=? k + 1); cbn [andb]; replace (k + 1 - 1) with k by lia; ring. }
      rewrite HJ by lia. destruct (i =? 0); [reflexivity|].
      destruct (Nat.leb_spec i k), (Nat.leb_spec i (k + 1)), (Nat.leb_spec i (k + 1 + 1)); try lia; destruct (2 <=? i); reflexivity.
  - auto.
  - intros e _ i Hi. unfold val. cbn [length]. destruct (Nat.eqb_spec i 0); [reflexivity|].
    destruct (Nat.leb_spec i 0); [lia|]. destruct (Nat.leb_spec 2 i); cbn [andb]; [|ring].
    destruct (Nat.leb_spec i (0 + 1)); [lia|ring].
  - exact Hs.
  - apply incl_refl.
  - auto.
  - auto.
  - cbv beta. intros e o Ho _ HJ. apply (vec_ext T); [now rewrite map_length|apply tab_len|].
    intros i Hi. rewrite vget_tab by auto. rewrite (vget_map_d e o i dAV) by lia. rewrite HJ by auto. rewrite seq_length. unfold val.
    destruct (Nat.eqb_spec i 0); [reflexivity|]. destruct (Nat.leb_spec i RATE); [|lia]. destruct (Nat.leb_spec i (RATE + 1)); [|lia].
    destruct (Nat.leb_spec 2 i), (Nat.eqb_spec i 1) as [->|]; try lia; cbn [andb]; ring.
  - intros o _ a Ha. apply in_or_app; auto.
Qed.

Lemma idx_ind_val (x : Fp) n : (Z.of_nat n < Z.pos p)%Z -> idx_ind (x - F1)%F n = map (fun i => fbool (Z.to_nat (val x) =? S i)) (seq 0 n).
Proof. intros Hn. unfold idx_ind. apply map_ext_in. intros i Hi. apply in_seq in Hi. f_equal. apply ind_val with (n := n); lia. Qed.

Lemma absorb_var_calc L (Pre : env -> Prop) (s inputs : list AV) (len : AV) pre : incl s L -> incl inputs L -> In len L ->
  length s = T -> length pre = T -> length inputs = RATE -> (Z.of_nat RATE < Z.pos p)%Z ->
  calc L Pre (absorb_var_len_with_pre_constants T RATE s inputs len pre) (fun o => length o = T)
    (fun e o => (val (e len) <= Z.of_nat RATE)%Z ->
       map e o = n_absorb T pre (firstn (Z.to_nat (val (e len))) (map e inputs)) (map e s)) self.
Proof.
  intros Hs Hi Hl HT Hpre HL HRp. unfold absorb_var_len_with_pre_constants.
  eapply calc_bind.
  { apply (calc_mapM_fn lb L Pre _ (fun e (xc : AV * Fp) => e (fst xc) + snd xc)%F). intros [x c] Hin. cbn [fst snd].
    apply calc_add; cbn; auto. apply Hs. eapply in_combine_l; eauto. }
  intros s1 Hs1. cbv beta in Hs1. rewrite combine_length, HT, Hpre, Nat.min_id in Hs1.
  eapply calc_bind; [apply calc_sub; cbn; auto; apply in_or_app; auto|]. intros idx _.
  eapply calc_bind; [apply calc_idx_to_indicator; now left|]. intros ind Hind. cbv beta in Hind.
  eapply calc_bind; [apply calc_partial_sums|].
  { intros a Ha. apply in_rev in Ha. apply in_or_app; left; exact Ha. }
  { intros E. apply (f_equal (@length AV)) in E. rewrite rev_length in E. cbn in E. lia. }
  intros mr Hmr. cbv beta in Hmr. rewrite rev_length, Hind in Hmr.
  assert (Hmask : length (rev mr) = RATE) by now rewrite rev_length.
  eapply calc_bind.
  { apply (calc_mapM_fn lb _ _ _ (fun e (im : AV * AV) => e (fst im) * e (snd im))%F). intros [x m] Hin. cbn [fst snd].
    apply calc_mul; cbn [qin].
    - assert (In x L) by (apply Hi; eapply in_combine_l; eauto). memb.
    - apply in_combine_r in Hin. apply in_rev in Hin. memb. }
  intros padded Hpad. cbv beta in Hpad. rewrite combine_length, HL, Hmask, Nat.min_id in Hpad.
  eapply calc_bind; [apply (absorb_loop_calc _ _ padded ind s1)|]; auto.
  { intros a Ha. memb. } { intros a Ha. memb. } { intros a Ha. memb. }
  intros s2 Hs2. cbv beta in Hs2.
  eapply calc_lift_bind. { apply (nth_error_nth' (rev mr) dAV); lia. }
  eapply calc_bind; [apply calc_not; cbn [qin]|].
  { assert (HI : In (nth 0 (rev mr) dAV) mr) by (apply in_rev, nth_In; lia). memb. }
  intros ee _.
  eapply calc_lift_bind. { apply (nth_error_nth' s2 dAV); lia. }
  eapply calc_bind; [apply calc_add; cbn [qin]|].
  { assert (HI : In (nth 1 s2 dAV) s2) by (apply nth_In; lia). memb. } { now left. }
  intros y1 _. eapply calc_lift. { apply set_nth_some. lia. }
  - fold (upd s2 1 y1). rewrite upd_len; lia.
  - fold (upd s2 1 y1). unfold self. intros a Ha. apply upd_in in Ha as [->|Ha]; [now left|]. memb.
  - fold (upd s2 1 y1). intros e [[[[[[[[_ E1] Eidx] Eind] Emr] Epad] E2] Ee] Ey1] HLen.
    cbn [qe] in *. unfold one in *. rewrite Eidx in Eind.
    set (x := e len) in *. set (n := Z.to_nat (val x)). assert (Hn : n <= RATE) by (unfold n; lia).
    assert (Hval : (0 <= val x)%Z) by apply val_bounds.
    (* the mask *)
    assert (Emask : map e (rev mr) = map (fun i => fbool (i <? n)) (seq 0 RATE)).
    { rewrite map_rev, Emr, map_rev, Eind. unfold n. rewrite <- (mask_ind x RATE) by lia. unfold mask_of.
      destruct (rev (idx_ind (x - F1)%F RATE)) eqn:Er; [|reflexivity].
      apply (f_equal (@length Fp)) in Er. rewrite rev_length in Er. unfold idx_ind in Er. rewrite map_length, seq_length in Er. cbn in Er. lia. }
    rewrite idx_ind_val in Eind by auto.
    assert (Vm : forall i, i < RATE -> e (nth i (rev mr) dAV) = fbool (i <? n)).
    { intros i Hi'. rewrite <- (vget_map_d e (rev mr) i dAV) by lia. rewrite Emask. rewrite (vget_map_d _ _ i 0) by (rewrite seq_length; lia). now rewrite seq_nth by lia. }
    assert (Vi : forall i, i < RATE -> e (nth i ind dAV) = fbool (n =? S i)).
    { intros i Hi'. rewrite <- (vget_map_d e ind i dAV) by lia. rewrite Eind. rewrite (vget_map_d _ _ i 0) by (rewrite seq_length; lia). now rewrite seq_nth by lia. }
    assert (Vp : forall i, i < RATE -> e (nth i padded dAV) = (e (nth i inputs dAV) * fbool (i <? n))%F).
    { intros i Hi'. rewrite <- (vget_map_d e padded i dAV) by lia. rewrite Epad.
      rewrite (vget_map2 _ inputs (rev mr) i dAV dAV) by lia. cbn [fst snd]. now rewrite Vm by lia. }
    assert (V1 : forall i, i < T -> e (nth i s1 dAV) = (e (nth i s dAV) + vget pre i)%F).
    { intros i Hi'. rewrite <- (vget_map_d e s1 i dAV) by lia. rewrite E1.
      rewrite (vget_map2 _ s pre i dAV F0) by lia. reflexivity. }
    assert (V2 : forall i, i < T -> e (nth i s2 dAV) = (if i =? 0 then e (nth i s1 dAV)
        else if i =? 1 then e (nth i s1 dAV) + e (nth (i - 1) padded dAV)
        else e (nth i s1 dAV) + e (nth (i - 1) padded dAV) + e (nth (i - 2) ind dAV))%F).
    { intros i Hi'. rewrite <- (vget_map_d e s2 i dAV) by lia. rewrite E2. now rewrite vget_tab by auto. }
    apply (vec_ext T). { rewrite map_length, upd_len; lia. } { apply tab_len. }
    intros i Hi'. rewrite (vget_map_d e _ i dAV) by (rewrite upd_len; lia). rewrite upd_nth by lia.
    unfold n_absorb. rewrite vget_tab by auto. rewrite firstn_length, map_length, HL. rewrite Nat.min_l by lia.
    assert (Vf : forall j, j < n -> vget (firstn n (map e inputs)) j = e (nth j inputs dAV)).
    { intros j Hj. rewrite <- (vget_map_d e inputs j dAV) by lia. unfold vget. rewrite <- (firstn_skipn n (map e inputs)) at 2.
      rewrite app_nth1; [reflexivity|]. rewrite firstn_length, map_length. lia. }
    rewrite (vget_map_d e s i dAV) by lia.
    destruct (Nat.eqb_spec i 1) as [->|H1].
    + rewrite Ey1, Ee, V2, Vm, V1, Vp by lia. change (1 =? 0) with false; change (1 =? 1) with true; cbv iota.
      destruct (Nat.leb_spec 1 n).
      * rewrite Vf by lia. cbn [Nat.sub]. destruct (Nat.ltb_spec 0 n); [|lia]. cbn [fbool]. ring.
      * cbn [Nat.sub]. destruct (Nat.ltb_spec 0 n); [lia|]. destruct (Nat.eqb_spec 1 (n + 1)); [|lia]. cbn [fbool]. ring.
    + rewrite V2 by auto. destruct (Nat.eqb_spec i 0) as [->|H0]; [now rewrite V1 by lia|].
      destruct (Nat.eqb_spec i 1); [lia|]. rewrite V1, Vp, Vi by lia.
      destruct (Nat.ltb_spec (i - 1) n), (Nat.leb_spec i n); try lia; cbn [fbool].
      * rewrite Vf by lia. destruct (Nat.eqb_spec n (S (i - 2))); [lia|]. cbn [fbool]. ring.
      * destruct (Nat.eqb_spec n (S (i - 2))), (Nat.eqb_spec i (n + 1)); try lia; cbn [fbool]; ring.
Qed.
End PC2.
