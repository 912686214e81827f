(** Sparse multiplication (Pairing.v) on the values its arguments stand for. *)
From Coq Require Import ZArith NArith Znumtheory Lia List Bool Ring.
From Verif Require Import Field Spec Context ContextProofs Utils Logic Gate GateProofs ChainProofs IPProofs BitProofs PowProofs IPComp Derived
  Range RangeProofs RangeProofs2 RangeProofs3 RegionGets Calc CalcH RegionPrev RegionLast BigPrims BigNum BigInt BigSpec BigOps BigSel BigCmp BigSub BigCarry BigMod BigCrtNum BigCrt FpChip FpProofs FpProofs2 FpProofs3 FpField FpField2 FpField3 FieldExt ExtSpec ExtSpec2 ExtProofs ExtProofs2 ExtProofs3 ExtProofs4 ExtProofs5 FinalExp GaussOps RingPow CycSpec FrobSpec Cyclo FinalProofs FinalProofs2 FinalProofs3 FinalHigh Ecc MillerSpec Pairing PairOps.
Import ListNotations.
Local Open Scope Z_scope.

Section Pair.
Context {p : positive}.
Notation Fp := (F p).
Notation AV := (AV p).
Notation crt := (crt p).
Notation vec := (list crt).
Variables (lb : nat) (m : positive).
Notation env := (env (p:=p)).
Notation hcalc := (hcalc lb).
Hypothesis Hp : prime (Z.pos p).
Hypothesis Hlb : (1 <= lb < 64)%nat.
Hypothesis Hlb2 : (2 * lb <= CAPACITY p)%nat.
Hypothesis Hm : 1 < Z.pos m.
Add Ring Fring : (F_ring p) (morphism (F_morph p), constants [Fcst]).
Add Ring Fringm : (F_ring m) (morphism (F_morph m), constants [Fcst]).
Add Ring X2ringd : (x2_ring (m:=m)).
Variables (ch : fpchip p) (n k : nat).
Hypothesis HN : fpchip_new m n k = Some ch.
Hypothesis HK : fp_params (p:=p) lb m n k.
Notation mz := (Z.pos m).
Notation Fm := (F m).
Notation M2 := (2 ^ Z.of_nat (bits mz)).
Notation W := (2 ^ Z.of_nat (n * k + NUM_BITS p)).
Notation frep := (frep (p:=p) m n).
Notation fred := (fred (p:=p) m n).
Notation isk := (isk k).
Notation lg := (log2_ceil (Z.of_nat k)).
Notation islk := (islk k).
Notation room := (room (p:=p) lb n k).
Notation visk := (visk k).
Notation vism := (vism n k).
Notation vrep := (vrep m n).
Notation vred := (vred m n).
Notation red2 := (red2 (p:=p) m n).
Notation of2 := (of2 m).
Notation zv := (zv n).
Variable (xi0 : Z).
Hypothesis Hxi1 : 1 <= Z.abs xi0.
Notation lx := (Nat.max (log2_ceil (Z.abs xi0)) (log2_ceil (Z.abs (xi0 + 1)))).
Hypothesis Hxi : - 2 ^ 63 < xi0 < 2 ^ 63 - 1.
Hypothesis Hroom : room (lg + n + n + 9 + lx + 1).
Hypothesis HB : 8 * ((12 * Z.abs xi0 + 12) * (M2 * M2) + 2 * M2) < W.
Notation xi := (xi (m:=m) xi0).

Notation Q_add := (q_add lb m Hlb Hlb2 n k).
Notation Q_sub := (q_sub lb m Hlb Hlb2 n k).
Notation Q_smul := (q_smul lb m Hlb Hlb2 n k).
Notation Q_smul_add := (q_smul_add lb m Hlb Hlb2 n k).
Notation Q_mul := (q_mul lb m Hp Hlb Hlb2 Hm ch n k HN HK).
Notation Q_w6 := (q_w6 lb m Hlb Hlb2 n k).
Notation Q_select := (q_select lb m Hp Hlb Hlb2 n k).
Notation Q_carry := (q_carry lb m Hp Hlb Hlb2 Hm ch n k HN HK).
Notation Q_divide := (q_divide lb m Hp Hlb Hlb2 Hm ch n k HN HK).
Notation Q_plus_one := (q_plus_one lb m Hlb Hlb2 ch n k HN HK).

Ltac inc1 := first [ assumption | apply incl_refl | (apply incl_appl; inc1) | (apply incl_appr; inc1) ].
Ltac inc := cbn [app]; first [ assumption | (unfold cpre, vpre; inc1) | (eapply cpre_incl; [eassumption|inc1]) | (eapply vpre_incl; [eassumption|inc1]) ].
Tactic Notation "qb" uconstr(lem) := eapply h_bind; [eapply lem; try inc; try eassumption; try lia|]; cbv beta; [..|let c := fresh "c" in let L := fresh "Lc" in let K := fresh "K" in intros c [L K]; cbn [app]].
Ltac zf1 :=
  match goal with
  | H : _ /\ _ |- _ => lazymatch type of H with (_ <= _ < _)%nat => fail | (_ <= _ < _)%Z => fail | _ => destruct H end
  | H : forall h x y, zv h ?e ?a x -> zv h ?e ?b y -> zv h ?e ?c _, A : zv ?h ?e ?a ?x, B : zv ?h ?e ?b ?y |- _ => specialize (H h x y A B); cbv beta in H
  | H : forall h x y, zv h ?e ?a x -> zv h ?e ?a y -> zv h ?e ?c _, A : zv ?h ?e ?a ?x |- _ => specialize (H h x x A A); cbv beta in H
  | H : forall h x, zv h ?e ?a x -> zv h ?e ?c _, A : zv ?h ?e ?a ?x |- _ => specialize (H h x A); cbv beta in H
  end.
Declare Scope x2_scope.
Notation "a + b" := (x2_add a b) : x2_scope.
Notation "a - b" := (x2_sub a b) : x2_scope.
Notation "a * b" := (x2_mul a b) : x2_scope.
Delimit Scope x2_scope with X.
Notation two := (x2_add (x2_1 (m:=m)) x2_1).
Notation three := (x2_add (x2_add (x2_1 (m:=m)) x2_1) x2_1).

Notation reds := (reds (p:=p) m n).
Notation viss := (viss (p:=p) n k).
Notation prs x := [fst (x : x2 m); snd (x : x2 m)].


Variables (hint2 hint12 : list Fm -> list Fm -> list Fm) (ftab : list (x2 m)).
Hypothesis Hmp : prime (Z.pos m).
Hypothesis H3 : Z.pos m mod 4 = 3.
Hypothesis H6 : Z.pos m mod 6 = 1.
Hypothesis Htab : forall j, (j < 12)%nat -> nth_error ftab j = Some (gam (m:=m) xi0 j).
Hypothesis Hz6 : primitive6 (m:=m) xi0.
Notation q := (N.pos m).
Notation w6 := (w6 (m:=m)).
Notation wmul := (w6_mul (m:=m) xi0).
Notation pw := (npow (w6_1 (m:=m)) wmul).
Notation WR := (w6_ring (m:=m) xi0).
Notation cyc := (cyc (m:=m) xi0).
Add Ring W6ringh : WR.
Notation wred := (wred m n).
Notation ok12 := (ok12 n k).
Notation unit12 := (unit12 m xi0).
Hypothesis Hh2 : forall x y : x2 m, hint2 (prs x) (prs y) = prs (x2_mul x (x2_inv y)).
Notation SZ := (SZ m n).
Notation SR := (SR m n).
Notation SF := (SF m n).
Notation S_SZ := (SR_SZ lb m Hlb Hlb2 n).
Notation S_add := (s_add lb m Hlb Hlb2 n k xi0 HB).
Notation S_mul := (s_mul lb m Hp Hlb Hlb2 Hm ch n k HN HK).
Notation S_w6 := (s_w6 lb m Hlb Hlb2 n k xi0 Hxi1 Hxi HB).
Notation S_carry := (s_carry lb m Hp Hlb Hlb2 Hm ch n k HN HK xi0 Hroom HB).
Notation g2pt := (g2pt p).
Notation ecpt := (ecpt p).
Notation pt2 := (pt2 (m:=m)).
Notation gred := (gred m n).
Notation okg := (okg n k).
Notation pred1 := (pred1 m n).
Notation okp := (okp n k).
Notation sred := (sred m n).
Notation oval := (oval m n).
Notation oks6 := (oks6 n k).
Notation okc := (okc n k).
Notation w6_nth := (w6_nth m).
Lemma M2p2 : 0 < M2. Proof. apply Z.pow_pos_nonneg; lia. Qed.
Section Sparse.
Variables (a : vec) (b : list (option vec)).
Hypothesis Oa : ok12 a.
Hypothesis Ob : oks6 b.
Definition II (h : Prop) (e : env) (i : w6 * w6) : Prop := wred h e a (fst i) /\ sred h e b (snd i).
Lemma SZ_weak e v f g A B : SZ II e v f A -> (forall h i, II h e i -> f i = g i) -> A <= B -> SZ II e v g B.
Proof. intros H E L h i Hi. destruct (H h i Hi) as (z & Z1 & Z2 & Z3 & Z4). exists z. split; auto. split; [rewrite Z2; eauto|]. unfold gle. lia. Qed.
Definition has (j : nat) : bool := match nth_error b j with Some (Some _) => true | _ => false end.
Definition all6 : list (nat * nat) := list_prod (seq 0 6) (seq 0 6).
Definition at_ (t : nat) (ij : nat * nat) : bool := Nat.eqb (fst ij + snd ij) t.
Definition sel (t : nat) (l : list (nat * nat)) : list (nat * nat) := filter (fun ij => at_ t ij && has (snd ij)) l.
Definition sps (l : list (nat * nat)) (xy : w6 * w6) : x2 m := fold_left (fun s ij => (s + w6_nth (fst xy) (fst ij) * w6_nth (snd xy) (snd ij))%X) l x2_0.
Lemma sps_snoc l ij xy : sps (l ++ [ij]) xy = (sps l xy + w6_nth (fst xy) (fst ij) * w6_nth (snd xy) (snd ij))%X. Proof. unfold sps. now rewrite fold_left_app. Qed.
Lemma sel_snoc t l ij : sel t (l ++ [ij]) = if at_ t ij && has (snd ij) then sel t l ++ [ij] else sel t l.
Proof. unfold sel. rewrite filter_app. cbn [filter]. destruct (at_ t ij && has (snd ij)); [reflexivity|apply app_nil_r]. Qed.
Definition MM2 : Z := 2 * (M2 * M2).
Definition INV (done : list (nat * nat)) (prod : list (option vec)) : Prop := length prod = 11%nat /\ forall t, (t < 11)%nat ->
  match nth_error prod t with
  | Some None => sel t done = []
  | Some (Some v) => length v = 2%nat /\ visk v (lg + n + n + 1 + length (sel t done))
  | None => False
  end.
Definition JV (e : env) (done : list (nat * nat)) (prod : list (option vec)) : Prop :=
  forall t v, nth_error prod t = Some (Some v) -> SZ II e v (sps (sel t done)) (Z.of_nat (length (sel t done)) * MM2).
Lemma all6_lt i j : In (i, j) all6 -> (i < 6)%nat /\ (j < 6)%nat. Proof. unfold all6. intros H. apply in_prod_iff in H as [H1 H2]. apply in_seq in H1, H2. lia. Qed.
(** the coordinates of [b] *)
Lemma b_at j : (j < 6)%nat -> exists c, nth_error b j = Some c /\ okc c /\ (forall h e y, sred h e b y -> oval h e c (w6_nth y j)).
Proof.
  intros Hj. destruct Ob as (Lb_ & Fb & _). destruct (nth_error b j) as [c|] eqn:E; [|apply nth_error_None in E; lia]. exists c. split; auto. split; [rewrite Forall_forall in Fb; apply Fb; eapply nth_error_In; eauto|].
  intros h e y Hy. unfold PairOps.sred in Hy. unfold FinalProofs3.w6_nth. destruct (nth_error (w6_list y) j) as [v|] eqn:Ev; [|apply nth_error_None in Ev; rewrite w6_list_len in Ev; lia].
  rewrite (nth_error_nth _ _ _ Ev). eapply (F2_nth _ _ _ _ _ _ Hy); eauto.
Qed.
Lemma has_0 h e y j : sred h e b y -> (j < 6)%nat -> has j = false -> w6_nth y j = x2_0.
Proof. intros Hy Hj Hn. destruct (b_at j Hj) as (c & E & _ & V). specialize (V h e y Hy). unfold has in Hn. rewrite E in Hn. destruct c; [discriminate|exact V]. Qed.
Lemma scells_in t v (prod : list (option vec)) : nth_error prod t = Some (Some v) -> incl (vcells v) (scells prod).
Proof. intros E x Hx. unfold scells. apply in_flat_map. exists (Some v). split; [eapply nth_error_In; eauto|exact Hx]. Qed.
Variables (L : list AV) (Pre : env -> Prop) (Hon : Prop).
Hypothesis Ca : vpre L a.
Hypothesis Cb : incl (scells b) L.
Lemma sparse_loop (a2 : list vec) L' (Pre' : env -> Prop) : incl L L' ->
  Forall2 (fun i v => length v = 2%nat /\ vism v /\ incl (vcells v) L) (seq 0 6) a2 ->
  (forall e, Pre' e -> forall i v, nth_error a2 i = Some v -> SR II e v (fun t => w6_nth (fst t) i)) ->
  hcalc L' Pre' Hon (foldM (sparse_step ch a2 b) all6 (repeat None 11)) (INV all6) (fun e => JV e all6) scells.
Proof.
  intros HL HA HR. apply h_foldM.
  - intros done [i j] rest prod El [Lp Hinv]. assert (Hij : In (i, j) all6) by (rewrite El; apply in_or_app; right; now left). apply all6_lt in Hij as [Hi Hj].
    unfold sparse_step. pose proof (Hinv (i + j)%nat ltac:(lia)) as Ht. destruct (nth_error prod (i + j)) as [old|] eqn:Eo; [|destruct Ht].
    eapply h_lift_bind; [eauto|intros ? [= <-]].
    destruct (nth_error a2 i) as [ai|] eqn:Ea; [|apply nth_error_None in Ea; apply Forall2_len in HA; rewrite seq_length in HA; lia].
    eapply h_lift_bind; [eauto|intros ? [= <-]].
    assert (Pai : length ai = 2%nat /\ vism ai /\ incl (vcells ai) L). { assert (Es : nth_error (seq 0 6) i = Some i) by (destruct i as [|[|[|[|[|[|]]]]]]; try lia; reflexivity). exact (F2_nth _ _ _ _ _ _ HA Es Ea). }
    destruct Pai as (Lai & Kai & Cai). pose proof (vism_visk _ _ _ Kai) as Vai.
    destruct (b_at j Hj) as (c & Ec & Kc & Vc). rewrite Ec. eapply h_lift_bind; [eauto|intros ? [= <-]].
    assert (Hhas : has j = match c with Some _ => true | None => false end) by (unfold has; rewrite Ec; now destruct c).
    assert (NE : forall t, t <> (i + j)%nat -> sel t (done ++ [(i, j)]) = sel t done). { intros t Hne. rewrite sel_snoc. unfold at_. cbn [fst snd]. destruct (Nat.eqb_spec (i + j) t); [congruence|reflexivity]. }
    destruct c as [bj|].
    + destruct Kc as [Lbj Kbj]. pose proof (vism_visk _ _ _ Kbj) as Vbj. assert (Cbj : incl (vcells bj) L). { eapply incl_tran; [|exact Cb]. eapply scells_in; eauto. }
      assert (EQ : sel (i + j) (done ++ [(i, j)]) = sel (i + j) done ++ [(i, j)]). { rewrite sel_snoc. unfold at_. cbn [fst snd]. rewrite Nat.eqb_refl, Hhas. reflexivity. }
      assert (BJ : forall e, SR II e bj (fun t => w6_nth (snd t) j)) by (intros e h t [_ Hy]; exact (Vc h e _ Hy)).
      assert (CM : vpre (scells prod ++ L') ai) by (eapply incl_tran; [exact Cai|]; apply incl_appr; exact HL). assert (CM' : vpre (scells prod ++ L') bj) by (eapply incl_tran; [exact Cbj|]; apply incl_appr; exact HL).
      set (cc := length (sel (i + j) done)) in *.
      assert (STEP : hcalc (scells prod ++ L') (fun e => Pre' e /\ JV e done prod) Hon
         (match old with None => bind (fp2_mul_no_carry ch ai bj) (fun ab => ret (Some ab)) | Some a0 => bind (fp2_mul_no_carry ch ai bj) (fun bc => bind (vec_add_no_carry a0 bc) (fun out => ret (Some out))) end)
         (fun o => exists v, o = Some v /\ length v = 2%nat /\ visk v (lg + n + n + 1 + (cc + 1))) (fun e o => forall v, o = Some v -> SZ II e v (sps (sel (i + j) done ++ [(i, j)])) (Z.of_nat (cc + 1) * MM2)) ocells).
      { destruct old as [a0|].
        - destruct Ht as [La0 Ka0]. assert (C0 : vpre (scells prod ++ L') a0) by (eapply incl_tran; [eapply scells_in; eauto|apply incl_appl, incl_refl]).
          eapply h_bind; [apply (S_mul II _ _ Hon ai bj n n (fun t => w6_nth (fst t) i) (fun t => w6_nth (snd t) j) M2 M2); auto; intros e [HP _]; apply S_SZ; eauto|]. cbv beta. intros bc [Lbc Kbc].
          eapply h_bind; [apply (S_add II _ _ Hon a0 bc (lg + n + n + 1 + cc) (lg + n + n + 1) (sps (sel (i + j) done)) (fun t => (w6_nth (fst t) i * w6_nth (snd t) j)%X) (Z.of_nat cc * MM2) MM2); auto; try inc|]. { intros e [[HP HJ] _]. exact (HJ _ _ Eo). } { intros e [_ R]. exact R. } cbv beta. intros out [Lout Kout].
          apply h_ret; [exists out; split; auto; split; auto; eapply (visk_le lb m Hlb Hlb2); [exact Kout|lia]|cbn [ocells]; inc1|].
          intros e [_ R] v [= <-]. eapply SZ_weak; [exact R| |rewrite Nat2Z.inj_add; unfold MM2; change (Z.of_nat 1) with 1; lia]. intros h t _. rewrite sps_snoc. reflexivity.
        - assert (Hc : sel (i + j) done = []) by exact Ht. 
          eapply h_bind; [apply (S_mul II _ _ Hon ai bj n n (fun t => w6_nth (fst t) i) (fun t => w6_nth (snd t) j) M2 M2); auto; intros e [HP _]; apply S_SZ; eauto|]. cbv beta. intros bc [Lbc Kbc].
          apply h_ret; [exists bc; split; auto; split; auto; eapply (visk_le lb m Hlb Hlb2); [exact Kbc|lia]|cbn [ocells]; inc1|].
          intros e [_ R] v [= <-]. unfold cc. rewrite Hc. cbn [app length]. eapply SZ_weak; [exact R| |unfold MM2; change (Z.of_nat (0 + 1)) with 1; lia]. intros h t _. unfold sps. cbn [fold_left fst snd]. ring. }
      eapply h_bind; [exact STEP|]. cbv beta. intros new (v & -> & Lv & Kv). apply h_ret.
      * split; [now rewrite set_nth_length|]. intros t Htt. rewrite set_nth_get. destruct (Nat.eqb_spec (i + j) t) as [<-|Hne]; [|rewrite NE by congruence; now apply Hinv].
        rewrite Lp. destruct (Nat.ltb_spec (i + j) 11); [|lia]. rewrite EQ, app_length. cbn [length]. auto.
      * unfold scells. intros x Hx. apply in_flat_map in Hx as (o & Ho & Hx). apply In_nth_error in Ho as (t & Et). rewrite set_nth_get in Et. destruct (Nat.eqb_spec (i + j) t) as [Eij|Hne].
        { destruct (Nat.ltb (i + j) (length prod)); [|discriminate]. injection Et as <-. apply in_or_app. now left. }
        apply in_or_app. right. apply in_or_app. left. apply in_flat_map. exists o. split; [eapply nth_error_In; eauto|exact Hx].
      * intros e [[HP HJ] R] t w. rewrite set_nth_get. destruct (Nat.eqb_spec (i + j) t) as [<-|Hne].
        { rewrite Lp. destruct (Nat.ltb_spec (i + j) 11); [|lia]. intros [= <-]. rewrite EQ, app_length. cbn [length]. apply (R v eq_refl). }
        intros Et. rewrite NE by congruence. exact (HJ _ _ Et).
    + assert (EQ : forall t, sel t (done ++ [(i, j)]) = sel t done). { intros t. rewrite sel_snoc. cbn [snd]. rewrite Hhas, andb_false_r. reflexivity. }
      assert (SAME : set_nth prod (i + j) old = prod -> True) by auto.
      assert (RT : (match old with Some _ | _ => ret old end : Context.M p (option vec)) = ret old) by (now destruct old).
      replace (match old with None => match (None : option vec) with None => ret old | Some _ => ret old end | Some _ => ret old end : Context.M p (option vec)) with (ret old : Context.M p (option vec)) by (now destruct old).
      eapply h_bind; [apply (h_ret lb _ _ Hon old (fun o => o = old) (fun _ _ => True) (fun _ => [])); auto; intros x []|]. cbv beta. intros ? ->. cbn [app].
      assert (NT : forall t, nth_error (set_nth prod (i + j) old) t = nth_error prod t). { intros t. rewrite set_nth_get. destruct (Nat.eqb_spec (i + j) t) as [<-|]; auto. rewrite Lp. destruct (Nat.ltb_spec (i + j) 11); [now rewrite Eo|lia]. }
      apply h_ret.
      * split; [now rewrite set_nth_length|]. intros t Htt. rewrite NT, EQ. now apply Hinv.
      * unfold scells. intros x Hx. apply in_flat_map in Hx as (o & Ho & Hx). apply In_nth_error in Ho as (t & Et). rewrite NT in Et. apply in_or_app. left. apply in_flat_map. exists o. split; [eapply nth_error_In; eauto|exact Hx].
      * intros e [[HP HJ] _] t w. rewrite NT, EQ. apply HJ.
  - split; [reflexivity|]. intros t Ht. do 11 (destruct t as [|t]; [reflexivity|]). lia.
  - intros e _ t v E. apply nth_error_In in E. apply (repeat_spec 11 (None : option vec)) in E. discriminate.
  - intros x Hx. exfalso. clear - Hx. unfold scells in Hx. apply in_flat_map in Hx as (o & Ho & Hx). apply repeat_spec in Ho. subst o. destruct Hx.
Qed.
(** ** The coefficients *)
Lemma sps_sel_acc h e y x t l : sred h e b y -> (forall ij, In ij l -> (snd ij < 6)%nat) -> forall s,
  fold_left (fun s ij => (s + w6_nth x (fst ij) * w6_nth y (snd ij))%X) (sel t l) s = fold_left (fun s ij => (s + w6_nth x (fst ij) * w6_nth y (snd ij))%X) (filter (at_ t) l) s.
Proof.
  intros Hy. induction l as [|ij l IH]; intros Hl s; [reflexivity|]. unfold sel. cbn [filter]. fold (sel t l). destruct (at_ t ij) eqn:Eat; cbn [andb].
  - destruct (has (snd ij)) eqn:Eh; cbn [fold_left].
    + apply IH. intros; apply Hl; now right.
    + rewrite (has_0 h e y (snd ij) Hy (Hl ij (or_introl eq_refl)) Eh). rewrite IH by (intros; apply Hl; now right). f_equal. ring.
  - apply IH. intros; apply Hl; now right.
Qed.
Lemma sps_sel h e x y t : sred h e b y -> sps (sel t all6) (x, y) = sps (filter (at_ t) all6) (x, y).
Proof. intros Hy. unfold sps. cbn [fst snd]. apply (sps_sel_acc h e); auto. intros [i j] Hij. apply all6_lt in Hij. cbn [snd]. lia. Qed.
Lemma sps_coef h e x y i : sred h e b y -> (i < 6)%nat -> w6_nth (wmul x y) i = (sps (sel i all6) (x, y) + sps (sel (i + 6) all6) (x, y) * xi)%X.
Proof.
  intros Hy Hi. rewrite !(sps_sel h e) by exact Hy. clear Hy. destruct x as [[[[[x0 x1] x2'] x3] x4] x5], y as [[[[[y0 y1] y2] y3] y4] y5].
  do 6 (destruct i as [|i]; [cbv [all6 list_prod map app seq filter at_ fst snd Nat.eqb Nat.add sps fold_left FinalProofs3.w6_nth nth w6_list]; unfold w6_mul; ring|]). lia.
Qed.
Lemma sel_le t l : (length (sel t l) <= length (filter (at_ t) l))%nat.
Proof. unfold sel. induction l as [|x l IH]; [auto|]. cbn [filter]. destruct (at_ t x), (has (snd x)); cbn [andb length]; lia. Qed.
Lemma sel_lo i : (i < 6)%nat -> (length (sel i all6) <= i + 1)%nat.
Proof. intros Hi. eapply Nat.le_trans; [apply sel_le|]. do 6 (destruct i as [|i]; [cbv; lia|]). lia. Qed.
Lemma sel_hi i : (i < 6)%nat -> (length (sel (i + 6) all6) <= 5 - i)%nat.
Proof. intros Hi. eapply Nat.le_trans; [apply sel_le|]. do 6 (destruct i as [|i]; [cbv; lia|]). lia. Qed.
Lemma sel_some i : (i < 6)%nat -> sel i all6 = [] -> sel (i + 6) all6 = [] -> False.
Proof.
  intros Hi E1 E2. destruct Ob as (Lb_ & _ & j & v & Ej). assert (Hj : (j < 6)%nat) by (rewrite <- Lb_; apply nth_error_Some; congruence).
  assert (Hh : has j = true) by (unfold has; now rewrite Ej).
  destruct (Nat.le_gt_cases j i) as [Hle|Hgt].
  - assert (I : In ((i - j)%nat, j) (sel i all6)). { unfold sel. apply filter_In. split; [apply in_prod_iff; split; apply in_seq; lia|]. unfold at_. cbn [fst snd]. rewrite Hh, andb_true_r. apply Nat.eqb_eq. lia. }
    rewrite E1 in I. destruct I.
  - assert (I : In ((i + 6 - j)%nat, j) (sel (i + 6) all6)). { unfold sel. apply filter_In. split; [apply in_prod_iff; split; apply in_seq; lia|]. unfold at_. cbn [fst snd]. rewrite Hh, andb_true_r. apply Nat.eqb_eq. lia. }
    rewrite E2 in I. destruct I.
Qed.
Lemma sel_11 : sel 11 all6 = [].
Proof. pose proof (sel_hi 5 ltac:(lia)) as H. cbn [Nat.add Nat.sub] in H. destruct (sel 11 all6); [auto|cbn [length] in H; lia]. Qed.
Lemma sps_nil t : sps [] t = x2_0. Proof. reflexivity. Qed.
Lemma lgx : (log2_ceil (Z.abs xi0) <= lx)%nat. Proof. lia. Qed.
Lemma coeff_ok L' (Pre' : env -> Prop) (prod : list (option vec)) i : (i < 6)%nat -> INV all6 prod -> (forall e, Pre' e -> JV e all6 prod) -> incl (scells prod) L' ->
  hcalc L' Pre' Hon (sparse_coeff xi0 prod i) (fun o => length o = 2%nat /\ visk o (lg + n + n + 9 + lx)) (fun e o => SZ II e o (fun t => w6_nth (wmul (fst t) (snd t)) i) ((12 * Z.abs xi0 + 12) * (M2 * M2))) vcells.
Proof.
  intros Hi [Lp HI] HJ HC. unfold sparse_coeff. pose proof lgx as LX. pose proof M2p2 as MP. pose proof (sel_lo i Hi) as SL. pose proof (sel_hi i Hi) as SH.
  set (c1 := length (sel i all6)) in *. set (c2 := length (sel (i + 6) all6)) in *.
  assert (B0 : Z.of_nat c1 * MM2 + Z.of_nat c2 * MM2 * (Z.abs xi0 + 1) <= (12 * Z.abs xi0 + 12) * (M2 * M2)).
  { unfold MM2. assert (A : (c1 + c2 <= 6)%nat) by lia. assert (A' : (c2 <= 5)%nat) by lia. assert (0 < M2 * M2) by nia. revert Hxi1 A A' H. generalize (M2 * M2) (Z.abs xi0). clear. intros X Y H1 A A' H.
    assert (Z.of_nat c1 + Z.of_nat c2 <= 6) by lia. assert (Z.of_nat c2 <= 5) by lia. assert (0 <= Z.of_nat c1) by lia. assert (0 <= Z.of_nat c2) by lia. revert H0 H2 H3 H4. generalize (Z.of_nat c1) (Z.of_nat c2). intros u v. intros.
    assert (u * 2 + v * 2 * (Y + 1) <= 12 * Y + 12) by nia. replace (u * (2 * X) + v * (2 * X) * (Y + 1)) with ((u * 2 + v * 2 * (Y + 1)) * X) by ring. apply Z.mul_le_mono_nonneg_r; lia. }
  pose proof (HI i ltac:(lia)) as HL. destruct (nth_error prod i) as [lo|] eqn:Elo; [|destruct HL].
  assert (P0 : 0 <= Z.of_nat c1 * MM2) by (unfold MM2; nia). assert (P1 : 0 <= Z.of_nat c2 * MM2 * (Z.abs xi0 + 1)) by (unfold MM2; apply Z.mul_nonneg_nonneg; [nia|lia]).
  destruct (Nat.eqb_spec i 5) as [E5|N5].
  - eapply h_lift_bind; [eauto|intros ? [= <-]]. assert (S2 : sel (i + 6) all6 = []) by (rewrite E5; apply sel_11).
    destruct lo as [v|]; [|destruct (sel_some i Hi HL S2)]. destruct HL as [Lv Kv].
    eapply h_post; [apply h_lift; eauto| | |]; cbv beta.
    + intros o [= <-]. split; auto. eapply (visk_le lb m Hlb Hlb2); [exact Kv|]. fold c1. lia.
    + intros e o [= <-] HP _. eapply SZ_weak; [apply (HJ e HP i v Elo)| |fold c1; lia]. intros h [x y] [Hx Hy]. cbn [fst snd] in *. rewrite (sps_coef h e x y i Hy Hi), S2, sps_nil. ring.
    + intros o [= <-]. apply incl_appr. eapply incl_tran; [eapply scells_in; eauto|exact HC].
  - pose proof (HI (i + 6)%nat ltac:(lia)) as HH. destruct (nth_error prod (i + 6)) as [hi|] eqn:Ehi; [|destruct HH].
    eapply h_lift_bind; [eauto|intros ? [= <-]].
    eapply (h_bind lb _ _ _ _ _ (fun o => match hi, o with None, None => True | Some _, Some x => length x = 2%nat /\ visk x (lg + n + n + 1 + c2 + log2_ceil (Z.abs xi0) + 1) | _, _ => False end)
        (fun e o => forall x, o = Some x -> SZ II e x (fun t => (sps (sel (i + 6) all6) t * xi)%X) (Z.of_nat c2 * MM2 * (Z.abs xi0 + 1))) ocells).
    { destruct hi as [v|].
      - destruct HH as [Lv Kv]. eapply h_bind; [apply (S_w6 II _ _ Hon v (lg + n + n + 1 + c2) (sps (sel (i + 6) all6)) (Z.of_nat c2 * MM2)); auto; [eapply incl_tran; [eapply scells_in; eauto|exact HC]|intros e HP; exact (HJ e HP _ _ Ehi)]|].
        cbv beta. intros x [Lx Kx]. apply h_ret; [auto|cbn [ocells]; inc1|]. intros e [_ R] x' [= <-]. exact R.
      - apply h_ret; [auto|intros ? []|]. intros e _ x. discriminate. }
    cbv beta. intros ew Kew. eapply h_lift_bind; [eauto|intros ? [= <-]].
    destruct lo as [a0|].
    + destruct HL as [La0 Ka0]. fold c1 in Ka0. assert (C0 : vpre L' a0) by (eapply incl_tran; [eapply scells_in; eauto|exact HC]).
      destruct ew as [x|].
      * destruct hi as [hv|]; [|destruct Kew]. destruct Kew as [Lx Kx]. cbn [ocells].
        assert (C1 : vpre (vcells x ++ L') a0) by inc. assert (C2 : vpre (vcells x ++ L') x) by inc.
        eapply h_post; [apply (S_add II _ _ Hon a0 x _ _ (sps (sel i all6)) (fun t => (sps (sel (i + 6) all6) t * xi)%X) (Z.of_nat c1 * MM2) (Z.of_nat c2 * MM2 * (Z.abs xi0 + 1)) C1 C2 Ka0 Kx La0 Lx)| | |]; cbv beta.
        -- intros e [HP _]. exact (HJ e HP _ _ Elo).
        -- intros e [_ R]. exact (R x eq_refl).
        -- intros o [Lo Ko]. split; auto. eapply (visk_le lb m Hlb Hlb2); [exact Ko|]. lia.
        -- intros e o _ _ R. eapply SZ_weak; [exact R| |exact B0]. intros h [x' y] [Hx Hy]. cbn [fst snd] in *. now rewrite (sps_coef h e x' y i Hy Hi).
        -- intros o _. apply incl_appl, incl_refl.
      * destruct hi as [hv|]; [destruct Kew|]. apply h_ret.
        -- split; auto. eapply (visk_le lb m Hlb Hlb2); [exact Ka0|]. lia.
        -- cbn [ocells app]. exact C0.
        -- intros e [HP _]. eapply SZ_weak; [exact (HJ e HP _ _ Elo)| |fold c1; lia]. intros h [x' y] [Hx Hy]. cbn [fst snd] in *. rewrite (sps_coef h e x' y i Hy Hi), HH, sps_nil. ring.
    + destruct ew as [x|].
      * destruct hi as [hv|]; [|destruct Kew]. destruct Kew as [Lx Kx].
        eapply h_post; [apply h_lift; eauto| | |]; cbv beta.
        -- intros o [= <-]. split; auto. eapply (visk_le lb m Hlb Hlb2); [exact Kx|]. lia.
        -- intros e o [= <-] [HP R] _. eapply SZ_weak; [exact (R x eq_refl)| |lia]. intros h [x' y] [Hx Hy]. cbn [fst snd] in *. rewrite (sps_coef h e x' y i Hy Hi), HL, sps_nil. ring.
        -- intros o [= <-]. cbn [ocells]. inc1.
      * destruct hi as [hv|]; [destruct Kew|]. destruct (sel_some i Hi HL HH).
Qed.
Lemma map_nth_seq {A} (l : list A) d : map (fun i => nth i l d) (seq 0 (length l)) = l.
Proof. induction l as [|x l IH]; [reflexivity|]. cbn [length seq map nth]. f_equal. rewrite <- seq_shift, map_map. exact IH. Qed.
Lemma F2_map_r {A B C} (R : A -> C -> Prop) (f : B -> C) (l : list B) (o : list A) : Forall2 (fun b a => R a (f b)) l o -> Forall2 R o (map f l).
Proof. induction 1; constructor; auto. Qed.
Lemma F2_seq (l : list vec) (P : nat -> vec -> Prop) c : Forall2 P (seq c (length l)) l -> forall i v, nth_error l i = Some v -> P (c + i)%nat v.
Proof.
  revert c. induction l as [|x l IH]; intros c H i v E; [destruct i; discriminate|]. cbn [length seq] in H. inversion H; subst. destruct i as [|i]; cbn [nth_error] in E; [injection E as <-; now rewrite Nat.add_0_r|].
  replace (c + S i)%nat with (S c + i)%nat by lia. eauto.
Qed.
Lemma W_sparse : (Hon -> Pre hval -> exists x y, wred True hval a x /\ sred True hval b y) ->
  hcalc L Pre Hon (sparse_fp12_multiply lb ch xi0 a b) ok12 (fun e o => forall h x y, wred h e a x -> sred h e b y -> wred h e o (wmul x y)) vcells.
Proof.
  intros HH. unfold sparse_fp12_multiply. pose proof Oa as [La Ka]. pose proof Ob as (Lb_ & _).
  eapply h_assert_bind; [rewrite La; auto|intros _]. eapply h_assert_bind; [rewrite Lb_; auto|intros _].
  assert (IN : forall i, (i < 12)%nat -> exists c, nth_error a i = Some c /\ cpre L c /\ isk c n).
  { intros i Hi. destruct (nth_error a i) as [c|] eqn:E; [|apply nth_error_None in E; lia]. exists c. split; auto. apply nth_error_In in E. split; [eapply vpre_in; eauto|]. unfold ExtProofs.vism in Ka. rewrite Forall_forall in Ka. auto. }
  eapply h_bind.
  { apply (h_mapM lb L Pre Hon _ (fun i (v : vec) => length v = 2%nat /\ vism v /\ incl (vcells v) L) (fun e i v => SR II e v (fun t => w6_nth (fst t) i)) vcells).
    intros i Hi. apply in_seq in Hi. destruct (IN i ltac:(lia)) as (c0 & E0 & C0 & K0). destruct (IN (i + 6)%nat ltac:(lia)) as (c1 & E1 & C1 & K1).
    rewrite E0, E1. do 2 (eapply h_lift_bind; [eauto|intros ? [= <-]]).
    assert (CC : incl (vcells [c0; c1]) L) by (unfold vcells; cbn [flat_map]; rewrite app_nil_r; apply incl_app; assumption).
    apply h_ret.
    - split; auto. split; auto. apply Forall_cons; [auto|apply Forall_cons; [auto|constructor]].
    - exact CC.
    - intros e _ h [x y] [Hx _]. cbn [fst snd] in *. eapply (enc_red2 lb m Hlb Hlb2 n k xi0 HB h e a x i); eauto. lia. }
  cbv beta. intros a2 Ha2. assert (L2 : length a2 = 6%nat) by (apply Forall2_len in Ha2; rewrite seq_length in Ha2; lia).
  eapply h_bind. { eapply (sparse_loop a2 _ _); [inc1|exact Ha2|]. cbv beta. intros e [_ R] i v E. rewrite <- L2 in R. exact (F2_seq a2 _ 0 R i v E). }
  cbv beta. intros prod HI.
  eapply h_bind.
  { apply (h_mapM lb _ _ Hon _ (fun i (v : vec) => length v = 2%nat /\ vism v) (fun e i v => SR II e v (fun t => w6_nth (wmul (fst t) (snd t)) i)) vcells).
    intros i Hi. apply in_seq in Hi. eapply h_bind; [apply (coeff_ok _ _ prod i ltac:(lia) HI); [|apply incl_appl, incl_refl]|]. { cbv beta. now intros e [_ R]. }
    cbv beta. intros c [Lc Kc].
    eapply h_post; [apply (S_carry II _ _ Hon c (lg + n + n + 9 + lx) (fun t => w6_nth (wmul (fst t) (snd t)) i) ((12 * Z.abs xi0 + 12) * (M2 * M2)))| | |]; cbv beta; auto; try lia.
    - inc.
    - now intros e [_ R].
    - intros Hh [[[HP _] _] _]. destruct (HH Hh HP) as (x & y & Hx & Hy). exists (x, y). split; auto.
    - intros o _. apply incl_appl, incl_refl. }
  cbv beta. intros out Hout. assert (Lo : length out = 6%nat) by (apply Forall2_len in Hout; rewrite seq_length in Hout; lia).
  assert (VO : viss out). { apply Forall_forall. intros v Hv. apply In_nth_error in Hv as (i & Ei). rewrite <- Lo in Hout. exact (F2_seq out _ 0 Hout i v Ei). }
  eapply h_post; [apply (l_coeffs lb m Hlb Hlb2 n k xi0 HB _ _ Hon out VO)| | |]; cbv beta.
  - apply incl_appl, incl_refl.
  - intros o [Lo' Ko]. split; auto. lia.
  - intros e o _ [[_ _] R] V h x y Hx Hy. unfold FinalHigh.wred.
    assert (RR : reds h e out (w6_list (wmul x y))).
    { unfold FinalProofs.reds. rewrite <- (map_nth_seq (w6_list (wmul x y)) x2_0). apply F2_map_r. rewrite w6_list_len. clear - R Hx Hy. induction R as [|i v l l' S R IH]; constructor; auto. apply (S h (x, y)). split; auto. }
    exact (V h _ RR).
  - intros o _. apply incl_appl, incl_refl.
Qed.
End Sparse.
End Pair.
