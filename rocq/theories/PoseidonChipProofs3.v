(** Permutation and hashing circuits. *)
From Coq Require Import ZArith Lia List Bool Znumtheory Ring Arith.
From Verif Require Import Field Context ContextProofs Spec Logic Utils Gate GateProofs ChainProofs IPProofs BitProofs PowProofs IPComp Derived Calc
  Range RangeProofs RangeProofs2 RangeProofs3 SafeTypes SafeProofs SafeProofs2 Det PoseidonMds PoseidonSpec PoseidonOpt PoseidonOpt2 PoseidonChip
  PoseidonChipProofs PoseidonChipProofs2.
Import ListNotations.
Local Open Scope nat_scope.

Section PC3.
Context {p : positive}.
Add Ring Fring : (F_ring p) (morphism (F_morph p), constants [Fcst]).
Notation Fp := (F p).
Notation AV := (AV p).
Variable lb : nat.
Hypothesis Hp : prime (Z.pos p).
Notation calc := (calc lb).
Notation env := (env (p:=p)).
Notation dAV := (dAV (p:=p)).
Variables (T RATE : nat).
Hypothesis HTR : T = S RATE.
Hypothesis HR : 0 < RATE.
Hypothesis HRp : (Z.of_nat RATE < Z.pos p)%Z.
Variable sp : opt_spec (p:=p).
Hypothesis HW : wf_spec T sp.

Ltac memb := cbn [qin]; unfold self, one in *; rewrite ?in_app_iff; cbn [In]; tauto.

Lemma ws_c0 : exists c0, nth_error (oc_start (os_consts sp)) 0 = Some c0 /\ nth 0 (oc_start (os_consts sp)) [] = c0 /\ length c0 = T.
Proof.
  destruct (ws_start T sp HW) as [Hn HF]. destruct (oc_start (os_consts sp)) as [|c0 l]; [congruence|].
  exists c0. cbn. split; auto. split; auto. now apply Forall_inv in HF.
Qed.

Lemma perm_fix_calc L (Pre : env -> Prop) (s inputs : list AV) : incl s L -> incl inputs L -> length s = T -> length inputs <= RATE ->
  calc L Pre (permutation T RATE s inputs None sp) (fun o => length o = T)
    (fun e o => map e o = opt_perm T sp (map e inputs) (map e s)) self.
Proof.
  intros Hs Hi HT HL. destruct ws_c0 as (c0 & E0 & N0 & L0). unfold permutation.
  eapply calc_lift_bind; [exact E0|].
  eapply calc_bind; [apply (absorb_calc lb T); auto; lia|]. intros s1 Hs1. cbv beta in Hs1.
  eapply calc_post; [apply (perm_rounds_calc lb T); auto|auto|].
  - intros a Ha. memb.
  - cbv beta. intros e o _ [_ E] ->. unfold opt_perm. now rewrite N0, E.
Qed.

Lemma calc_true {B} L (Pre : env -> Prop) (m : M p B) P R cs : calc L Pre m P R cs -> calc L Pre m P (fun e b => True /\ R e b) cs.
Proof. intros H. eapply calc_post; eauto. Qed.

Lemma pad_input_calc L (Pre : env -> Prop) (inputs : list AV) i : incl inputs L ->
  calc L Pre (pad_input inputs i) (fun _ => True) (fun e o => e o = vget (map e inputs) i) one.
Proof.
  intros Hi. unfold pad_input. destruct (nth_error inputs i) as [x|] eqn:E.
  - apply calc_ret; auto.
    + intros a [<-|[]]. apply Hi. eapply nth_error_In; eauto.
    + intros e _. unfold vget. erewrite nth_error_nth; [reflexivity|]. now rewrite nth_error_map, E.
  - eapply calc_post; [apply calc_load_zero|auto|]. cbv beta. intros e o _ _ ->. unfold vget. rewrite nth_overflow; [reflexivity|].
    rewrite map_length. now apply nth_error_None.
Qed.

(** a chunk padded with zeros, and its first elements *)
Lemma firstn_pad (l : list Fp) n : n <= length l -> length l <= RATE -> firstn n (map (fun i => vget l i) (seq 0 RATE)) = firstn n l.
Proof.
  intros Hn HL. assert (E : map (fun i => vget l i) (seq 0 RATE) = l ++ repeat F0 (RATE - length l)).
  { replace RATE with (length l + (RATE - length l)) at 1 by lia. rewrite seq_app, map_app. f_equal.
    - rewrite <- (map_id l) at 2. clear. apply nth_ext with (d := F0) (d' := F0); [now rewrite map_length, seq_length, map_length|].
      rewrite map_length, seq_length. intros n Hn. rewrite map_id. rewrite (nth_indep _ _ (vget l 0)) by now rewrite map_length, seq_length.
      rewrite map_nth, seq_nth by auto. reflexivity.
    - cbn [Nat.add]. clear. remember (RATE - length l) as k. clear Heqk. remember (length l) as m. assert (Hm : length l <= m) by lia. clear Heqm.
      revert m Hm. induction k as [|k IH]; intros m Hm; cbn; auto. rewrite IH by lia. unfold vget. now rewrite nth_overflow by lia. }
  rewrite E. rewrite firstn_app. replace (n - length l) with 0 by lia. cbn. apply app_nil_r.
Qed.

Lemma perm_var_calc L (Pre : env -> Prop) (s inputs : list AV) (len : AV) : incl s L -> incl inputs L -> In len L -> length s = T -> length inputs <= RATE ->
  calc L Pre (permutation T RATE s inputs (Some len) sp) (fun o => length o = T)
    (fun e o => (val (e len) <= Z.of_nat (length inputs))%Z ->
       map e o = opt_perm T sp (firstn (Z.to_nat (val (e len))) (map e inputs)) (map e s)) self.
Proof.
  intros Hs Hi Hl HT HL. destruct ws_c0 as (c0 & E0 & N0 & L0). unfold permutation.
  eapply calc_lift_bind; [exact E0|].
  eapply calc_bind with (P1 := fun o => length o = T) (c1 := self)
    (R1 := fun e o => (val (e len) <= Z.of_nat (length inputs))%Z ->
       map e o = n_absorb T c0 (firstn (Z.to_nat (val (e len))) (map e inputs)) (map e s)).
  - eapply calc_bind; [apply (calc_mapM_fn lb L Pre _ (fun e i => vget (map e inputs) i)); intros x _; now apply pad_input_calc|].
    intros pad Hpad. cbv beta in Hpad. rewrite seq_length in Hpad.
    eapply calc_post; [apply (absorb_var_calc lb Hp T RATE HTR HR)|auto|]; auto.
    + intros a Ha. apply Hs in Ha. memb.
    + intros a Ha. memb.
    + memb.
    + cbv beta. intros e o _ [_ E] H Hle. pose proof (val_bounds p (e len)). rewrite H by lia. rewrite E. rewrite firstn_pad; auto; rewrite map_length; lia.
  - intros s1 Hs1. cbv beta in Hs1. eapply calc_post; [apply (perm_rounds_calc lb T); auto|auto|].
    + intros a Ha. memb.
    + cbv beta. intros e o _ [_ E] -> Hle. unfold opt_perm. rewrite N0, E by auto. reflexivity.
Qed.

Lemma ps_select_calc L (Pre : env -> Prop) (s : list AV) (sel : AV) (t : list AV) : incl s L -> incl t L -> In sel L -> length s = length t ->
  calc L Pre (ps_select s sel t) (fun o => length o = length s)
    (fun e o => (e sel = F0 -> map e o = map e s) /\ (e sel = F1 -> map e o = map e t)) self.
Proof.
  intros Hs Ht Hl HL. unfold ps_select. eapply calc_post; [apply (calc_mapM_fn lb L Pre _ (fun e (tx : AV * AV) => (e (fst tx) - e (snd tx)) * e sel + e (snd tx))%F)| |].
  - intros [x y] Hin. cbn [fst snd]. apply calc_select; cbn [qin]; auto.
    + apply Ht. eapply in_combine_l; eauto.
    + apply Hs. eapply in_combine_r; eauto.
  - cbv beta. intros b Hb. rewrite combine_length in Hb. lia.
  - cbv beta. intros e o _ _ E. split; intros Es; rewrite E; clear E; rewrite Es.
    + revert t Ht HL. induction s as [|x s IH]; intros [|y t] Ht HL; cbn in *; try lia; auto. f_equal; [ring|].
      apply IH; [intros a Ha; apply Hs; now right|intros a Ha; apply Ht; now right|lia].
    + revert s Hs HL. induction t as [|x t IH]; intros [|y s] Hs HL; cbn in *; try lia; auto. f_equal; [ring|].
      apply IH; [intros a Ha; apply Ht; now right|intros a Ha; apply Hs; now right|lia].
Qed.

Lemma ps_default_calc L (Pre : env -> Prop) :
  calc L Pre (ps_default T) (fun o => length o = T) (fun e o => map e o = sponge_init T) self.
Proof.
  unfold ps_default. eapply calc_post; [apply (calc_mapM_fn lb L Pre _ (fun e c => c)); intros; apply calc_load_constant| |].
  - cbv beta. cbn [length]. rewrite repeat_length. intros b Hb. lia.
  - cbv beta. intros e o _ _ ->. now rewrite map_id.
Qed.

(** ** the sponge at native level, in the block order of the implementation *)
Definition blk {A} (m : list A) (i : nat) : list A := firstn RATE (skipn (i * RATE) m).
Definition n_state (m : list Fp) (k : nat) (s : list Fp) : list Fp :=
  fold_left (fun st i => opt_perm T sp (blk m i) st) (seq 0 k) s.
Definition n_squeeze (m s : list Fp) : list Fp :=
  let q := length m / RATE in opt_perm T sp (skipn (q * RATE) m) (n_state m q s).
Lemma n_state_S m k s : n_state m (S k) s = opt_perm T sp (blk m k) (n_state m k s).
Proof. unfold n_state. rewrite seq_S, fold_left_app. reflexivity. Qed.
Lemma blk_map {A B} (f : A -> B) m i : blk (map f m) i = map f (blk m i).
Proof. unfold blk. now rewrite skipn_map, firstn_map. Qed.
Lemma blk_incl {A} (m : list A) i : incl (blk m i) m.
Proof. intros a Ha. unfold blk in Ha. apply in_firstn in Ha. now apply in_skipn in Ha. Qed.
Lemma blk_len {A} (m : list A) i : length (blk m i) <= RATE.
Proof. unfold blk. rewrite firstn_length. lia. Qed.
Lemma div_facts n : n = RATE * (n / RATE) + n mod RATE /\ n mod RATE < RATE.
Proof. split; [apply Nat.div_mod; lia|apply Nat.mod_upper_bound; lia]. Qed.
Lemma ceil_exact n : n mod RATE = 0 -> ceil_div n RATE = n / RATE.
Proof.
  intros H. destruct (div_facts n) as [E _]. unfold ceil_div. symmetry. apply (Nat.div_unique _ _ _ (RATE - 1)); lia.
Qed.
Lemma ceil_inexact n : n mod RATE <> 0 -> ceil_div n RATE = S (n / RATE).
Proof.
  intros H. destruct (div_facts n) as [E L]. unfold ceil_div. symmetry. apply (Nat.div_unique _ _ _ (n mod RATE - 1)); lia.
Qed.

Definition c2 (o : list AV * AV) : list AV := snd o :: fst o.
Lemma squeeze_calc L (Pre : env -> Prop) (inputs s : list AV) : incl s L -> incl inputs L -> length s = T ->
  calc L Pre (fix_len_array_squeeze T RATE inputs s sp) (fun o => length (fst o) = T /\ nth_error (fst o) 1 = Some (snd o))
    (fun e o => map e (fst o) = n_squeeze (map e inputs) (map e s)) c2.
Proof.
  intros Hs Hi HT. unfold fix_len_array_squeeze. apply calc_assert_bind; [now apply Nat.ltb_lt|]. cbv zeta.
  destruct (div_facts (length inputs)) as [ED LD]. set (q := length inputs / RATE) in *.
  eapply calc_bind with (P1 := fun o => length o = T) (c1 := self) (R1 := fun e o => map e o = n_state (map e inputs) (ceil_div (length inputs) RATE) (map e s)).
  - eapply calc_post; [apply (calc_fold_state lb T L Pre _ (fun e ch st => opt_perm T sp (map e ch) st))| |]; auto.
    + intros s' x Hx Hs'. apply perm_fix_calc; auto.
      * intros a Ha. memb.
      * unfold chunks in Hx. apply in_map_iff in Hx as (i & <- & _). intros a Ha. apply blk_incl, Hi in Ha. memb.
      * unfold chunks in Hx. apply in_map_iff in Hx as (i & <- & _). apply blk_len.
    + cbv beta. intros e o _ _ ->. unfold chunks, n_state.
      remember (seq 0 (ceil_div (length inputs) RATE)) as l. clear Heql. generalize (map e s). induction l as [|x l IH]; intros v; cbn [map fold_left]; auto.
      rewrite IH, blk_map. reflexivity.
  - intros s1 Hs1. cbv beta in Hs1.
    eapply calc_bind with (P1 := fun o => length o = T) (c1 := self) (R1 := fun e o => map e o = n_squeeze (map e inputs) (map e s)).
    + destruct (Nat.eqb_spec (length inputs mod RATE) 0) as [HE|HE].
      * eapply calc_post; [apply (perm_fix_calc _ _ s1 [])|auto|]; auto.
        -- intros a Ha. memb.
        -- intros a [].
        -- cbn. lia.
        -- cbv beta. intros e o _ [_ E] ->. rewrite E. unfold n_squeeze. rewrite map_length. cbv zeta. fold q. rewrite ceil_exact by auto. fold q.
           f_equal. cbn [map]. symmetry. apply skipn_all2. rewrite map_length. lia.
      * apply calc_ret; auto. { intros a Ha. memb. }
        intros e [_ E]. rewrite E. rewrite ceil_inexact by auto. fold q. rewrite n_state_S. unfold n_squeeze. rewrite map_length. cbv zeta. fold q.
        f_equal. unfold blk. apply firstn_all2. rewrite skipn_length, map_length. lia.
    + intros s2 Hs2. cbv beta in Hs2. assert (N1 : nth_error s2 1 = Some (nth 1 s2 dAV)) by (apply nth_error_nth'; lia).
      eapply calc_lift_bind; [exact N1|]. apply calc_ret; cbn [fst snd]; auto.
      * unfold c2. cbn [fst snd]. assert (In (nth 1 s2 dAV) s2) by (apply nth_In; lia). intros a [<-|Ha]; memb.
      * intros e [_ E]. exact E.
Qed.

Lemma nth1_e (e : env) (l : list AV) x : nth_error l 1 = Some x -> e x = vget (map e l) 1.
Proof. intros H. unfold vget. erewrite nth_error_nth; [reflexivity|]. now rewrite nth_error_map, H. Qed.

(** the initialised constants *)
Definition consts_ok (consts : list AV * AV) (e : env) : Prop :=
  map e (fst consts) = sponge_init T /\ e (snd consts) = vget (n_squeeze [] (sponge_init T)) 1.
Lemma hasher_consts_calc L (Pre : env -> Prop) :
  calc L Pre (hasher_consts T RATE sp) (fun o => length (fst o) = T) (fun e o => consts_ok o e) c2.
Proof.
  unfold hasher_consts. eapply calc_bind; [apply ps_default_calc|]. intros init Hinit. cbv beta in Hinit.
  eapply calc_bind; [apply (squeeze_calc _ _ [] init)|]; auto.
  { intros a Ha. memb. } { intros a []. }
  intros r [Hr1 Hr2]. apply calc_ret; cbn [fst snd]; auto.
  - unfold c2. intros a Ha. cbn [fst snd In] in *. memb.
  - intros e [[_ E1] E2]. unfold consts_ok. cbn [fst snd]. split; auto. rewrite (nth1_e e _ _ Hr2), E2, E1. reflexivity.
Qed.

Lemma hash_fix_calc L (Pre : env -> Prop) consts (inputs : list AV) : incl (c2 consts) L -> incl inputs L -> length (fst consts) = T ->
  calc L (fun e => Pre e /\ consts_ok consts e) (hash_fix_len_array T RATE consts inputs sp) (fun _ => True)
    (fun e o => e o = vget (n_squeeze (map e inputs) (sponge_init T)) 1) one.
Proof.
  intros Hc Hi HT. unfold hash_fix_len_array. eapply calc_bind; [apply squeeze_calc|]; auto.
  { intros a Ha. apply Hc. now right. }
  intros r [Hr1 Hr2]. apply calc_ret; auto.
  - intros a [<-|[]]. unfold c2. cbn [app In]. auto.
  - intros e [[_ [E1 _]] E2]. rewrite (nth1_e e _ _ Hr2), E2, E1. reflexivity.
Qed.

(** ** variable-length hash *)
Hypothesis Hlb : (1 <= lb < 64)%nat.
Hypothesis Hlb2 : (2 * lb <= CAPACITY p)%nat.

Lemma div_mod_calc L (Pre : env -> Prop) (a : AV) b n : In a L -> (0 < b)%Z -> (2 ^ Z.of_nat n + b <= Z.pos p)%Z ->
  S (pad_bits lb (bits b)) <= CAPACITY p -> S (pad_bits lb (bits (2 ^ Z.of_nat n / b + 1))) <= CAPACITY p ->
  (forall e, Pre e -> val (e a) < 2 ^ Z.of_nat n)%Z ->
  calc L Pre (div_mod lb (Existing a) b n) (fun _ => True)
   (fun e o => val (e (fst o)) = (val (e a) / b)%Z /\ val (e (snd o)) = (val (e a) mod b)%Z) (fun o => [fst o; snd o]).
Proof.
  intros Ha Hb Hw H1 H2 HPre. split.
  - eapply sound_weaken; [apply (div_mod_sound lb Hp Hlb Hlb2 _ b n Hb Hw); apply (S_pow_le_p lb Hlb Hlb2); auto|auto|].
    cbv beta. intros sg o _ (x & Hx & E) _. cbn in Hx. subst x. exact E.
  - intros HG HP. rewrite Forall_forall in HG.
    eapply comp_weaken; [apply (div_mod_comp lb Hp Hlb Hlb2 (Existing a) b (hval a) n)| | |]; auto; try lia.
    + apply qh_existing. apply HG. auto.
    + cbv beta. intros rho HF. cbn. rewrite Forall_forall in HF. auto.
    + cbv beta. intros o [E1 E2]. split; auto. split.
      * constructor; [eapply hv_good; eauto|]. constructor; [eapply hv_good; eauto|constructor].
      * pose proof (val_bounds p (hval a)) as B. rewrite (hv_hval _ _ E1), (hv_hval _ _ E2).
        assert (0 <= val (hval a) / b)%Z by (apply Z.div_pos; lia). pose proof (Z.mod_pos_bound (val (hval a)) b Hb).
        assert (val (hval a) / b <= val (hval a))%Z by (apply Z.div_le_upper_bound; nia).
        assert (b < Z.pos p)%Z by (pose proof (pow2_pos n); lia).
        rewrite !val_of_Z. split; apply Z.mod_small; lia.
    + cbv beta. intros rho o _ _ [? ?]. auto.
Qed.

Lemma val_ofn n : (Z.of_nat n < Z.pos p)%Z -> val (of_Z p (Z.of_nat n)) = Z.of_nat n.
Proof. intros. rewrite val_of_Z. apply Z.mod_small. lia. Qed.
Lemma Feqb_val (x y : Fp) : Feqb x y = (val x =? val y)%Z.
Proof. reflexivity. Qed.

Definition vl_inv (inputs init : list AV) (len : AV) (e : env) (k : nat) (st : list AV * list AV) : Prop :=
  let n := Z.to_nat (val (e len)) in let q := n / RATE in let m := firstn n (map e inputs) in
  (k <= q -> map e (fst st) = n_state m k (map e init)) /\ (q < k -> map e (snd st) = n_squeeze m (map e init)).

(** a full block of the input lies within the message when it is before the last one *)
Lemma blk_prefix (l : list Fp) n i : n <= length l -> (S i) * RATE <= n -> blk (firstn n l) i = blk l i.
Proof.
  intros Hn Hi. unfold blk. rewrite skipn_firstn_comm, firstn_firstn. f_equal. lia.
Qed.
Lemma blk_full_len {A} (l : list A) i : (S i) * RATE <= length l -> length (blk l i) = RATE.
Proof. intros H. unfold blk. rewrite firstn_length, skipn_length. lia. Qed.

Definition cst (st : list AV * list AV) : list AV := fst st ++ snd st.

(** one step of the loop *)
Lemma var_step_calc L (Pre : env -> Prop) (inputs init : list AV) (len np lc : AV) k st :
  incl inputs L -> incl (cst st) L -> In np L -> In lc L -> In len L -> k * RATE < length inputs ->
  (Z.of_nat (length inputs) + 1 < Z.pos p)%Z ->
  length (fst st) = T -> length (snd st) = T ->
  (forall e, Pre e -> let n := Z.to_nat (val (e len)) in n <= length inputs /\
     val (e np) = Z.of_nat (n / RATE + 1) /\ val (e lc) = Z.of_nat (n mod RATE) /\ vl_inv inputs init len e k st) ->
  calc L Pre (var_len_step T RATE sp np lc st (k, blk inputs k)) (fun o => length (fst o) = T /\ length (snd o) = T)
    (fun e o => vl_inv inputs init len e (S k) o) cst.
Proof.
  intros Hi Hst Hnp Hlc Hlen Hk HLp L1 L2 HPre. unfold var_len_step. cbn [fst snd].
  assert (Hi1 : incl (fst st) L) by (intros a Ha; apply Hst; unfold cst; apply in_or_app; auto).
  assert (Hi2 : incl (snd st) L) by (intros a Ha; apply Hst; unfold cst; apply in_or_app; auto).
  eapply calc_bind; [apply calc_is_equal; cbn; auto|]. intros il _.
  eapply calc_bind; [apply calc_select; cbn; auto|]. intros lch _.
  eapply calc_bind; [apply (perm_var_calc _ _ (fst st) (blk inputs k) lch)|]; auto.
  { intros a Ha. apply Hi1 in Ha. memb. }
  { intros a Ha. apply blk_incl, Hi in Ha. memb. }
  { memb. }
  { apply blk_len. }
  intros s' Hs'. cbv beta in Hs'.
  eapply calc_bind; [apply (ps_select_calc _ _ (snd st) il s')|]; auto; try congruence.
  { intros a Ha. apply Hi2 in Ha. memb. }
  { intros a Ha. memb. }
  { memb. }
  intros r' Hr'. cbv beta in Hr'. apply calc_ret; cbn [fst snd].
  - split; congruence.
  - unfold cst. cbn [fst snd]. intros a Ha. apply in_app_or in Ha as [Ha|Ha]; memb.
  - intros e [[[[HP Eil] Elch] Es'] [Er0 Er1]]. cbn [qe] in *.
    destruct (HPre e HP) as (Hn & Enp & Elc & HI1 & HI2). clear HPre HP.
    set (n := Z.to_nat (val (e len))) in *. set (q := n / RATE) in *.
    destruct (div_facts n) as [ED LD]. fold q in ED.
    set (m := firstn n (map e inputs)) in *.
    assert (Hml : length m = n) by (unfold m; rewrite firstn_length, map_length; lia).
    rewrite Feqb_val, Enp in Eil.
    assert (HqL : q < length inputs + 1) by nia.
    assert (HkL : k < length inputs) by nia.
    rewrite val_ofn in Eil by lia.
    unfold vl_inv. cbn [fst snd]. fold n. cbv zeta. fold q. fold m.
    destruct (Z.eqb_spec (Z.of_nat (q + 1)) (Z.of_nat (k + 1))) as [HE|HE]; cbn [fbool] in Eil.
    + assert (k = q) by lia. subst k. split; [lia|]. intros _. rewrite Er1 by auto.
      rewrite Eil in Elch. assert (El : e lch = e lc) by (rewrite Elch; ring).
      assert (Hbl : length (blk inputs q) = Nat.min RATE (length inputs - q * RATE)) by (unfold blk; rewrite firstn_length, skipn_length; reflexivity).
      rewrite El, Elc in Es'. rewrite Es' by (rewrite Hbl; lia). rewrite Nat2Z.id.
      rewrite HI1 by lia. unfold n_squeeze. rewrite Hml. cbv zeta. fold q. f_equal.
      rewrite <- blk_map. unfold blk, m. rewrite firstn_firstn, skipn_firstn_comm. f_equal. lia.
    + rewrite Er0 by auto. split.
      * intros Hkq. rewrite n_state_S. rewrite Eil in Elch.
        assert (El : e lch = of_Z p (Z.of_nat RATE)) by (rewrite Elch; ring).
        assert (Hfull : S k * RATE <= n) by nia.
        rewrite El, val_ofn in Es' by lia. rewrite blk_full_len in Es' by lia. rewrite Nat2Z.id in Es'.
        rewrite Es' by lia. rewrite HI1 by lia. f_equal. unfold m. rewrite blk_prefix by (rewrite ?map_length; lia). rewrite blk_map.
        apply firstn_all2. rewrite map_length. apply blk_len.
      * intros Hqk. apply HI2. lia.
Qed.

Lemma chunks_blk {A} (l : list A) : chunks RATE l = map (blk l) (seq 0 (ceil_div (length l) RATE)).
Proof. reflexivity. Qed.
Lemma combine_seq_map {A} (f : nat -> A) n : combine (seq 0 n) (map f (seq 0 n)) = map (fun i => (i, f i)) (seq 0 n).
Proof. generalize (seq 0 n). induction l as [|x l IH]; cbn; congruence. Qed.

Lemma hash_var_calc L (Pre : env -> Prop) consts (inputs : list AV) (len : AV) :
  incl (c2 consts) L -> incl inputs L -> In len L -> length (fst consts) = T ->
  let nb := bit_length (Z.of_nat (length inputs)) in
  (Z.of_nat (length inputs) < 2 ^ 64)%Z -> (2 ^ Z.of_nat nb + Z.of_nat RATE <= Z.pos p)%Z ->
  (S (pad_bits lb (bits (Z.of_nat RATE))) <= CAPACITY p) -> S (pad_bits lb (bits (2 ^ Z.of_nat nb / Z.of_nat RATE + 1))) <= CAPACITY p ->
  (forall e, Pre e -> consts_ok consts e /\ val (e len) <= Z.of_nat (length inputs))%Z ->
  calc L Pre (hash_var_len_array lb T RATE consts inputs len sp) (fun _ => True)
    (fun e o => e o = vget (n_squeeze (firstn (Z.to_nat (val (e len))) (map e inputs)) (sponge_init T)) 1) one.
Proof.
  intros Hc Hi Hlen HT nb H64 HW1 HW2 HW3 HPre. unfold hash_var_len_array. cbv zeta. fold nb.
  destruct consts as [init eh]. cbn [fst snd] in *. unfold c2 in Hc. cbn [fst snd] in Hc.
  destruct (Nat.eqb_spec (length inputs) 0) as [H0|H0].
  { apply length_zero_iff_nil in H0. subst inputs. apply calc_ret; auto.
    - intros a [<-|[]]. apply Hc. now left.
    - intros e HP. destruct (HPre e HP) as [[_ E] _]. cbn [fst snd] in E. rewrite E. now rewrite firstn_nil. }
  set (N := length inputs) in *.
  assert (Hnb : (Z.of_nat N < 2 ^ Z.of_nat nb)%Z). { unfold nb; fold N. rewrite (bit_length_bits lb Hlb Hlb2) by lia. apply (bits_bound lb Hlb Hlb2); lia. }
  assert (HNp : (Z.of_nat N + 1 < Z.pos p)%Z) by lia.
  eapply calc_bind; [apply (div_mod_calc L Pre len (Z.of_nat RATE) nb)|]; auto; try lia.
  { intros e HP. destruct (HPre e HP). lia. }
  intros dm _. eapply calc_bind; [apply calc_add; cbn; auto|]. intros np _.
  set (L1 := one np ++ [fst dm; snd dm] ++ L).
  match goal with |- calc _ ?X _ _ _ _ => set (Pre1 := X) end.
  assert (HInit : incl init L) by (intros a Ha; apply Hc; now right).
  assert (HP1 : forall e, Pre1 e -> let n := Z.to_nat (val (e len)) in n <= N /\ map e init = sponge_init T /\
     val (e np) = Z.of_nat (n / RATE + 1) /\ val (e (snd dm)) = Z.of_nat (n mod RATE)).
  { intros e [[HP [E1 E2]] E3]. cbn [qe] in E3. destruct (HPre e HP) as [[Ec _] Hle]. cbn [fst] in Ec.
    pose proof (val_bounds p (e len)) as B. set (n := Z.to_nat (val (e len))). cbv zeta. fold N in Hle.
    assert (En : val (e len) = Z.of_nat n) by (unfold n; lia). assert (n <= N) by lia.
    split; auto. split; auto. rewrite En in E1, E2.
    destruct (div_facts n) as [ED LD].
    rewrite <- Nat2Z.inj_div in E1. rewrite <- Nat2Z.inj_mod in E2. split; auto.
    rewrite E3, val_add, E1, (val_1 _ Hp), Z.mod_small; nia. }
  clearbody Pre1.
  eapply calc_bind with (P1 := fun o => length (fst o) = T /\ length (snd o) = T) (c1 := cst)
    (R1 := fun e o => vl_inv inputs init len e (ceil_div N RATE) o).
  - rewrite chunks_blk, map_length, seq_length, combine_seq_map. fold N.
    eapply calc_weaken; [apply (calc_foldM lb L1 Pre1 _ (fun done b => length (fst b) = T /\ length (snd b) = T)
       (fun e done b => vl_inv inputs init len e (length done) b) cst)| | | | |].
    + intros done x rest b El [Hb1 Hb2].
      assert (Hd : length done < ceil_div N RATE). { apply (f_equal (@length (nat * list AV))) in El. rewrite map_length, seq_length, app_length in El. cbn in El. lia. }
      assert (Hx : x = (length done, blk inputs (length done))).
      { assert (H := f_equal (fun l => nth_error l (length done)) El). cbv beta in H.
        rewrite nth_error_map, nth_error_app2, Nat.sub_diag in H by lia. cbn [nth_error] in H.
        rewrite (nth_error_nth' _ 0) in H by (now rewrite seq_length). rewrite seq_nth in H by auto. cbn in H. congruence. }
      subst x. clear El.
      assert (Hdk : length done * RATE < N).
      { destruct (div_facts N) as [ED LD]. destruct (Nat.eq_dec (N mod RATE) 0) as [Hz|Hz]; [rewrite ceil_exact in Hd by auto|rewrite ceil_inexact in Hd by auto]; nia. }
      eapply calc_post; [apply (var_step_calc _ _ inputs init len np (snd dm) (length done) b)|auto|]; auto.
      * intros a Ha. apply Hi in Ha. unfold L1. memb.
      * intros a Ha. apply in_or_app. now left.
      * unfold L1. memb.
      * unfold L1. memb.
      * unfold L1. memb.
      * intros e [HP HI]. destruct (HP1 e HP) as (A1 & A2 & A3 & A4). cbv zeta. auto.
      * cbv beta. intros e o _ _ HI. rewrite app_length. cbn [length]. replace (length done + 1) with (S (length done)) by lia. exact HI.
    + cbn [fst snd]. auto.
    + intros e HP. unfold vl_inv. cbv zeta. cbn [fst snd length]. split; [intros _; reflexivity|lia].
    + intros a Ha. unfold cst in Ha. cbn [fst snd] in Ha. unfold L1. apply in_app_or in Ha as [Ha|Ha]; apply HInit in Ha; memb.
    + apply incl_refl.
    + auto.
    + auto.
    + cbv beta. intros e o _ _ HI. rewrite map_length, seq_length in HI. exact HI.
    + intros o _ a Ha. apply in_or_app; auto.
  - intros st [Hst1 Hst2]. cbn [fst snd] in *.
    eapply calc_bind with (P1 := fun o => length o = T) (c1 := self)
      (R1 := fun e o => map e o = n_squeeze (firstn (Z.to_nat (val (e len))) (map e inputs)) (sponge_init T)).
    + destruct (div_facts N) as [EDN LDN]. destruct (Nat.eqb_spec (N mod RATE) 0) as [Hz|Hz].
      * assert (HS : incl (fst st) (cst st)) by (intros a Ha; apply in_or_app; auto).
        assert (HS2 : incl (snd st) (cst st)) by (intros a Ha; apply in_or_app; auto).
        eapply calc_bind; [apply calc_is_equal; auto|]. { unfold L1. memb. } { cbn. auto. }
        intros il _. eapply calc_bind; [apply calc_load_zero|]. intros z _.
        eapply calc_bind; [apply (perm_var_calc _ _ (fst st) [] z)|]; auto.
        { intros a Ha. apply HS in Ha. memb. } { intros a []. } { memb. } { cbn. lia. }
        intros s' Hs'. cbv beta in Hs'. eapply calc_post; [apply (ps_select_calc _ _ (snd st) il s')|auto|]; auto.
        { intros a Ha. apply HS2 in Ha. memb. } { intros a Ha. memb. } { memb. } { congruence. }
        { cbv beta. intros b Hb. congruence. }
        cbv beta. intros e o _ [[[[HP [HI1 HI2]] Eil] Ez] Es'] [Er0 Er1].
        destruct (HP1 e HP) as (A1 & A2 & A3 & A4). cbn [qe] in Eil. rewrite Feqb_val, A3 in Eil.
        set (n := Z.to_nat (val (e len))) in *. destruct (div_facts n) as [EDn LDn]. set (q := n / RATE) in *.
        assert (Hq : q <= N / RATE) by (unfold q; apply Nat.div_le_mono; lia).
        rewrite val_ofn in Eil by nia. cbv zeta in HI1, HI2. rewrite ceil_exact in * by auto.
        rewrite A2 in *.
        destruct (Z.eqb_spec (Z.of_nat (q + 1)) (Z.of_nat (N / RATE + 1))) as [HE|HE]; cbn [fbool] in Eil.
        -- rewrite Er1 by auto. rewrite Ez in Es'. rewrite Es' by (rewrite val_0; cbn; lia). cbn [map]. rewrite firstn_nil.
           rewrite HI1 by lia. unfold n_squeeze. rewrite firstn_length, map_length. fold N. rewrite Nat.min_l by lia. cbv zeta. fold q.
           replace (N / RATE) with q by lia. f_equal. symmetry. apply skipn_all2. rewrite firstn_length, map_length. fold N. nia.
        -- rewrite Er0 by auto. apply HI2. lia.
      * apply calc_ret; auto. { intros a Ha. unfold cst. memb. }
        intros e [HP [HI1 HI2]]. destruct (HP1 e HP) as (A1 & A2 & A3 & A4). cbv zeta in HI2. rewrite A2 in HI2. apply HI2.
        rewrite ceil_inexact by auto. assert (Z.to_nat (val (e len)) / RATE <= N / RATE) by (apply Nat.div_le_mono; lia). lia.
    + intros r Hr. cbv beta in Hr. assert (N1 : nth_error r 1 = Some (nth 1 r dAV)) by (apply nth_error_nth'; lia).
      eapply calc_lift; [exact N1|auto| |].
      * intros a [<-|[]]. apply in_or_app. left. apply nth_In. unfold self. lia.
      * intros e [_ E]. rewrite (nth1_e e _ _ N1), E. reflexivity.
Qed.
End PC3.
