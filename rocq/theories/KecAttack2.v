(** The accepted tables of [KecAttack] declare any messages with digest zero. *)
From Coq Require Import ZArith List Bool Lia.
From Verif Require Import Field KecCircuit KecSpec KecClaim KecAttack.
Import ListNotations.
Local Open Scope Z_scope.

Lemma digit_lists_repeat range d n : (d < range)%nat -> In (repeat (Z.of_nat d) n) (digit_lists range n).
Proof.
  intros Hd. induction n as [|n IH]; cbn [digit_lists repeat]; [now left|]. apply in_flat_map. exists d.
  split; [apply in_seq; lia|]. now apply in_map.
Qed.
Lemma packz_repeat0 n : packz (repeat 0 n) = 0.
Proof. induction n as [|n IH]; [reflexivity|]. unfold packz in *. cbn [repeat fold_right]. rewrite IH. lia. Qed.
Lemma map_repeat' {A B} (f : A -> B) x n : map f (repeat x n) = repeat (f x) n.
Proof. induction n; cbn; congruence. Qed.
Lemma digit_table_repeat range d n f : (d < range)%nat -> In (packz (repeat (Z.of_nat d) n), packz (repeat (f (Z.of_nat d)) n)) (digit_table range n f).
Proof.
  intros Hd. unfold digit_table. apply in_map_iff. exists (repeat (Z.of_nat d) n). rewrite map_repeat'. split; [reflexivity|]. now apply digit_lists_repeat.
Qed.
Lemma table_point_in k T : In (table_point k T) (table_rows k T).
Proof.
  assert (H0 : forall range n f, (0 < range)%nat -> f 0 = 0 -> In (0, 0) (digit_table range n f)).
  { intros range n f Hr Hf. pose proof (digit_table_repeat range 0 n f Hr) as H. change (Z.of_nat 0) with 0 in H. rewrite Hf, packz_repeat0 in H. exact H. }
  destruct T; cbn [table_point table_rows].
  - apply H0; [lia | reflexivity].
  - apply H0; [lia | reflexivity].
  - apply H0; [lia | reflexivity].
  - pose proof (digit_table_repeat 5 3 (bits_chi k) (fun d => nth (Z.to_nat d) CHI_BASE_LOOKUP_TABLE 0) ltac:(lia)) as H.
    change (nth (Z.to_nat (Z.of_nat 3)) CHI_BASE_LOOKUP_TABLE 0) with 0 in H. rewrite packz_repeat0 in H. exact H.
  - apply in_map_iff. exists 0%nat. split; [reflexivity | apply in_seq; lia].
Qed.

(** ** From messages to blocks *)
Definition msg_byte (msg : list Z) (b : nat) (i : Z) : Z :=
  let j := 136 * Z.of_nat b + i in
  if j <? Z.of_nat (length msg) then nth (Z.to_nat j) msg 0 else kb2z (j =? Z.of_nat (length msg)) + (if i =? 135 then 128 else 0).
Definition msg_blk (msg : list Z) (b : nat) : blk :=
  Blk (msg_byte msg b) (if Nat.eqb b (length msg / 136) then 136 - Z.of_nat (length msg mod 136) else 0) (Z.of_nat (length msg) - 136 * Z.of_nat b).
Definition msg_blks (msg : list Z) : list blk := map (msg_blk msg) (seq 0 (S (length msg / 136))).
Lemma msg_len (msg : list Z) : (length msg = 136 * (length msg / 136) + length msg mod 136 /\ length msg mod 136 < 136)%nat.
Proof. split; [apply Nat.div_mod; lia | apply Nat.mod_upper_bound; lia]. Qed.
Lemma msg_blk_ok msg b : (b <= length msg / 136)%nat -> bk_ok (msg_blk msg b).
Proof.
  intros Hb. destruct (msg_len msg) as [E Hm]. set (m := (length msg / 136)%nat) in *. set (r := (length msg mod 136)%nat) in *.
  unfold bk_ok, bk_final, msg_blk. fold m r. cbn [bk_byte bk_npad bk_left].
  destruct (Nat.eqb_spec b m) as [->|Hne].
  - split; [lia|]. split; [|intros _; lia]. intros i Hi. unfold msg_byte.
    destruct (Z.ltb_spec (136 * Z.of_nat m + i) (Z.of_nat (length msg))); [lia|]. f_equal. f_equal.
    destruct (Z.eqb_spec (136 * Z.of_nat m + i) (Z.of_nat (length msg))), (Z.eqb_spec i (136 - (136 - Z.of_nat r))); try reflexivity; lia.
  - split; [lia|]. split; [intros i Hi; lia|]. intros H; apply Z.ltb_lt in H; lia.
Qed.
Lemma blks_ok_intro l :
  (forall i, (i < length l)%nat -> bk_ok (nth i l dblk)) ->
  (forall i, (S i < length l)%nat -> bk_final (nth i l dblk) = false -> bk_left (nth (S i) l dblk) = bk_left (nth i l dblk) - 136) ->
  (l <> [] -> bk_final (nth (length l - 1) l dblk) = true) -> blks_ok l.
Proof.
  induction l as [|b l IH]; intros H1 H2 H3; cbn [blks_ok]; [exact I|]. split; [apply (H1 O); cbn; lia|]. split.
  - destruct l as [|c l]; [apply H3; discriminate|]. intros Hf. apply (H2 O); [cbn; lia | exact Hf].
  - apply IH.
    + intros i Hi. apply (H1 (S i)). cbn; lia.
    + intros i Hi. apply (H2 (S i)). cbn; lia.
    + intros Hl. destruct l as [|c l]; [congruence|]. specialize (H3 ltac:(discriminate)).
      cbn [length] in H3 |- *. replace (S (S (length l)) - 1)%nat with (S (length l)) in H3 by lia. replace (S (length l) - 1)%nat with (length l) by lia. exact H3.
Qed.
Lemma blks_ok_app l l' : blks_ok l -> blks_ok l' -> blks_ok (l ++ l').
Proof.
  induction l as [|b l IH]; cbn [app blks_ok]; [auto|]. intros (H1 & H2 & H3) H'. split; [assumption|]. split; [|auto].
  destruct l as [|c l]; cbn [app]; [|assumption]. destruct l'; [assumption|]. intros Hf. congruence.
Qed.
Lemma msg_blks_nth msg i : (i <= length msg / 136)%nat -> nth i (msg_blks msg) dblk = msg_blk msg i.
Proof.
  intros Hi. unfold msg_blks. rewrite nth_indep with (d' := msg_blk msg 0) by (rewrite map_length, seq_length; lia).
  rewrite map_nth, seq_nth by lia. reflexivity.
Qed.
Lemma msg_blks_length msg : length (msg_blks msg) = S (length msg / 136).
Proof. unfold msg_blks. now rewrite map_length, seq_length. Qed.
Lemma msg_blks_ok msg : blks_ok (msg_blks msg).
Proof.
  apply blks_ok_intro; rewrite msg_blks_length.
  - intros i Hi. rewrite msg_blks_nth by lia. apply msg_blk_ok. lia.
  - intros i Hi _. rewrite !msg_blks_nth by lia. cbn [msg_blk bk_left]. lia.
  - intros _. rewrite msg_blks_nth by lia. unfold msg_blk, bk_final. cbn [bk_npad].
    destruct (Nat.eqb_spec (S (length msg / 136) - 1) (length msg / 136)); [|lia]. apply Z.ltb_lt. destruct (msg_len msg). lia.
Qed.
Definition all_blks (msgs : list (list Z)) : list blk := flat_map msg_blks msgs.
Lemma all_blks_ok msgs : blks_ok (all_blks msgs).
Proof. induction msgs as [|m l IH]; cbn [all_blks flat_map]; [exact I|]. apply blks_ok_app; [apply msg_blks_ok | exact IH]. Qed.

Lemma le_bytes_sum l : forall n, (length l <= n)%nat -> le_bytes l = fold_right Z.add 0 (map (fun i => nth i l 0 * 256 ^ Z.of_nat i) (seq 0 n)).
Proof.
  induction l as [|b l IH]; intros n Hn.
  - cbn [le_bytes]. replace (map _ _) with (repeat 0 n). + clear; induction n; cbn [repeat fold_right]; lia.
    + clear. generalize 0%nat. induction n as [|n IH]; intros s; cbn [seq map repeat]; [reflexivity|]. rewrite <- IH. f_equal. now destruct s.
  - cbn [length] in Hn. destruct n as [|n]; [lia|]. cbn [le_bytes seq map fold_right nth]. rewrite <- seq_shift, map_map.
    rewrite (IH n) by lia. change (256 ^ Z.of_nat 0) with 1.
    replace (map (fun x : nat => nth x l 0 * 256 ^ Z.of_nat (S x)) (seq 0 n)) with (map (fun x => 256 * (nth x l 0 * 256 ^ Z.of_nat x)) (seq 0 n)).
    + generalize (seq 0 n). intros s. rewrite Z.mul_1_r. f_equal. induction s as [|x s IHs]; cbn [map fold_right]; [reflexivity|]. rewrite <- IHs. cbv beta. lia.
    + apply map_ext. intros x. rewrite Nat2Z.inj_succ, Z.pow_succ_r by lia. lia.
Qed.
Lemma nth_firstn_skipn {A} (d : A) l a n i : nth i (firstn n (skipn a l)) d = if (i <? n)%nat then nth (a + i) l d else d.
Proof.
  destruct (Nat.ltb_spec i n).
  - replace (nth i (firstn n (skipn a l)) d) with (nth i (skipn a l) d).
    2:{ revert i n H. generalize (skipn a l). induction l0 as [|x l0 IH]; intros i n H; [destruct i, n; reflexivity|].
        destruct n; [lia|]. destruct i; [reflexivity|]. cbn. apply IH. lia. }
    revert l; induction a as [|a IH]; intros l; [reflexivity|]. destruct l; [destruct i; reflexivity|]. cbn. apply IH.
  - apply nth_overflow. rewrite firstn_length. lia.
Qed.

(** ** The accepted table *)
Lemma split_atk cf rr k : Nat.eqb (kc_r cf) rr && conf_attackable k cf = true -> kc_r cf = rr /\ conf_attackable k cf = true.
Proof. rewrite andb_true_iff, Nat.eqb_eq. auto. Qed.
Lemma conf_atk k rr : kec_attackable k rr = true -> kc_r (kec_conf k rr) = rr /\ conf_attackable k (kec_conf k rr) = true.
Proof. exact (split_atk (kec_conf k rr) rr k). Qed.
Section Accept2.
Variables (p : positive) (k : nat) (cf : kconf) (msgs : list (list Z)) (rows : Z).
Notation rr := (kc_r cf).
Notation R := (Z.of_nat rr).
Notation bl := (all_blks msgs).
Hypothesis Hatk : conf_attackable k cf = true.
Hypothesis Hfit : R * (1 + 25 * Z.of_nat (length bl)) <= rows.
Definition atk_table : ktable p := ztable rows (atk_fx cf bl) (atk cf bl) p.
Lemma atk_gates : ksat_gates atk_table (kec_gates cf).
Proof.
  intros r Hr. pose proof (gates_ok k cf bl rows Hatk (all_blks_ok msgs) Hfit r Hr) as H. unfold allz in H. revert H. apply Forall_impl.
  intros e He. unfold atk_table. rewrite keval_evz, He. reflexivity.
Qed.
Lemma atk_lookups usable : ksat_lookups k usable atk_table (kc_lookups cf).
Proof.
  intros r Hr. destruct (atk_parts k cf Hatk) as (_ & _ & _ & _ & _ & _ & _ & _ & _ & H). revert H. apply Forall_impl. intros l Hl.
  exists (table_point k (lk_tab l)). split; [apply table_point_in|]. revert Hl. apply Forall_impl. intros es He.
  unfold atk_table. rewrite keval_evz. f_equal. apply (zero_ev cf bl rows). exact He.
Qed.
Lemma atk_fixed : kfixed_assigned R atk_table (Z.of_nat (length bl)).
Proof. intros c r Hr. reflexivity. Qed.
Lemma Rpos : 0 < R. Proof. exact (R_pos k cf [] Hatk). Qed.
Lemma atk_loaded b : (b < length bl)%nat ->
  kloaded_block R atk_table (Z.of_nat b) =
    KLoaded (of_Z p (bk_left (nth b bl dblk) - Z.min (8 * 0) (136 - bk_npad (nth b bl dblk))))
            (map (fun t => of_Z p (atk_word bl (Z.of_nat b) (Z.of_nat t))) (seq 0 17))
            (of_Z p (kb2z (bk_final (nth b bl dblk)))) (of_Z p 0) (of_Z p 0).
Proof.
  intros Hb. pose proof Rpos as HR.
  assert (Hat : forall t c, 0 <= t < 25 -> atk cf bl c (R * (1 + 25 * Z.of_nat b + t)) =
    match c with
    | KCell n => posval cf bl (n, 0%nat) (Z.of_nat b) t
    | KFinal => if t =? 24 then kb2z (bk_final (nth b bl dblk)) else 0
    | KWord => if t <? 17 then atk_word bl (Z.of_nat b) t else 0
    | KLeft => atk_left bl (Z.of_nat b) t
    | KLo | KHi => 0
    end).
  { intros t c Ht. pose proof (atk_at k cf bl Hatk (Z.of_nat b) t 0 c) as H. unfold brow in H. rewrite Z.add_0_r in H. rewrite H; [|unfold inb; lia|lia].
    unfold the_blk. rewrite Nat2Z.id. reflexivity. }
  unfold kloaded_block, atk_table, ztable. cbn [kadvc].
  rewrite (Hat 0 KLeft), (Hat 24 KFinal), (Hat 24 KLo), (Hat 24 KHi) by lia. cbn [Z.eqb].
  f_equal.
  - unfold atk_left, the_blk. now rewrite Nat2Z.id.
  - apply map_ext_in. intros t Ht. apply in_seq in Ht. rewrite Hat by lia. destruct (Z.ltb_spec (Z.of_nat t) 17); [reflexivity|lia].
Qed.
Lemma the_word msg b t i : nth i bl dblk = msg_blk msg b -> (b <= length msg / 136)%nat -> (t < 17)%nat ->
  atk_word bl (Z.of_nat i) (Z.of_nat t) = le_bytes (firstn 8 (skipn (136 * b + 8 * t) msg)).
Proof.
  intros Hi Hb Ht. rewrite (le_bytes_sum _ 8) by (rewrite firstn_length; lia). unfold atk_word. f_equal. apply map_ext_in. intros j Hj. apply in_seq in Hj.
  f_equal. rewrite nth_firstn_skipn. destruct (Nat.ltb_spec j 8); [|lia]. unfold the_blk. rewrite Nat2Z.id, Hi.
  destruct (msg_len msg) as [E Hm]. set (m := (length msg / 136)%nat) in *. set (r := (length msg mod 136)%nat) in *.
  unfold bk_pad, msg_blk. fold m r. cbn [bk_byte bk_npad]. unfold msg_byte.
  destruct (Nat.eqb_spec b m) as [->|Hne].
  - destruct (Z.ltb_spec (136 * Z.of_nat m + (8 * Z.of_nat t + Z.of_nat j)) (Z.of_nat (length msg))) as [Hl|Hl];
    destruct (Z.leb_spec (136 - (136 - Z.of_nat r)) (8 * Z.of_nat t + Z.of_nat j)); cbn [kb2z]; try lia.
    + replace (Z.to_nat (136 * Z.of_nat m + (8 * Z.of_nat t + Z.of_nat j))) with (136 * m + 8 * t + j)%nat by lia. lia.
    + rewrite nth_overflow by lia. lia.
  - destruct (Z.ltb_spec (136 * Z.of_nat b + (8 * Z.of_nat t + Z.of_nat j)) (Z.of_nat (length msg))) as [Hl|Hl]; [|lia].
    destruct (Z.leb_spec (136 - 0) (8 * Z.of_nat t + Z.of_nat j)); [lia|]. cbn [kb2z].
    replace (Z.to_nat (136 * Z.of_nat b + (8 * Z.of_nat t + Z.of_nat j))) with (136 * b + 8 * t + j)%nat by lia. lia.
Qed.
(** the blocks of message [msg], from block [s] *)
Lemma atk_declares msg s : (forall b, (b <= length msg / 136)%nat -> (s + b < length bl)%nat /\ nth (s + b) bl dblk = msg_blk msg b) ->
  kdeclares (map (fun b => kloaded_block R atk_table (Z.of_nat b)) (seq s (S (length msg / 136)))) msg 0 0.
Proof.
  intros Hs. split; [now rewrite map_length, seq_length|]. intros b ld Hld.
  assert (b <= length msg / 136)%nat as Hb.
  { assert (b < length (map (fun b => kloaded_block R atk_table (Z.of_nat b)) (seq s (S (length msg / 136)))))%nat by (apply nth_error_Some; congruence).
    rewrite map_length, seq_length in H. lia. }
  destruct (Hs b Hb) as [Hlt Hnth].
  assert (ld = kloaded_block R atk_table (Z.of_nat (s + b))) as ->.
  { rewrite nth_error_map in Hld. rewrite (nth_error_nth' _ 0%nat) in Hld by (rewrite seq_length; lia). rewrite seq_nth in Hld by lia. now injection Hld. }
  rewrite (atk_loaded _ Hlt), Hnth. destruct (msg_len msg) as [E Hm].
  cbn [ld_left ld_words ld_final ld_lo ld_hi]. split; [|split; [|split]].
  - f_equal. unfold msg_blk. cbn [bk_left bk_npad]. destruct (Nat.eqb b (length msg / 136)); lia.
  - apply map_ext_in. intros t Ht. apply in_seq in Ht. f_equal. apply (the_word msg b t (s + b) Hnth Hb). lia.
  - f_equal. unfold bk_final, msg_blk. cbn [bk_npad]. destruct (Nat.eqb b (length msg / 136)); [|reflexivity].
    destruct (Z.ltb_spec 0 (136 - Z.of_nat (length msg mod 136))); [reflexivity|lia].
  - auto.
Qed.
Lemma atk_all ms : forall pre, msgs = pre ++ ms ->
  exists ldss, concat ldss = map (fun b => kloaded_block R atk_table (Z.of_nat b)) (seq (length (all_blks pre)) (length (all_blks ms))) /\
    Forall2 (fun lds msg => kdeclares lds msg 0 0) ldss ms.
Proof.
  induction ms as [|m ms IH]; intros pre E.
  - exists []. split; [reflexivity | constructor].
  - destruct (IH (pre ++ [m])) as (ldss & H1 & H2); [now rewrite <- app_assoc|].
    exists (map (fun b => kloaded_block R atk_table (Z.of_nat b)) (seq (length (all_blks pre)) (S (length m / 136))) :: ldss).
    split.
    + cbn [concat]. rewrite H1. change (all_blks (m :: ms)) with (msg_blks m ++ all_blks ms). rewrite app_length, msg_blks_length. rewrite seq_app, map_app. f_equal. f_equal. f_equal.
      unfold all_blks. rewrite flat_map_app, app_length. cbn [flat_map]. rewrite app_nil_r, msg_blks_length. reflexivity.
    + constructor; [|exact H2]. apply atk_declares. intros b Hb.
      assert (Hbl : bl = all_blks pre ++ msg_blks m ++ all_blks ms).
      { rewrite E. unfold all_blks. rewrite flat_map_app. reflexivity. }
      rewrite Hbl. rewrite !app_length, msg_blks_length. split; [lia|]. rewrite app_nth2 by lia. rewrite app_nth1 by (rewrite msg_blks_length; lia).
      replace (length (all_blks pre) + b - length (all_blks pre))%nat with b by lia. now apply msg_blks_nth.
Qed.
End Accept2.

Theorem kec_zero_digests (p : positive) (k rr : nat) (msgs : list (list Z)) (rows usable : Z) :
  kec_attackable k rr = true -> kec_config k rr = Some (kec_gates (kec_conf k rr), kc_lookups (kec_conf k rr)) ->
  let nb := length (flat_map (fun m => seq 0 (S (length m / 136))) msgs) in
  Z.of_nat rr * (1 + 25 * Z.of_nat nb) <= usable -> usable <= rows ->
  exists t : ktable p, krows t = rows /\ kaccepted k rr t usable nb /\
    exists ldss, concat ldss = kloaded_blocks rr t nb /\ Forall2 (fun lds msg => kdeclares lds msg 0 0) ldss msgs.
Proof.
  intros Ha Hc nb H1 H2.
  assert (Hnb : nb = length (all_blks msgs)).
  { unfold nb, all_blks. clear. induction msgs as [|m l IH]; cbn [flat_map]; [reflexivity|]. rewrite !app_length, IH, seq_length, msg_blks_length. reflexivity. }
  destruct (conf_atk k rr Ha) as [Hr Ha'].
  revert Hr Ha' Hc. unfold kaccepted, kloaded_blocks. set (g := kec_config k rr). clearbody g. generalize (kec_conf k rr). intros cf Hr Ha' Hc.
  subst rr. rewrite Hnb in *. assert (Hfit : Z.of_nat (kc_r cf) * (1 + 25 * Z.of_nat (length (all_blks msgs))) <= rows) by lia.
  exists (atk_table p cf msgs rows). split; [reflexivity|]. split.
  - split; [exact H2|]. split; [exact H1|]. split; [apply atk_fixed|]. exists (kec_gates cf), (kc_lookups cf). split; [exact Hc|].
    split; [now apply (atk_gates p k) | now apply atk_lookups].
  - destruct (atk_all p k cf msgs rows Ha' msgs [] eq_refl) as (ldss & E1 & E2). exists ldss. split; [exact E1 | exact E2].
Qed.
