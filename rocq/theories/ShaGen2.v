(** The witness generator of the SHA-256 circuit produces the rows of valid chains of blocks. *)
From Coq Require Import ZArith Lia List Bool.
From Verif Require Import Field Spec ShaSpec ShaCircuit ShaBits ShaEval ShaBlock ShaMsg ShaWitness ShaGen ShaComp.
Import ListNotations.
Local Open Scope Z_scope.

(** * The padded message *)
Lemma pad_zeros_spec z : forall fuel b, (z <= fuel)%nat -> ((length b + z + 64) mod 512 = 0)%nat ->
  (forall z', (z' < z)%nat -> (length b + z' + 64) mod 512 <> 0)%nat -> pad_zeros fuel b = b ++ repeat false z.
Proof.
  induction z as [|z IH]; intros fuel b Hf H0 Hn.
  - cbn [repeat]. rewrite app_nil_r. destruct fuel as [|fuel]; [reflexivity|]. cbn [pad_zeros]. rewrite Nat.add_0_r in H0. rewrite H0. reflexivity.
  - destruct fuel as [|fuel]; [lia|]. cbn [pad_zeros]. specialize (Hn 0%nat ltac:(lia)) as N0. rewrite Nat.add_0_r in N0.
    rewrite (proj2 (Nat.eqb_neq _ _) N0). rewrite IH; [rewrite <- app_assoc; reflexivity|lia| |].
    + rewrite app_length. cbn [length]. replace (length b + 1 + z + 64)%nat with (length b + S z + 64)%nat by lia. exact H0.
    + intros z' Hz'. rewrite app_length. cbn [length]. replace (length b + 1 + z' + 64)%nat with (length b + S z' + 64)%nat by lia. apply Hn. lia.
Qed.
Lemma tobits_0 n : tobits n 0 = repeat false n.
Proof. induction n as [|n IH]; [reflexivity|]. rewrite tobits_S, IH. now rewrite Z.testbit_0_l. Qed.
Lemma repeat_app' {A} (x : A) m n : repeat x (m + n) = repeat x m ++ repeat x n.
Proof. induction m as [|m IH]; [reflexivity|]. cbn [Nat.add repeat app]. now rewrite IH. Qed.
Lemma into_zeros k : into_be_bits (repeat 0 k) = repeat false (8 * k).
Proof.
  induction k as [|k IH]; [reflexivity|]. cbn [repeat]. rewrite into_cons, IH, tobits_0. replace (8 * S k)%nat with (8 + 8 * k)%nat by lia.
  now rewrite repeat_app'.
Qed.
Definition zlen (L : nat) : nat := Z.to_nat ((55 - Z.of_nat L) mod 64).
Lemma zlen_spec L : exists n, (L + 9 + zlen L = 64 * n)%nat /\ (zlen L < 64)%nat /\ Z.of_nat n = (Z.of_nat L + 9 + 63) / 64.
Proof.
  unfold zlen. pose proof (Z.mod_pos_bound (55 - Z.of_nat L) 64 ltac:(lia)) as B. pose proof (Z.div_mod (55 - Z.of_nat L) 64 ltac:(lia)) as D.
  exists (Z.to_nat (1 - (55 - Z.of_nat L) / 64)). split; [lia|]. split; [lia|]. rewrite Z2Nat.id by lia.
  apply (Z.div_unique _ _ _ (Z.of_nat L + 9 + 63 - 64 * (1 - (55 - Z.of_nat L) / 64))); lia.
Qed.
Lemma padded_eq msg : padded_bits msg = into_be_bits (sha_pad msg).
Proof.
  unfold padded_bits, sha_pad. cbv zeta. rewrite into_len. rewrite !into_app. set (L := length msg). change (Z.to_nat ((55 - Z.of_nat L) mod 64)) with (zlen L).
  replace (Z.of_nat (8 * L)) with (8 * Z.of_nat L) by lia. rewrite into_zeros.
  destruct (zlen_spec L) as (n & Hn & Hz & _).
  rewrite (pad_zeros_spec (7 + 8 * zlen L)).
  - change (into_be_bits [128]) with ([true] ++ repeat false 7). rewrite repeat_app', <- !app_assoc. reflexivity.
  - lia.
  - rewrite app_length, into_len. fold L. cbn [length]. replace (8 * L + 1 + (7 + 8 * zlen L) + 64)%nat with (n * 512)%nat by lia. apply Nat.mod_mul. lia.
  - intros z' Hz'. rewrite app_length, into_len. fold L. cbn [length]. intros E.
    pose proof (Nat.div_mod (8 * L + 1 + z' + 64) 512 ltac:(lia)) as DM. rewrite E in DM. set (u := ((8 * L + 1 + z' + 64) / 512)%nat) in *. lia.
Qed.
Lemma pad_length msg n : (length msg + 9 + zlen (length msg) = 64 * n)%nat -> length (sha_pad msg) = (64 * n)%nat.
Proof.
  intros H. unfold sha_pad. cbv zeta. fold (zlen (length msg)). rewrite !app_length, repeat_length, be_bytes_len. cbn [length]. lia.
Qed.
Lemma pieces_into n : forall fuel fuel' l, length l = (64 * n)%nat -> (n <= fuel)%nat -> (n <= fuel')%nat ->
  pieces fuel 512 (into_be_bits l) = map into_be_bits (pieces fuel' 64 l).
Proof.
  induction n as [|n IH]; intros fuel fuel' l HL Hf Hf'.
  - destruct l; [|discriminate HL]. destruct fuel, fuel'; reflexivity.
  - destruct fuel as [|fuel]; [lia|]. destruct fuel' as [|fuel']; [lia|]. destruct l as [|x l]; [cbn [length] in HL; lia|].
    assert (NE : into_be_bits (x :: l) <> []) by (rewrite into_cons; discriminate).
    assert (EP : pieces (S fuel) 512 (into_be_bits (x :: l)) = firstn 512 (into_be_bits (x :: l)) :: pieces fuel 512 (skipn 512 (into_be_bits (x :: l)))).
    { destruct (into_be_bits (x :: l)); [contradiction|reflexivity]. }
    rewrite EP. clear EP NE. cbn [pieces]. remember (x :: l) as m eqn:Em. cbn [map].
    change 512%nat with (8 * 64)%nat. rewrite firstn_into, skipn_into. f_equal. change (8 * 64)%nat with 512%nat. apply IH; [rewrite skipn_length; lia|lia|lia].
Qed.

(** * The chain of a message *)
Fixpoint mkchain (L idx : nat) (hs : hstate) (ps : list (list Z)) : list bdesc :=
  match ps with
  | [] => []
  | b :: ps => let d := BD hs b L idx (match ps with [] => true | _ => false end) in d :: mkchain L (S idx) (hs_out d) ps
  end.
Definition msg_chain (msg : list Z) : list bdesc := mkchain (length msg) 0 sha_H0 (pieces (length (sha_pad msg)) 64 (sha_pad msg)).
Lemma hs_out_b d : hsb (hs_out d).
Proof. unfold hs_out, hs_add, hsb. cbn [ha hb hc hd he hf hg hh]. repeat split; try apply Z.mod_pos_bound; lia. Qed.
Definition blockok (b : list Z) : Prop := length b = 64%nat /\ Forall (fun x => 0 <= x < 256) b.
Lemma blocks_rows_eq L ps : forall idx hs, hsb hs -> Forall blockok ps ->
  blocks_rows (Z.of_nat L) (idx =? 0)%nat (map into_be_bits ps) hs (Z.of_nat (Nat.min L (64 * idx))) (L <? 64 * idx)%nat = flat_map drows (mkchain L idx hs ps).
Proof.
  induction ps as [|b ps IH]; intros idx hs Hh HB; [reflexivity|]. apply Forall_cons_iff in HB. destruct HB as [Hb HB].
  cbn [map blocks_rows mkchain flat_map]. set (d := BD hs b L idx (match ps with [] => true | _ => false end)).
  assert (K : dok d) by (split; [exact Hh|exact Hb]).
  pose proof (block_eq' d K) as E. change (d_n d) with L in E. change (d_idx d) with idx in E. change (d_bytes d) with b in E. change (d_hs d) with hs in E.
  assert (EF : match map into_be_bits ps with [] => true | _ => false end = d_fin d) by (destruct ps; reflexivity). rewrite EF.
  replace (Z.of_nat (Nat.min L (64 * idx))) with (lenq d 0) by (unfold lenq, d; cbn [d_n d_idx]; do 2 f_equal; lia).
  replace (L <? 64 * idx)%nat with (prevp d 0) by (unfold prevp, d; cbn [d_n d_idx]; f_equal; lia).
  rewrite E. fold (drows d). f_equal.
  specialize (IH (S idx) (hs_out d) (hs_out_b d) HB). rewrite <- IH. change (S idx =? 0)%nat with false. f_equal.
  - unfold lenq, d. cbn [d_n d_idx]. do 2 f_equal. lia.
  - unfold prevp, d. cbn [d_n d_idx]. f_equal. lia.
Qed.
Lemma H0_b : hsb sha_H0. Proof. unfold hsb, sha_H0. cbn [ha hb hc hd he hf hg hh]. lia. Qed.
Lemma pieces_ok n : forall fuel l, length l = (64 * n)%nat -> Forall (fun x => 0 <= x < 256) l -> Forall blockok (pieces fuel 64 l).
Proof.
  induction n as [|n IH]; intros fuel l HL HB; [destruct l; [destruct fuel; constructor|discriminate HL]|].
  destruct fuel as [|fuel]; [constructor|]. destruct l as [|x l]; [cbn [length] in HL; lia|]. cbn [pieces]. remember (x :: l) as m eqn:Em. constructor.
  - split; [rewrite firstn_length; lia|now apply Forall_firstn'].
  - apply IH; [rewrite skipn_length; lia|now apply Forall_skipn'].
Qed.
Lemma be_bytes_bytes n : forall v, Forall (fun x => 0 <= x < 256) (be_bytes n v).
Proof. induction n as [|n IH]; intros v; cbn [be_bytes]; [constructor|]. apply Forall_app. split; [apply IH|]. constructor; [apply Z.mod_pos_bound; lia|constructor]. Qed.
Lemma pad_bytes msg : Forall (fun x => 0 <= x < 256) msg -> Forall (fun x => 0 <= x < 256) (sha_pad msg).
Proof.
  intros H. unfold sha_pad. cbv zeta. apply Forall_app; split; [exact H|]. apply Forall_app; split; [constructor; [lia|constructor]|]. apply Forall_app; split; [|apply be_bytes_bytes].
  apply Forall_forall. intros x Hx. apply repeat_spec in Hx. lia.
Qed.
Theorem gen_eq msg : Forall (fun x => 0 <= x < 256) msg -> generate_witnesses_sha256 msg = flat_map drows (msg_chain msg).
Proof.
  intros HB. unfold generate_witnesses_sha256, msg_chain. cbv zeta. rewrite padded_eq. destruct (zlen_spec (length msg)) as (n & Hn & _ & _).
  pose proof (pad_length msg n Hn) as HL. rewrite into_len.
  rewrite (pieces_into n _ (length (sha_pad msg))) by (exact HL || lia).
  pose proof (blocks_rows_eq (length msg) (pieces (length (sha_pad msg)) 64 (sha_pad msg)) 0 sha_H0 H0_b (pieces_ok n _ _ HL (pad_bytes msg HB))) as E.
  rewrite Nat.mul_0_r, Nat.min_0_r in E. exact E.
Qed.

(** * Validity *)
Lemma nth_mkchain L ps : forall idx hs k, (k < length ps)%nat ->
  let d := nth k (mkchain L idx hs ps) d0 in
  d_n d = L /\ d_idx d = (idx + k)%nat /\ d_bytes d = nth k ps [] /\ d_fin d = (S k =? length ps)%nat /\
  (k = 0%nat -> d_hs d = hs) /\ (hsb hs -> hsb (d_hs d)) /\
  ((S k < length ps)%nat -> linked d (nth (S k) (mkchain L idx hs ps) d0)).
Proof.
  induction ps as [|b ps IH]; intros idx hs k Hk; [cbn [length] in Hk; lia|]. cbv zeta. cbn [mkchain length] in *.
  set (d := BD hs b L idx (match ps with [] => true | _ => false end)).
  destruct k as [|k].
  - cbn [nth]. split; [reflexivity|]. split; [unfold d; cbn [d_idx]; lia|]. split; [reflexivity|]. split; [unfold d; cbn [d_fin]; destruct ps; reflexivity|].
    split; [reflexivity|]. split; [trivial|]. intros H1. destruct ps as [|b' ps]; [cbn [length] in H1; lia|].
    cbn [mkchain nth]. unfold linked. change (d_fin d) with false. cbn iota. cbn [d_n d_idx d_hs]. repeat split.
  - destruct (IH (S idx) (hs_out d) k ltac:(lia)) as (E1 & E2 & E3 & E4 & E5 & E6 & E7). cbv zeta in *.
    change (nth (S k) (d :: mkchain L (S idx) (hs_out d) ps) d0) with (nth k (mkchain L (S idx) (hs_out d) ps) d0).
    split; [exact E1|]. split; [rewrite E2; lia|]. split; [exact E3|]. split; [rewrite E4; reflexivity|]. split; [discriminate|].
    split; [intros _; apply E6, hs_out_b|]. intros H1.
    change (nth (S (S k)) (d :: mkchain L (S idx) (hs_out d) ps) d0) with (nth (S k) (mkchain L (S idx) (hs_out d) ps) d0). apply E7. lia.
Qed.
Lemma mkchain_len L ps : forall idx hs, length (mkchain L idx hs ps) = length ps.
Proof. induction ps as [|b ps IH]; intros; [reflexivity|]. cbn [mkchain length]. now rewrite IH. Qed.
Lemma nth_pad msg n x : Z.of_nat (length msg) * 8 < 2 ^ 32 -> (length msg + 9 + zlen (length msg) = 64 * n)%nat ->
  (length msg <= x < 64 * n - 4)%nat -> nth x (sha_pad msg) 0 = if (length msg =? x)%nat then 128 else 0.
Proof.
  intros HL Hn Hx. unfold sha_pad. cbv zeta. fold (zlen (length msg)). rewrite app_nth2 by lia.
  destruct (Nat.eqb_spec (length msg) x) as [<-|Hne]; [rewrite Nat.sub_diag; reflexivity|].
  change 8%nat with (4 + 4)%nat. rewrite (be_bytes_app 4 4) by lia. change (256 ^ Z.of_nat 4) with (2 ^ 32). rewrite Z.div_small by lia.
  rewrite be_bytes_zero. rewrite app_nth2 by (cbn [length]; lia). cbn [length]. rewrite app_assoc, <- repeat_app'.
  rewrite app_nth1 by (rewrite repeat_length; lia). apply nth_repeat.
Qed.
Lemma last_pad msg n : Z.of_nat (length msg) * 8 < 2 ^ 32 -> (length msg + 9 + zlen (length msg) = 64 * n)%nat ->
  be_val (skipn (64 * n - 4) (sha_pad msg)) = 8 * Z.of_nat (length msg).
Proof.
  intros HL Hn. unfold sha_pad. cbv zeta. fold (zlen (length msg)).
  change 8%nat with (4 + 4)%nat. rewrite (be_bytes_app 4 4) by lia. rewrite !app_assoc.
  assert (EL : length ((((msg ++ [128]) ++ repeat 0 (zlen (length msg))) ++ be_bytes 4 (8 * Z.of_nat (length msg) / 256 ^ Z.of_nat 4))) = (64 * n - 4)%nat).
  { rewrite !app_length, repeat_length, be_bytes_len. cbn [length]. lia. }
  rewrite skipn_app, EL, Nat.sub_diag, skipn_all2 by lia. cbn [skipn app].
  set (v := 8 * Z.of_nat (length msg)). assert (HV : 0 <= v < 256 ^ 4) by (unfold v; lia). clearbody v. clear - HV.
  assert (G : forall n v, 0 <= v < 256 ^ Z.of_nat n -> be_val (be_bytes n v) = v).
  { clear. induction n as [|n IH]; intros v Hv; [cbn in Hv |- *; unfold be_val; cbn; lia|]. cbn [be_bytes]. rewrite be_val_snoc.
    rewrite Nat2Z.inj_succ, Z.pow_succ_r in Hv by lia. rewrite IH.
    - symmetry. apply Z.div_mod. lia.
    - split; [apply Z.div_pos; lia|]. apply Z.div_lt_upper_bound; lia. }
  apply G. exact HV.
Qed.
Lemma msg_chain_len msg : exists n, (length msg + 9 + zlen (length msg) = 64 * n)%nat /\ (zlen (length msg) < 64)%nat /\ length (msg_chain msg) = n /\
  Z.of_nat n = (Z.of_nat (length msg) + 9 + 63) / 64 /\ length (pieces (length (sha_pad msg)) 64 (sha_pad msg)) = n.
Proof.
  destruct (zlen_spec (length msg)) as (n & Hn & Hz & HN). exists n. split; [exact Hn|]. split; [exact Hz|]. pose proof (pad_length msg n Hn) as HL.
  assert (E : length (pieces (length (sha_pad msg)) 64 (sha_pad msg)) = n) by (apply (pieces_length 64); lia).
  split; [|split; [exact HN|exact E]]. unfold msg_chain. rewrite mkchain_len. exact E.
Qed.
Theorem msg_chain_ok msg : Forall (fun x => 0 <= x < 256) msg -> Z.of_nat (length msg) * 8 < 2 ^ 32 ->
  Forall dval (msg_chain msg) /\ (forall k, (S k < length (msg_chain msg))%nat -> linked (nth k (msg_chain msg) d0) (nth (S k) (msg_chain msg) d0)) /\
  (0 < length (msg_chain msg))%nat /\ d_idx (nth 0 (msg_chain msg) d0) = 0%nat /\
  (forall k, (k < length (msg_chain msg))%nat -> d_fin (nth k (msg_chain msg) d0) = (S k =? length (msg_chain msg))%nat).
Proof.
  intros HB HL. destruct (msg_chain_len msg) as (n & Hn & Hz & EC & _ & EP). rewrite EC. unfold msg_chain in *. set (ps := pieces _ _ _) in *.
  pose proof (pad_length msg n Hn) as HLp. pose proof (pieces_ok n (length (sha_pad msg)) _ HLp (pad_bytes msg HB)) as HPS. fold ps in HPS.
  assert (N := fun k (Hk : (k < n)%nat) => nth_mkchain (length msg) ps 0 sha_H0 k ltac:(lia)). cbv zeta in N.
  assert (Hpos : (0 < n)%nat) by lia.
  split; [|split; [|split; [|split]]].
  - apply Forall_forall. intros d Hd. apply (In_nth _ _ d0) in Hd. destruct Hd as (k & Hk & <-). rewrite EC in Hk.
    destruct (N k Hk) as (E1 & E2 & E3 & E4 & E5 & E6 & _). set (d := nth k _ d0) in *.
    assert (EB : d_bytes d = firstn 64 (skipn (64 * k) (sha_pad msg))) by (rewrite E3; unfold ps; apply nth_pieces; lia).
    assert (BO : blockok (nth k ps [])) by (apply (proj1 (Forall_forall _ _) HPS), nth_In; lia).
    assert (EN : forall x, (x < 64)%nat -> nth x (d_bytes d) 0 = nth (64 * k + x) (sha_pad msg) 0).
    { intros x Hx. rewrite EB. rewrite <- (firstn_skipn (64 * k) (sha_pad msg)) at 2. rewrite app_nth2 by (rewrite firstn_length; lia).
      rewrite firstn_length, Nat.min_l by lia. replace (64 * k + x - 64 * k)%nat with x by lia.
      set (m := skipn (64 * k) (sha_pad msg)). assert (LM : (64 <= length m)%nat) by (unfold m; rewrite skipn_length; lia).
      rewrite <- (firstn_skipn 64 m) at 2. rewrite app_nth1 by (rewrite firstn_length; lia). reflexivity. }
    assert (EF : d_fin d = (length msg + 9 <=? 64 * S k)%nat).
    { rewrite E4, EP. apply Bool.eq_iff_eq_true. rewrite Nat.eqb_eq, Nat.leb_le. lia. }
    unfold dval. rewrite E1, E2. cbn [Nat.add].
    split; [split; [apply E6, H0_b|rewrite E3; exact BO]|]. split; [lia|]. split; [exact EF|]. split; [intros ->; now apply E5|]. split.
    + intros x Hx Hge Hc. rewrite EN by exact Hx. apply (nth_pad msg n); [exact HL|exact Hn|]. split; [exact Hge|].
      destruct Hc as [Hc|Hc]; [lia|]. rewrite EF in Hc. apply Nat.leb_gt in Hc. lia.
    + intros Hf. rewrite E4, EP in Hf. apply Nat.eqb_eq in Hf. rewrite <- (last_pad msg n HL Hn). f_equal.
      rewrite EB. rewrite firstn_all2 by (rewrite skipn_length; lia). rewrite skipn_skipn'. f_equal. lia.
  - intros k Hk. apply (N k); lia.
  - exact Hpos.
  - destruct (N 0%nat Hpos) as (_ & E & _). exact E.
  - intros k Hk. destruct (N k Hk) as (_ & _ & _ & E & _). rewrite E, EP. reflexivity.
Qed.

(** * Several messages *)
Definition chains (msgs : list (list Z)) : list bdesc := flat_map msg_chain msgs.
Definition good (l : list bdesc) : Prop :=
  Forall dval l /\ (forall k, (S k < length l)%nat -> linked (nth k l d0) (nth (S k) l d0)) /\ ((0 < length l)%nat -> d_idx (nth 0 l d0) = 0%nat) /\
  ((0 < length l)%nat -> d_fin (nth (length l - 1) l d0) = true).
Lemma good_app a b : good a -> good b -> good (a ++ b).
Proof.
  intros (A1 & A2 & A3 & A4) (B1 & B2 & B3 & B4). split; [apply Forall_app; now split|]. rewrite app_length. split; [|split].
  - intros k Hk. destruct (Nat.lt_ge_cases (S k) (length a)) as [L|L]; [rewrite !app_nth1 by lia; now apply A2|].
    destruct (Nat.lt_ge_cases k (length a)) as [L2|L2].
    + rewrite app_nth1, app_nth2 by lia. replace (S k - length a)%nat with 0%nat by lia. replace k with (length a - 1)%nat by lia.
      unfold linked. rewrite A4 by lia. apply B3. lia.
    + rewrite !app_nth2 by lia. replace (S k - length a)%nat with (S (k - length a)) by lia. apply B2. lia.
  - intros H. destruct a as [|x a]; [apply B3; exact H|]. apply A3. cbn [length]. lia.
  - intros H. destruct (Nat.eq_dec (length b) 0) as [E|E].
    + destruct b; [|discriminate E]. rewrite app_nil_r. rewrite Nat.add_0_r in *. now apply A4.
    + rewrite app_nth2 by lia. replace (length a + length b - 1 - length a)%nat with (length b - 1)%nat by lia. apply B4. lia.
Qed.
Definition mok (msg : list Z) : Prop := Forall (fun x => 0 <= x < 256) msg /\ Z.of_nat (length msg) * 8 < 2 ^ 32.
Lemma good_msg msg : mok msg -> good (msg_chain msg).
Proof.
  intros [HB HL]. destruct (msg_chain_ok msg HB HL) as (H1 & H2 & H3 & H4 & H5). split; [exact H1|]. split; [exact H2|]. split; [auto|].
  intros _. rewrite H5 by lia. apply Nat.eqb_eq. lia.
Qed.
Lemma good_chains msgs : Forall mok msgs -> good (chains msgs).
Proof.
  induction msgs as [|m msgs IH]; intros H.
  - split; [constructor|]. cbn [chains flat_map length]. repeat split; intros; lia.
  - apply Forall_cons_iff in H. destruct H as [H1 H2]. cbn [chains flat_map]. apply good_app; [now apply good_msg|now apply IH].
Qed.
Lemma gen_chains msgs : Forall mok msgs -> flat_map generate_witnesses_sha256 msgs = flat_map drows (chains msgs).
Proof.
  induction msgs as [|m msgs IH]; intros H; [reflexivity|]. apply Forall_cons_iff in H. destruct H as [[H1 _] H2].
  unfold chains. cbn [flat_map]. rewrite flat_map_app, gen_eq, IH by assumption. reflexivity.
Qed.
Lemma mok_nil : mok []. Proof. split; [constructor|cbn; lia]. Qed.
Lemma chain_nil_len : length (msg_chain []) = 1%nat.
Proof. destruct (msg_chain_len []) as (n & Hn & Hz & -> & _). cbn [length] in *. lia. Qed.
Lemma fill_chain cap : forall fuel msgs, Forall mok msgs -> (length (chains msgs) + fuel >= cap)%nat ->
  exists k, fill fuel (72 * cap) (flat_map drows (chains msgs)) = flat_map drows (chains (msgs ++ repeat [] k)) /\
            (length (chains (msgs ++ repeat [] k)) = Nat.max cap (length (chains msgs)))%nat.
Proof.
  induction fuel as [|fuel IH]; intros msgs HM HL.
  - exists 0%nat. cbn [repeat fill]. rewrite app_nil_r. split; [reflexivity|lia].
  - cbn [fill]. rewrite drows_len. destruct (Nat.ltb_spec (72 * length (chains msgs)) (72 * cap)) as [L|L].
    + assert (E : flat_map drows (chains msgs) ++ generate_witnesses_sha256 [] = flat_map drows (chains (msgs ++ [[]]))).
      { unfold chains. rewrite !flat_map_app. rewrite (gen_eq []) by constructor. cbn [flat_map]. rewrite app_nil_r. reflexivity. }
      rewrite E. assert (EL : length (chains (msgs ++ [[]])) = S (length (chains msgs))).
      { unfold chains. rewrite flat_map_app, app_length. cbn [flat_map]. rewrite app_nil_r, chain_nil_len. lia. }
      destruct (IH (msgs ++ [[]])) as (k & E1 & E2).
      { apply Forall_app. split; [exact HM|]. constructor; [exact mok_nil|constructor]. }
      { lia. }
      exists (S k). cbn [repeat]. rewrite <- app_assoc in E1, E2. split; [exact E1|]. rewrite EL in E2. cbn [app] in E2. rewrite E2. lia.
    + exists 0%nat. cbn [repeat]. rewrite app_nil_r. split; [reflexivity|lia].
Qed.
Theorem multi_chain msgs cap : Forall mok msgs ->
  match generate_witnesses_multi_sha256 msgs cap with
  | None => exists c, cap = Some c /\ (c < length (chains msgs))%nat
  | Some vs => exists k, vs = flat_map drows (chains (msgs ++ repeat [] k)) /\
      match cap with None => k = 0%nat | Some c => (length (chains msgs) <= c)%nat /\ length (chains (msgs ++ repeat [] k)) = c end
  end.
Proof.
  intros HM. unfold generate_witnesses_multi_sha256. cbv zeta. rewrite gen_chains by exact HM. destruct cap as [c|].
  - destruct (fill_chain c c msgs HM ltac:(lia)) as (k & E1 & E2). rewrite E1, drows_len, E2.
    destruct (Nat.ltb_spec (72 * c) (72 * Nat.max c (length (chains msgs)))) as [L|L].
    + exists c. split; [reflexivity|lia].
    + exists k. split; [reflexivity|]. split; [lia|]. rewrite E2. lia.
  - exists 0%nat. cbn [repeat]. rewrite app_nil_r. split; reflexivity.
Qed.
