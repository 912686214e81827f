(** Evaluation of the expressions of the SHA-256 gates on rows whose cells are bits. *)
From Coq Require Import ZArith Lia List Bool Ring.
From Verif Require Import Field Spec ShaSpec ShaCircuit ShaBits.
Import ListNotations.
Local Open Scope Z_scope.

Ltac Fcst t :=
  match t with
  | @F0 _ => constr:(0%Z) | @F1 _ => constr:(1%Z)
  | of_Z _ ?z => match isZcst z with true => z | _ => constr:(InitialRing.NotConstant) end
  | _ => constr:(InitialRing.NotConstant)
  end.
Section Eval.
Context {p : positive}.
Notation Fp := (F p).
Add Ring Fring : (F_ring p) (morphism (F_morph p), constants [Fcst]).
Variable t : table p.
Variable r : Z.
Notation ev := (eval t r).

(** [l] evaluates to the bits [bs] *)
Definition bits (l : list (expr p)) (bs : list bool) : Prop := map ev l = map fbool bs.

Lemma of_b2z b : of_Z p (b2z b) = fbool b.
Proof. destruct b; reflexivity. Qed.
Lemma bits_nil : bits [] [].
Proof. reflexivity. Qed.
Lemma bits_cons e l b bs : ev e = fbool b -> bits l bs -> bits (e :: l) (b :: bs).
Proof. unfold bits. intros H1 H2. simpl. now rewrite H1, H2. Qed.
Lemma bits_inv e l b bs : bits (e :: l) (b :: bs) -> ev e = fbool b /\ bits l bs.
Proof. unfold bits. simpl. intros H. injection H as H1 H2. auto. Qed.
Lemma bits_length l bs : bits l bs -> length l = length bs.
Proof. intros H. apply (f_equal (@length _)) in H. now rewrite !map_length in H. Qed.
Lemma bits_app l l' bs bs' : bits l bs -> bits l' bs' -> bits (l ++ l') (bs ++ bs').
Proof. unfold bits. intros H1 H2. now rewrite !map_app, H1, H2. Qed.
Lemma bits_rev l bs : bits l bs -> bits (rev l) (rev bs).
Proof. unfold bits. intros H. now rewrite !map_rev, H. Qed.
Lemma bits_firstn l bs n : bits l bs -> bits (firstn n l) (firstn n bs).
Proof. unfold bits. intros H. now rewrite <- !firstn_map, H. Qed.
Lemma bits_skipn l bs n : bits l bs -> bits (skipn n l) (skipn n bs).
Proof. unfold bits. intros H. now rewrite <- !skipn_map, H. Qed.
Lemma bits_rotate l bs n : bits l bs -> bits (rotate_expr l n) (rotate_expr bs n).
Proof.
  intros H. unfold rotate_expr. rewrite (bits_length _ _ H). apply bits_app; [now apply bits_skipn|now apply bits_firstn].
Qed.
Lemma bits_zero n : bits (repeat (cst 0) n) (repeat false n).
Proof. induction n; simpl; [apply bits_nil|apply bits_cons; auto]. Qed.
Lemma bits_shift l bs n : bits l bs -> bits (shift_expr l n) (repeat false n ++ firstn (32 - n) bs).
Proof. intros H. unfold shift_expr. apply bits_app; [apply bits_zero|now apply bits_firstn]. Qed.
Lemma ev_sub a b : ev (sub_expr a b) = (ev a - ev b)%F.
Proof. cbn. ring. Qed.
Lemma ev_xor a b x y : ev a = fbool x -> ev b = fbool y -> ev (xor_expr a b) = fbool (xorb x y).
Proof.
  intros Ha Hb. unfold xor_expr. rewrite ev_sub. cbn [eval cst]. rewrite Ha, Hb.
  destruct x, y; unfold fbool; cbn [xorb]; fold (@F1 p) (@F0 p); change (of_Z p 2) with (@F1 p + F1)%F || idtac.
  all: replace (of_Z p 2) with (@F1 p + F1)%F by (unfold F1; rewrite <- of_Z_add; reflexivity); ring.
Qed.
Lemma ev_select s a b c x y : ev s = fbool c -> ev a = fbool x -> ev b = fbool y -> ev (select_expr s a b) = fbool (if c then x else y).
Proof.
  intros Hs Ha Hb. unfold select_expr. cbn [eval]. rewrite ev_sub. cbn [eval cst]. fold (@F1 p). rewrite Hs, Ha, Hb.
  destruct c; unfold fbool; ring.
Qed.
Lemma bits_xor l l' bs bs' : bits l bs -> bits l' bs' -> bits (xor_bits l l') (map2 xorb bs bs').
Proof.
  revert l' bs bs'. induction l as [|x l IH]; intros [|x' l'] [|b bs] [|b' bs'] H H'; try discriminate H; try discriminate H';
    try reflexivity.
  apply bits_inv in H. apply bits_inv in H'. destruct H as [H1 H2], H' as [H1' H2'].
  unfold xor_bits, map2. cbn [combine map]. apply bits_cons; [now apply ev_xor|]. now apply (IH l').
Qed.
Lemma bits_select c l l' cs bs bs' : bits c cs -> bits l bs -> bits l' bs' ->
  bits (select_bits c l l') (map2 sel_bit cs (combine bs bs')).
Proof.
  revert l l' cs bs bs'. induction c as [|x c IH]; intros [|y l] [|y' l'] [|cb cs] [|b bs] [|b' bs'] Hc H H';
    try discriminate Hc; try discriminate H; try discriminate H'; try reflexivity.
  apply bits_inv in Hc. apply bits_inv in H. apply bits_inv in H'. destruct H as [H1 H2], H' as [H1' H2'], Hc as [Hc1 Hc2].
  unfold select_bits, map2. cbn [combine map]. apply bits_cons; [now apply ev_select|]. now apply (IH l l').
Qed.
(** linear combinations *)
Fixpoint linz (base : Z) (l : list Z) : Z := match l with [] => 0 | x :: l => x + base * linz base l end.
Lemma ev_lin base l : forall zs v m, map ev l = map (of_Z p) zs ->
  ev (lin_loop base l v m) = (ev v + m * of_Z p (linz base zs))%F.
Proof.
  induction l as [|x l IH]; intros zs v m H; destruct zs as [|z zs]; try discriminate H.
  - cbn [lin_loop linz]. fold (@F0 p). ring.
  - cbn [map] in H. injection H as H1 H2. cbn [lin_loop linz]. rewrite (IH zs _ _ H2). cbn [eval]. rewrite H1.
    rewrite of_Z_add, of_Z_mul. ring.
Qed.
Lemma linz_bits bs : linz 2 (map b2z bs) = lz bs.
Proof. induction bs as [|b bs IH]; [reflexivity|]. cbn [map linz lz]. now rewrite IH. Qed.
Lemma linz_bytes l : linz 256 l = le_val l.
Proof. induction l as [|b l IH]; [reflexivity|]. cbn [linz le_val]. now rewrite IH. Qed.
Lemma bits_z l bs : bits l bs -> map ev l = map (of_Z p) (map b2z bs).
Proof. unfold bits. intros ->. rewrite map_map. apply map_ext. intros. symmetry. apply of_b2z. Qed.
Lemma ev_lin2 l bs : bits l bs -> ev (lin_loop 2 l (cst 0) F1) = of_Z p (lz bs).
Proof.
  intros H. rewrite (ev_lin 2 l (map b2z bs)) by now apply bits_z. rewrite linz_bits. cbn [eval cst]. fold (@F0 p). ring.
Qed.
Lemma ev_decode l bs : bits l bs -> ev (decode_expr l) = of_Z p (bz bs).
Proof. intros H. unfold decode_expr, bz. apply ev_lin2. now apply bits_rev. Qed.
Lemma ev_from_bytes l zs : map ev l = map (of_Z p) zs -> ev (from_bytes_expr l) = of_Z p (le_val zs).
Proof. intros H. unfold from_bytes_expr. rewrite (ev_lin 256 l zs _ _ H), linz_bytes. cbn [eval cst]. fold (@F0 p). ring. Qed.
(** bytes *)
Fixpoint byte_loop (fuel : nat) (bs : list bool) : list Z :=
  match fuel with O => [] | S fuel => lz (firstn 8 bs) :: byte_loop fuel (skipn 8 bs) end.
Lemma ev_bytes_loop fuel : forall l bs, bits l bs -> map ev (to_bytes_loop fuel l) = map (of_Z p) (byte_loop fuel bs).
Proof.
  induction fuel as [|fuel IH]; intros l bs H; [reflexivity|]. cbn [to_bytes_loop byte_loop map]. f_equal.
  - apply ev_lin2. now apply bits_firstn.
  - apply IH. now apply bits_skipn.
Qed.
(** the big-endian bytes of a big-endian list of bits *)
Definition bytes_of (bs : list bool) : list Z := rev (byte_loop (length bs / 8) (rev bs)).
Lemma ev_be_bytes l bs : bits l bs -> map ev (to_be_bytes_expr l) = map (of_Z p) (bytes_of bs).
Proof.
  intros H. unfold to_be_bytes_expr, bytes_of. rewrite !map_rev. f_equal. unfold to_bytes_expr. rewrite rev_length, (bits_length _ _ H).
  apply ev_bytes_loop. now apply bits_rev.
Qed.
End Eval.

Lemma byte_loop_bytes n : forall bs, length bs = (8 * n)%nat -> le_val (byte_loop n bs) = lz bs /\ length (byte_loop n bs) = n /\
  Forall (fun x => 0 <= x < 256) (byte_loop n bs).
Proof.
  induction n as [|n IH]; intros bs H.
  - destruct bs; [|discriminate H]. repeat split; constructor.
  - cbn [byte_loop le_val length]. destruct (IH (skipn 8 bs)) as (H1 & H2 & H3); [rewrite skipn_length; lia|].
    assert (HF : length (firstn 8 bs) = 8%nat) by (rewrite firstn_length; lia).
    rewrite H1, H2. split; [|split; [reflexivity|constructor; [|exact H3]]].
    + rewrite <- (firstn_skipn 8 bs) at 3. rewrite lz_app, HF. reflexivity.
    + pose proof (lz_bound (firstn 8 bs)) as B. rewrite HF in B. exact B.
Qed.
Lemma be_val_snoc l x : be_val (l ++ [x]) = 256 * be_val l + x.
Proof. unfold be_val. rewrite fold_left_app. reflexivity. Qed.
Lemma be_val_rev l : be_val (rev l) = le_val l.
Proof. induction l as [|x l IH]; [reflexivity|]. cbn [rev le_val]. rewrite be_val_snoc, IH. lia. Qed.
Lemma bytes_of_spec bs n : length bs = (8 * n)%nat ->
  be_val (bytes_of bs) = bz bs /\ length (bytes_of bs) = n /\ Forall (fun x => 0 <= x < 256) (bytes_of bs).
Proof.
  intros H. unfold bytes_of, bz. rewrite H. replace (8 * n / 8)%nat with n by (rewrite Nat.mul_comm, Nat.div_mul; lia).
  destruct (byte_loop_bytes n (rev bs)) as (H1 & H2 & H3); [rewrite rev_length; exact H|].
  rewrite be_val_rev, rev_length. split; [exact H1|]. split; [exact H2|]. now apply Forall_rev.
Qed.
Lemma be_bytes_len n : forall v, length (be_bytes n v) = n.
Proof. induction n; intros; cbn [be_bytes]; [reflexivity|]. rewrite app_length, IHn. simpl. lia. Qed.
Lemma be_bytes_unique n : forall l, length l = n -> Forall (fun x => 0 <= x < 256) l -> be_bytes n (be_val l) = l.
Proof.
  induction n as [|n IH]; intros l HL HB.
  - destruct l; [reflexivity|discriminate HL].
  - destruct (@exists_last _ l) as (l' & x & ->); [destruct l; [discriminate HL|congruence]|].
    rewrite app_length in HL. simpl in HL. apply Forall_app in HB. destruct HB as [HB1 HB2]. inversion HB2; subst.
    cbn [be_bytes]. rewrite be_val_snoc. rewrite Z.add_comm, Z.mul_comm, Z.div_add, Z.mod_add by lia.
    rewrite Z.div_small, Z.mod_small by lia. rewrite Z.add_0_l, IH; [reflexivity|lia|assumption].
Qed.
