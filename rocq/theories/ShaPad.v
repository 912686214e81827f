(** What the padding, length and output gates of the SHA-256 circuit say about the rows of a block. *)
From Coq Require Import ZArith Lia List Bool Ring Znumtheory.
From Verif Require Import Field Spec ShaSpec ShaCircuit ShaBits ShaEval ShaRows ShaBlock.
Import ListNotations.
Local Open Scope Z_scope.

Section Pad.
Context {p : positive}.
Notation Fp := (F p).
Notation P := (Z.pos p).
Add Ring Fring : (F_ring p) (morphism (F_morph p), constants [Fcst]).
Hypothesis Hp : prime P.
Hypothesis Hbig : 2 ^ 40 < P.
Variable t : table p.
Variable nb : Z.
Hypothesis Hrows : SHA_ROWS * nb <= rows t.
Hypothesis HF : fixed_assigned t nb.
Hypothesis HSat : satisfies t sha_gates.
Notation ok r := (0 <= r < SHA_ROWS * nb).

Lemma row_ok j i : 0 <= j < nb -> 0 <= i < 72 -> ok (row j i).
Proof. unfold row, SHA_ROWS. lia. Qed.
Lemma fixv c j i : 0 <= j < nb -> 0 <= i < 72 -> eval t (row j i) (qf c) = of_Z p (fixed_value c (row j i)).
Proof. intros. apply (fix_cur t nb Hrows HF). now apply row_ok. Qed.
Lemma roundv j i : 0 <= i < 72 -> row j i mod SHA_ROWS = i.
Proof. intros. unfold row, SHA_ROWS. rewrite Z.add_comm, Z.mul_comm, Z.mod_add, Z.mod_small; lia. Qed.
(** a constraint of a gate with selector 1 and a condition that holds *)
Lemma cond1 r l c l' e : ok r -> incl (gate (cst 1) l) (sha_gates (p:=p)) -> incl (condition c l') l -> In e l' ->
  eval t r c = F1 -> eval t r e = F0.
Proof.
  intros H HI HC HE Hc. apply (cond_sel t r c l'); [|exact HE|exact Hc].
  intros e' He'. apply (gate_sel t nb Hrows HSat r (cst 1) l); [exact H|exact HI|now apply HC|reflexivity].
Qed.
Lemma b2z_q b : of_Z p (b2z b) = fbool b. Proof. apply of_b2z. Qed.

(** is_final *)
Definition pad j (k : nat) : bool := bit t (CPad (k mod 4)) (row j (4 + Z.of_nat (k / 4))).
Lemma pad_bool r k : ok r -> (k < 4)%nat -> advc t (CPad k) r = fbool (bit t (CPad k) r).
Proof.
  intros H Hk. apply (F_bit Hp).
  assert (E : eval t r (require_boolean (Advice (CPad k) 0)) = F0).
  { eapply (cond1 r _ (qf QEnable) [require_boolean (Advice (CPad k) 0)] _ H i_padding).
    - intros x Hx. apply in_or_app. left. apply in_flat_map. exists (Advice (CPad k) 0). split; [|exact Hx].
      apply in_map_iff. exists k. split; [reflexivity|apply in_seq; lia].
    - now left.
    - rewrite (fix_cur t nb Hrows HF) by exact H. reflexivity. }
  unfold require_boolean in E. rewrite ev_prod, ev_sub, (adv_cur t nb Hrows) in E by exact H. exact E.
Qed.
Lemma first_final : 0 < nb -> advc t CFinal (row 0 0) = F1.
Proof.
  intros Hn. assert (H : ok (row 0 0)) by (apply row_ok; lia).
  assert (E : eval t (row 0 0) (require_equal (Advice CFinal 0) (cst 1)) = F0).
  { eapply (cond1 _ _ (qf QFirst) _ _ H i_is_final).
    - apply incl_here. - now left. - rewrite fixv by lia. reflexivity. }
  apply eq_sel in E. rewrite (adv_cur t nb Hrows) in E by exact H. exact E.
Qed.
Lemma squeeze_final j : 0 <= j < nb -> advc t CFinal (row j 71) = advc t (CPad 3) (row j 17).
Proof.
  intros Hj. assert (H : ok (row j 71)) by (apply row_ok; lia).
  assert (E : eval t (row j 71) (require_equal (Advice CFinal 0) (Advice (CPad 3) (-54))) = F0).
  { eapply (cond1 _ _ (qf QSqueeze) _ _ H i_is_final).
    - apply incl_in, incl_here. - now left. - rewrite fixv by lia. unfold fixed_value. rewrite roundv by lia. reflexivity. }
  apply eq_sel in E. rewrite (adv_cur t nb Hrows) in E by exact H.
  rewrite (adv_at t nb Hrows) in E by (unfold row, SHA_ROWS in *; lia). rewrite E. f_equal. unfold row. lia.
Qed.
Lemma start_sel j i : 0 <= j < nb -> 0 <= i < 4 -> (0 < j \/ 0 < i) -> eval t (row j i) (sub_expr (qf QStart) (qf QFirst)) = F1.
Proof.
  intros Hj Hi Hn. rewrite ev_sub, !fixv by lia. unfold fixed_value. rewrite roundv by lia.
  rewrite (proj2 (Z.ltb_lt i 4)) by lia. rewrite (proj2 (Z.eqb_neq (row j i) 0)) by (unfold row, SHA_ROWS; lia).
  cbn [b2z]. fold (@F1 p) (@F0 p). ring.
Qed.
Lemma start_final j i : 0 <= j < nb -> 0 <= i < 4 -> (0 < j \/ 0 < i) -> advc t CFinal (row j i) = advc t CFinal (row j i - 1).
Proof.
  intros Hj Hi Hn. assert (H : ok (row j i)) by (apply row_ok; lia).
  assert (E : eval t (row j i) (require_equal (Advice CFinal 0) (Advice CFinal (-1))) = F0).
  { eapply (cond1 _ _ (sub_expr (qf QStart) (qf QFirst)) _ _ H i_is_final).
    - apply incl_in, incl_in, incl_refl. - now left. - now apply start_sel. }
  apply eq_sel in E. rewrite (adv_cur t nb Hrows) in E by exact H.
  rewrite (adv_at t nb Hrows) in E by (unfold row, SHA_ROWS in *; lia). exact E.
Qed.
Definition fin j : bool := pad j 55.
Definition fresh j : bool := (j =? 0) || fin (j - 1).
Lemma final_cell j : 0 <= j < nb -> advc t CFinal (row j 71) = fbool (fin j).
Proof. intros Hj. rewrite squeeze_final by exact Hj. unfold fin, pad. change (4 + Z.of_nat (55 / 4)) with 17. change (55 mod 4)%nat with 3%nat. apply pad_bool; [apply row_ok; lia|lia]. Qed.
Lemma start_cell j i : 0 <= j < nb -> 0 <= i < 4 -> advc t CFinal (row j i) = fbool (fresh j).
Proof.
  intros Hj Hi. assert (H0 : advc t CFinal (row j 0) = fbool (fresh j)).
  { unfold fresh. destruct (Z.eqb_spec j 0) as [->|Hn]; [apply first_final; lia|]. cbn [orb].
    rewrite start_final by lia. rewrite <- final_cell by lia. f_equal. unfold row, SHA_ROWS. lia. }
  assert (H1 : 1 <= i -> advc t CFinal (row j 1) = fbool (fresh j)).
  { intros. rewrite start_final by lia. rewrite <- H0. f_equal. unfold row. lia. }
  assert (H2 : 2 <= i -> advc t CFinal (row j 2) = fbool (fresh j)).
  { intros. rewrite start_final by lia. rewrite <- H1 by lia. f_equal. unfold row. lia. }
  assert (H3 : 3 <= i -> advc t CFinal (row j 3) = fbool (fresh j)).
  { intros. rewrite start_final by lia. rewrite <- H2 by lia. f_equal. unfold row. lia. }
  assert (C : i = 0 \/ i = 1 \/ i = 2 \/ i = 3) by lia.
  destruct C as [-> | [-> | [-> | ->]]]; [exact H0|apply H1; lia|apply H2; lia|apply H3; lia].
Qed.

(** columns carried across blocks *)
Lemma cross_squeeze c j : 0 <= j < nb -> c = CLen \/ c = CPad 3 -> advc t c (row j 71) = advc t c (row j 19).
Proof.
  intros Hj Hc. assert (H : ok (row j 71)) by (apply row_ok; lia).
  assert (E : eval t (row j 71) (require_equal (Advice c 0) (Advice c (-52))) = F0).
  { eapply (cond1 _ _ (qf QSqueeze) [require_equal (Advice c 0) (Advice c (-52))] _ H i_cross).
    - destruct Hc as [-> | ->]; [do 1 apply incl_appl; apply incl_here|apply incl_in, incl_here].
    - now left. - rewrite fixv by lia. unfold fixed_value. rewrite roundv by lia. reflexivity. }
  apply eq_sel in E. rewrite (adv_cur t nb Hrows) in E by exact H.
  rewrite (adv_at t nb Hrows) in E by (unfold row, SHA_ROWS in *; lia). rewrite E. f_equal. unfold row. lia.
Qed.
Lemma cross_first c : 0 < nb -> c = CLen \/ c = CPad 3 -> advc t c (row 0 0) = F0.
Proof.
  intros Hn Hc. assert (H : ok (row 0 0)) by (apply row_ok; lia).
  assert (E : eval t (row 0 0) (require_equal (Advice c 0) (cst 0)) = F0).
  { eapply (cond1 _ _ (qf QFirst) [require_equal (Advice c 0) (cst 0)] _ H i_cross).
    - destruct Hc as [-> | ->]; [apply incl_appl|apply incl_in]; apply incl_in, incl_in, incl_refl.
    - now left. - rewrite fixv by lia. reflexivity. }
  apply eq_sel in E. rewrite (adv_cur t nb Hrows) in E by exact H. exact E.
Qed.
Lemma cross_start c j i : 0 <= j < nb -> 0 <= i < 4 -> (0 < j \/ 0 < i) -> c = CLen \/ c = CPad 3 ->
  advc t c (row j i) = (advc t c (row j i - 1) * (F1 - fbool (fresh j)))%F.
Proof.
  intros Hj Hi Hn Hc. assert (H : ok (row j i)) by (apply row_ok; lia).
  assert (E : eval t (row j i) (require_equal (Advice c 0) (Product (Advice c (-1)) (not_expr (Advice CFinal 0)))) = F0).
  { eapply (cond1 _ _ (sub_expr (qf QStart) (qf QFirst))
      [require_equal (Advice c 0) (Product (Advice c (-1)) (not_expr (Advice CFinal 0)))] _ H i_cross).
    - destruct Hc as [-> | ->]; [apply incl_appl|apply incl_in]; apply incl_in, incl_here.
    - now left. - now apply start_sel. }
  apply eq_sel in E. rewrite (adv_cur t nb Hrows) in E by exact H. rewrite E, ev_prod. unfold not_expr. rewrite ev_sub.
  rewrite (adv_cur t nb Hrows) by exact H. rewrite (adv_at t nb Hrows) by (unfold row, SHA_ROWS in *; lia).
  rewrite start_cell by lia. reflexivity.
Qed.
Lemma cross_in c j : 0 <= j < nb -> c = CLen \/ c = CPad 3 ->
  advc t c (row j 3) = if fresh j then F0 else advc t c (row (j - 1) 19).
Proof.
  intros Hj Hc.
  assert (H0 : advc t c (row j 0) = if fresh j then F0 else advc t c (row (j - 1) 19)).
  { destruct (Z.eq_dec j 0) as [->|Hn].
    - change (fresh 0) with true. cbn iota. apply cross_first; [lia|exact Hc].
    - rewrite cross_start by (assumption || lia). replace (row j 0 - 1) with (row (j - 1) 71) by (unfold row, SHA_ROWS; lia).
      rewrite cross_squeeze by (assumption || lia). destruct (fresh j); unfold fbool; ring. }
  assert (HN : forall i, 1 <= i < 4 -> advc t c (row j (i - 1)) = (if fresh j then F0 else advc t c (row (j - 1) 19)) ->
                 advc t c (row j i) = if fresh j then F0 else advc t c (row (j - 1) 19)).
  { intros i Hi IH. rewrite cross_start by (assumption || lia). replace (row j i - 1) with (row j (i - 1)) by (unfold row; lia).
    rewrite IH. destruct (fresh j); unfold fbool; ring. }
  apply (HN 3); [lia|]. apply (HN 2); [lia|]. apply (HN 1); [lia|]. exact H0.
Qed.

(** the padding selectors *)
Definition prevpad j (k : nat) : bool := match k with O => if fresh j then false else pad (j - 1) 63 | S k => pad j k end.
Lemma pad_cell j k : 0 <= j < nb -> (k < 64)%nat -> advc t (CPad (k mod 4)) (row j (4 + Z.of_nat (k / 4))) = fbool (pad j k).
Proof.
  intros Hj Hk. unfold pad. assert (k / 4 < 16)%nat by (apply Nat.div_lt_upper_bound; lia).
  apply pad_bool; [apply row_ok; lia|]. apply Nat.mod_upper_bound. lia.
Qed.
Lemma prevpad_word j q : 0 <= j < nb -> (q < 16)%nat -> advc t (CPad 3) (row j (3 + Z.of_nat q)) = fbool (prevpad j (4 * q)).
Proof.
  intros Hj Hq. destruct q as [|q].
  - change (prevpad j (4 * 0)) with (if fresh j then false else pad (j - 1) 63). change (3 + Z.of_nat 0) with 3. rewrite cross_in by (auto; lia).
    destruct (fresh j) eqn:EF; [reflexivity|].
    assert (0 < j) by (unfold fresh in EF; destruct (Z.eqb_spec j 0); [discriminate EF|lia]).
    assert (E := pad_cell (j - 1) 63 ltac:(lia) ltac:(lia)). exact E.
  - replace (4 * S q)%nat with (S (4 * q + 3)) by lia. cbn [prevpad].
    assert (E := pad_cell j (4 * q + 3) Hj ltac:(lia)).
    replace ((4 * q + 3) mod 4)%nat with 3%nat in E.
    2: { rewrite (Nat.add_comm (4 * q)), (Nat.mul_comm 4 q), Nat.mod_add by lia. reflexivity. }
    replace ((4 * q + 3) / 4)%nat with q in E.
    2: { rewrite (Nat.add_comm (4 * q)), (Nat.mul_comm 4 q), Nat.div_add by lia. reflexivity. }
    rewrite <- E. f_equal. unfold row. lia.
Qed.
Definition wb j (q : nat) := Wb t (row j (4 + Z.of_nat q)).
Definition byte j (k : nat) : Z := nth (k mod 4) (bytes_of (wb j (k / 4))) 0.
Lemma ev_input j q k : 0 <= j < nb -> (q < 16)%nat -> (k < 4)%nat ->
  eval t (row j (4 + Z.of_nat q)) (nth k input_bytes (cst 0)) = of_Z p (byte j (4 * q + k)).
Proof.
  intros Hj Hq Hk. unfold byte.
  replace ((4 * q + k) mod 4)%nat with k.
  2: { rewrite (Nat.add_comm (4 * q)), (Nat.mul_comm 4 q), Nat.mod_add by lia. symmetry. apply Nat.mod_small. lia. }
  replace ((4 * q + k) / 4)%nat with q.
  2: { rewrite (Nat.add_comm (4 * q)), (Nat.mul_comm 4 q), Nat.div_add by lia. rewrite Nat.div_small by lia. lia. }
  set (r := row j (4 + Z.of_nat q)). assert (H : ok r) by (apply row_ok; lia).
  assert (B : map (eval t r) input_bytes = map (of_Z p) (bytes_of (wb j q))).
  { unfold input_bytes, w_. apply ev_be_bytes. unfold wb. fold r. rewrite <- (Z.add_0_r r) at 2.
    apply (bits_W Hp t nb Hrows HF HSat). rewrite Z.add_0_r. exact H. }
  apply (f_equal (fun l => nth k l (of_Z p 0))) in B. rewrite (map_nth (of_Z p)) in B. rewrite <- B.
  change (of_Z p 0) with (eval t r (cst 0)). now rewrite map_nth.
Qed.
Lemma divmod4 q k : (k < 4)%nat -> ((4 * q + k) mod 4 = k /\ (4 * q + k) / 4 = q)%nat.
Proof.
  intros Hk. split.
  - rewrite (Nat.add_comm (4 * q)), (Nat.mul_comm 4 q), Nat.mod_add by lia. apply Nat.mod_small. lia.
  - rewrite (Nat.add_comm (4 * q)), (Nat.mul_comm 4 q), Nat.div_add by lia. rewrite Nat.div_small by lia. lia.
Qed.
(** the three constraints of one padding selector *)
Lemma pad_sub j q k e : 0 <= j < nb -> (q < 16)%nat -> (k < 4)%nat ->
  let r := row j (4 + Z.of_nat q) in
  let is_padding := Advice (CPad k) 0 in
  let prev := match k with O => Advice (CPad 3) (-1) | S i => Advice (CPad i) 0 end in
  let first := sub_expr is_padding prev in
  let byte := nth k input_bytes (cst 0) in
  In e (condition (qf QInput) [require_boolean first] ++
        condition (and_expr [sub_expr (qf QInput) (qf QInputLast); is_padding]) [require_equal byte (Product first (cst 128))] ++
        condition (and_expr [qf QInputLast; is_padding; not_expr (Advice (CPad 3) (-2))]) [require_equal byte (Product first (cst 128))]) ->
  eval t r e = F0.
Proof.
  intros Hj Hq Hk r is_padding prev first byte' HI. assert (H : ok r) by (apply row_ok; lia).
  apply (gate_sel t nb Hrows HSat r (cst 1) _ e H i_padding); [|reflexivity].
  apply in_or_app. right. apply in_or_app. left. apply in_flat_map. exists k. split; [apply in_seq; lia|].
  destruct k as [|[|[|[|k]]]]; [exact HI|exact HI|exact HI|exact HI|lia].
Qed.
Lemma ev_prev j q k : 0 <= j < nb -> (q < 16)%nat -> (k < 4)%nat ->
  eval t (row j (4 + Z.of_nat q)) (match k with O => Advice (CPad 3) (-1) | S i => Advice (CPad i) 0 end) = fbool (prevpad j (4 * q + k)).
Proof.
  intros Hj Hq Hk. assert (H : ok (row j (4 + Z.of_nat q))) by (apply row_ok; lia). destruct k as [|k].
  - rewrite (adv_at t nb Hrows) by (unfold row, SHA_ROWS in *; lia).
    replace (row j (4 + Z.of_nat q) + -1) with (row j (3 + Z.of_nat q)) by (unfold row; lia). rewrite Nat.add_0_r. now apply prevpad_word.
  - rewrite (adv_cur t nb Hrows) by exact H. replace (4 * q + S k)%nat with (S (4 * q + k)) by lia. cbn [prevpad].
    rewrite <- pad_cell by lia. destruct (divmod4 q k ltac:(lia)) as [-> ->]. reflexivity.
Qed.
Lemma ev_pad j q k : 0 <= j < nb -> (q < 16)%nat -> (k < 4)%nat ->
  eval t (row j (4 + Z.of_nat q)) (Advice (CPad k) 0) = fbool (pad j (4 * q + k)).
Proof.
  intros Hj Hq Hk. rewrite (adv_cur t nb Hrows) by (apply row_ok; lia). rewrite <- pad_cell by lia.
  destruct (divmod4 q k ltac:(lia)) as [-> ->]. reflexivity.
Qed.
Lemma sel_input j q : 0 <= j < nb -> (q < 16)%nat -> eval t (row j (4 + Z.of_nat q)) (qf QInput) = F1.
Proof.
  intros Hj Hq. rewrite fixv by lia. unfold fixed_value. rewrite roundv by lia. rewrite (within_true (p:=p)) by lia. reflexivity.
Qed.
Lemma sel_last j q : 0 <= j < nb -> (q < 16)%nat -> eval t (row j (4 + Z.of_nat q)) (qf QInputLast) = fbool (q =? 15)%nat.
Proof.
  intros Hj Hq. rewrite fixv by lia. unfold fixed_value. rewrite roundv by lia. rewrite of_b2z. f_equal.
  destruct (Nat.eqb_spec q 15) as [->|]; [reflexivity|]. apply Z.eqb_neq. lia.
Qed.
Lemma two_nz : (F1 + F1 <> F0 :> Fp)%F.
Proof.
  unfold F1, F0. rewrite <- of_Z_add. intros E. apply of_Z_inj in E; lia.
Qed.
Lemma pad_mono j k : 0 <= j < nb -> (k < 64)%nat -> prevpad j k = true -> pad j k = true.
Proof.
  intros Hj Hk HP. pose proof (Nat.div_mod k 4 ltac:(lia)) as DM. set (q := (k / 4)%nat) in *. set (i := (k mod 4)%nat) in *.
  assert (Hi : (i < 4)%nat) by (apply Nat.mod_upper_bound; lia). assert (Hq : (q < 16)%nat) by lia.
  rewrite DM in *. clearbody q i. clear DM k.
  assert (E := pad_sub j q i _ Hj Hq Hi ltac:(cbv zeta; apply in_or_app; left; left; reflexivity)). cbv zeta in E.
  apply prod_sel in E; [|now apply sel_input]. unfold require_boolean in E.
  rewrite ev_prod, !ev_sub, ev_prev, ev_pad in E by assumption. rewrite HP in E. change (eval t _ (cst 1)) with (F1 (p:=p)) in E.
  destruct (pad j (4 * q + i)); [reflexivity|]. exfalso. unfold fbool in E. apply two_nz.
  transitivity (- ((F0 - F1) * (F1 - (F0 - F1))) : Fp)%F; [ring|]. rewrite E. ring.
Qed.
Lemma ev_and1 r a : eval t r (and_expr [a]) = (F1 * eval t r a)%F. Proof. reflexivity. Qed.
Lemma byte_bound j k : 0 <= byte j k < 256.
Proof.
  unfold byte. destruct (bytes_of_spec (wb j (k / 4)) 4) as (_ & HL & HB); [apply Wb_len|].
  assert (Hm : (k mod 4 < length (bytes_of (wb j (k / 4))))%nat) by (rewrite HL; apply Nat.mod_upper_bound; lia).
  exact (proj1 (Forall_forall _ _) HB _ (nth_In _ 0 Hm)).
Qed.
Lemma pad_byte j k : 0 <= j < nb -> (k < 64)%nat -> pad j k = true -> ((k < 60)%nat \/ fin j = false) ->
  byte j k = if prevpad j k then 0 else 128.
Proof.
  intros Hj Hk HP HL. pose proof (Nat.div_mod k 4 ltac:(lia)) as DM. set (q := (k / 4)%nat) in *. set (i := (k mod 4)%nat) in *.
  assert (Hi : (i < 4)%nat) by (apply Nat.mod_upper_bound; lia). assert (Hq : (q < 16)%nat) by lia.
  rewrite DM in *. clearbody q i. clear DM k.
  assert (G : eval t (row j (4 + Z.of_nat q)) (require_equal (nth i input_bytes (cst 0))
     (Product (sub_expr (Advice (CPad i) 0) (match i with O => Advice (CPad 3) (-1) | S i => Advice (CPad i) 0 end)) (cst 128))) = F0).
  { destruct (Nat.eqb_spec q 15) as [E15|N15].
    - assert (E := pad_sub j q i _ Hj Hq Hi ltac:(cbv zeta; apply in_or_app; right; apply in_or_app; right; left; reflexivity)). cbv zeta in E.
      apply prod_sel in E; [exact E|]. unfold and_expr. cbn [fold_left]. rewrite !ev_prod. rewrite sel_last, ev_pad, HP by assumption.
      unfold not_expr. rewrite ev_sub. rewrite E15.
      rewrite (adv_at t nb Hrows) by (unfold row, SHA_ROWS in *; lia).
      assert (HFin : fin j = false) by (destruct HL as [HL|HL]; [lia|exact HL]).
      replace (row j (4 + Z.of_nat 15) + -2) with (row j (4 + Z.of_nat (55 / 4))) by (unfold row; change (Z.of_nat (55 / 4)) with 13; change (Z.of_nat 15) with 15; lia).
      change (CPad 3) with (CPad (55 mod 4)). rewrite pad_cell by lia. unfold fin in HFin. rewrite HFin.
      change (eval t _ (cst 1)) with (F1 (p:=p)). cbn [Nat.eqb fbool]. ring.
    - assert (E := pad_sub j q i _ Hj Hq Hi ltac:(cbv zeta; apply in_or_app; right; apply in_or_app; left; left; reflexivity)). cbv zeta in E.
      apply prod_sel in E; [exact E|]. unfold and_expr. cbn [fold_left]. rewrite !ev_prod. rewrite ev_sub, sel_last, sel_input, ev_pad, HP by assumption.
      rewrite (proj2 (Nat.eqb_neq q 15)) by exact N15. change (eval t _ (cst 1)) with (F1 (p:=p)). unfold fbool. ring. }
  apply eq_sel in G. rewrite ev_input, ev_prod, ev_sub, ev_pad, ev_prev, HP in G by assumption.
  change (eval t _ (cst 128)) with (of_Z p 128) in G. pose proof (byte_bound j (4 * q + i)).
  destruct (prevpad j (4 * q + i)); unfold fbool in G.
  - apply (of_Z_inj (p:=p)); [lia|lia|]. rewrite G. fold (@F0 p). ring.
  - apply (of_Z_inj (p:=p)); [lia|lia|]. rewrite G. ring.
Qed.

(** the length *)
Definition nz4 j q : Z := b2z (negb (pad j (4 * q))) + b2z (negb (pad j (4 * q + 1))) + b2z (negb (pad j (4 * q + 2))) + b2z (negb (pad j (4 * q + 3))).
Lemma length_row j q : 0 <= j < nb -> (q < 16)%nat ->
  advc t CLen (row j (4 + Z.of_nat q)) = (advc t CLen (row j (3 + Z.of_nat q)) + of_Z p (nz4 j q))%F.
Proof.
  intros Hj Hq. assert (H : ok (row j (4 + Z.of_nat q))) by (apply row_ok; lia).
  assert (E := gate_sel t nb Hrows HSat _ (qf QInput) _ _ H i_length (or_introl eq_refl) (sel_input j q Hj Hq)).
  apply eq_sel in E. rewrite ev_sum, (adv_cur t nb Hrows) in E by exact H.
  rewrite (adv_at t nb Hrows) in E by (unfold row, SHA_ROWS in *; lia).
  replace (row j (4 + Z.of_nat q) + -1) with (row j (3 + Z.of_nat q)) in E by (unfold row; lia).
  rewrite E. f_equal. unfold sum_expr. cbn [seq map fold_left]. rewrite !ev_sum. unfold not_expr. rewrite !ev_sub.
  rewrite !ev_pad by (assumption || lia). rewrite Nat.add_0_r. unfold nz4. rewrite !of_Z_add, !of_b2z.
  change (eval t _ (cst 1)) with (F1 (p:=p)). change (eval t _ (cst 0)) with (F0 (p:=p)).
  destruct (pad j (4 * q)), (pad j (4 * q + 1)), (pad j (4 * q + 2)), (pad j (4 * q + 3)); unfold fbool, negb; ring.
Qed.
Lemma final_length j : 0 <= j < nb -> fin j = true -> of_Z p (Wv t (row j 19)) = (advc t CLen (row j 19) * of_Z p 8)%F.
Proof.
  intros Hj HFin. assert (H : ok (row j 19)) by (apply row_ok; lia).
  assert (E : eval t (row j 19) (require_equal (decode_expr w_) (Product (Advice CLen 0) (cst 8))) = F0).
  { eapply (cond1 _ _ (and_expr [qf QInputLast; Advice (CPad 3) (-2)]) [require_equal (decode_expr w_) (Product (Advice CLen 0) (cst 8))] _ H i_padding).
    - apply incl_in, incl_in, incl_refl.
    - now left.
    - unfold and_expr. cbn [fold_left]. rewrite !ev_prod. rewrite (adv_at t nb Hrows) by (unfold row, SHA_ROWS in *; lia).
      replace (row j 19 + -2) with (row j (4 + Z.of_nat (55 / 4))) by (unfold row; change (Z.of_nat (55 / 4)) with 13; lia).
      change (CPad 3) with (CPad (55 mod 4)). rewrite pad_cell by lia. unfold fin in HFin. rewrite HFin.
      change (row j 19) with (row j (4 + Z.of_nat 15)). rewrite sel_last by lia. change (eval t _ (cst 1)) with (F1 (p:=p)).
      cbn [Nat.eqb fbool]. ring. }
  apply eq_sel in E. unfold w_ in E. rewrite (ev_decode t (row j 19) _ (Wb t (row j 19 + 0))) in E.
  2: { apply (bits_W Hp t nb Hrows HF HSat). lia. }
  rewrite ev_prod, (adv_cur t nb Hrows), Z.add_0_r in E by exact H. exact E.
Qed.

(** input words and digest *)
Definition masked j k : Z := if pad j k then 0 else byte j k.
Lemma word_row j q : 0 <= j < nb -> (q < 16)%nat ->
  advc t CIo (row j (4 + Z.of_nat q)) = of_Z p (le_val [masked j (4 * q); masked j (4 * q + 1); masked j (4 * q + 2); masked j (4 * q + 3)]).
Proof.
  intros Hj Hq. assert (H : ok (row j (4 + Z.of_nat q))) by (apply row_ok; lia).
  assert (E := gate_sel t nb Hrows HSat _ (qf QInput) _ _ H i_word_value (or_introl eq_refl) (sel_input j q Hj Hq)).
  apply eq_sel in E. rewrite (adv_cur t nb Hrows) in E by exact H. rewrite <- E. clear E.
  apply ev_from_bytes. assert (HL : length (input_bytes (p:=p)) = 4%nat) by reflexivity.
  assert (N : input_bytes (p:=p) = map (fun k => nth k input_bytes (cst 0)) (seq 0 4)) by reflexivity.
  rewrite N at 1. unfold map2. cbn [seq map combine fst snd].
  assert (M : forall k, (k < 4)%nat -> eval t (row j (4 + Z.of_nat q)) (Product (nth k input_bytes (cst 0)) (not_expr (Advice (CPad k) 0)))
             = of_Z p (masked j (4 * q + k))).
  { intros k Hk. rewrite ev_prod, ev_input by assumption. unfold not_expr. rewrite ev_sub, ev_pad by assumption.
    change (eval t _ (cst 1)) with (F1 (p:=p)). unfold masked. destruct (pad j (4 * q + k)); unfold fbool.
    - fold (@F0 p). ring. - ring. }
  rewrite !M by lia. rewrite Nat.add_0_r. reflexivity.
Qed.
Lemma word_bytes j q : be_val [byte j (4 * q); byte j (4 * q + 1); byte j (4 * q + 2); byte j (4 * q + 3)] = Wv t (row j (4 + Z.of_nat q)).
Proof.
  destruct (bytes_of_spec (wb j q) 4) as (HV & HL & _); [apply Wb_len|]. rewrite <- (Nat.add_0_r (4 * q)) at 1.
  unfold byte. destruct (divmod4 q 0 ltac:(lia)) as [-> ->], (divmod4 q 1 ltac:(lia)) as [-> ->],
   (divmod4 q 2 ltac:(lia)) as [-> ->], (divmod4 q 3 ltac:(lia)) as [-> ->].
  unfold Wv. fold (wb j q). rewrite <- HV.
  destruct (bytes_of (wb j q)) as [|a [|b [|c [|d [|]]]]]; try discriminate HL. reflexivity.
Qed.
Lemma bytes_be l : length l = 32%nat -> bytes_of l = be_bytes 4 (bz l).
Proof.
  intros H. destruct (bytes_of_spec l 4 H) as (HV & HL & HB). rewrite <- HV. symmetry. now apply be_bytes_unique.
Qed.
Lemma digest_row j : 0 <= j < nb -> fin j = true ->
  advc t CIo (row j 71) = of_Z p (be_val (skipn 16 (hs_bytes (st_out t j)))) /\
  advc t CIo (row j 70) = of_Z p (be_val (firstn 16 (hs_bytes (st_out t j)))).
Proof.
  intros Hj HFin. assert (H : ok (row j 71)) by (apply row_ok; lia).
  assert (HR : forall k, 0 <= k <= 3 -> ok (row j 71 + - k)) by (intros k Hk; unfold row, SHA_ROWS in *; lia).
  assert (HQ : eval t (row j 71) (qf QSqueeze) = F1) by (rewrite fixv by lia; unfold fixed_value; rewrite roundv by lia; reflexivity).
  assert (HC : eval t (row j 71) (Advice CFinal 0) = F1) by (rewrite (adv_cur t nb Hrows) by exact H; rewrite final_cell, HFin by exact Hj; reflexivity).
  assert (G := fun e HI => gate_sel t nb Hrows HSat _ (qf QSqueeze) _ e H i_squeeze HI HQ).
  assert (E1 := G _ (or_introl eq_refl)). assert (E2 := G _ (or_intror (or_introl eq_refl))). clear G.
  apply prod_sel in E1; [|exact HC]. apply prod_sel in E2; [|exact HC].
  apply eq_sel in E1. apply eq_sel in E2.
  rewrite (adv_cur t nb Hrows) in E1 by exact H. rewrite (adv_at t nb Hrows) in E2 by (apply (HR 1); lia).
  replace (row j 71 + -1) with (row j 70) in E2 by (unfold row; lia).
  assert (BW : forall c rot, 0 <= - rot <= 3 -> c = CA \/ c = CE -> map (eval t (row j 71)) (to_be_bytes_expr (bits_at c 3 32 rot)) =
                map (of_Z p) (be_bytes 4 (bz (wordbits t c 3 32 (row j (71 + rot)))))).
  { intros c rot Hrot Hc. rewrite <- bytes_be by apply wordbits_len.
    replace (row j (71 + rot)) with (row j 71 + rot) by (unfold row; lia). apply ev_be_bytes.
    assert (O : ok (row j 71 + rot)) by (specialize (HR (- rot) Hrot); rewrite Z.opp_involutive in HR; exact HR).
    destruct Hc as [-> | ->]; [apply (bits_A Hp t nb Hrows HF HSat)|apply (bits_E Hp t nb Hrows HF HSat)]; exact O. }
  assert (B : map (eval t (row j 71)) (rev (flat_map to_be_bytes_expr [new_a; a_; b_; c_; new_e; e_; f_; g_])) =
              map (of_Z p) (rev (hs_bytes (st_out t j)))).
  { rewrite !map_rev. f_equal. unfold hs_bytes. cbn [flat_map]. rewrite !map_app. cbn [map].
    unfold new_a, a_, b_, c_, new_e, e_, f_, g_. rewrite !BW by (auto; lia). reflexivity. }
  assert (LE : forall l, le_val l = be_val (rev l)) by (intros l; rewrite <- (rev_involutive l) at 1; rewrite <- be_val_rev, rev_involutive; reflexivity).
  assert (HLen : length (hs_bytes (st_out t j)) = 32%nat) by (unfold hs_bytes; cbn [flat_map]; rewrite !app_length, !be_bytes_len; reflexivity).
  rewrite (ev_from_bytes t _ _ (firstn 16 (rev (hs_bytes (st_out t j))))) in E1 by (rewrite <- !firstn_map, B; reflexivity).
  rewrite (ev_from_bytes t _ _ (skipn 16 (rev (hs_bytes (st_out t j))))) in E2 by (rewrite <- !skipn_map, B; reflexivity).
  rewrite <- E1, <- E2. rewrite !LE. rewrite firstn_rev, skipn_rev, !rev_involutive, HLen. split; reflexivity.
Qed.
End Pad.
