(** Property theorems C57 about [get_naf] (halo2-ecc/src/ecc/mod.rs:765-808). *)
From Coq Require Import ZArith Lia List Bool.
From Verif Require Import Spec Ecc.
Import ListNotations.
Local Open Scope Z_scope.

(** ** specification *)
(** a vector of u64 limbs and its value (little endian) *)
Definition u64s (l : list Z) : Prop := Forall (fun x => 0 <= x < 2 ^ 64) l.
Fixpoint limbs_value (l : list Z) : Z := match l with [] => 0 | x :: l => x + 2 ^ 64 * limbs_value l end.
(** the value of a list of signed binary digits (little endian) *)
Fixpoint signed_value (l : list Z) : Z := match l with [] => 0 | d :: l => d + 2 * signed_value l end.
Definition signed_digit (d : Z) : Prop := d = -1 \/ d = 0 \/ d = 1.
(** non-adjacency inside each block of 64 digits *)
Definition no_adjacent (l : list Z) : Prop := forall i, (i mod 64 <> 63)%nat -> nth i l 0 <> 0 -> nth (S i) l 0 = 0.

(** ** one limb *)
Lemma naf_limb_spec n : forall e ds r, 0 <= e -> naf_limb n e = (ds, r) ->
  length ds = n /\ Forall signed_digit ds /\ e = signed_value ds + 2 ^ Z.of_nat n * r /\ 0 <= r /\
  (Z.odd e = false -> nth 0 ds 0 = 0) /\ (forall i, nth i ds 0 <> 0 -> nth (S i) ds 0 = 0) /\
  (forall b, e <= 2 ^ Z.of_nat n * b -> r <= b).
Proof.
  induction n as [|n IH]; intros e ds r He H; cbn [naf_limb] in H.
  { injection H as <- <-. cbn [length signed_value]. change (2 ^ Z.of_nat 0) with 1. split; [auto|]. split; [auto|]. split; [lia|]. split; [auto|]. split; [auto|]. split; [intros [|i] X; cbn in *; congruence|intros; lia]. }
  rewrite Nat2Z.inj_succ, Z.pow_succ_r by lia.
  destruct (Z.odd e) eqn:Eo.
  - assert (M4 : e mod 4 = 1 \/ e mod 4 = 3).
    { rewrite Zodd_mod in Eo. apply Zeq_bool_eq in Eo. pose proof (Z.mod_pos_bound e 4 ltac:(lia)).
      assert (e mod 2 = (e mod 4) mod 2) as E2. { rewrite (Z.div_mod e 4) at 1 by lia. replace (4 * (e / 4) + e mod 4) with (e mod 4 + (2 * (e / 4)) * 2) by ring. now rewrite Z_mod_plus_full. }
      rewrite Eo in E2. assert (K : e mod 4 = 0 \/ e mod 4 = 1 \/ e mod 4 = 2 \/ e mod 4 = 3) by lia. destruct K as [K|[K|[K|K]]]; rewrite K in *; cbn in E2; try discriminate; auto. }
    set (z := 2 - e mod 4) in *. set (e' := e / 2 + (if z =? -1 then 1 else 0)) in *.
    pose proof (Z.div_mod e 4 ltac:(lia)) as D4. 
    assert (Hz : e = z + 2 * e' /\ (z = 1 \/ z = -1) /\ Z.odd e' = false).
    { assert (E2 : e / 2 = 2 * (e / 4) + (if e mod 4 =? 1 then 0 else 1)). { symmetry. apply Z.div_unique with (r := 1); [lia|]. destruct M4 as [K|K]; rewrite K in *; cbn [Z.eqb Pos.eqb]; lia. }
      unfold e', z. rewrite E2. destruct M4 as [K|K]; rewrite K in *; [change (2 - 1) with 1; change (1 =? 1) with true; change (1 =? -1) with false|change (2 - 3) with (-1); change (3 =? 1) with false; change (-1 =? -1) with true]; cbv iota.
      - split; [lia|]. split; [auto|]. rewrite Z.add_0_r, Z.add_0_r, Z.odd_mul. reflexivity.
      - split; [lia|]. split; [auto|]. replace (2 * (e / 4) + 1 + 1) with (2 * (e / 4 + 1)) by ring. rewrite Z.odd_mul. reflexivity. }
    destruct Hz as (Hz & Hz1 & Hev). destruct (naf_limb n e') as [ds' r'] eqn:El. injection H as <- <-.
    assert (He' : 0 <= e') by lia.
    destruct (IH e' ds' r' He' El) as (L & F & V & R & Z0 & A & B).
    split; [cbn; lia|]. split; [constructor; auto; unfold signed_digit; lia|]. split; [cbn [signed_value]; nia|]. split; auto. split; [discriminate|]. split.
    + intros [|i] X; cbn [nth] in *; auto.
    + intros b Hb. apply B. nia.
  - destruct (naf_limb n (e / 2)) as [ds' r'] eqn:El. injection H as <- <-.
    assert (E2 : e = 2 * (e / 2)). { pose proof (Z.div_mod e 2 ltac:(lia)). rewrite Zodd_even_bool in Eo. apply Bool.negb_false_iff in Eo. rewrite Zeven_mod in Eo. apply Zeq_bool_eq in Eo. lia. }
    assert (He' : 0 <= e / 2) by lia.
    destruct (IH _ ds' r' He' El) as (L & F & V & R & Z0 & A & B).
    split; [cbn; lia|]. split; [constructor; auto; unfold signed_digit; lia|]. split; [cbn [signed_value]; lia|]. split; auto. split; [reflexivity|]. split.
    + intros [|i] X; cbn [nth] in *; auto. congruence.
    + intros b Hb. apply B. nia.
Qed.
Lemma signed_app a b : signed_value (a ++ b) = signed_value a + 2 ^ Z.of_nat (length a) * signed_value b.
Proof. induction a as [|x a IH]; cbn [app signed_value length]; [lia|]. rewrite IH, Nat2Z.inj_succ, Z.pow_succ_r by lia. ring. Qed.
Lemma limbs_bound l : u64s l -> 0 <= limbs_value l < 2 ^ (64 * Z.of_nat (length l)).
Proof.
  induction 1 as [|x l Hx H IH]; cbn [limbs_value length]; [cbn; lia|].
  rewrite Nat2Z.inj_succ. replace (64 * Z.succ (Z.of_nat (length l))) with (64 + 64 * Z.of_nat (length l)) by lia. rewrite Z.pow_add_r by lia. nia.
Qed.
Lemma naf_carry_spec l : u64s l -> let '(r, o) := naf_carry l in
  u64s r /\ limbs_value r = limbs_value l + 1 /\ length r = (length l + if o then 1 else 0)%nat /\ (o = true -> limbs_value l + 1 = 2 ^ (64 * Z.of_nat (length l))).
Proof.
  induction 1 as [|x l Hx H IH]; cbn [naf_carry].
  - split; [constructor; [lia|constructor]|]. cbn. split; [lia|]. split; [lia|reflexivity].
  - unfold u64_max. destruct (Z.eqb_spec x (2 ^ 64 - 1)) as [->|D].
    + destruct (naf_carry l) as [r o]. destruct IH as (A & B & C & D). split; [constructor; [lia|auto]|]. cbn [limbs_value length]. rewrite B, C. split; [ring|]. split; [lia|].
      intros Ho. specialize (D Ho). rewrite Nat2Z.inj_succ. replace (64 * Z.succ (Z.of_nat (length l))) with (64 + 64 * Z.of_nat (length l)) by lia. rewrite Z.pow_add_r, <- D by lia. ring.
    + split; [constructor; [lia|auto]|]. cbn [limbs_value length]. split; [lia|]. split; [lia|discriminate].
Qed.
Lemma naf_loop_spec n : forall exp, u64s exp -> forall ds rest, naf_loop n exp = Some (ds, rest) ->
  length ds = (64 * n)%nat /\ Forall signed_digit ds /\ limbs_value exp = signed_value ds + 2 ^ (64 * Z.of_nat n) * limbs_value rest /\ u64s rest /\
  (forall i, (i mod 64 <> 63)%nat -> nth i ds 0 <> 0 -> nth (S i) ds 0 = 0).
Proof.
  induction n as [|n IH]; intros exp HU ds rest H; cbn [naf_loop] in H.
  - injection H as <- <-. cbn [length]. split; [reflexivity|]. split; [auto|]. split; [change (2 ^ (64 * Z.of_nat 0)) with 1; cbn [signed_value]; lia|]. split; [auto|]. intros [|i] _ X; cbn in *; congruence.
  - destruct exp as [|x exp]; [discriminate|]. inversion HU as [|? ? Hx HU']; subst.
    destruct (naf_limb 64 x) as [d e] eqn:El. destruct (naf_limb_spec 64 x d e ltac:(lia) El) as (L & F & V & R & Z0 & A & B).
    assert (G : forall exp', u64s exp' -> limbs_value exp' = limbs_value exp + e -> match naf_loop n exp' with None => None | Some (ds', rest) => Some (d ++ ds', rest) end = Some (ds, rest) ->
      length ds = (64 * S n)%nat /\ Forall signed_digit ds /\ limbs_value (x :: exp) = signed_value ds + 2 ^ (64 * Z.of_nat (S n)) * limbs_value rest /\ u64s rest /\
      (forall i, (i mod 64 <> 63)%nat -> nth i ds 0 <> 0 -> nth (S i) ds 0 = 0)).
    { intros exp' U' E' H'. destruct (naf_loop n exp') as [[ds' rest']|] eqn:En; [|discriminate]. injection H' as <- <-.
      destruct (IH exp' U' ds' rest' En) as (L2 & F2 & V2 & U2 & A2). rewrite app_length, L, L2. split; [lia|]. split; [apply Forall_app; split; assumption|]. split; [|split; [exact U2|]].
      - cbn [limbs_value]. rewrite signed_app, L. rewrite (Nat2Z.inj_succ n). replace (64 * Z.succ (Z.of_nat n)) with (64 + 64 * Z.of_nat n) by lia. rewrite Z.pow_add_r by lia.
        change (Z.of_nat 64) with 64 in *. rewrite E' in V2. clear - V V2. rewrite V.
        replace (limbs_value exp) with (signed_value ds' + 2 ^ (64 * Z.of_nat n) * limbs_value rest' - e) by (rewrite <- V2; ring). ring.
      - intros i Hi X. destruct (Nat.lt_ge_cases i 64) as [Lt|Ge].
        + assert (i <> 63)%nat. { intros ->. apply Hi. reflexivity. }
          rewrite app_nth1 in * by lia. now apply A.
        + rewrite app_nth2 in * by lia. rewrite L in *. replace (S i - 64)%nat with (S (i - 64)) by lia. apply A2; auto.
          replace i with ((i - 64) + 1 * 64)%nat in Hi by lia. now rewrite Nat.mod_add in Hi by lia. }
    destruct (Z.eqb_spec e 0) as [->|D0].
    + apply (G exp); auto. lia.
    + destruct (Z.eqb_spec e 1) as [->|D1]; [|discriminate].
      pose proof (naf_carry_spec exp HU') as NC. destruct (naf_carry exp) as [r o]. destruct NC as (NC1 & NC2 & _ & _). cbn [fst] in *. now apply (G r).
Qed.
Lemma naf_loop_total n : forall exp, u64s exp -> length exp = n -> limbs_value exp <= 2 ^ (64 * Z.of_nat n - 1) -> exists ds, naf_loop n exp = Some (ds, []).
Proof.
  induction n as [|n IH]; intros exp HU HL HV.
  - destruct exp; [|discriminate]. cbn. eauto.
  - destruct exp as [|x exp]; [discriminate|]. inversion HU as [|? ? Hx HU']; subst. cbn [naf_loop].
    destruct (naf_limb 64 x) as [d e] eqn:El. destruct (naf_limb_spec 64 x d e ltac:(lia) El) as (L & F & V & R & Z0 & A & B).
    change (Z.of_nat 64) with 64 in *. assert (He : e <= 1) by (apply B; lia).
    injection HL as HL. cbn [limbs_value] in HV.
    assert (Hx0 : e = 1 -> 0 < x). { intros ->. destruct (Z.eq_dec x 0) as [->|]; [|lia]. specialize (B 0 ltac:(lia)). lia. }
    pose proof (limbs_bound exp HU') as LB. rewrite HL in LB.
    destruct n as [|n'].
    { destruct exp; [|discriminate]. cbn [limbs_value] in HV. change (64 * Z.of_nat 1 - 1) with 63 in HV.
      assert (e = 0).
      { destruct (Z.eq_dec e 0); auto. exfalso. assert (e = 1) by lia. subst e. clear - El HV Hx.
        assert (S63 : forall n y, 0 <= y -> y <= 2 ^ Z.of_nat n -> snd (naf_limb n y) <= 1 /\ forall z, z = snd (naf_limb (S n) y) -> z = 0).
        { clear. induction n as [|n IH]; intros y H0 Hy.
          - cbn in Hy. assert (K : y = 0 \/ y = 1) by lia. destruct K as [->| ->]; cbn; split; try lia; intros z ->; reflexivity.
          - rewrite Nat2Z.inj_succ, Z.pow_succ_r in Hy by lia.
            set (y' := if Z.odd y then y / 2 + (if (2 - y mod 4) =? -1 then 1 else 0) else y / 2).
            assert (Hy' : 0 <= y' <= 2 ^ Z.of_nat n).
            { unfold y'. pose proof (Z.div_mod y 2 ltac:(lia)). pose proof (Z.mod_pos_bound y 2 ltac:(lia)). destruct (Z.odd y) eqn:Eo.
              - rewrite Zodd_mod in Eo. apply Zeq_bool_eq in Eo. destruct (_ =? _); lia.
              - lia. }
            destruct (IH y' ltac:(lia) ltac:(lia)) as [I1 I2].
            assert (X : forall k, snd (naf_limb (S k) y) = snd (naf_limb k y')).
            { intros k. cbn [naf_limb]. unfold y'. destruct (Z.odd y); [destruct (naf_limb k (y / 2 + _)) as [? ?]; reflexivity|destruct (naf_limb k (y / 2)) as [? ?]; reflexivity]. }
            rewrite !X. split; [exact I1|]. intros z ->. apply I2. reflexivity. }
        destruct (S63 63%nat x ltac:(lia) ltac:(change (Z.of_nat 63) with 63; lia)) as [_ S64]. specialize (S64 1). rewrite El in S64. specialize (S64 eq_refl). lia. }
      subst e. cbn. eauto. }
    assert (PW : 2 ^ (64 * Z.of_nat (S (S n')) - 1) = 2 ^ 64 * 2 ^ (64 * Z.of_nat (S n') - 1)).
    { rewrite <- Z.pow_add_r by lia. f_equal. lia. }
    assert (G : forall exp', u64s exp' -> length exp' = S n' -> limbs_value exp' <= 2 ^ (64 * Z.of_nat (S n') - 1) ->
       exists ds, match naf_loop (S n') exp' with None => None | Some (ds', rest) => Some (d ++ ds', rest) end = Some (ds, [])).
    { intros exp' U' L' V'. destruct (IH exp' U' L' V') as (ds' & ->). eauto. }
    destruct (Z.eqb_spec e 0) as [->|D0].
    + apply G; auto. nia.
    + assert (e = 1) by lia. subst e. cbn [Z.eqb Pos.eqb]. specialize (Hx0 eq_refl).
      pose proof (naf_carry_spec exp HU') as NC. destruct (naf_carry exp) as [r o]. destruct NC as (NC1 & NC2 & NC3 & NC4). cbn [fst].
      assert (HV' : limbs_value exp + 1 <= 2 ^ (64 * Z.of_nat (S n') - 1)) by nia.
      apply G; auto; [|lia]. destruct o; [|lia]. exfalso.
      (* a pushed limb would make the value too large *)
      clear - HL HV' NC4. specialize (NC4 eq_refl). rewrite HL in NC4. assert (P1 : 2 ^ (64 * Z.of_nat (S n') - 1) < 2 ^ (64 * Z.of_nat (S n'))) by (apply Z.pow_lt_mono_r; lia).
      lia.
Qed.

(** ** C57 *)
(** When it returns, the digits are -1, 0 or 1, their signed value is the value of the limbs, and no two digits of one 64-digit block are adjacent and non-zero. *)
Theorem C57_naf_correct : forall exp naf, u64s exp -> get_naf exp = Some naf ->
  signed_value naf = limbs_value exp /\ Forall signed_digit naf /\ length naf = (64 * length exp)%nat /\ no_adjacent naf.
Proof.
  intros exp naf HU H. unfold get_naf in H. destruct (naf_loop (length exp) exp) as [[ds rest]|] eqn:E; [|discriminate].
  destruct (naf_loop_spec _ exp HU ds rest E) as (L & F & V & U & A).
  destruct (Nat.eqb_spec (length rest) 0) as [L0|L0].
  - injection H as <-. destruct rest; [|discriminate]. cbn [limbs_value] in V. split; [lia|]. split; [auto|]. split; [exact L|exact A].
  - destruct (Nat.eqb_spec (length exp) (length exp + length rest + 1)); [lia|discriminate].
Qed.
(** It returns for every value up to half of the capacity of the limbs. *)
Theorem C57_naf_total : forall exp, u64s exp -> exp <> [] -> limbs_value exp <= 2 ^ (64 * Z.of_nat (length exp) - 1) -> exists naf, get_naf exp = Some naf.
Proof.
  intros exp HU Hne HV. destruct (naf_loop_total (length exp) exp HU eq_refl HV) as (ds & E). unfold get_naf. rewrite E. cbn. eauto.
Qed.
(** Whenever the carry leaves the last limb the final assertion compares the lengths the wrong way round, so the code panics instead of
    pushing the extra digit: there is no input on which that branch succeeds, and [2^64 - 1] is one that reaches it. *)
Theorem C57_naf_carry_out_refuted : ~ (forall exp, u64s exp -> exists naf, get_naf exp = Some naf).
Proof.
  intros H. destruct (H [2 ^ 64 - 1]) as (naf & E).
  - constructor; [lia|constructor].
  - vm_compute in E. discriminate.
Qed.
(** The form is not non-adjacent across limbs: the recoding of a limb does not see the next one. *)
Theorem C57_naf_adjacent_across_limbs : exists naf, get_naf [2 ^ 63; 1] = Some naf /\ nth 63 naf 0 = 1 /\ nth 64 naf 0 = 1.
Proof. eexists. split; [vm_compute; reflexivity|]. split; reflexivity. Qed.
(** the hypotheses are met, e.g. by the BN254 parameter [x = 4965661367192848881]: 63-bit, one limb *)
Example C57_example : exists naf, get_naf [4965661367192848881] = Some naf /\ signed_value naf = 4965661367192848881.
Proof.
  assert (U : u64s [4965661367192848881]) by (constructor; [lia|constructor]).
  destruct (C57_naf_total [4965661367192848881] U ltac:(discriminate) ltac:(vm_compute; discriminate)) as (naf & E).
  exists naf. split; auto. destruct (C57_naf_correct _ _ U E) as (V & _). rewrite V. reflexivity.
Qed.
