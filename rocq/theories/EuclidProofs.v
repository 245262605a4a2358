(** Euclidean division: the cases where the code satisfies the division law. *)
From Coq Require Import ZArith List Bool Lia ZifyBool ZifyNat.
From Verif Require Import LargeIntsModel LargeIntsSpec WordsProofs ArithProofs ShiftProofs MulProofs
  DivProofs DivmodProofs ConvProofs.
Import ListNotations.
Local Open Scope Z_scope.

Lemma pos_no_trap divx a b : 0 < op_value b -> no_trap divx a b.
Proof. intros H. split; intros T; destruct T as (_ & T); [lia|]. destruct T as (_ & _ & _ & T). lia. Qed.

Lemma pos_abs_ok a b : 0 < op_value b -> abs_ok a b.
Proof.
  intros H. split; [|split].
  - intros (bytes & -> & _). cbn [op_value] in H.
    pose proof (Z.pow_nonneg 2 (8 * Z.of_nat bytes - 1)). lia.
  - lia.
  - intros (ws & _ & _ & E). lia.
Qed.

(** Sizes of the operands and their quotient and remainder. *)
Lemma value_ranges a b :
  op_wf a -> op_wf b ->
  let sg := res_signed a b in
  in_range sg (max_int_count sg a b) (op_value a) /\ in_range sg (int_count sg b) (op_value b).
Proof.
  intros Ha Hb sg. split.
  - apply (common_in_range a b _ Ha Hb eq_refl).
  - apply int_count_fits; [assumption | apply res_signed_r | lia].
Qed.

Lemma neg_div_floor x y : 0 < y -> x < 0 -> x mod y <> 0 ->
  x / y = -1 - (- x) / y /\ x mod y = y - (- x) mod y.
Proof.
  intros Hy Hx Hm. rewrite (Z_div_nz_opp_full x y), (Z_mod_nz_opp_full x y) by (assumption || lia). lia.
Qed.

Lemma mod_le_dividend x y : 0 <= x -> 0 < y -> x mod y <= x.
Proof. intros. apply Z.mod_le; assumption. Qed.

Lemma divmod_euclid_pos divx a b :
  op_wf a -> op_wf b -> 0 < op_value b ->
  0 <= op_value a \/ op_value a mod op_value b <> 0 ->
  rem_ok a b ->
  let sg := res_signed a b in
  exists q r, divmod divx euclid a b = Ok (q, r) /\
    has_type sg (max_int_count sg a b) q /\ has_type sg (int_count sg b) r /\
    op_value q = op_value a / op_value b /\ op_value r = op_value a mod op_value b.
Proof.
  intros Ha Hb Hb0 Hcase Hok sg.
  destruct (value_ranges a b Ha Hb) as [Ra Rb]. fold sg in Ra, Rb.
  pose proof (max_int_count_pos sg a b Ha) as Pn. pose proof (int_count_pos sg b Hb) as Pr.
  destruct (bool_dec sg true) as [Esg|Esg].
  - destruct (divmod_euclid_signed divx a b Ha Hb ltac:(lia) Esg (pos_no_trap divx a b Hb0)
                (fun _ => pos_abs_ok a b Hb0)) as (q & r & E & T1 & T2 & V1 & V2).
    specialize (V2 Hok). fold sg in T1, T2, V1, V2. rewrite Esg in *.
    exists q, r. split; [assumption|]. split; [assumption|]. split; [assumption|].
    set (va := op_value a) in *. set (vb := op_value b) in *.
    set (n := max_int_count true a b) in *. set (nr := int_count true b) in *.
    pose proof (half_pos n Pn). pose proof (half_pos nr Pr).
    unfold in_range in Ra, Rb.
    pose proof (Z.mod_pos_bound va vb Hb0) as Hm.
    unfold signs_differ in V1, V2. fold va vb in V1, V2.
    replace (vb <? 0) with false in V1, V2 by lia. rewrite xorb_false_r in V1, V2.
    rewrite (Z.abs_eq vb) in V1, V2 by lia.
    destruct (Z.ltb_spec va 0) as [Hneg|Hpos].
    + rewrite (Z.abs_neq va) in V1, V2 by lia.
      destruct (neg_div_floor va vb Hb0 Hneg ltac:(lia)) as [D1 D2].
      rewrite <- D1 in V1. rewrite <- D2 in V2. rewrite V1, V2.
      split; apply wrap_id; try assumption; unfold in_range.
      * split; [|assert (va / vb <= 0) by (apply Z.div_le_upper_bound; lia); lia].
        apply Z.div_le_lower_bound; nia.
      * lia.
    + rewrite (Z.abs_eq va) in V1, V2 by lia. rewrite V1, V2.
      split; apply wrap_id; try assumption; unfold in_range.
      * split; [assert (0 <= va / vb) by (apply Z.div_pos; lia); lia|].
        apply Z.div_lt_upper_bound; nia.
      * lia.
  - apply not_true_is_false in Esg.
    destruct (divmod_unsigned divx a b Ha Hb ltac:(lia) euclid Esg) as (q & r & E & T1 & T2 & V1 & V2).
    fold sg in T1, T2. rewrite Esg in *. exists q, r.
    unfold in_range in Ra, Rb. rewrite !Z.abs_eq in V1, V2 by lia. auto 6.
Qed.

Lemma top_word_sign o i :
  op_wf o -> in_range true (S i) (op_value o) -> (op_signed o = true \/ True) ->
  word_at o (S i) = if op_value o <? 0 then Bw - 1 else 0.
Proof.
  intros Ho Hr _. rewrite word_at_digit by assumption. unfold in_range in Hr.
  pose proof (half_pos (S i) ltac:(lia)). pose proof (pw_half (S i) ltac:(lia)). pose proof Bw_pos.
  destruct (Z.ltb_spec (op_value o) 0).
  - replace (op_value o / pw (S i)) with (-1).
    + symmetry. apply Z.mod_unique with (q := -1); lia.
    + apply Z.div_unique with (r := op_value o + pw (S i)); lia.
  - rewrite Z.div_small by lia. apply Z.mod_0_l. lia.
Qed.

Lemma unmul_euclid_insn a b :
  op_wf a -> op_wf b -> 0 < op_value b ->
  let sg := res_signed a b in
  int_count sg a = 2%nat -> int_count sg b = 1%nat ->
  0 <= op_value a \/ op_value a mod op_value b <> 0 ->
  in_range sg 1 (op_value a / op_value b) ->
  exists q r, unmul true 1 euclid a b = Ok (q, r) /\
    has_type sg 1 q /\ has_type sg 1 r /\
    op_value q = op_value a / op_value b /\ op_value r = op_value a mod op_value b.
Proof.
  intros Ha Hb Hb0 sg Ea Eb Hcase Hq.
  pose proof (two_word_value sg a Ha (res_signed_l a b) Ea) as Va.
  pose proof (single_word_value sg b Hb (res_signed_r a b) Eb) as Vb.
  pose proof (int_count_fits sg b 1 Hb (res_signed_r a b) ltac:(lia)) as Rb.
  pose proof (int_count_fits sg a 2 Ha (res_signed_l a b) ltac:(lia)) as Ra.
  destruct (bool_dec sg true) as [Esg|Esg].
  - rewrite Esg in *.
    pose proof (top_word_sign a 1 Ha Ra (or_intror I)) as Sa.
    pose proof (top_word_sign b 0 Hb Rb (or_intror I)) as Sb.
    replace (op_value b <? 0) with false in Sb by lia.
    unfold unmul. fold sg. rewrite Esg, Ea, Eb. cbn [Nat.eqb andb].
    unfold idiv_insn. rewrite <- Vb, <- Va.
    destruct (Z.eqb_spec (op_value b) 0); [lia|].
    unfold in_range, wbits in Hq, Rb. change (64 * Z.of_nat 1 - 1) with 63 in *.
    pose proof (Z.rem_bound_abs (op_value a) (op_value b) ltac:(lia)) as Hrb.
    rewrite (Z.abs_eq (op_value b)) in Hrb by lia.
    assert (Hqr : - 2 ^ 63 <= Z.quot (op_value a) (op_value b) < 2 ^ 63 /\
       (op_value a < 0 -> op_value a / op_value b = Z.quot (op_value a) (op_value b) - 1 /\
                     op_value a mod op_value b = op_value b + Z.rem (op_value a) (op_value b) /\
                     Z.rem (op_value a) (op_value b) < 0) /\
       (0 <= op_value a -> op_value a / op_value b = Z.quot (op_value a) (op_value b) /\
                     op_value a mod op_value b = Z.rem (op_value a) (op_value b))).
    { destruct (Z.ltb_spec (op_value a) 0) as [Hn|Hp].
      - destruct (neg_div_floor (op_value a) (op_value b) Hb0 Hn ltac:(lia)) as [D1 D2].
        pose proof (Z.quot_opp_l (op_value a) (op_value b) ltac:(lia)) as Q1.
        pose proof (Z.rem_opp_l (op_value a) (op_value b) ltac:(lia)) as Q2.
        rewrite Z.quot_div_nonneg in Q1 by lia. rewrite Z.rem_mod_nonneg in Q2 by lia.
        pose proof (Z.div_pos (- op_value a) (op_value b) ltac:(lia) ltac:(lia)).
        pose proof (Z.mod_pos_bound (op_value a) (op_value b) ltac:(lia)).
        pose proof (Z.mod_pos_bound (- op_value a) (op_value b) ltac:(lia)).
        split; [lia|]. split; [|lia]. intros _. split; [lia|]. split; [lia|].
        assert ((- op_value a) mod op_value b <> 0).
        { intros E0. destruct Hcase as [|Hc]; [lia|]. apply Hc.
          apply Z.mod_divide in E0; [|lia]. apply Z.mod_divide; [lia|].
          destruct E0 as [k E0]. exists (- k). lia. }
        lia.
      - rewrite Z.quot_div_nonneg, Z.rem_mod_nonneg by lia. split; [lia|]. split; [lia|]. auto. }
    destruct Hqr as (Hqq & Hneg & Hpos).
    replace ((- Hw <=? Z.quot (op_value a) (op_value b)) && (Z.quot (op_value a) (op_value b) <? Hw)) with true.
    2:{ symmetry. apply andb_true_iff. unfold Hw. split; [apply Z.leb_le | apply Z.ltb_lt]; lia. }
    cbn [obind]. set (Q := Z.quot (op_value a) (op_value b)) in *.
    set (R := Z.rem (op_value a) (op_value b)) in *.
    assert (WQ : op_wf (OComp true [uword Q])) by (split; [discriminate | constructor; [apply uword_word | constructor]]).
    assert (WR : op_wf (OComp true [uword R])) by (split; [discriminate | constructor; [apply uword_word | constructor]]).
    assert (VQ : op_value (OComp true [uword Q]) = Q).
    { rewrite uword_val. apply wrap_id; [lia|]. unfold in_range, wbits. change (64 * Z.of_nat 1 - 1) with 63. lia. }
    assert (VR : op_value (OComp true [uword R]) = R).
    { rewrite uword_val. apply wrap_id; [lia|]. unfold in_range, wbits. change (64 * Z.of_nat 1 - 1) with 63. lia. }
    pose proof (abs_correct true [uword R] WR) as HA.
    destruct (abs true [uword R]) as [ra|]; [|exfalso; rewrite VR in HA; lia].
    destruct HA as (TA & rs & Era & Vrs). rewrite VR in Vrs. subst ra. destruct TA as (_ & Lrs & Frs).
    assert (Wrs : op_wf (OComp true rs)) by (apply comp_wf with 1%nat; [lia | assumption | assumption]).
    assert (Vra : op_value (OComp true rs) = Z.abs R).
    { cbn [op_value]. rewrite Lrs, Vrs. unfold as_signed, wbits. cbn [length].
      change (64 * Z.of_nat 1 - 1) with 63.
      destruct (Z.ltb_spec (Z.abs R) (2 ^ 63)); lia. }
    rewrite Sa, Sb.
    destruct (Z.ltb_spec (op_value a) 0) as [Hn|Hp].
    + destruct (Hneg Hn) as (D1 & D2 & D3).
      replace (negb (Bw - 1 =? 0)) with true by reflexivity.
      cbn [obind].
      pose proof (abs_op_gen true b Hb (or_introl eq_refl)) as HB.
      destruct (abs_op b) as [bab|] eqn:Eabs.
      2:{ exfalso. destruct HB as (bytes & [[-> _]|(ws & -> & _ & E0)]).
          - cbn [op_value] in Hb0. pose proof (Z.pow_nonneg 2 (8 * Z.of_nat bytes - 1)). lia.
          - lia. }
      destruct HB as (WB & k & VB).
      cbn [obind]. eexists _, _. split; [reflexivity|].
      destruct (sub_assign_correct true [uword Q] (OBuiltin true 4 1) WQ) as [T1 V1].
      { split; [lia | unfold builtin_range; cbn; lia]. }
      rewrite VQ in V1. cbn [op_value length] in V1.
      split; [exact T1|]. 
      assert (WS : op_wf (sub bab (OComp true rs))) by (apply sub_wf; assumption).
      split; [apply to_words_type, WS|].
      rewrite V1. rewrite (sub_mod true a b ltac:(lia)).
      * rewrite VB, Vra, Eb. rewrite (Z.abs_eq (op_value b)) by lia.
        replace (op_value b + k * pw 1 - Z.abs R) with (op_value a mod op_value b + k * pw 1) by lia.
        rewrite wrap_add_pw. rewrite <- D1.
        split; apply wrap_id; try lia; unfold in_range, wbits; change (64 * Z.of_nat 1 - 1) with 63; [lia|].
        pose proof (Z.mod_pos_bound (op_value a) (op_value b) ltac:(lia)). lia.
      * assumption.
      * assumption.
      * pose proof (max_int_count_pos (res_signed bab (OComp true rs)) bab (OComp true rs) WB). lia.
      * lia.
    + destruct (Hpos Hp) as (D1 & D2).
      cbn [Z.eqb negb]. cbn [obind]. eexists _, _. split; [reflexivity|].
      split; [split; [reflexivity | split; [reflexivity | apply WQ]]|].
      split; [split; [reflexivity | split; [assumption | assumption]]|].
      rewrite VQ, Vra, D1, D2. split; [reflexivity|].
      rewrite <- D2. apply Z.abs_eq. apply Z.mod_pos_bound. lia.
  - apply not_true_is_false in Esg. rewrite Esg in *.
    assert (Hrel : forall m, unmul true 1 m a b = unmul true 1 truncate a b).
    { intros m. unfold unmul. fold sg. rewrite Esg, Ea, Eb. cbn [Nat.eqb andb]. reflexivity. }
    rewrite Hrel.
    assert (Pa : 0 <= op_value a) by (unfold in_range in Ra; lia).
    destruct (unmul_insn a b 1 Ha Hb ltac:(lia) eq_refl) as (q & r & E & T1 & T2 & V1 & V2);
      fold sg; rewrite ?Esg; try assumption.
    { rewrite Z.quot_div_nonneg by lia. assumption. }
    fold sg in T1, T2. rewrite Esg in T1, T2.
    rewrite Z.quot_div_nonneg in V1 by lia. rewrite Z.rem_mod_nonneg in V2 by lia.
    exists q, r. auto 6.
Qed.

Lemma unmul_euclid_general divx nq a b :
  op_wf a -> op_wf b -> 0 < op_value b -> (0 < nq)%nat ->
  let sg := res_signed a b in
  divx && Nat.eqb nq 1 && Nat.eqb (int_count sg a) 2 && Nat.eqb (int_count sg b) 1 = false ->
  0 <= op_value a \/ op_value a mod op_value b <> 0 ->
  in_range sg nq (op_value a / op_value b) ->
  rem_ok a b ->
  exists q r, unmul divx nq euclid a b = Ok (q, r) /\
    has_type sg nq q /\ has_type sg (int_count sg b) r /\
    op_value q = op_value a / op_value b /\ op_value r = op_value a mod op_value b.
Proof.
  intros Ha Hb Hb0 Hnq sg Hni Hcase Hq Hok.
  destruct (divmod_euclid_pos divx a b Ha Hb Hb0 Hcase Hok) as (q & r & E & T1 & T2 & V1 & V2).
  fold sg in T1, T2. unfold unmul. fold sg. rewrite Hni, E. cbn [obind fst snd].
  assert (Pn : (0 < max_int_count sg a b)%nat) by (apply max_int_count_pos; assumption).
  assert (Pr : (0 < int_count sg b)%nat) by (apply int_count_pos; assumption).
  assert (Wq : op_wf q).
  { destruct q as [s ws|]; [|contradiction]. destruct T1 as (_ & L & F). eapply comp_wf; [|eassumption|eassumption]; assumption. }
  assert (Wr : op_wf r).
  { destruct r as [s ws|]; [|contradiction]. destruct T2 as (_ & L & F). eapply comp_wf; [|eassumption|eassumption]; assumption. }
  assert (Rr : in_range sg (int_count sg b) (op_value r)).
  { destruct r as [s ws|]; [|contradiction]. destruct T2 as (-> & <- & F).
    apply op_value_range_comp; [apply Wr | assumption]. }
  eexists _, _. split; [reflexivity|]. split; [apply to_words_type, Wq|]. split; [apply to_words_type, Wr|].
  rewrite !to_words_value by assumption. rewrite <- V2. split.
  - rewrite V1. apply wrap_id; assumption.
  - apply wrap_id; assumption.
Qed.
