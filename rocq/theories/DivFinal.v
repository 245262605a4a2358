(** Division theorems in terms of the types of the operands only. *)
From Coq Require Import ZArith List Bool Lia ZifyBool ZifyNat.
From Verif Require Import LargeIntsModel LargeIntsSpec WordsProofs ArithProofs ShiftProofs MulProofs
  DivProofs DivmodProofs ConvProofs EuclidProofs.
Import ListNotations.
Local Open Scope Z_scope.

Lemma common_is_max a b n :
  op_wf a -> op_wf b -> common_width (op_signed a || op_signed b) n a b ->
  n = max_int_count (res_signed a b) a b.
Proof. intros Ha Hb H. eapply common_width_unique; [exact H | apply common_width_max; assumption]. Qed.

Lemma least_is_count_r a b n :
  op_wf b -> least_width (op_signed a || op_signed b) n b -> n = int_count (res_signed a b) b.
Proof.
  intros Hb H. eapply least_width_unique; [exact H|].
  apply least_width_int_count; [assumption | apply res_signed_r].
Qed.
Lemma least_is_count_l a b n :
  op_wf a -> least_width (op_signed a || op_signed b) n a -> n = int_count (res_signed a b) a.
Proof.
  intros Hb H. eapply least_width_unique; [exact H|].
  apply least_width_int_count; [assumption | apply res_signed_l].
Qed.

Lemma divmod_truncate_final divx a b n nr :
  op_wf a -> op_wf b -> op_value b <> 0 ->
  let sg := op_signed a || op_signed b in
  common_width sg n a b -> least_width sg nr b ->
  ~ (sg = true /\ n = 1%nat /\ op_value a = - 2 ^ 63 /\ op_value b = -1) ->
  ~ (divx = true /\ sg = true /\ (1 < n)%nat /\ nr = 1%nat /\ op_value b = - 2 ^ 63) ->
  exists q r, divmod divx truncate a b = Ok (q, r) /\
    has_type sg n q /\ has_type sg nr r /\
    op_value q = wrap sg n (Z.quot (op_value a) (op_value b)) /\
    ((sg = true -> op_signed b = true) \/ Z.abs (op_value a) mod Z.abs (op_value b) < 2 ^ 63 ->
     op_value r = Z.rem (op_value a) (op_value b)).
Proof.
  intros Ha Hb Hb0 sg Hn Hr T1 T2.
  pose proof (common_is_max a b n Ha Hb Hn). pose proof (least_is_count_r a b nr Hb Hr). subst n nr.
  apply (divmod_truncate_all divx a b Ha Hb Hb0). split; assumption.
Qed.

(** When the quotient of the truncated division leaves the common type. *)
Lemma quot_in_range a b :
  op_wf a -> op_wf b -> op_value b <> 0 ->
  let sg := res_signed a b in
  ~ (sg = true /\ op_value a = - 2 ^ (wbits (max_int_count sg a b) - 1) /\ op_value b = -1) ->
  in_range sg (max_int_count sg a b) (Z.quot (op_value a) (op_value b)).
Proof.
  intros Ha Hb Hb0 sg Hmin. destruct (common_in_range a b _ Ha Hb eq_refl) as [Ra Rb].
  fold sg in Ra, Rb. pose proof (max_int_count_pos sg a b Ha) as Pn.
  pose proof (half_pos _ Pn). set (n := max_int_count sg a b) in *.
  set (x := op_value a) in *. set (y := op_value b) in *. unfold in_range in *.
  pose proof (Z.quot_rem' x y) as Hqr. pose proof (Z.rem_bound_abs x y Hb0).
  destruct sg.
  - assert (Habs : Z.abs (Z.quot x y) <= Z.abs x).
    { rewrite <- Z.quot_abs by assumption. rewrite Z.quot_div_nonneg by lia.
      apply Z.div_le_upper_bound; nia. }
    assert (Hcase : Z.quot x y <> 2 ^ (wbits n - 1)).
    { intros E. assert (x = - 2 ^ (wbits n - 1)) by lia.
      apply Hmin. split; [reflexivity|]. split; [assumption|].
      rewrite E in Hqr. assert (Z.abs y = 1 \/ Z.abs y >= 2) as [?|?] by lia; [|nia].
      assert (y = 1 \/ y = -1) as [->|?] by lia; [|assumption]. rewrite Z.quot_1_r in E. lia. }
    lia.
  - rewrite Z.quot_div_nonneg by lia. split; [apply Z.div_pos; lia|].
    apply Z.div_lt_upper_bound; nia.
Qed.

Lemma divmod_law divx a b n nr :
  op_wf a -> op_wf b -> op_value b <> 0 ->
  let sg := op_signed a || op_signed b in
  common_width sg n a b -> least_width sg nr b ->
  ~ (sg = true /\ op_value a = - 2 ^ (wbits n - 1) /\ op_value b = -1) ->
  ~ (divx = true /\ sg = true /\ (1 < n)%nat /\ nr = 1%nat /\ op_value b = - 2 ^ 63) ->
  (sg = true -> op_signed b = true) \/ Z.abs (op_value a) mod Z.abs (op_value b) < 2 ^ 63 ->
  exists q r, divmod divx truncate a b = Ok (q, r) /\
    has_type sg n q /\ has_type sg nr r /\
    op_value a = op_value q * op_value b + op_value r /\
    Z.abs (op_value r) < Z.abs (op_value b) /\
    0 <= op_value r * op_value a.
Proof.
  intros Ha Hb Hb0 sg Hn Hr T1 T2 Hok.
  destruct (divmod_truncate_final divx a b n nr Ha Hb Hb0 Hn Hr) as (q & r & E & Tq & Tr & V1 & V2).
  - intros (S1 & -> & S3 & S4). apply T1. auto.
  - exact T2.
  - exists q, r. split; [assumption|]. split; [assumption|]. split; [assumption|].
    rewrite (V2 Hok). pose proof (common_is_max a b n Ha Hb Hn) as En.
    fold sg in V1. rewrite wrap_id in V1.
    + rewrite V1. pose proof (Z.quot_rem' (op_value a) (op_value b)).
      split; [clear - H; lia|]. split; [apply Z.rem_bound_abs; assumption|].
      destruct (Z.eq_dec (Z.rem (op_value a) (op_value b)) 0) as [->|Hnz]; [lia|].
      pose proof (Z.rem_sign_mul (op_value a) (op_value b) Hb0). lia.
    + rewrite En. apply max_int_count_pos. assumption.
    + rewrite En. apply quot_in_range; try assumption. rewrite <- En. exact T1.
Qed.

Lemma unmul_final divx nq a b na nb :
  op_wf a -> op_wf b -> op_value b <> 0 -> (0 < nq)%nat ->
  let sg := op_signed a || op_signed b in
  least_width sg na a -> least_width sg nb b ->
  in_range sg nq (Z.quot (op_value a) (op_value b)) ->
  ~ (sg = true /\ op_value a = - 2 ^ (wbits (Nat.max na nb) - 1) /\ op_value b = -1) ->
  ~ (divx = true /\ sg = true /\ nb = 1%nat /\ op_value b = - 2 ^ 63 /\
     ((2 < na)%nat \/ (na = 2%nat /\ (1 < nq)%nat))) ->
  (sg = true -> op_signed b = true) \/ Z.abs (op_value a) mod Z.abs (op_value b) < 2 ^ 63 ->
  exists q r, unmul divx nq truncate a b = Ok (q, r) /\
    has_type sg nq q /\ has_type sg nb r /\
    op_value q = Z.quot (op_value a) (op_value b) /\ op_value r = Z.rem (op_value a) (op_value b).
Proof.
  intros Ha Hb Hb0 Hnq sg Hna Hnb Hq T1 T2 Hok.
  pose proof (least_is_count_l a b na Ha Hna) as Ea. pose proof (least_is_count_r a b nb Hb Hnb) as Eb.
  destruct (divx && Nat.eqb nq 1 && Nat.eqb na 2 && Nat.eqb nb 1) eqn:E.
  - assert (divx = true /\ nq = 1%nat /\ na = 2%nat /\ nb = 1%nat) as (-> & -> & -> & ->).
    { clear - E. destruct divx; lia. }
    destruct (unmul_insn a b 1 Ha Hb Hb0 eq_refl) as (q & r & H); [auto | auto | exact Hq |].
    exists q, r. exact H.
  - destruct (unmul_general divx nq a b Ha Hb Hb0) as (q & r & Eq & Tq & Tr & V1 & V2).
    + split.
      * intros (S1 & S2 & S3 & S4). apply T1. split; [exact S1|].
        unfold max_int_count in S2. rewrite <- Ea, <- Eb in S2. rewrite S2. auto.
      * intros (S1 & S2 & S3 & S4 & S5). apply T2. split; [exact S1|]. split; [exact S2|].
        rewrite <- Eb in S4. split; [exact S4|]. split; [exact S5|].
        unfold max_int_count in S3. rewrite <- Ea, <- Eb in S3.
        subst divx. clear - E S3 S4 Hnq. lia.
    + assumption.
    + rewrite <- Ea, <- Eb. exact E.
    + exact Hq.
    + apply quot_in_range; try assumption.
      unfold max_int_count. rewrite <- Ea, <- Eb. exact T1.
    + exists q, r. split; [assumption|]. split; [exact Tq|]. split; [rewrite Eb; exact Tr|].
      split; [exact V1|]. apply V2. exact Hok.
Qed.

Lemma euclid_final divx a b n nr :
  op_wf a -> op_wf b -> 0 < op_value b ->
  let sg := op_signed a || op_signed b in
  common_width sg n a b -> least_width sg nr b ->
  0 <= op_value a \/ op_value a mod op_value b <> 0 ->
  (sg = true -> op_signed b = true) \/ Z.abs (op_value a) mod Z.abs (op_value b) < 2 ^ 63 ->
  exists q r, divmod divx euclid a b = Ok (q, r) /\
    has_type sg n q /\ has_type sg nr r /\
    op_value a = op_value q * op_value b + op_value r /\ 0 <= op_value r < Z.abs (op_value b).
Proof.
  intros Ha Hb Hb0 sg Hn Hr Hc Hok.
  pose proof (common_is_max a b n Ha Hb Hn). pose proof (least_is_count_r a b nr Hb Hr). subst n nr.
  destruct (divmod_euclid_pos divx a b Ha Hb Hb0 Hc Hok) as (q & r & E & T1 & T2 & V1 & V2).
  exists q, r. split; [assumption|]. split; [assumption|]. split; [assumption|]. rewrite V1, V2.
  pose proof (Z.div_mod (op_value a) (op_value b)). pose proof (Z.mod_pos_bound (op_value a) (op_value b) Hb0). lia.
Qed.

Lemma unmul_euclid_final divx nq a b nb :
  op_wf a -> op_wf b -> 0 < op_value b -> (0 < nq)%nat ->
  let sg := op_signed a || op_signed b in
  least_width sg nb b ->
  0 <= op_value a \/ op_value a mod op_value b <> 0 ->
  in_range sg nq (op_value a / op_value b) ->
  (sg = true -> op_signed b = true) \/ Z.abs (op_value a) mod Z.abs (op_value b) < 2 ^ 63 ->
  exists q r, unmul divx nq euclid a b = Ok (q, r) /\
    has_type sg nq q /\ has_type sg nb r /\
    op_value a = op_value q * op_value b + op_value r /\ 0 <= op_value r < Z.abs (op_value b).
Proof.
  intros Ha Hb Hb0 Hnq sg Hnb Hc Hq Hok.
  pose proof (least_is_count_r a b nb Hb Hnb) as Eb.
  assert (H : exists q r, unmul divx nq euclid a b = Ok (q, r) /\
    has_type sg nq q /\ has_type sg nb r /\
    op_value q = op_value a / op_value b /\ op_value r = op_value a mod op_value b).
  { destruct (divx && Nat.eqb nq 1 && Nat.eqb (int_count sg a) 2 && Nat.eqb (int_count sg b) 1) eqn:E.
    - assert (divx = true /\ nq = 1%nat /\ int_count sg a = 2%nat /\ int_count sg b = 1%nat) as (-> & -> & E1 & E2).
      { clear - E. destruct divx; lia. }
      assert (E3 : nb = 1%nat) by (rewrite Eb; exact E2). rewrite E3.
      exact (unmul_euclid_insn a b Ha Hb Hb0 E1 E2 Hc Hq).
    - rewrite Eb. exact (unmul_euclid_general divx nq a b Ha Hb Hb0 Hnq E Hc Hq Hok). }
  destruct H as (q & r & E & T1 & T2 & V1 & V2).
  exists q, r. split; [assumption|]. split; [assumption|]. split; [assumption|]. rewrite V1, V2.
  pose proof (Z.div_mod (op_value a) (op_value b)). pose proof (Z.mod_pos_bound (op_value a) (op_value b) Hb0). lia.
Qed.

(** What the Euclidean mode computes for arbitrary signs. *)
Lemma euclid_actual divx a b n nr :
  op_wf a -> op_wf b -> op_value b <> 0 -> op_signed a = true -> op_signed b = true ->
  common_width true n a b -> least_width true nr b -> (1 < n)%nat ->
  - 2 ^ (wbits n - 1) < op_value a -> - 2 ^ (wbits nr - 1) < op_value b ->
  (forall bytes v, b = OBuiltin true bytes v -> - 2 ^ (8 * Z.of_nat bytes - 1) < v) ->
  exists q r, divmod divx euclid a b = Ok (q, r) /\
    op_value a * Z.sgn (op_value b) = op_value q * Z.abs (op_value b) + op_value r /\
    0 <= op_value r <= Z.abs (op_value b) /\
    (op_value r = Z.abs (op_value b) <->
     op_value a mod op_value b = 0 /\ xorb (op_value a <? 0) (op_value b <? 0) = true).
Proof.
  intros Ha Hb Hb0 Sa Sb Hn Hr Hn1 La Lb Lbb.
  assert (Esg : res_signed a b = true) by (unfold res_signed; rewrite Sa; reflexivity).
  assert (En : n = max_int_count (res_signed a b) a b).
  { apply common_is_max; try assumption. rewrite Sa. exact Hn. }
  assert (Er : nr = int_count (res_signed a b) b).
  { apply least_is_count_r; [assumption|]. rewrite Sa. exact Hr. }
  pose proof (max_int_count_pos (res_signed a b) a b Ha) as Pn. pose proof (int_count_pos (res_signed a b) b Hb) as Pr.
  rewrite <- En in Pn. rewrite <- Er in Pr.
  assert (H63 : (1 <= nr)%nat -> 2 ^ 63 <= 2 ^ (wbits nr - 1)).
  { intros. apply Z.pow_le_mono_r; unfold wbits; lia. }
  destruct (value_ranges a b Ha Hb) as [Ra Rb]. rewrite <- En, Esg in Ra. rewrite <- Er, Esg in Rb.
  destruct (common_in_range a b n Ha Hb En) as [_ Rb']. rewrite Esg in Rb'.
  assert (Hnr : (nr <= n)%nat) by (rewrite En, Er; unfold max_int_count; lia).
  destruct (divmod_euclid_signed divx a b Ha Hb Hb0 Esg) as (q & r & E & T1 & T2 & V1 & V2).
  - split.
    + rewrite <- En. lia.
    + rewrite <- Er. intros (_ & _ & _ & S4 & S5). subst nr. unfold wbits in Lb. 
      rewrite S4 in Lb. change (64 * Z.of_nat 1 - 1) with 63 in Lb. lia.
  - intros _. split; [|split].
    + intros (bytes & Eb & _). specialize (Lbb _ _ Eb). lia.
    + rewrite <- En. lia.
    + intros (ws & Eb & L1 & Ev).
      assert (E1 : nr = 1%nat).
      { rewrite Er, Eb, Esg || rewrite Er, Eb. rewrite <- Eb, Esg. rewrite Eb. cbn [int_count]. rewrite L1. reflexivity. }
      rewrite E1 in Lb. change (wbits 1 - 1) with 63 in Lb. lia.
  - assert (Hok : rem_ok a b) by (left; intros _; exact Sb).
    specialize (V2 Hok). rewrite <- En in V1. rewrite <- Er in V2.
    exists q, r. split; [assumption|].
    set (x := op_value a) in *. set (y := op_value b) in *.
    pose proof (half_pos n Pn). pose proof (half_pos nr Pr). unfold in_range in Ra, Rb.
    pose proof (Z.mod_pos_bound (Z.abs x) (Z.abs y) ltac:(lia)) as Hm.
    pose proof (Z.div_mod (Z.abs x) (Z.abs y) ltac:(lia)) as Hdm.
    pose proof (Z.div_pos (Z.abs x) (Z.abs y) ltac:(lia) ltac:(lia)) as Hdp.
    assert (Hdl : Z.abs x / Z.abs y <= Z.abs x) by (apply Z.div_le_upper_bound; nia).
    assert (Hmod0 : x mod y = 0 <-> Z.abs x mod Z.abs y = 0).
    { rewrite !Z.mod_divide by lia. rewrite Z.divide_abs_l, Z.divide_abs_r. reflexivity. }
    unfold signs_differ in V1, V2. fold x y in V1, V2. rewrite Hmod0.
    set (Q := Z.abs x / Z.abs y) in *. set (R := Z.abs x mod Z.abs y) in *.
    destruct (xorb (x <? 0) (y <? 0)) eqn:Ex.
    + rewrite wrap_id in V1 by (try assumption; unfold in_range; lia).
      rewrite wrap_id in V2 by (try assumption; unfold in_range; lia).
      rewrite V1, V2. split; [|split; [lia | split; lia]].
      assert (Hs : x * Z.sgn y = - Z.abs x).
      { destruct (Z.ltb_spec x 0), (Z.ltb_spec y 0); try discriminate; lia. }
      rewrite Hs. lia.
    + rewrite wrap_id in V1 by (try assumption; unfold in_range; lia).
      rewrite wrap_id in V2 by (try assumption; unfold in_range; lia).
      rewrite V1, V2. split; [|split; [lia | split; [lia | intros [_ D]; discriminate]]].
      assert (Hs : x * Z.sgn y = Z.abs x).
      { destruct (Z.ltb_spec x 0), (Z.ltb_spec y 0); try discriminate; lia. }
      rewrite Hs. lia.
Qed.
