(** unmul, conversions, hexadecimal literals. *)
From Coq Require Import ZArith List Bool Lia ZifyBool ZifyNat.
From Verif Require Import LargeIntsModel LargeIntsSpec WordsProofs ArithProofs ShiftProofs MulProofs
  DivProofs DivmodProofs.
Import ListNotations.
Local Open Scope Z_scope.

(** ** unmul *)

Lemma two_word_value sg a :
  op_wf a -> (sg = true \/ op_signed a = false) -> int_count sg a = 2%nat ->
  op_value a = (if sg then sword (word_at a 1) else word_at a 1) * Bw + word_at a 0.
Proof.
  intros Ha Hs E. pose proof (int_count_fits sg a 2 Ha Hs ltac:(lia)) as Hr.
  rewrite (word_at_digit a 0 Ha), pw_0, Z.div_1_r.
  destruct sg.
  - pose proof (sign_word_digit a 1 true Ha Hr eq_refl) as H. rewrite pw_1 in H. lia.
  - rewrite (word_at_digit a 1 Ha), pw_1. unfold in_range in Hr. rewrite pw_wbits in Hr.
    change (pw 2) with (pw (1 + 1)) in Hr. rewrite pw_add, pw_1 in Hr. pose proof Bw_pos.
    rewrite (Z.mod_small (op_value a / Bw)).
    + pose proof (Z.div_mod (op_value a) Bw). lia.
    + split; [apply Z.div_pos; lia | apply Z.div_lt_upper_bound; lia].
Qed.

Lemma rem_bound x y : y <> 0 -> Z.abs (Z.rem x y) < Z.abs y.
Proof. intros. apply Z.rem_bound_abs. assumption. Qed.

Lemma one_word_value w : op_value (OComp false [w]) = w.
Proof. unfold op_value. rewrite le_val_cons, le_val_nil. lia. Qed.

Lemma unmul_insn a b nq :
  op_wf a -> op_wf b -> op_value b <> 0 ->
  let sg := res_signed a b in
  nq = 1%nat -> int_count sg a = 2%nat -> int_count sg b = 1%nat ->
  in_range sg nq (Z.quot (op_value a) (op_value b)) ->
  exists q r, unmul true nq truncate a b = Ok (q, r) /\
    has_type sg nq q /\ has_type sg 1 r /\
    op_value q = Z.quot (op_value a) (op_value b) /\
    op_value r = Z.rem (op_value a) (op_value b).
Proof.
  intros Ha Hb Hb0 sg -> Ea Eb Hq.
  pose proof (two_word_value sg a Ha (res_signed_l a b) Ea) as Va.
  pose proof (single_word_value sg b Hb (res_signed_r a b) Eb) as Vb.
  pose proof (int_count_fits sg b 1 Hb (res_signed_r a b) ltac:(lia)) as Rb.
  unfold unmul. fold sg. rewrite Ea, Eb. cbn [Nat.eqb andb].
  pose proof (rem_bound (op_value a) (op_value b) Hb0) as Hrb.
  destruct (bool_dec sg true) as [Esg|Esg].
  - rewrite Esg in *. unfold idiv_insn. rewrite <- Vb, <- Va.
    destruct (Z.eqb_spec (op_value b) 0); [lia|].
    unfold in_range, wbits in Hq, Rb. change (64 * Z.of_nat 1 - 1) with 63 in *. 
    replace ((- Hw <=? Z.quot (op_value a) (op_value b)) && (Z.quot (op_value a) (op_value b) <? Hw)) with true.
    2:{ symmetry. apply andb_true_iff. unfold Hw. split; [apply Z.leb_le | apply Z.ltb_lt]; lia. }
    cbn [obind]. eexists _, _. split; [reflexivity|].
    split; [repeat split; constructor; [apply uword_word | constructor]|].
    split; [repeat split; constructor; [apply uword_word | constructor]|].
    rewrite !uword_val. split; apply wrap_id; try lia; unfold in_range, wbits;
      change (64 * Z.of_nat 1 - 1) with 63; lia.
  - apply not_true_is_false in Esg. rewrite Esg in *. unfold udiv_insn. rewrite <- Vb, <- Va.
    destruct (Z.eqb_spec (op_value b) 0); [lia|].
    unfold in_range, wbits in Hq, Rb. change (64 * Z.of_nat 1) with 64 in *. fold Bw in Hq, Rb.
    assert (Pa : 0 <= op_value a).
    { rewrite Va. pose proof (is_word_bw _ (word_at_word a 1 Ha)). pose proof (is_word_bw _ (word_at_word a 0 Ha)).
      pose proof Bw_pos. nia. }
    rewrite Z.quot_div_nonneg in * by lia. rewrite Z.rem_mod_nonneg in * by lia.
    destruct (Z.leb_spec Bw (op_value a / op_value b)); [lia|].
    cbn [obind fst snd]. eexists _, _. split; [reflexivity|].
    pose proof (Z.mod_pos_bound (op_value a) (op_value b) ltac:(lia)).
    split; [repeat split; constructor; [apply word_intro; lia | constructor]|].
    split; [repeat split; constructor; [apply word_intro; lia | constructor]|].
    rewrite !one_word_value. split; reflexivity.
Qed.

Lemma divmod_truncate_all divx a b :
  op_wf a -> op_wf b -> op_value b <> 0 -> no_trap divx a b ->
  let sg := res_signed a b in
  exists q r, divmod divx truncate a b = Ok (q, r) /\
    has_type sg (max_int_count sg a b) q /\ has_type sg (int_count sg b) r /\
    op_value q = wrap sg (max_int_count sg a b) (Z.quot (op_value a) (op_value b)) /\
    (rem_ok a b -> op_value r = Z.rem (op_value a) (op_value b)).
Proof.
  intros Ha Hb Hb0 Hnt sg. destruct (bool_dec sg true) as [Esg|Esg].
  - destruct (divmod_truncate_signed divx a b Ha Hb Hb0 Esg Hnt) as (q & r & H).
    unfold sg in Esg. exists q, r. unfold sg. rewrite Esg in *. exact H.
  - apply not_true_is_false in Esg.
    destruct (divmod_unsigned divx a b Ha Hb Hb0 truncate Esg) as (q & r & E & T1 & T2 & V1 & V2).
    unfold sg in *. rewrite Esg in *. exists q, r.
    assert (Pa : 0 <= op_value a /\ 0 <= op_value b).
    { destruct (common_in_range a b _ Ha Hb eq_refl) as [R1 R2]. rewrite Esg in *. unfold in_range in *. lia. }
    rewrite Z.quot_div_nonneg, Z.rem_mod_nonneg by lia.
    rewrite !Z.abs_eq in V1, V2 by lia.
    repeat split; try assumption; try apply T1; try apply T2.
    + pose proof (max_int_count_pos false a b Ha) as P. symmetry. rewrite <- V1. apply wrap_id; [assumption|].
      destruct q as [s ws|]; [|contradiction]. destruct T1 as (-> & Hl & T3). rewrite <- Hl.
      apply op_value_range_comp; [|assumption]. intros ->. cbn [length] in Hl. lia.
    + intros _. exact V2.
Qed.

Lemma unmul_general divx nq a b :
  op_wf a -> op_wf b -> op_value b <> 0 -> no_trap divx a b -> (0 < nq)%nat ->
  let sg := res_signed a b in
  divx && Nat.eqb nq 1 && Nat.eqb (int_count sg a) 2 && Nat.eqb (int_count sg b) 1 = false ->
  in_range sg nq (Z.quot (op_value a) (op_value b)) ->
  in_range sg (max_int_count sg a b) (Z.quot (op_value a) (op_value b)) ->
  exists q r, unmul divx nq truncate a b = Ok (q, r) /\
    has_type sg nq q /\ has_type sg (int_count sg b) r /\
    op_value q = Z.quot (op_value a) (op_value b) /\
    (rem_ok a b -> op_value r = Z.rem (op_value a) (op_value b)).
Proof.
  intros Ha Hb Hb0 Hnt Hnq sg Hni Hq Hqn.
  destruct (divmod_truncate_all divx a b Ha Hb Hb0 Hnt) as (q & r & E & T1 & T2 & V1 & V2).
  fold sg in T1, T2, V1. unfold unmul. fold sg. rewrite Hni, E. cbn [obind fst snd].
  assert (Pn : (0 < max_int_count sg a b)%nat) by (apply max_int_count_pos; assumption).
  assert (Pr : (0 < int_count sg b)%nat) by (apply int_count_pos; assumption).
  assert (Wq : op_wf q).
  { destruct q as [s ws|]; [|contradiction]. destruct T1 as (_ & L & F). eapply comp_wf; [|eassumption|eassumption]; assumption. }
  assert (Wr : op_wf r).
  { destruct r as [s ws|]; [|contradiction]. destruct T2 as (_ & L & F). eapply comp_wf; [|eassumption|eassumption]; assumption. }
  assert (Rr : in_range sg (int_count sg b) (op_value r)).
  { destruct r as [s ws|]; [|contradiction]. destruct T2 as (-> & <- & F).
    apply op_value_range_comp; [apply Wr | assumption]. }
  eexists _, _. split; [reflexivity|]. split; [apply to_words_type, Wq|]. split; [apply to_words_type, Wr|].
  rewrite !to_words_value by assumption. rewrite V1, (wrap_id sg (max_int_count sg a b)) by assumption.
  split; [apply wrap_id; assumption|]. intros Hok. rewrite <- (V2 Hok). apply wrap_id; assumption.
Qed.

(** ** Conversions *)

Lemma to_bool_correct ws : Forall is_word ws -> to_bool ws = true <-> le_val ws <> 0.
Proof.
  induction 1 as [|w r Hw HF IH].
  - cbn. split; [discriminate | intros H; contradiction].
  - cbn [to_bool]. rewrite le_val_cons. pose proof (le_val_bound r HF). apply is_word_bw in Hw.
    pose proof Bw_pos. destruct (Z.eqb_spec w 0) as [->|Hn].
    + rewrite IH. nia.
    + split; [intros _; nia | reflexivity].
Qed.

Lemma cast_small sg ws bits :
  op_wf (OComp sg ws) -> 0 < bits <= 64 ->
  cast_to bits ws sg = op_value (OComp sg ws) mod 2 ^ bits.
Proof.
  intros Hwf Hb. unfold cast_to.
  assert (Etc : Z.to_nat ((bits + 63) / 64) = 1%nat).
  { assert ((bits + 63) / 64 = 1) as ->; [|reflexivity].
    symmetry. apply Z.div_unique with (r := bits - 1); lia. }
  rewrite Etc. pose proof (wf_len _ _ Hwf) as Hl. set (n := length ws) in *.
  assert (H : forall m, (0 < m)%nat -> cast_bits bits 1 m (OComp sg ws) = word_at (OComp sg ws) 0 mod 2 ^ bits).
  { induction m as [|m IH]; intros Hm; [lia|]. cbn [cast_bits].
    destruct (Nat.eqb_spec m 0); [reflexivity|].
    destruct (Nat.leb_spec (S m) 1); [lia|]. apply IH. lia. }
  rewrite H by assumption. rewrite word_at_digit, pw_0, Z.div_1_r by assumption.
  assert (E : Bw = 2 ^ bits * 2 ^ (64 - bits)).
  { rewrite <- Z.pow_add_r by lia. unfold Bw. f_equal. lia. }
  assert (0 < 2 ^ bits) by (apply Z.pow_pos_nonneg; lia).
  assert (0 < 2 ^ (64 - bits)) by (apply Z.pow_pos_nonneg; lia).
  rewrite E, Z.rem_mul_r, Z.mul_comm, Z.mod_add, Z.mod_mod by lia. reflexivity.
Qed.

Lemma unsigned_to_float_small ws :
  (1 <= length ws <= 2)%nat -> unsigned_to_float (length ws) ws = le_val ws.
Proof.
  intros H. destruct ws as [|w0 [|w1 [|? ?]]]; cbn [length] in H; try lia.
  - cbn [length]. cbn [unsigned_to_float Nat.eqb nth]. rewrite le_val_cons, le_val_nil. lia.
  - cbn [length]. cbn [unsigned_to_float Nat.eqb nth]. rewrite !le_val_cons, le_val_nil.
    change (2 ^ (32 * Z.of_nat 2)) with Bw. lia.
Qed.

Lemma to_float_small sg ws :
  op_wf (OComp sg ws) -> (length ws <= 2)%nat -> to_float sg ws = Ok (op_value (OComp sg ws)).
Proof.
  intros Hwf Hl. unfold to_float. pose proof (wf_len _ _ Hwf) as H0.
  pose proof (is_negative_correct sg ws Hwf) as Hneg.
  destruct Hwf as [Hne HF].
  destruct (Nat.ltb_spec 1 (length ws)) as [H1|H1].
  - pose proof (le_val_bound ws HF). pose proof (pw_half _ H0). pose proof (half_pos _ H0).
    destruct (is_negative sg ws) eqn:En.
    + symmetry in Hneg. apply Z.ltb_lt in Hneg. 
      assert (sg = true) as -> by (unfold is_negative in En; destruct sg; [reflexivity | discriminate]).
      pose proof (abs_correct true ws (conj Hne HF)) as HA.
      assert (EA : abs true ws = neg ws).
      { unfold abs. cbn [negb]. unfold is_negative in En. cbn [andb] in En. rewrite En.
        destruct ws as [|? [|? ?]]; cbn [length] in *; try lia. reflexivity. }
      rewrite EA in HA. destruct (neg ws) as [m|] eqn:Em.
      2:{ lia. }
      destruct HA as (T & rs & -> & Vr). destruct T as (_ & Lr & _).
      cbn [obind words_of]. f_equal. rewrite <- Lr. rewrite unsigned_to_float_small by lia. lia.
    + f_equal. symmetry in Hneg. apply Z.ltb_ge in Hneg. rewrite unsigned_to_float_small by lia.
      destruct sg; [|reflexivity]. cbn [op_value] in *. unfold as_signed in *. rewrite pw_wbits in *.
      destruct (Z.ltb_spec (le_val ws) (2 ^ (wbits (length ws) - 1))); lia.
  - destruct ws as [|w [|? ?]]; cbn [length] in *; try lia. cbn [nth]. f_equal.
    inversion HF; subst. destruct sg.
    + cbn [op_value]. unfold as_signed, sword, wbits. cbn [length]. rewrite le_val_cons, le_val_nil.
      change (64 * Z.of_nat 1) with 64. change (64 - 1) with 63. unfold Hw, Bw.
      replace (w + 2 ^ 64 * 0) with w by lia. reflexivity.
    + cbn [op_value]. rewrite le_val_cons, le_val_nil. lia.
Qed.

(** ** Hexadecimal literals *)

(** Value of a digit list, least significant digit first. *)
Fixpoint hex_le (ds : list Z) : Z :=
  match ds with [] => 0 | d :: r => d + 16 * hex_le r end.

Definition is_hex (d : Z) : Prop := 0 <= d < 16.

Lemma hex_value_val ds : forall nyb cur vals,
  Forall is_hex ds -> (nyb <= 16)%nat -> 0 <= cur < 16 ^ Z.of_nat nyb -> Forall is_word vals ->
  let r := hex_value ds nyb cur vals in
  Forall is_word r /\ (0 < length r)%nat /\
  le_val (rev r) = le_val (rev vals) + pw (length vals) * (cur + 16 ^ Z.of_nat nyb * hex_le ds).
Proof.
  assert (E64 : Bw = 16 ^ 16) by reflexivity.
  induction ds as [|d ds IH]; intros nyb cur vals HF Hny Hcur HV; cbv zeta.
  - cbn [hex_value hex_le]. assert (16 ^ Z.of_nat nyb <= 16 ^ 16) by (apply Z.pow_le_mono_r; lia).
    split; [constructor; [apply word_intro; lia | assumption]|]. split; [cbn [length]; lia|].
    cbn [rev]. rewrite le_val_snoc, rev_length. f_equal. f_equal. lia.
  - inversion HF as [|? ? Hd HF']; subst. cbn [hex_value]. unfold is_hex in Hd.
    destruct (Nat.leb_spec 16 nyb) as [Hge|Hlt].
    + assert (nyb = 16%nat) by lia. subst nyb. change (Z.of_nat 16) with 16 in *.
      destruct (IH 1%nat d (cur :: vals) HF' ltac:(lia) ltac:(cbn; lia)) as (I1 & I2 & I3).
      { constructor; [apply word_intro; lia | assumption]. }
      split; [assumption|]. split; [assumption|]. rewrite I3.
      cbn [rev length]. rewrite le_val_snoc, rev_length, pw_S. cbn [hex_le].
      change (16 ^ Z.of_nat 1) with 16. rewrite <- E64. ring.
    + assert (Hpow : 16 ^ Z.of_nat (S nyb) = 16 * 16 ^ Z.of_nat nyb).
      { replace (Z.of_nat (S nyb)) with (Z.succ (Z.of_nat nyb)) by lia. apply Z.pow_succ_r. lia. }
      assert (Hle : 16 * 16 ^ Z.of_nat nyb <= Bw).
      { rewrite <- Hpow, E64. apply Z.pow_le_mono_r; lia. }
      assert (Hp2 : 2 ^ (4 * Z.of_nat nyb) = 16 ^ Z.of_nat nyb).
      { change 16 with (2 ^ 4) at 1. rewrite <- Z.pow_mul_r by lia. reflexivity. }
      assert (Hpos : 0 < 16 ^ Z.of_nat nyb) by (apply Z.pow_pos_nonneg; lia).
      set (P := 16 ^ Z.of_nat nyb) in *.
      assert (Ecur : Z.lor cur (uword (d * 2 ^ (4 * Z.of_nat nyb))) = cur + d * P).
      { unfold uword. rewrite Z.mod_small by nia.
        rewrite lor_disjoint; [rewrite Hp2; reflexivity | lia | rewrite Hp2; lia | lia]. }
      rewrite Ecur. set (c := cur + d * P).
      assert (Hc : 0 <= c < 16 ^ Z.of_nat (S nyb)) by (rewrite Hpow; subst c; nia).
      assert (Wc : is_word c) by (apply word_intro; lia).
      destruct ds as [|d' ds'].
      * cbn [hex_le].
        destruct (Nat.eqb (S nyb) 16 && (8 <=? d)).
        -- split; [constructor; [apply word_intro; pose proof Bw_pos; lia | constructor; assumption]|].
           split; [cbn [length]; lia|].
           cbn [rev]. rewrite !le_val_snoc, rev_length. subst c. ring.
        -- split; [constructor; assumption|]. split; [cbn [length]; lia|].
           cbn [rev]. rewrite !le_val_snoc, rev_length. subst c. ring.
      * destruct (IH (S nyb) c vals HF' ltac:(lia) Hc HV) as (I1 & I2 & I3).
        split; [assumption|]. split; [assumption|]. rewrite I3, Hpow. subst c.
        set (T := hex_le (d' :: ds')). 
        change (hex_le (d :: d' :: ds')) with (d + 16 * T). ring.
Qed.

(** The top word never has its sign bit set. *)
Lemma hex_value_top ds : forall nyb cur vals,
  Forall is_hex ds -> (nyb <= 16)%nat -> 0 <= cur < 16 ^ Z.of_nat nyb ->
  (ds = [] -> cur < Hw) ->
  hd 0 (hex_value ds nyb cur vals) < Hw.
Proof.
  assert (E63 : Hw = 8 * 16 ^ 15) by reflexivity.
  induction ds as [|d ds IH]; intros nyb cur vals HF Hny Hcur Hnil.
  - cbn [hex_value hd]. apply Hnil. reflexivity.
  - inversion HF as [|? ? Hd HF']; subst. cbn [hex_value]. unfold is_hex in Hd.
    destruct (Nat.leb_spec 16 nyb) as [Hge|Hlt].
    + apply IH; [assumption | lia | cbn; lia |]. intros _. rewrite E63.
      assert (16 <= 16 ^ 15) by (apply (Z.pow_le_mono_r 16 1 15); lia). lia.
    + assert (Hpow : 16 ^ Z.of_nat (S nyb) = 16 * 16 ^ Z.of_nat nyb).
      { replace (Z.of_nat (S nyb)) with (Z.succ (Z.of_nat nyb)) by lia. apply Z.pow_succ_r. lia. }
      assert (Hle : 16 * 16 ^ Z.of_nat nyb <= Bw).
      { rewrite <- Hpow. change Bw with (16 ^ 16). apply Z.pow_le_mono_r; lia. }
      assert (Hp2 : 2 ^ (4 * Z.of_nat nyb) = 16 ^ Z.of_nat nyb).
      { change 16 with (2 ^ 4) at 1. rewrite <- Z.pow_mul_r by lia. reflexivity. }
      assert (Hpos : 0 < 16 ^ Z.of_nat nyb) by (apply Z.pow_pos_nonneg; lia).
      assert (HP15 : (nyb <= 14)%nat -> 16 * 16 ^ Z.of_nat nyb <= 16 ^ 15).
      { intros. rewrite <- Hpow. apply Z.pow_le_mono_r; lia. }
      assert (HP : nyb = 15%nat -> 16 ^ Z.of_nat nyb = 16 ^ 15) by (intros ->; reflexivity).
      assert (P15 : 0 < 16 ^ 15) by reflexivity.
      set (P := 16 ^ Z.of_nat nyb) in *. set (P15' := 16 ^ 15) in *.
      assert (Ecur : Z.lor cur (uword (d * 2 ^ (4 * Z.of_nat nyb))) = cur + d * P).
      { unfold uword. rewrite Z.mod_small by nia.
        rewrite lor_disjoint; [rewrite Hp2; reflexivity | lia | rewrite Hp2; lia | lia]. }
      rewrite Ecur.
      destruct ds as [|d' ds'].
      * destruct (Nat.eqb_spec (S nyb) 16); cbn [andb].
        -- destruct (Z.leb_spec 8 d); cbn [hd]; [pose proof Hw_pos; lia|].
           rewrite E63. rewrite HP in * by lia. nia.
        -- cbn [hd]. rewrite E63. specialize (HP15 ltac:(lia)). nia.
      * apply IH; [assumption | lia | rewrite Hpow; nia | discriminate].
Qed.

Lemma hex_value_length_pos ds nyb cur vals : (0 < length (hex_value ds nyb cur vals))%nat.
Proof.
  revert nyb cur vals. induction ds as [|d ds IH]; intros; cbn [hex_value]; [cbn; lia|].
  destruct (Nat.leb 16 nyb); [apply IH|]. destruct ds.
  - destruct (_ && _); cbn; lia.
  - apply IH.
Qed.

Lemma compi_literal_correct ds :
  Forall is_hex ds -> op_wf (compi_literal ds) /\ op_value (compi_literal ds) = hex_le (rev ds).
Proof.
  intros HF.
  assert (HFr : Forall is_hex (rev ds)) by (apply Forall_rev; assumption).
  pose proof (hex_value_val (rev ds) 0 0 [] HFr ltac:(lia) ltac:(cbn; lia) ltac:(constructor)) as (H1 & H2 & H3).
  pose proof (hex_value_top (rev ds) 0 0 [] HFr ltac:(lia) ltac:(cbn; lia) ltac:(intros; apply Hw_pos || (pose proof Hw_pos; lia))) as Ht.
  unfold compi_literal. set (r := hex_value (rev ds) 0 0 []) in *.
  assert (Wr : Forall is_word (rev r)) by (apply Forall_rev; assumption).
  assert (Lr : (0 < length (rev r))%nat) by (rewrite rev_length; assumption).
  assert (Wf : op_wf (OComp true (rev r))).
  { split; [|assumption]. intros E. rewrite E in Lr. cbn in Lr. lia. }
  split; [assumption|].
  assert (Hv : le_val (rev r) = hex_le (rev ds)).
  { rewrite H3. cbn [rev length]. rewrite pw_0, le_val_nil.
    change (16 ^ Z.of_nat 0) with 1. ring. }
  rewrite <- Hv.
  (* sign bit clear *)
  assert (Hneg : is_negative true (rev r) = false).
  { unfold is_negative. cbn [andb].
    rewrite sword_neg by (apply nth_word; assumption).
    apply negb_false_iff, Z.ltb_lt.
    rewrite rev_length. rewrite rev_nth by (rewrite rev_length in Lr; lia).
    replace (length r - S (length r - 1))%nat with 0%nat by (rewrite rev_length in Lr; lia).
    destruct r; [cbn in H2; lia | exact Ht]. }
  rewrite (is_negative_correct true (rev r) Wf) in Hneg. apply Z.ltb_ge in Hneg.
  pose proof (le_val_bound (rev r) Wr). pose proof (pw_half _ Lr). pose proof (half_pos _ Lr).
  unfold op_value, as_signed in *. rewrite pw_wbits in *.
  destruct (Z.ltb_spec (le_val (rev r)) (2 ^ (wbits (length (rev r)) - 1))); lia.
Qed.
