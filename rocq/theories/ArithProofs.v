(** Addition, subtraction, negation, absolute value and comparison. *)
From Coq Require Import ZArith List Bool Lia ZifyBool ZifyNat.
From Verif Require Import LargeIntsModel LargeIntsSpec WordsProofs.
Import ListNotations.
Local Open Scope Z_scope.

Definition bz (b : bool) : Z := if b then 1 else 0.

Lemma adc_spec a b c :
  is_word a -> is_word b ->
  is_word (fst (adc a b c)) /\
  fst (adc a b c) + Bw * bz (snd (adc a b c)) = a + b + bz c.
Proof.
  intros Ha Hb. apply is_word_bw in Ha, Hb. pose proof Bw_pos.
  unfold adc; cbn [fst snd]. fold (bz c).
  set (cz := bz c). assert (0 <= cz <= 1) by (subst cz; unfold bz; destruct c; lia).
  split.
  - apply word_intro, Z.mod_pos_bound. lia.
  - destruct (Z.leb_spec Bw (a + b)) as [H1|H1].
    + assert (E : (a + b) mod Bw = a + b - Bw)
        by (symmetry; apply Z.mod_unique with (q := 1); lia).
      rewrite E. destruct (Z.leb_spec Bw (a + b - Bw + cz)); [lia|].
      rewrite Z.mod_small by lia. unfold bz; cbn [orb]. lia.
    + assert (E : (a + b) mod Bw = a + b) by (apply Z.mod_small; lia).
      rewrite E. destruct (Z.leb_spec Bw (a + b + cz)) as [H2|H2]; cbn [orb bz].
      * assert (a + b + cz = Bw) by lia. rewrite H3, Z_mod_same_full. lia.
      * rewrite Z.mod_small by lia. lia.
Qed.

Lemma sbb_spec a b c :
  is_word a -> is_word b ->
  is_word (fst (sbb a b c)) /\
  fst (sbb a b c) - Bw * bz (snd (sbb a b c)) = a - b - bz c.
Proof.
  intros Ha Hb. apply is_word_bw in Ha, Hb. pose proof Bw_pos.
  unfold sbb; cbn [fst snd]. fold (bz c).
  set (cz := bz c). assert (0 <= cz <= 1) by (subst cz; unfold bz; destruct c; lia).
  split.
  - apply word_intro, Z.mod_pos_bound. lia.
  - destruct (Z.ltb_spec a b) as [H1|H1].
    + assert (E : (a - b) mod Bw = a - b + Bw)
        by (symmetry; apply Z.mod_unique with (q := -1); lia).
      rewrite E. cbn [orb bz].
      rewrite Z.mod_small by lia. lia.
    + assert (E : (a - b) mod Bw = a - b) by (apply Z.mod_small; lia).
      rewrite E. destruct (Z.ltb_spec (a - b) cz) as [H2|H2]; cbn [orb bz].
      * rewrite <- (Z.mod_unique_pos (a - b - cz) Bw (-1) (Bw - 1)) by lia. lia.
      * rewrite Z.mod_small by lia. lia.
Qed.

Lemma addcarry_length n a b : length (fst (addcarry n a b)) = n.
Proof.
  induction n as [|n IH]; [reflexivity|]. cbn [addcarry].
  destruct (addcarry n a b) as [lo c]. destruct (adc _ _ c). cbn [fst] in *.
  rewrite app_length, IH. cbn. lia.
Qed.

Lemma addcarry_spec n a b :
  op_wf a -> op_wf b ->
  Forall is_word (fst (addcarry n a b)) /\
  le_val (fst (addcarry n a b)) + pw n * bz (snd (addcarry n a b))
  = op_value a mod pw n + op_value b mod pw n.
Proof.
  intros Ha Hb. induction n as [|n IH].
  - cbn [addcarry fst snd bz]. rewrite pw_0, !Z.mod_1_r. split; [constructor | reflexivity].
  - cbn [addcarry]. pose proof (addcarry_length n a b) as Hl.
    destruct (addcarry n a b) as [lo c].
    pose proof (adc_spec (word_at a n) (word_at b n) c
                  (word_at_word a n Ha) (word_at_word b n Hb)) as Hs.
    destruct (adc (word_at a n) (word_at b n) c) as [w c']. cbn [fst snd] in *.
    destruct IH as [IHw IHv]. destruct Hs as [Hsw Hsv]. split.
    + apply Forall_app; auto.
    + rewrite le_val_snoc, Hl, !mod_pw_S, <- !word_at_digit, pw_S by assumption.
      nia.
Qed.

Lemma subborrow_length n a b : length (fst (subborrow n a b)) = n.
Proof.
  induction n as [|n IH]; [reflexivity|]. cbn [subborrow].
  destruct (subborrow n a b) as [lo c]. destruct (sbb _ _ c). cbn [fst] in *.
  rewrite app_length, IH. cbn. lia.
Qed.

Lemma subborrow_spec n a b :
  op_wf a -> op_wf b ->
  Forall is_word (fst (subborrow n a b)) /\
  le_val (fst (subborrow n a b)) - pw n * bz (snd (subborrow n a b))
  = op_value a mod pw n - op_value b mod pw n.
Proof.
  intros Ha Hb. induction n as [|n IH].
  - cbn [subborrow fst snd bz]. rewrite pw_0, !Z.mod_1_r. split; [constructor | reflexivity].
  - cbn [subborrow]. pose proof (subborrow_length n a b) as Hl.
    destruct (subborrow n a b) as [lo c].
    pose proof (sbb_spec (word_at a n) (word_at b n) c
                  (word_at_word a n Ha) (word_at_word b n Hb)) as Hs.
    destruct (sbb (word_at a n) (word_at b n) c) as [w c']. cbn [fst snd] in *.
    destruct IH as [IHw IHv]. destruct Hs as [Hsw Hsv]. split.
    + apply Forall_app; auto.
    + rewrite le_val_snoc, Hl, !mod_pw_S, <- !word_at_digit, pw_S by assumption.
      nia.
Qed.

Lemma addcarry_val n a b :
  op_wf a -> op_wf b -> le_val (fst (addcarry n a b)) = (op_value a + op_value b) mod pw n.
Proof.
  intros Ha Hb. destruct (addcarry_spec n a b Ha Hb) as [HF Hv].
  pose proof (le_val_bound _ HF) as Hb2. rewrite addcarry_length in Hb2.
  rewrite Zplus_mod, <- Hv.
  rewrite (Z.mul_comm (pw n)), Z.mod_add by (pose proof (pw_pos n); lia).
  symmetry. apply Z.mod_small. lia.
Qed.

Lemma subborrow_val n a b :
  op_wf a -> op_wf b -> le_val (fst (subborrow n a b)) = (op_value a - op_value b) mod pw n.
Proof.
  intros Ha Hb. destruct (subborrow_spec n a b Ha Hb) as [HF Hv].
  pose proof (le_val_bound _ HF) as Hb2. rewrite subborrow_length in Hb2.
  rewrite Zminus_mod, <- Hv.
  rewrite (Z.mul_comm (pw n)).
  replace (le_val (fst (subborrow n a b)) - bz (snd (subborrow n a b)) * pw n)
    with (le_val (fst (subborrow n a b)) + (- bz (snd (subborrow n a b))) * pw n) by ring.
  rewrite Z.mod_add by (pose proof (pw_pos n); lia).
  symmetry. apply Z.mod_small. lia.
Qed.

(** ** Result width *)

Lemma type_range_holds sg o n z :
  op_wf o -> (sg = true \/ op_signed o = false) -> (int_count sg o <= n)%nat ->
  type_range o z -> in_range sg n z.
Proof.
  intros Hwf Hs Hn Hz.
  destruct o as [s ws|s bytes v].
  - destruct Hwf as [Hne HF].
    assert (Hl : (0 < length ws)%nat) by (destruct ws; [congruence | cbn; lia]).
    (* a word list of that length with value z *)
    assert (E : op_value (OComp s (to_words (length ws)
       (OComp true (to_words (S (length ws)) (OComp s ws))))) = 0 \/ True) by auto.
    unfold int_count in Hn. unfold type_range in Hz.
    destruct sg, s; cbn [andb negb] in Hn; unfold in_range in *.
    + assert (2 ^ (wbits (length ws) - 1) <= 2 ^ (wbits n - 1))
        by (apply Z.pow_le_mono_r; unfold wbits; lia). lia.
    + assert (2 ^ wbits (length ws) <= 2 ^ (wbits n - 1))
        by (apply Z.pow_le_mono_r; unfold wbits; lia).
      pose proof (half_pos n ltac:(lia)). lia.
    + destruct Hs; discriminate.
    + assert (2 ^ wbits (length ws) <= 2 ^ wbits n)
        by (apply Z.pow_le_mono_r; unfold wbits; lia). lia.
  - apply (int_count_fits sg (OBuiltin s bytes z)); [|assumption|assumption].
    split; [apply Hwf | exact Hz].
Qed.

Lemma pow2_lt_inv a b : 0 <= a -> 2 ^ a < 2 ^ b -> a < b.
Proof.
  intros Ha H. destruct (Z.lt_ge_cases a b) as [|Hge]; [assumption|].
  destruct (Z.lt_ge_cases b 0).
  - rewrite (Z.pow_neg_r 2 b) in H by lia. pose proof (Z.pow_pos_nonneg 2 a). lia.
  - pose proof (Z.pow_le_mono_r 2 b a). lia.
Qed.

Lemma pow2_le_inv a b : 0 <= a -> 2 ^ a <= 2 ^ b -> a <= b.
Proof.
  intros Ha H. destruct (Z.le_gt_cases a b) as [|Hgt]; [assumption|].
  destruct (Z.lt_ge_cases b 0).
  - rewrite (Z.pow_neg_r 2 b) in H by lia. pose proof (Z.pow_pos_nonneg 2 a). lia.
  - pose proof (Z.pow_lt_mono_r 2 b a). lia.
Qed.

Lemma holds_int_count sg o m :
  op_wf o -> (0 < m)%nat -> holds_type sg m o -> (int_count sg o <= m)%nat.
Proof.
  intros Hwf Hm H.
  destruct o as [s ws|s bytes v]; unfold holds_type, type_range in H; unfold int_count.
  - destruct Hwf as [Hne HF].
    assert (Hl : (0 < length ws)%nat) by (destruct ws; [congruence | cbn; lia]).
    pose proof (half_pos _ Hl). pose proof (half_pos _ Hm).
    destruct s.
    + rewrite andb_false_r. 
      specialize (H (- 2 ^ (wbits (length ws) - 1))).
      unfold in_range in H. destruct sg.
      * assert (2 ^ (wbits (length ws) - 1) <= 2 ^ (wbits m - 1)) as Hle by lia.
        apply pow2_le_inv in Hle; unfold wbits in *; lia.
      * lia.
    + specialize (H (2 ^ wbits (length ws) - 1)).
      assert (1 <= 2 ^ wbits (length ws)) by (pose proof (Z.pow_pos_nonneg 2 (wbits (length ws))); unfold wbits in *; lia).
      unfold in_range in H. destruct sg; cbn [andb negb].
      * assert (2 ^ wbits (length ws) <= 2 ^ (wbits m - 1)) as Hle by lia.
        apply pow2_le_inv in Hle; unfold wbits in *; lia.
      * assert (2 ^ wbits (length ws) <= 2 ^ wbits m) as Hle by lia.
        apply pow2_le_inv in Hle; unfold wbits in *; lia.
  - destruct Hwf as [Hby _].
    assert (Hdiv : forall k, (bytes + 8 - k < 8 * (m + 1))%nat -> (Nat.div (bytes + 8 - k) 8 <= m)%nat).
    { intros k Hk. pose proof (Nat.div_mod_eq (bytes + 8 - k) 8). lia. }
    pose proof (half_pos _ Hm).
    destruct s; cbn [orb].
    + assert (0 < 2 ^ (8 * Z.of_nat bytes - 1)) by (apply Z.pow_pos_nonneg; lia).
      specialize (H (- 2 ^ (8 * Z.of_nat bytes - 1))).
      unfold in_range, builtin_range in H. apply Hdiv. destruct sg.
      * assert (2 ^ (8 * Z.of_nat bytes - 1) <= 2 ^ (wbits m - 1)) as Hle by lia.
        apply pow2_le_inv in Hle; unfold wbits in *; lia.
      * lia.
    + assert (1 <= 2 ^ (8 * Z.of_nat bytes)) by (pose proof (Z.pow_pos_nonneg 2 (8 * Z.of_nat bytes)); lia).
      specialize (H (2 ^ (8 * Z.of_nat bytes) - 1)).
      unfold in_range, builtin_range in H. apply Hdiv. destruct sg; cbn [negb].
      * assert (2 ^ (8 * Z.of_nat bytes) <= 2 ^ (wbits m - 1)) as Hle by lia.
        apply pow2_le_inv in Hle; unfold wbits in *; lia.
      * assert (2 ^ (8 * Z.of_nat bytes) <= 2 ^ wbits m) as Hle by lia.
        apply pow2_le_inv in Hle; unfold wbits in *; lia.
Qed.

Lemma max_int_count_pos sg a b : op_wf a -> (0 < max_int_count sg a b)%nat.
Proof. intros Ha. pose proof (int_count_pos sg a Ha). unfold max_int_count. lia. Qed.

Lemma res_signed_l a b : res_signed a b = true \/ op_signed a = false.
Proof. unfold res_signed. destruct (op_signed a), (op_signed b); auto. Qed.
Lemma res_signed_r a b : res_signed a b = true \/ op_signed b = false.
Proof. unfold res_signed. destruct (op_signed a), (op_signed b); auto. Qed.

Lemma common_width_max a b :
  op_wf a -> op_wf b ->
  common_width (op_signed a || op_signed b) (max_int_count (res_signed a b) a b) a b.
Proof.
  intros Ha Hb. fold (res_signed a b). unfold common_width.
  pose proof (max_int_count_pos (res_signed a b) a b Ha).
  repeat split.
  - assumption.
  - intros z. apply type_range_holds; [assumption | apply res_signed_l | unfold max_int_count; lia].
  - intros z. apply type_range_holds; [assumption | apply res_signed_r | unfold max_int_count; lia].
  - intros m Hm H1 H2. apply holds_int_count in H1; [|assumption|assumption].
    apply holds_int_count in H2; [|assumption|assumption]. unfold max_int_count. lia.
Qed.

Lemma common_width_unique sg n m a b :
  common_width sg n a b -> common_width sg m a b -> n = m.
Proof.
  intros (H1 & H2 & H3 & H4) (G1 & G2 & G3 & G4).
  specialize (H4 m G1 G2 G3). specialize (G4 n H1 H2 H3). lia.
Qed.

Lemma common_in_range a b n :
  op_wf a -> op_wf b -> n = max_int_count (res_signed a b) a b ->
  in_range (res_signed a b) n (op_value a) /\ in_range (res_signed a b) n (op_value b).
Proof.
  intros Ha Hb ->. split; apply int_count_fits; auto using res_signed_l, res_signed_r;
    unfold max_int_count; lia.
Qed.

(** ** C01 *)

Lemma add_correct a b n :
  op_wf a -> op_wf b ->
  common_width (op_signed a || op_signed b) n a b ->
  has_type (op_signed a || op_signed b) n (add a b) /\
  op_value (add a b) = wrap (op_signed a || op_signed b) n (op_value a + op_value b).
Proof.
  intros Ha Hb Hn.
  rewrite (common_width_unique _ _ _ _ _ Hn (common_width_max a b Ha Hb)).
  fold (res_signed a b). set (m := max_int_count (res_signed a b) a b).
  unfold add. fold m. split.
  - repeat split; [apply addcarry_length | apply addcarry_spec; assumption].
  - apply op_value_wrap; [apply max_int_count_pos, Ha | apply addcarry_length |].
    apply addcarry_val; assumption.
Qed.

Lemma sub_correct a b n :
  op_wf a -> op_wf b ->
  common_width (op_signed a || op_signed b) n a b ->
  has_type (op_signed a || op_signed b) n (sub a b) /\
  op_value (sub a b) = wrap (op_signed a || op_signed b) n (op_value a - op_value b).
Proof.
  intros Ha Hb Hn.
  rewrite (common_width_unique _ _ _ _ _ Hn (common_width_max a b Ha Hb)).
  fold (res_signed a b). set (m := max_int_count (res_signed a b) a b).
  unfold sub. fold m. split.
  - repeat split; [apply subborrow_length | apply subborrow_spec; assumption].
  - apply op_value_wrap; [apply max_int_count_pos, Ha | apply subborrow_length |].
    apply subborrow_val; assumption.
Qed.

Lemma add_assign_correct sg ws b :
  op_wf (OComp sg ws) -> op_wf b ->
  has_type sg (length ws) (add_assign sg ws b) /\
  op_value (add_assign sg ws b)
  = wrap sg (length ws) (op_value (OComp sg ws) + op_value b).
Proof.
  intros Ha Hb. unfold add_assign. split.
  - repeat split; [apply addcarry_length | apply addcarry_spec; assumption].
  - apply op_value_wrap.
    + destruct Ha as [Hne _]. destruct ws; [congruence | cbn; lia].
    + apply addcarry_length.
    + apply addcarry_val; assumption.
Qed.

Lemma sub_assign_correct sg ws b :
  op_wf (OComp sg ws) -> op_wf b ->
  has_type sg (length ws) (sub_assign sg ws b) /\
  op_value (sub_assign sg ws b)
  = wrap sg (length ws) (op_value (OComp sg ws) - op_value b).
Proof.
  intros Ha Hb. unfold sub_assign. split.
  - repeat split; [apply subborrow_length | apply subborrow_spec; assumption].
  - apply op_value_wrap.
    + destruct Ha as [Hne _]. destruct ws; [congruence | cbn; lia].
    + apply subborrow_length.
    + apply subborrow_val; assumption.
Qed.

Lemma ar_add_loop_spec a b c :
  Forall is_word a -> Forall is_word b -> length a = length b ->
  Forall is_word (ar_add_loop a b c) /\ length (ar_add_loop a b c) = length a /\
  exists k : Z, le_val (ar_add_loop a b c) + k * pw (length a) = le_val a + le_val b + bz c.
Proof.
  intros Ha; revert b c; induction Ha as [|x a Hx Ha IH]; intros b c Hb Hl.
  - destruct b; [|discriminate]. cbn [ar_add_loop length].
    repeat split; [constructor|]. exists (bz c). rewrite pw_0, le_val_nil. lia.
  - destruct b as [|y b]; [discriminate|]. inversion Hb as [|? ? Hy Hb']; subst.
    cbn [ar_add_loop]. destruct (adc_spec x y c Hx Hy) as [Hw Hv].
    destruct (adc x y c) as [w c']. cbn [fst snd] in *.
    destruct (IH b c' Hb' ltac:(cbn in Hl; lia)) as (H1 & H2 & k & H3).
    repeat split; [constructor; assumption | cbn [length]; lia |].
    exists k. cbn [length]. rewrite !le_val_cons, pw_S. nia.
Qed.

Lemma ar_sub_loop_spec a b c :
  Forall is_word a -> Forall is_word b -> length a = length b ->
  Forall is_word (ar_sub_loop a b c) /\ length (ar_sub_loop a b c) = length a /\
  exists k : Z, le_val (ar_sub_loop a b c) + k * pw (length a) = le_val a - le_val b - bz c.
Proof.
  intros Ha; revert b c; induction Ha as [|x a Hx Ha IH]; intros b c Hb Hl.
  - destruct b; [|discriminate]. cbn [ar_sub_loop length].
    repeat split; [constructor|]. exists (- bz c). rewrite pw_0, le_val_nil. lia.
  - destruct b as [|y b]; [discriminate|]. inversion Hb as [|? ? Hy Hb']; subst.
    cbn [ar_sub_loop]. destruct (sbb_spec x y c Hx Hy) as [Hw Hv].
    destruct (sbb x y c) as [w c']. cbn [fst snd] in *.
    destruct (IH b c' Hb' ltac:(cbn in Hl; lia)) as (H1 & H2 & k & H3).
    repeat split; [constructor; assumption | cbn [length]; lia |].
    exists k. cbn [length]. rewrite !le_val_cons, pw_S. nia.
Qed.

Lemma ar_add_correct a b :
  Forall is_word a -> Forall is_word b -> length a = length b ->
  length (ar_add a b) = length a /\
  le_val (ar_add a b) = (le_val a + le_val b) mod 2 ^ wbits (length a).
Proof.
  intros Ha Hb Hl. destruct (ar_add_loop_spec a b false Ha Hb Hl) as (H1 & H2 & k & H3).
  unfold ar_add. split; [assumption|]. rewrite pw_wbits.
  pose proof (le_val_bound _ H1) as Hb2. rewrite H2 in Hb2.
  apply Z.mod_unique with (q := k); [lia|]. unfold bz in H3. lia.
Qed.

Lemma ar_sub_correct a b :
  Forall is_word a -> Forall is_word b -> length a = length b ->
  length (ar_sub a b) = length a /\
  le_val (ar_sub a b) = (le_val a - le_val b) mod 2 ^ wbits (length a).
Proof.
  intros Ha Hb Hl. destruct (ar_sub_loop_spec a b false Ha Hb Hl) as (H1 & H2 & k & H3).
  unfold ar_sub. split; [assumption|]. rewrite pw_wbits.
  pose proof (le_val_bound _ H1) as Hb2. rewrite H2 in Hb2.
  apply Z.mod_unique with (q := k); [lia|]. unfold bz in H3. lia.
Qed.

(** ** C02 *)

Lemma wf_len sg ws : op_wf (OComp sg ws) -> (0 < length ws)%nat.
Proof. intros [Hne _]. destruct ws; [congruence | cbn; lia]. Qed.

Lemma sword_val w : is_word w -> op_value (OComp true [w]) = sword w.
Proof.
  intros H. unfold op_value, as_signed, sword. cbn [length].
  rewrite le_val_cons, le_val_nil.
  replace (w + Bw * 0) with w by ring. reflexivity.
Qed.

Lemma uword_word z : is_word (uword z).
Proof. apply word_intro, Z.mod_pos_bound. pose proof Bw_pos. lia. Qed.

Lemma uword_val sg z : op_value (OComp sg [uword z]) = wrap sg 1 z.
Proof.
  apply op_value_wrap; [lia | reflexivity |]. rewrite le_val_cons, le_val_nil, pw_1.
  unfold uword. lia.
Qed.

Lemma neg_correct ws :
  op_wf (OComp true ws) ->
  match neg ws with
  | UB => length ws = 1%nat /\ op_value (OComp true ws) = - 2 ^ 63
  | Ok r => has_type true (length ws) r /\
            op_value r = wrap true (length ws) (- op_value (OComp true ws))
  end.
Proof.
  intros Hwf. pose proof (wf_len _ _ Hwf) as Hl.
  destruct ws as [|w [|w2 r]]; [cbn in Hl; lia| |].
  - unfold neg. destruct Hwf as [_ HF]. inversion HF as [|? ? Hx _]; subst.
    rewrite (sword_val w Hx). destruct (Z.eqb_spec w Hw) as [->|Hne].
    + split; reflexivity.
    + split.
      * repeat split. constructor; [apply uword_word | constructor].
      * apply uword_val.
  - set (ws := w :: w2 :: r) in *.
    assert (E : neg ws = Ok (sub (OBuiltin false 8 0) (OComp true ws))) by reflexivity.
    rewrite E. clear E.
    assert (H0 : op_wf (OBuiltin false 8 0)).
    { split; [lia|]. unfold builtin_range. split; [lia|]. reflexivity. }
    pose proof (common_width_max _ _ H0 Hwf) as Hc.
    destruct (sub_correct _ _ _ H0 Hwf Hc) as [Ht Hv].
    assert (Hm : max_int_count (res_signed (OBuiltin false 8 0) (OComp true ws))
                   (OBuiltin false 8 0) (OComp true ws) = length ws).
    { unfold max_int_count, res_signed, int_count. cbn [op_signed orb andb negb].
      change ((8 + 8 - 0) / 8)%nat with 2%nat. subst ws. cbn [length]. lia. }
    rewrite Hm in *. cbn [op_signed orb] in *. split; [assumption|].
    rewrite Hv. reflexivity.
Qed.

Lemma is_negative_correct sg ws :
  op_wf (OComp sg ws) -> is_negative sg ws = (op_value (OComp sg ws) <? 0).
Proof.
  intros Hwf. pose proof (wf_len _ _ Hwf) as Hl. destruct Hwf as [Hne HF].
  pose proof (le_val_bound ws HF). pose proof (pw_half _ Hl). pose proof (half_pos _ Hl).
  destruct sg; unfold is_negative; cbn [andb].
  - rewrite sword_neg by (apply nth_word; assumption).
    rewrite top_word_ge by assumption.
    unfold op_value, as_signed. rewrite pw_wbits.
    destruct (Z.ltb_spec (le_val ws) (2 ^ (wbits (length ws) - 1))); lia.
  - unfold op_value. symmetry. apply Z.ltb_ge. lia.
Qed.

Lemma abs_correct sg ws :
  op_wf (OComp sg ws) ->
  match abs sg ws with
  | UB => sg = true /\ length ws = 1%nat /\ op_value (OComp sg ws) = - 2 ^ 63
  | Ok r => has_type sg (length ws) r /\
            exists rs, r = OComp sg rs /\ le_val rs = Z.abs (op_value (OComp sg ws))
  end.
Proof.
  intros Hwf. pose proof (wf_len _ _ Hwf) as Hl.
  pose proof (is_negative_correct sg ws Hwf) as Hneg.
  pose proof (neg_correct ws) as Hn.
  pose proof (op_value_range_comp sg ws (proj1 Hwf) (proj2 Hwf)) as Hr.
  pose proof (pw_half _ Hl) as Hph. pose proof (half_pos _ Hl) as Hhp.
  pose proof (le_val_bound ws (proj2 Hwf)) as Hlb.
  destruct sg; unfold abs; cbn [negb].
  2:{ split; [repeat split; apply Hwf|]. exists ws. split; [reflexivity|].
      unfold op_value. lia. }
  specialize (Hn Hwf).
  assert (Hgen : forall x, (if sword (nth (length ws - 1) ws 0) <? 0 then neg ws
         else Ok (OComp true ws)) = x ->
     (1 < length ws)%nat ->
     match x with
     | UB => true = true /\ length ws = 1%nat /\ op_value (OComp true ws) = - 2 ^ 63
     | Ok r => has_type true (length ws) r /\
            exists rs, r = OComp true rs /\ le_val rs = Z.abs (op_value (OComp true ws))
     end).
  { intros x <- Hlen. unfold is_negative in Hneg. cbn [andb] in Hneg. rewrite Hneg.
    destruct (Z.ltb_spec (op_value (OComp true ws)) 0) as [Hlt|Hge].
    - destruct (neg ws) as [r|]; [|lia].
      destruct Hn as [Ht Hv]. split; [assumption|].
      destruct r as [s rs|]; [|contradiction]. destruct Ht as (-> & Hlr & HFr).
      exists rs. split; [reflexivity|].
      (* compare modulo *)
      assert (Hm : le_val rs mod pw (length ws) = (- op_value (OComp true ws)) mod pw (length ws)).
      { rewrite <- (wrap_mod true (length ws) (- op_value _)) by lia. rewrite <- Hv.
        destruct (op_value_mod true rs) as [k ->]. rewrite Hlr.
        rewrite Z.mod_add by (pose proof (pw_pos (length ws)); lia). reflexivity. }
      pose proof (le_val_bound rs HFr) as Hbr. rewrite Hlr in Hbr.
      unfold in_range in Hr.
      rewrite !Z.mod_small in Hm by lia. lia.
    - split; [repeat split; apply Hwf|]. exists ws. split; [reflexivity|].
      unfold op_value, as_signed in *. rewrite pw_wbits in *.
      destruct (Z.ltb_spec (le_val ws) (2 ^ (wbits (length ws) - 1))); lia. }
  destruct ws as [|w [|w2 r]]; [cbn in Hl; lia| |].
  - destruct Hwf as [_ HF]. inversion HF as [|? ? Hx _]; subst.
    destruct (Z.eqb_spec w Hw) as [->|Hne].
    + repeat split; reflexivity.
    + split.
      * repeat split. constructor; [|constructor]. apply word_intro.
        apply is_word_bw in Hx. unfold sword. pose proof Bw_H. pose proof Hw_pos.
        destruct (Z.ltb_spec w Hw); lia.
      * exists [Z.abs (sword w)]. split; [reflexivity|].
        rewrite le_val_cons, le_val_nil, (sword_val w Hx). lia.
  - apply Hgen; [reflexivity | cbn [length]; lia].
Qed.

(** ** C03 *)

Lemma eq_words_spec n a b :
  op_wf a -> op_wf b ->
  eq_words n a b = (op_value a mod pw n =? op_value b mod pw n).
Proof.
  intros Ha Hb. induction n as [|n IH].
  - cbn [eq_words]. rewrite pw_0, !Z.mod_1_r. reflexivity.
  - cbn [eq_words]. rewrite IH, !mod_pw_S, <- !word_at_digit by assumption.
    pose proof (Z.mod_pos_bound (op_value a) (pw n) (pw_pos n)).
    pose proof (Z.mod_pos_bound (op_value b) (pw n) (pw_pos n)).
    pose proof (is_word_bw _ (word_at_word a n Ha)).
    pose proof (is_word_bw _ (word_at_word b n Hb)).
    pose proof (pw_pos n).
    destruct (Z.eqb_spec (op_value a mod pw n) (op_value b mod pw n)) as [E|E].
    + rewrite E. destruct (Z.eqb_spec (word_at a n) (word_at b n)) as [E2|E2].
      * rewrite E2, Z.eqb_refl. reflexivity.
      * symmetry. apply Z.eqb_neq. nia.
    + symmetry. apply Z.eqb_neq. intros E2. apply E.
      assert (word_at a n = word_at b n) by nia. nia.
Qed.

Lemma in_range_mod_inj sg n x y :
  (0 < n)%nat -> in_range sg n x -> in_range sg n y ->
  x mod pw n = y mod pw n -> x = y.
Proof.
  intros Hn Hx Hy H. rewrite <- (wrap_id sg n x), <- (wrap_id sg n y) by assumption.
  apply wrap_cong, H.
Qed.

Lemma eq_correct a b :
  op_wf a -> op_wf b -> eq a b = true <-> op_value a = op_value b.
Proof.
  intros Ha Hb. unfold eq. rewrite eq_words_spec, Z.eqb_eq by assumption.
  split; [|intros ->; reflexivity].
  destruct (common_in_range a b _ Ha Hb eq_refl).
  apply in_range_mod_inj with (sg := res_signed a b); auto.
  apply max_int_count_pos, Ha.
Qed.

Lemma subborrow_or_spec n a b :
  op_wf a -> op_wf b ->
  0 <= fst (subborrow_or n a b) /\
  snd (subborrow_or n a b) = (op_value a mod pw n <? op_value b mod pw n) /\
  (fst (subborrow_or n a b) = 0 <->
   op_value a mod pw n - op_value b mod pw n = - pw n * bz (snd (subborrow_or n a b))).
Proof.
  intros Ha Hb. induction n as [|n IH].
  - cbn [subborrow_or fst snd bz]. rewrite pw_0, !Z.mod_1_r.
    repeat split; lia.
  - cbn [subborrow_or].
    destruct (subborrow_or n a b) as [o c].
    pose proof (sbb_spec (word_at a n) (word_at b n) c
                  (word_at_word a n Ha) (word_at_word b n Hb)) as Hs.
    destruct (sbb (word_at a n) (word_at b n) c) as [w c']. cbn [fst snd] in *.
    destruct IH as (IH0 & IH1 & IH2). destruct Hs as [Hsw Hsv].
    apply is_word_bw in Hsw.
    pose proof (Z.mod_pos_bound (op_value a) (pw n) (pw_pos n)).
    pose proof (Z.mod_pos_bound (op_value b) (pw n) (pw_pos n)).
    pose proof (is_word_bw _ (word_at_word a n Ha)).
    pose proof (is_word_bw _ (word_at_word b n Hb)).
    pose proof (pw_pos n). pose proof Bw_pos.
    rewrite !mod_pw_S, <- !word_at_digit, pw_S by assumption.
    split; [apply Z.lor_nonneg; lia|]. 
    set (x := op_value a mod pw n) in *. set (y := op_value b mod pw n) in *.
    set (u := word_at a n) in *. set (v := word_at b n) in *.
    assert (Hc : bz c = 1 /\ x < y \/ bz c = 0 /\ y <= x).
    { rewrite IH1. unfold bz. destruct (Z.ltb_spec x y); auto. }
    assert (Hc' : c' = (x + pw n * u <? y + pw n * v)).
    { destruct c'; unfold bz in Hsv at 1; symmetry; [apply Z.ltb_lt | apply Z.ltb_ge].
      - assert (u - v - bz c < 0) by lia.
        destruct Hc as [[Hz Hxy]|[Hz Hxy]]; rewrite Hz in *; nia.
      - assert (0 <= u - v - bz c) by lia.
        destruct Hc as [[Hz Hxy]|[Hz Hxy]]; rewrite Hz in *; nia. }
    split; [assumption|].
    rewrite Z.lor_eq_0_iff. split.
    + intros [E1 E2]. apply IH2 in E1. nia.
    + intros E. 
      assert (Hb1 : bz c' = 0 \/ bz c' = 1) by (unfold bz; destruct c'; auto).
      assert (E' : x - y = pw n * (- Bw * bz c' - (u - v))) by nia.
      assert (E2 : x - y = - pw n * bz c).
      { assert (- pw n < x - y < pw n) by lia.
        assert (-1 < - Bw * bz c' - (u - v) < 1) by nia.
        assert (- Bw * bz c' - (u - v) = 0) by lia.
        assert (x = y) by nia. destruct Hc as [[Hz Hxy]|[Hz Hxy]]; rewrite Hz in *; lia. }
      split; [apply IH2, E2|]. nia.
Qed.

Lemma sign_word_digit o n sg :
  op_wf o -> in_range sg (S n) (op_value o) -> sg = true ->
  op_value o = op_value o mod pw n + pw n * sword (word_at o n).
Proof.
  intros Ho Hr ->. unfold in_range in Hr. rewrite half_S in Hr.
  pose proof (pw_pos n). pose proof Bw_H. pose proof Hw_pos.
  rewrite word_at_digit by assumption.
  pose proof (Z.div_mod (op_value o) (pw n) ltac:(lia)) as Hd.
  pose proof (Z.mod_pos_bound (op_value o) (pw n) ltac:(lia)) as Hm.
  set (q := op_value o / pw n) in *.
  assert (Hq : - Hw <= q < Hw) by nia.
  assert (E : sword (q mod Bw) = q).
  { unfold sword. destruct (Z.lt_ge_cases q 0).
    - rewrite <- (Z.mod_unique_pos q Bw (-1) (q + Bw)) by lia.
      destruct (Z.ltb_spec (q + Bw) Hw); lia.
    - rewrite Z.mod_small by lia. destruct (Z.ltb_spec q Hw); lia. }
  rewrite E. lia.
Qed.

Lemma cmp_correct a b : op_wf a -> op_wf b -> cmp a b = (op_value a ?= op_value b).
Proof.
  intros Ha Hb. unfold cmp.
  pose proof (max_int_count_pos (res_signed a b) a b Ha) as Hp.
  destruct (common_in_range a b _ Ha Hb eq_refl) as [Hra Hrb].
  set (n := max_int_count (res_signed a b) a b) in *.
  destruct (Nat.ltb_spec 1 n) as [H1|H1].
  - destruct (res_signed a b) eqn:Esg.
    + pose proof (subborrow_or_spec (n - 1) a b Ha Hb) as (H0 & Hc & Hd).
      destruct (subborrow_or (n - 1) a b) as [diff c]. cbn [fst snd] in *.
      replace n with (S (n - 1)) in Hra, Hrb by lia.
      pose proof (sign_word_digit a (n - 1) true Ha Hra eq_refl) as Ea.
      pose proof (sign_word_digit b (n - 1) true Hb Hrb eq_refl) as Eb.
      pose proof (Z.mod_pos_bound (op_value a) (pw (n - 1)) (pw_pos _)).
      pose proof (Z.mod_pos_bound (op_value b) (pw (n - 1)) (pw_pos _)).
      pose proof (pw_pos (n - 1)).
      set (x := op_value a mod pw (n - 1)) in *. set (y := op_value b mod pw (n - 1)) in *.
      set (u := sword (word_at a (n - 1))) in *. set (v := sword (word_at b (n - 1))) in *.
      rewrite Ea, Eb. destruct (Z.eqb_spec u v) as [->|Huv].
      * rewrite Hc in *. unfold bz in Hd. symmetry.
        destruct (Z.eqb_spec diff 0) as [E|E].
        -- apply Hd in E. destruct (Z.ltb_spec x y); [lia|].
           apply Z.compare_eq_iff. lia.
        -- destruct (Z.ltb_spec x y).
           ++ apply Z.compare_lt_iff. lia.
           ++ apply Z.compare_gt_iff. assert (x - y <> 0) by (intros ?; apply E, Hd; lia). lia.
      * symmetry. destruct (Z.compare_spec u v); [congruence| |].
        -- apply Z.compare_lt_iff. nia.
        -- apply Z.compare_gt_iff. nia.
    + pose proof (subborrow_or_spec n a b Ha Hb) as (H0 & Hc & Hd).
      destruct (subborrow_or n a b) as [diff c]. cbn [fst snd] in *.
      unfold in_range in Hra, Hrb. rewrite pw_wbits in *.
      rewrite !Z.mod_small in * by assumption. rewrite Hc in *. symmetry.
      unfold bz in Hd.
      destruct (Z.ltb_spec (op_value a) (op_value b)).
      * apply Z.compare_lt_iff. assumption.
      * destruct (Z.eqb_spec diff 0) as [E|E].
        -- apply Hd in E. apply Z.compare_eq_iff. lia.
        -- apply Z.compare_gt_iff.
           assert (op_value a - op_value b <> 0) by (intros ?; apply E, Hd; lia). lia.
  - assert (En : n = 1%nat) by lia. rewrite En in *.
    destruct (res_signed a b) eqn:Esg.
    + pose proof (sign_word_digit a 0 true Ha Hra eq_refl) as Ea.
      pose proof (sign_word_digit b 0 true Hb Hrb eq_refl) as Eb.
      rewrite pw_0, Z.mod_1_r, Z.mul_1_l, Z.add_0_l in Ea, Eb. rewrite <- Ea, <- Eb. reflexivity.
    + unfold in_range in Hra, Hrb. rewrite pw_wbits, pw_1 in *.
      rewrite !word_at_digit, pw_0, !Z.div_1_r, !Z.mod_small by assumption. reflexivity.
Qed.

(** ** Portable carry primitives (C08) *)

Lemma adc_portable_no_carry a b :
  is_word a -> is_word b -> adc_portable a b false = adc a b false.
Proof.
  intros Ha Hb. apply is_word_bw in Ha, Hb. pose proof Bw_pos.
  unfold adc_portable, adc. rewrite !Z.add_0_r, !Zmod_mod. f_equal.
  pose proof (Z.mod_pos_bound (a + b) Bw ltac:(lia)).
  destruct (Z.leb_spec Bw (a + b)).
  - assert (E : (a + b) mod Bw = a + b - Bw)
      by (symmetry; apply Z.mod_unique with (q := 1); lia). rewrite E.
    destruct (Z.ltb_spec (a + b - Bw) a); lia.
  - assert (E : (a + b) mod Bw = a + b) by (apply Z.mod_small; lia). rewrite E.
    destruct (Z.ltb_spec (a + b) a); lia.
Qed.

Lemma sbb_portable_no_carry a b :
  is_word a -> is_word b -> sbb_portable a b false = sbb a b false.
Proof.
  intros Ha Hb. apply is_word_bw in Ha, Hb. pose proof Bw_pos.
  unfold sbb_portable, sbb. rewrite !Z.sub_0_r, !Zmod_mod. f_equal.
  pose proof (Z.mod_pos_bound (a - b) Bw ltac:(lia)).
  destruct (Z.ltb_spec a b).
  - assert (E : (a - b) mod Bw = a - b + Bw)
      by (symmetry; apply Z.mod_unique with (q := -1); lia). rewrite E.
    destruct (Z.ltb_spec a (a - b + Bw)); lia.
  - assert (E : (a - b) mod Bw = a - b) by (apply Z.mod_small; lia). rewrite E.
    destruct (Z.ltb_spec a (a - b)); lia.
Qed.

(** Exactly when the portable carry is lost. *)
Lemma adc_portable_exact a b c :
  is_word a -> is_word b ->
  fst (adc_portable a b c) = fst (adc a b c) /\
  (snd (adc_portable a b c) = snd (adc a b c) <->
   ~ (c = true /\ a = 0 /\ b = Bw - 1)).
Proof.
  intros Ha Hb. apply is_word_bw in Ha, Hb. pose proof Bw_pos.
  unfold adc_portable, adc. cbn [fst snd]. split; [reflexivity|].
  set (cz := if c then 1 else 0). 
  assert (Hcz : c = true /\ cz = 1 \/ c = false /\ cz = 0) by (subst cz; destruct c; auto).
  destruct (Z.leb_spec Bw (a + b)) as [H1|H1].
  - assert (E : (a + b) mod Bw = a + b - Bw)
      by (symmetry; apply Z.mod_unique with (q := 1); lia). rewrite E.
    destruct (Z.ltb_spec (a + b - Bw) a); [|lia]. rewrite orb_true_r. cbn [orb].
    split; [lia | reflexivity].
  - assert (E : (a + b) mod Bw = a + b) by (apply Z.mod_small; lia). rewrite E.
    destruct (Z.leb_spec Bw (a + b + cz)) as [H2|H2].
    + assert (E2 : a + b + cz = Bw) by lia. rewrite E2, Z_mod_same_full.
      destruct (Z.ltb_spec 0 a), (Z.ltb_spec (a + b) a); cbn [orb]; split; intros; try lia;
        try (split; try lia; intuition lia); try reflexivity; try intuition lia.
    + rewrite (Z.mod_small (a + b + cz)) by lia.
      destruct (Z.ltb_spec (a + b + cz) a), (Z.ltb_spec (a + b) a); cbn [orb]; split; intros; try lia; try reflexivity; try intuition lia.
Qed.
