(** Multiplication. *)
From Coq Require Import ZArith List Bool Lia ZifyBool ZifyNat.
From Verif Require Import LargeIntsModel LargeIntsSpec WordsProofs ArithProofs ShiftProofs.
Import ListNotations.
Local Open Scope Z_scope.

Lemma repeat_zero_words k : Forall is_word (repeat 0 k).
Proof. induction k; constructor; [apply word_intro; pose proof Bw_pos; lia | assumption]. Qed.

Lemma le_val_zeros k : le_val (repeat 0 k) = 0.
Proof. induction k; [reflexivity|]. cbn [repeat]. rewrite le_val_cons, IHk. lia. Qed.

Lemma pad_spec k ws :
  ws <> [] -> Forall is_word ws ->
  op_wf (pad k ws) /\ op_value (pad k ws) = pw k * le_val ws /\
  op_signed (pad k ws) = false /\ int_count false (pad k ws) = (k + length ws)%nat.
Proof.
  intros Hne HF. unfold pad. split; [|split; [|split]].
  - split; [destruct k; [assumption | discriminate]|].
    apply Forall_app; split; [apply repeat_zero_words | assumption].
  - unfold op_value. rewrite le_val_app, le_val_zeros, repeat_length. lia.
  - reflexivity.
  - unfold int_count. rewrite app_length, repeat_length. cbn [andb]. lia.
Qed.

(** Unsigned addition of two word lists through [add]. *)
Lemma add_unsigned a b n :
  op_wf a -> op_wf b -> op_signed a = false -> op_signed b = false ->
  Nat.max (int_count false a) (int_count false b) = n ->
  length (words_of (add a b)) = n /\ Forall is_word (words_of (add a b)) /\
  le_val (words_of (add a b)) = (op_value a + op_value b) mod pw n.
Proof.
  intros Ha Hb Sa Sb Hn. unfold add, res_signed. rewrite Sa, Sb. cbn [orb words_of].
  unfold max_int_count. rewrite Hn. split; [apply addcarry_length|].
  split; [apply addcarry_spec | apply addcarry_val]; assumption.
Qed.

Lemma mul1x1_spec sg a b :
  length (mul1x1 sg a b) = 2%nat /\ Forall is_word (mul1x1 sg a b) /\
  le_val (mul1x1 sg a b) = (if sg then sword a * sword b else a * b) mod pw 2.
Proof.
  unfold mul1x1. split; [reflexivity|]. split.
  - repeat constructor; apply uword_word.
  - set (x := if sg then _ else _).
    apply digits_val; [reflexivity|]. intros [|[|j]] Hj; cbn [nth]; unfold uword.
    + rewrite pw_0, Z.div_1_r. reflexivity.
    + rewrite pw_1. reflexivity.
    + lia.
Qed.

Lemma ne_len {A} (l : list A) n : length l = S n -> l <> [].
Proof. intros H ->. discriminate. Qed.

Lemma firstn_S_nth (ws : list Z) n :
  (n < length ws)%nat -> firstn (S n) ws = firstn n ws ++ [nth n ws 0].
Proof.
  revert n. induction ws as [|w ws IH]; intros n Hl; [cbn in Hl; lia|].
  destruct n as [|n]; [reflexivity|]. cbn [firstn app nth]. f_equal. apply IH. cbn in Hl. lia.
Qed.

Lemma le_val_firstn_S ws n :
  (n < length ws)%nat -> le_val (firstn (S n) ws) = le_val (firstn n ws) + pw n * nth n ws 0.
Proof.
  intros H. rewrite firstn_S_nth by assumption. rewrite le_val_snoc, firstn_length.
  f_equal. f_equal. f_equal. lia.
Qed.

Lemma le_val_firstn_bound ws n :
  Forall is_word ws -> (n <= length ws)%nat -> 0 <= le_val (firstn n ws) < pw n.
Proof.
  intros HF Hn. pose proof (le_val_bound _ (Forall_firstn _ _ n HF)) as H.
  rewrite firstn_length in H. replace (Nat.min n (length ws)) with n in H by lia. assumption.
Qed.

Lemma umulnx1_spec n a b :
  (n < length a)%nat -> Forall is_word a -> is_word b ->
  length (umulnx1 (S n) a b) = S (S n) /\ Forall is_word (umulnx1 (S n) a b) /\
  le_val (umulnx1 (S n) a b) = le_val (firstn (S n) a) * b.
Proof.
  intros Hl HF Hb. apply is_word_bw in Hb as Hb'. revert Hl.
  induction n as [|n IH]; intros Hl.
  - cbn [umulnx1 Nat.eqb]. destruct (mul1x1_spec false (nth 0 a 0) b) as (H1 & H2 & H3).
    split; [assumption|]. split; [assumption|]. rewrite H3.
    rewrite le_val_firstn_S by lia. cbn [firstn]. rewrite le_val_nil, pw_0.
    pose proof (is_word_bw _ (nth_word a 0 HF)). pose proof Bw_pos.
    rewrite Z.mod_small; [ring|]. change (pw 2) with (pw (1 + 1)). rewrite pw_add, pw_1. nia.
  - specialize (IH ltac:(lia)). destruct IH as (I1 & I2 & I3).
    assert (Eq : umulnx1 (S (S n)) a b =
      words_of (add (OComp false (umulnx1 (S n) a b)) (pad (S n) (mul1x1 false (nth (S n) a 0) b))))
      by reflexivity.
    rewrite Eq. clear Eq.
    destruct (mul1x1_spec false (nth (S n) a 0) b) as (M1 & M2 & M3).
    destruct (pad_spec (S n) (mul1x1 false (nth (S n) a 0) b)) as (P1 & P2 & P3 & P4);
      [eapply ne_len; eassumption | assumption|].
    destruct (add_unsigned (OComp false (umulnx1 (S n) a b))
                (pad (S n) (mul1x1 false (nth (S n) a 0) b)) (S (S (S n)))) as (A1 & A2 & A3).
    + split; [eapply ne_len; eassumption | assumption].
    + assumption.
    + reflexivity.
    + assumption.
    + rewrite P4, M1. unfold int_count. cbn [andb]. rewrite I1. lia.
    + split; [assumption|]. split; [assumption|]. rewrite A3, P2, M3.
      unfold op_value. rewrite I3.
      rewrite (le_val_firstn_S a (S n)) by lia.
      pose proof (is_word_bw _ (nth_word a (S n) HF)). pose proof Bw_pos.
      rewrite (Z.mod_small (nth (S n) a 0 * b)).
      2:{ change (pw 2) with (pw (1 + 1)). rewrite pw_add, pw_1. nia. }
      pose proof (le_val_firstn_bound a (S n) HF ltac:(lia)).
      pose proof (pw_pos (S n)).
      rewrite Z.mod_small; [ring|]. rewrite (pw_S (S (S n))), (pw_S (S n)).
      set (L := le_val (firstn (S n) a)) in *. set (P := pw (S n)) in *.
      set (x := nth (S n) a 0) in *.
      assert (L + P * x < P * Bw) by nia.
      split; nia.
Qed.

Lemma tl_words (b : list Z) : Forall is_word b -> Forall is_word (tl b).
Proof. intros H. destruct H; [constructor | assumption]. Qed.

Lemma le_val_tl b n :
  (n < length b)%nat -> le_val (firstn (S n) b) = nth 0 b 0 + Bw * le_val (firstn n (tl b)).
Proof. intros H. destruct b; [cbn in H; lia|]. cbn [firstn nth tl]. apply le_val_cons. Qed.

Lemma offset_mul_add_spec n : forall a b,
  (n < length a)%nat -> (n < length b)%nat -> Forall is_word a -> Forall is_word b ->
  length (offset_mul_add (S n) a b) = S n /\ Forall is_word (offset_mul_add (S n) a b) /\
  le_val (offset_mul_add (S n) a b) = (le_val (firstn (S n) a) * le_val (firstn (S n) b)) mod pw (S n).
Proof.
  induction n as [|n IH]; intros a b Hla Hlb HFa HFb.
  - cbn [offset_mul_add Nat.eqb]. split; [reflexivity|].
    split; [constructor; [apply uword_word | constructor]|].
    rewrite !le_val_firstn_S by lia. cbn [firstn].
    rewrite le_val_cons, !le_val_nil, pw_0, pw_1. unfold uword.
    replace (0 + 1 * nth 0 a 0) with (nth 0 a 0) by ring.
    replace (0 + 1 * nth 0 b 0) with (nth 0 b 0) by ring. lia.
  - set (b0 := nth 0 b 0). set (hi := [uword (nth (S n) a 0 * b0)]).
    set (om := offset_mul_add (S n) a (tl b)).
    assert (Eq : offset_mul_add (S (S n)) a b =
      words_of (add (add (OComp false (umulnx1 (S n) a b0)) (pad (S n) hi)) (pad 1 om)))
      by reflexivity.
    rewrite Eq. clear Eq.
    assert (Hb0 : is_word b0) by (apply nth_word; assumption).
    destruct (umulnx1_spec n a b0 ltac:(lia) HFa Hb0) as (U1 & U2 & U3).
    destruct (IH a (tl b)) as (I1 & I2 & I3);
      [lia | destruct b; [cbn in Hlb; lia | cbn [tl length] in *; lia] | assumption
       | apply tl_words; assumption |].
    fold om in I1, I2, I3.
    assert (Hhi : Forall is_word hi) by (constructor; [apply uword_word | constructor]).
    destruct (pad_spec (S n) hi) as (P1 & P2 & P3 & P4); [discriminate | assumption |].
    destruct (pad_spec 1 om) as (Q1 & Q2 & Q3 & Q4); [eapply ne_len; eassumption | assumption |].
    set (s1 := add (OComp false (umulnx1 (S n) a b0)) (pad (S n) hi)).
    assert (W1 : op_wf (OComp false (umulnx1 (S n) a b0)))
      by (split; [eapply ne_len; eassumption | assumption]).
    destruct (add_unsigned (OComp false (umulnx1 (S n) a b0)) (pad (S n) hi) (S (S n)))
      as (A1 & A2 & A3); [assumption | assumption | reflexivity | assumption | |].
    { rewrite P4. unfold int_count. cbn [andb]. rewrite U1. subst hi. cbn [length]. lia. }
    fold s1 in A1, A2, A3.
    assert (Es1 : s1 = OComp false (words_of s1)) by reflexivity.
    assert (W2 : op_wf s1) by (rewrite Es1; split; [eapply ne_len; eassumption | assumption]).
    destruct (add_unsigned s1 (pad 1 om) (S (S n))) as (B1 & B2 & B3);
      [assumption | assumption | reflexivity | assumption | |].
    { rewrite Q4, I1, Es1. unfold int_count. cbn [andb]. rewrite A1. lia. }
    split; [assumption|]. split; [assumption|].
    rewrite B3, Q2. rewrite Es1. unfold op_value at 1. rewrite A3, P2.
    unfold op_value at 1. rewrite U3, I3.
    rewrite pw_1. rewrite (pw_S (S n)).
    set (P := pw (S n)) in *. assert (0 < P) by apply pw_pos. pose proof Bw_pos.
    rewrite (le_val_tl b (S n)) by lia. fold b0.
    set (Bt := le_val (firstn (S n) (tl b))).
    rewrite (le_val_firstn_S a (S n)) by lia. fold P.
    set (L := le_val (firstn (S n) a)). set (x := nth (S n) a 0) in *.
    subst hi. rewrite le_val_cons, le_val_nil. unfold uword.
    replace ((x * b0) mod Bw + Bw * 0) with ((x * b0) mod Bw) by ring.
    rewrite Zplus_mod_idemp_l.
    replace (Bw * ((L * Bt) mod P)) with ((Bw * (L * Bt)) mod (Bw * P))
      by (rewrite Zmult_mod_distr_l; reflexivity).
    replace (P * ((x * b0) mod Bw)) with ((P * (x * b0)) mod (Bw * P))
      by (rewrite (Z.mul_comm Bw), Zmult_mod_distr_l; reflexivity).
    rewrite Zplus_mod_idemp_r.
    rewrite <- (Z.add_assoc (L * b0)), (Z.add_comm ((P * (x * b0)) mod (Bw * P))), Z.add_assoc.
    rewrite Zplus_mod_idemp_r.
    replace ((L + P * x) * (b0 + Bw * Bt))
      with (L * b0 + Bw * (L * Bt) + P * (x * b0) + (x * Bt) * (Bw * P)) by ring.
    rewrite Z.mod_add by nia. reflexivity.
Qed.

(** offset_add adds x * (B^shift + B^(shift+1) + ...) modulo B^n. *)
Fixpoint geo (shift k : nat) : Z :=
  match k with O => 0 | S k' => pw shift + geo (S shift) k' end.

Lemma offset_add_spec n k : forall shift r x,
  (shift + k = n)%nat -> (0 < n)%nat -> length r = n -> Forall is_word r -> Forall is_word x ->
  (k <= length x)%nat ->
  length (offset_add n shift r x k) = n /\ Forall is_word (offset_add n shift r x k) /\
  le_val (offset_add n shift r x k) = (le_val r + le_val x * geo shift k) mod pw n.
Proof.
  induction k as [|k IH]; intros shift r x Hk Hn Hlr HFr HFx Hkx.
  - cbn [offset_add geo]. rewrite Z.mul_0_r, Z.add_0_r.
    split; [assumption|]. split; [assumption|]. symmetry. apply Z.mod_small.
    rewrite <- Hlr. apply le_val_bound, HFr.
  - cbn [offset_add]. 
    set (y := firstn (S k) x).
    assert (Hly : length y = S k) by (subst y; rewrite firstn_length; lia).
    assert (HFy : Forall is_word y) by (apply Forall_firstn; assumption).
    destruct (pad_spec shift y) as (P1 & P2 & P3 & P4); [eapply ne_len; eassumption | assumption |].
    assert (Wr : op_wf (OComp false r)) by (eapply comp_wf; eassumption).
    destruct (add_assign_correct false r (pad shift y) Wr P1) as [[_ [T1 T2]] V1].
    set (r' := words_of (add_assign false r (pad shift y))).
    assert (Er : add_assign false r (pad shift y) = OComp false r') by reflexivity.
    rewrite Er in *. unfold op_value at 1 in V1.
    assert (T1' : length r' = n) by (rewrite <- Hlr; exact T1).
    destruct (IH (S shift) r' x ltac:(lia) Hn T1' T2 HFx ltac:(lia)) as (I1 & I2 & I3).
    split; [assumption|]. split; [assumption|].
    rewrite I3, V1. unfold wrap. rewrite Hlr, pw_wbits, P2. unfold op_value.
    rewrite Zplus_mod_idemp_l. cbn [geo].
    pose proof (pw_pos n).
    assert (Ex : le_val x = le_val y + pw (S k) * le_val (skipn (S k) x)).
    { rewrite <- (firstn_skipn (S k) x) at 1. rewrite le_val_app. fold y. rewrite Hly. reflexivity. }
    rewrite Ex.
    set (Y := le_val y). set (Rs := le_val (skipn (S k) x)).
    set (G := geo (S shift) k).
    replace (le_val r + (Y + pw (S k) * Rs) * (pw shift + G))
      with (le_val r + pw shift * Y + (Y + pw (S k) * Rs) * G + Rs * (pw shift * pw (S k))) by ring.
    rewrite <- pw_add, Hk.
    rewrite Z.mod_add by lia. reflexivity.
Qed.

Lemma geo_tel shift k : (Bw - 1) * geo shift k = pw (shift + k) - pw shift.
Proof.
  revert shift. induction k as [|k IH]; intros shift; cbn [geo].
  - rewrite Nat.add_0_r. lia.
  - rewrite Z.mul_add_distr_l, IH. replace (S shift + k)%nat with (shift + S k)%nat by lia.
    rewrite (pw_S shift). ring.
Qed.

(** ** The general multiply *)

Lemma single_word_value sg o :
  op_wf o -> (sg = true \/ op_signed o = false) -> int_count sg o = 1%nat ->
  op_value o = if sg then sword (word_at o 0) else word_at o 0.
Proof.
  intros Ho Hs H1. pose proof (int_count_fits sg o 1 Ho Hs ltac:(lia)) as Hr.
  destruct sg.
  - pose proof (sign_word_digit o 0 true Ho Hr eq_refl) as E.
    rewrite pw_0, Z.mod_1_r in E. lia.
  - rewrite word_at_digit, pw_0, Z.div_1_r by assumption. symmetry. apply Z.mod_small.
    unfold in_range in Hr. rewrite pw_wbits, pw_1 in Hr. assumption.
Qed.

Lemma second_word b :
  op_wf b -> (true = true \/ op_signed b = false) -> int_count true b = 1%nat ->
  op_value b = word_at b 0 - Bw * (if word_at b 1 =? 0 then 0 else 1) /\
  (word_at b 1 = 0 \/ word_at b 1 = Bw - 1).
Proof.
  intros Hb Sb E2. pose proof (single_word_value true b Hb Sb E2) as Eb.
  pose proof (is_word_bw _ (word_at_word b 0 Hb)) as Hb0.
  assert (Hb1 : word_at b 1 = (op_value b / Bw) mod Bw).
  { rewrite word_at_digit by assumption. rewrite pw_1. reflexivity. }
  pose proof Bw_H as H1. pose proof Hw_pos as H2. unfold sword in Eb. cbn iota in Eb.
  set (b0 := word_at b 0) in *. set (b1 := word_at b 1) in *. set (v := op_value b) in *.
  clearbody b0 b1 v. clear Hb Sb E2 b.
  destruct (Z.ltb_spec b0 Hw) as [Hlt|Hge].
  - subst v. rewrite Z.div_small, Z.mod_0_l in Hb1 by lia. subst b1. cbn [Z.eqb].
    split; [lia | left; reflexivity].
  - assert (E : v / Bw = -1) by (apply div_neg_small; lia).
    rewrite E in Hb1.
    assert (E' : (-1) mod Bw = Bw - 1)
      by (symmetry; apply Z.mod_unique with (q := -1); lia).
    rewrite E' in Hb1. rewrite Hb1. split; [|right; reflexivity].
    destruct (Z.eqb_spec (Bw - 1) 0); lia.
Qed.

Lemma product_range sg na nb x y :
  (0 < na)%nat -> (0 < nb)%nat -> in_range sg na x -> in_range sg nb y ->
  in_range sg (na + nb) (x * y).
Proof.
  intros Ha Hb Hx Hy. unfold in_range in *.
  assert (Ew : wbits (na + nb) = wbits na + wbits nb) by (unfold wbits; lia).
  assert (64 <= wbits na) by (unfold wbits; lia). assert (64 <= wbits nb) by (unfold wbits; lia).
  rewrite Ew. destruct sg.
  - pose proof (half_pos _ Ha). pose proof (half_pos _ Hb).
    replace (wbits na + wbits nb - 1) with ((wbits na - 1) + ((wbits nb - 1) + 1)) by lia.
    rewrite !Z.pow_add_r by lia. rewrite Z.pow_1_r.
    set (A := 2 ^ (wbits na - 1)) in *. set (B := 2 ^ (wbits nb - 1)) in *.
    assert (- (A * B) <= x * y <= A * B) by nia. nia.
  - rewrite Z.pow_add_r by lia.
    assert (0 < 2 ^ wbits na) by (apply Z.pow_pos_nonneg; lia).
    assert (0 < 2 ^ wbits nb) by (apply Z.pow_pos_nonneg; lia). nia.
Qed.

Lemma mul_ord_correct sg a b :
  op_wf a -> op_wf b -> (sg = true \/ op_signed a = false) -> (sg = true \/ op_signed b = false) ->
  (int_count sg b <= int_count sg a)%nat ->
  (sg = false -> int_count sg b = 1%nat -> int_count sg a = 1%nat) ->
  exists ws, mul_ord sg a b = MWords (OComp sg ws) /\
    length ws = (int_count sg a + int_count sg b)%nat /\ Forall is_word ws /\
    op_value (OComp sg ws) = op_value a * op_value b.
Proof.
  intros Ha Hb Sa Sb Hle Huns.
  pose proof (int_count_pos sg a Ha) as Pa. pose proof (int_count_pos sg b Hb) as Pb.
  pose proof (int_count_fits sg a _ Ha Sa (le_n _)) as Ra.
  pose proof (int_count_fits sg b _ Hb Sb (le_n _)) as Rb.
  pose proof (product_range sg _ _ _ _ Pa Pb Ra Rb) as Rab.
  unfold mul_ord. set (na := int_count sg a) in *. set (nb := int_count sg b) in *.
  assert (Hfin : forall ws, length ws = (na + nb)%nat ->
            le_val ws = (op_value a * op_value b) mod pw (na + nb) ->
            op_value (OComp sg ws) = op_value a * op_value b).
  { intros ws Hl Hv. rewrite (op_value_wrap sg ws (op_value a * op_value b) (na + nb)) by (lia || assumption).
    apply wrap_id; [lia | assumption]. }
  destruct (Nat.eqb_spec na 1) as [E1|E1].
  - assert (E2 : nb = 1%nat) by lia.
    destruct (mul1x1_spec sg (word_at a 0) (word_at b 0)) as (M1 & M2 & M3).
    exists (mul1x1 sg (word_at a 0) (word_at b 0)).
    split; [reflexivity|]. split; [rewrite M1, E1, E2; reflexivity|]. split; [assumption|].
    apply Hfin; [rewrite M1, E1, E2; reflexivity|]. rewrite M3, E1, E2.
    rewrite (single_word_value sg a Ha Sa E1), (single_word_value sg b Hb Sb E2).
    destruct sg; reflexivity.
  - destruct (Nat.eqb_spec nb 1) as [E2|E2].
    + destruct sg; [|exfalso; apply E1, Huns; auto].
      set (m := (na - 1)%nat) in *. assert (Em : na = S m) by lia.
      assert (Hm : exists m', m = S m') by (exists (m - 1)%nat; lia).
      destruct Hm as [m' Hm'].
      set (alo := to_words m a).
      assert (Hlalo : length alo = m) by apply to_words_length.
      assert (HFalo : Forall is_word alo) by (apply to_words_words; assumption).
      set (b0 := word_at b 0). set (b1 := word_at b 1).
      assert (Hb0 : is_word b0) by (apply word_at_word; assumption).
      assert (Hb1 : is_word b1) by (apply word_at_word; assumption).
      pose proof (umulnx1_spec m' alo b0 ltac:(lia) HFalo Hb0) as (U1 & U2 & U3).
      pose proof (umulnx1_spec m' alo b1 ltac:(lia) HFalo Hb1) as (V1 & V2 & V3).
      rewrite <- Hm' in *.
      replace (firstn m alo) with alo in *.
      2:{ symmetry. rewrite <- Hlalo. apply firstn_all. }
      assert (Halo : le_val alo = op_value a mod pw m) by (apply to_words_val; assumption).
      rewrite Halo in U3, V3.
      destruct (mul1x1_spec true (word_at a m) b0) as (M1 & M2 & M3).
      destruct (pad_spec m (mul1x1 true (word_at a m) b0)) as (P1 & P2 & P3 & P4);
        [eapply ne_len; eassumption | assumption |].
      destruct (add_unsigned (OComp false (umulnx1 m alo b0)) (pad m (mul1x1 true (word_at a m) b0)) (m + 2))
        as (A1 & A2 & A3).
      { split; [eapply ne_len; eassumption | assumption]. }
      { assumption. } { reflexivity. } { assumption. }
      { rewrite P4, M1. unfold int_count. cbn [andb]. rewrite U1. lia. }
      set (r := words_of (add (OComp false (umulnx1 m alo b0)) (pad m (mul1x1 true (word_at a m) b0)))) in *.
      replace (m + 2)%nat with (na + 1)%nat in * by (clear - Em; lia).
      destruct (offset_add_spec (na + 1) na 1 r (umulnx1 m alo b1)) as (O1 & O2 & O3);
        [lia | lia | assumption | assumption | assumption | rewrite V1; lia |].
      eexists. split; [reflexivity|]. rewrite E2. split; [assumption|]. split; [assumption|].
      apply Hfin; [rewrite E2; assumption|].
      rewrite O3, A3, P2, M3. unfold op_value at 1. rewrite U3, V3. rewrite E2.
      set (N := pw (na + 1)) in *. rewrite Zplus_mod_idemp_l.
      (* b *)
      assert (Eb : op_value b = b0 - Bw * (if b1 =? 0 then 0 else 1) /\ (b1 = 0 \/ b1 = Bw - 1)).
      { apply second_word; assumption. }
      destruct Eb as [Eb Hb1v].
      (* a *)
      assert (Ea : op_value a = op_value a mod pw m + pw m * sword (word_at a m)).
      { apply sign_word_digit with (sg := true); auto. rewrite <- Em. assumption. }
      set (L := op_value a mod pw m) in *. set (H := sword (word_at a m)) in *.
      assert (Eb0 : sword b0 = op_value b).
      { symmetry. apply (single_word_value true b Hb Sb E2). }
      rewrite Eb0.
      assert (Epw : pw m * ((H * op_value b) mod pw 2) = (pw m * (H * op_value b)) mod N).
      { unfold N. replace (na + 1)%nat with (m + 2)%nat by (clear - Em; lia). rewrite pw_add, Zmult_mod_distr_l. reflexivity. }
      rewrite Epw.
      assert (0 < N) by apply pw_pos.
      rewrite <- Z.add_assoc, (Z.add_comm ((_) mod N)), Z.add_assoc, Zplus_mod_idemp_r.
      assert (Eg : exists k, L * b1 * geo 1 na = L * (op_value b - b0) + k * N).
      { destruct Hb1v as [Ez|Ez]; rewrite Ez in *.
        - exists 0. cbn [Z.eqb] in Eb. rewrite Eb. ring.
        - exists L. pose proof (geo_tel 1 na) as G. replace (1 + na)%nat with (na + 1)%nat in G by apply Nat.add_comm.
          fold N in G. rewrite pw_1 in G.
          change (Bw - 1 =? 0) with false in Eb. cbn iota in Eb. rewrite Eb.
          transitivity (L * ((Bw - 1) * geo 1 na)); [ring|]. rewrite G. ring. }
      destruct Eg as [k Eg]. rewrite Eg.
      rewrite Ea at 1.
      replace (L * b0 + (L * (op_value b - b0) + k * N) + pw m * (H * op_value b))
        with ((L + pw m * H) * op_value b + k * N) by ring.
      apply Z.mod_add. intros E. rewrite E in *. discriminate.
    + set (n := (na + nb)%nat). assert (En : exists n', n = S n') by (exists (n - 1)%nat; lia).
      destruct En as [n' En].
      destruct (offset_mul_add_spec n' (to_words n a) (to_words n b)) as (O1 & O2 & O3);
        try (rewrite to_words_length; lia); try (apply to_words_words; assumption).
      rewrite <- En in *. eexists. split; [reflexivity|]. split; [assumption|].
      split; [assumption|]. apply Hfin; [assumption|]. fold n. rewrite O3.
      rewrite <- (to_words_length n a) at 1. rewrite firstn_all.
      rewrite <- (to_words_length n b) at 2. rewrite firstn_all.
      rewrite !to_words_val by assumption.
      rewrite <- Zmult_mod. reflexivity.
Qed.

Lemma least_width_int_count sg o :
  op_wf o -> (sg = true \/ op_signed o = false) -> least_width sg (int_count sg o) o.
Proof.
  intros Ho Hs. split; [apply int_count_pos, Ho|]. split.
  - intros z. apply type_range_holds; auto.
  - intros m Hm H. apply holds_int_count; assumption.
Qed.

Lemma least_width_unique sg n m o : least_width sg n o -> least_width sg m o -> n = m.
Proof.
  intros (A1 & A2 & A3) (B1 & B2 & B3). specialize (A3 m B1 B2). specialize (B3 n A1 A2). lia.
Qed.

(** Main statement used by the properties file. *)
Lemma mul_correct a b na nb :
  op_wf a -> op_wf b ->
  is_small a && is_small b = false ->
  least_width (op_signed a || op_signed b) na a ->
  least_width (op_signed a || op_signed b) nb b ->
  (op_signed a || op_signed b = true \/ (na = 1%nat /\ nb = 1%nat) \/ (1 < na /\ 1 < nb)%nat) ->
  exists ws, mul a b = MWords (OComp (op_signed a || op_signed b) ws) /\
    length ws = (na + nb)%nat /\ Forall is_word ws /\
    op_value (OComp (op_signed a || op_signed b) ws) = op_value a * op_value b.
Proof.
  intros Ha Hb Hsm Wa Wb Hc. fold (res_signed a b) in *.
  rewrite (least_width_unique _ _ _ _ Wa (least_width_int_count _ a Ha (res_signed_l a b))) in *.
  rewrite (least_width_unique _ _ _ _ Wb (least_width_int_count _ b Hb (res_signed_r a b))) in *.
  assert (Hm : mul a b = if Nat.ltb (int_count (res_signed a b) a) (int_count (res_signed a b) b)
                then mul_ord (res_signed a b) b a else mul_ord (res_signed a b) a b).
  { unfold mul, is_small in *. destruct a, b; try reflexivity. rewrite Hsm. reflexivity. }
  rewrite Hm. pose proof (res_signed_l a b) as Sl. pose proof (res_signed_r a b) as Sr.
  set (sg := res_signed a b) in *.
  destruct (Nat.ltb_spec (int_count sg a) (int_count sg b)) as [Hlt|Hge].
  - destruct (mul_ord_correct sg b a Hb Ha Sr Sl ltac:(lia)) as (ws & M1 & M2 & M3 & M4).
    { intros Ef E1. rewrite Ef in Hc. destruct Hc as [?|[?|?]]; [discriminate|lia|rewrite <- Ef in *; lia]. }
    exists ws. rewrite M1, M4. split; [reflexivity|]. split; [lia|]. split; [assumption|]. ring.
  - destruct (mul_ord_correct sg a b Ha Hb Sl Sr ltac:(lia)) as (ws & M1 & M2 & M3 & M4).
    { intros Ef E1. rewrite Ef in Hc. destruct Hc as [?|[?|?]]; [discriminate|rewrite <- Ef in *; lia|rewrite <- Ef in *; lia]. }
    exists ws. auto.
Qed.

(** The missing return statement: exactly when no value is returned. *)
Lemma mul_no_return a b na nb :
  op_wf a -> op_wf b -> op_signed a = false -> op_signed b = false ->
  least_width false na a -> least_width false nb b ->
  (na = 1 /\ 1 < nb \/ nb = 1 /\ 1 < na)%nat -> mul a b = MNoReturn.
Proof.
  intros Ha Hb Sa Sb Wa Wb Hc.
  assert (Hrs : res_signed a b = false) by (unfold res_signed; rewrite Sa, Sb; reflexivity).
  rewrite (least_width_unique _ _ _ _ Wa (least_width_int_count _ a Ha (or_intror Sa))) in *.
  rewrite (least_width_unique _ _ _ _ Wb (least_width_int_count _ b Hb (or_intror Sb))) in *.
  assert (Hm : mul a b = if Nat.ltb (int_count (res_signed a b) a) (int_count (res_signed a b) b)
                then mul_ord (res_signed a b) b a else mul_ord (res_signed a b) a b).
  { unfold mul. destruct a, b; try reflexivity.
    destruct (Nat.ltb bytes 8 && Nat.ltb bytes0 8) eqn:E; [|reflexivity].
    exfalso. apply andb_true_iff in E. destruct E as [E1 E2].
    apply Nat.ltb_lt in E1, E2. unfold int_count in Hc. rewrite !orb_true_r in Hc.
    pose proof (Nat.div_mod_eq (bytes + 8 - 1) 8). pose proof (Nat.mod_upper_bound (bytes + 8 - 1) 8).
    pose proof (Nat.div_mod_eq (bytes0 + 8 - 1) 8). pose proof (Nat.mod_upper_bound (bytes0 + 8 - 1) 8).
    lia. }
  rewrite Hm, Hrs. unfold mul_ord.
  destruct (Nat.ltb_spec (int_count false a) (int_count false b)).
  - destruct (Nat.eqb_spec (int_count false b) 1); [lia|].
    destruct (Nat.eqb_spec (int_count false a) 1); [reflexivity | lia].
  - destruct (Nat.eqb_spec (int_count false a) 1); [lia|].
    destruct (Nat.eqb_spec (int_count false b) 1); [reflexivity | lia].
Qed.

(** Two built-ins narrower than a word. *)
Lemma mul_small_correct sa sb ba bb va vb :
  op_wf (OBuiltin sa ba va) -> op_wf (OBuiltin sb bb vb) -> (ba < 8)%nat -> (bb < 8)%nat ->
  sa = true -> sb = true -> (In ba [1;2;4])%nat -> (In bb [1;2;4])%nat ->
  exists bytes, mul (OBuiltin sa ba va) (OBuiltin sb bb vb) = MBuiltin bytes (va * vb) /\
     builtin_range true bytes (va * vb).
Proof.
  intros Ha Hb H1 H2 -> -> Ia Ib. unfold mul, mul_small.
  replace (Nat.ltb ba 8 && Nat.ltb bb 8) with true.
  2:{ symmetry. apply andb_true_iff. split; apply Nat.ltb_lt; assumption. }
  destruct Ha as [_ Ra]. destruct Hb as [_ Rb].
  assert (HZ : forall x : Z, x = x) by reflexivity.
  assert (R : exists bytes, bltin_bytes (ba + bb) = bytes /\ builtin_range true bytes (va * vb) /\
     builtin_range true bytes va).
  { eexists. split; [reflexivity|].
    unfold builtin_range in *. cbn [In] in Ia, Ib.
    destruct Ia as [<-|[<-|[<-|[]]]]; destruct Ib as [<-|[<-|[<-|[]]]];
      cbn [bltin_bytes Nat.add Nat.leb Z.of_nat] in *;
      change (Z.of_nat 1) with 1 in *; change (Z.of_nat 2) with 2 in *; change (Z.of_nat 4) with 4 in *;
      unfold bltin_bytes; cbn [Nat.leb];
      change (Z.of_nat 8) with 8 in *; change (Z.of_nat 4) with 4 in *; change (Z.of_nat 2) with 2 in *;
      cbn [Z.mul Z.sub Pos.mul Z.add Z.opp Z.pos_sub Pos.pred_double Pos.pow] in *; nia. }
  destruct R as (bytes & -> & R1 & R2). exists bytes.
  assert (Ew : wrap_signed bytes va = va).
  { unfold wrap_signed. unfold builtin_range in R2.
    set (h := 2 ^ (8 * Z.of_nat bytes - 1)) in *. rewrite Z.mod_small by lia. lia. }
  rewrite Ew. unfold fits_signed.
  assert (2 ^ (8 * Z.of_nat bytes - 1) <= 2 ^ (8 * Z.of_nat (Nat.max 4 bytes) - 1)).
  { destruct bytes; [cbn; lia|]. apply Z.pow_le_mono_r; lia. }
  unfold builtin_range in R1.
  set (h := 2 ^ (8 * Z.of_nat (Nat.max 4 bytes) - 1)) in *.
  destruct (Z.leb_spec (- h) (va * vb)), (Z.ltb_spec (va * vb) h); try lia.
  cbn [andb]. split; [reflexivity | assumption].
Qed.

(** ** Portable one-word multiply (C09) *)

Lemma lor_shift_low c l : 0 <= c -> 0 <= l < 2 ^ 32 ->
  Z.lor (uword (c * 2 ^ 32)) l = uword (c * 2 ^ 32) + l.
Proof.
  intros Hc Hl. unfold uword.
  assert (E : (c * 2 ^ 32) mod Bw = (c mod 2 ^ 32) * 2 ^ 32).
  { change Bw with (2 ^ 32 * 2 ^ 32). apply Zmult_mod_distr_r. }
  rewrite E, Z.lor_comm, lor_disjoint; [ring | lia | assumption |].
  apply Z.mod_pos_bound. lia.
Qed.

Lemma mul1x1_portable_correct sg a b :
  is_word a -> is_word b -> mul1x1_portable sg a b = mul1x1 sg a b.
Proof.
  intros Ha Hb. apply is_word_bw in Ha, Hb. pose proof Bw_pos as HB.
  assert (HBM : Bw = 2 ^ 32 * 2 ^ 32) by reflexivity.
  unfold mul1x1_portable. cbv zeta.
  assert (HM : 2 < 2 ^ 32) by reflexivity.
  assert (HM32 : exists M, M = 2 ^ 32) by (exists (2 ^ 32); reflexivity).
  destruct HM32 as [M HM32]. rewrite <- HM32 in *.
  pose proof (Z.div_mod a M ltac:(lia)) as Ea. pose proof (Z.mod_pos_bound a M ltac:(lia)) as Ra.
  pose proof (Z.div_mod b M ltac:(lia)) as Eb. pose proof (Z.mod_pos_bound b M ltac:(lia)) as Rb.
  assert (Ra1 : 0 <= a / M < M) by (split; [apply Z.div_pos; lia | apply Z.div_lt_upper_bound; lia]).
  assert (Rb1 : 0 <= b / M < M) by (split; [apply Z.div_pos; lia | apply Z.div_lt_upper_bound; lia]).
  set (a0 := a mod M) in *. set (a1 := a / M) in *. set (b0 := b mod M) in *. set (b1 := b / M) in *.
  assert (Hprod : forall x y, 0 <= x < M -> 0 <= y < M -> 0 <= x * y <= (M - 1) * (M - 1)) by (intros; nia).
  pose proof (Hprod a0 b0 Ra Rb) as R00. pose proof (Hprod a1 b0 Ra1 Rb) as R10.
  pose proof (Hprod a0 b1 Ra Rb1) as R01. pose proof (Hprod a1 b1 Ra1 Rb1) as R11.
  assert (HMM : (M - 1) * (M - 1) = Bw - 2 * M + 1) by (rewrite HBM; ring).
  assert (Hw0 : forall x, 0 <= x < Bw -> uword x = x) by (intros; apply Z.mod_small; assumption).
  rewrite (Hw0 (a0 * b0)), (Hw0 (a1 * b0)), (Hw0 (a0 * b1)), (Hw0 (a1 * b1)) by lia.
  set (ll := a0 * b0) in *. set (hl := a1 * b0) in *. set (lh := a0 * b1) in *. set (hh := a1 * b1) in *.
  assert (E1 : a * b = ll + M * hl + M * lh + M * M * hh)
    by (rewrite Ea, Eb; unfold hh, lh, hl, ll; ring).
  clearbody ll hl lh hh a0 a1 b0 b1.
  pose proof (Z.div_mod ll M ltac:(lia)) as Ell. pose proof (Z.mod_pos_bound ll M ltac:(lia)) as Rll.
  pose proof (Z.div_mod hl M ltac:(lia)) as Ehl. pose proof (Z.mod_pos_bound hl M ltac:(lia)) as Rhl.
  assert (Hdv : forall x, 0 <= x <= (M - 1) * (M - 1) -> 0 <= x / M <= M - 2).
  { intros x Hx. clear - Hx HM. split; [apply Z.div_pos; lia|].
    apply Z.lt_succ_r, Z.div_lt_upper_bound; [lia|]. nia. }
  pose proof (Hdv ll R00) as Dll. pose proof (Hdv hl R10) as Dhl.
  assert (HMB : 2 * M < Bw) by (clear - HBM HM; nia).
  rewrite (Hw0 (ll / M + hl mod M)) by (clear - Dll Rhl HMB; lia).
  assert (Rlh : 0 <= lh <= Bw - 2 * M + 1) by (clear - R01 HMM; lia).
  rewrite (Hw0 (ll / M + hl mod M + lh)) by (clear - Dll Rhl Rlh HMB; lia).
  assert (Hcr : exists cr, cr = ll / M + hl mod M + lh) by (eexists; reflexivity).
  destruct Hcr as [cr Hcr]. rewrite <- Hcr.
  assert (Rcr : 0 <= cr < Bw) by (rewrite Hcr; clear - Dll Rhl Rlh HMB; lia).
  pose proof (Z.div_mod cr M ltac:(lia)) as Ecr. pose proof (Z.mod_pos_bound cr M ltac:(lia)) as Rcrm.
  assert (0 <= cr / M <= M - 1) as Dcr.
  { clear - Rcr HM HBM. split; [apply Z.div_pos; lia | apply Z.lt_succ_r, Z.div_lt_upper_bound; lia]. }
  rewrite (Hw0 (hl / M + cr / M)) by (clear - Dhl Dcr HMB; lia).
  assert (Eab : a * b = ll mod M + M * (cr mod M) + Bw * (hl / M + cr / M + hh)).
  { assert (E2 : M * (cr mod M) = M * cr - M * (M * (cr / M))) by (rewrite Ecr at 2; ring).
    assert (E3 : M * hl = M * (M * (hl / M)) + M * (hl mod M)) by (rewrite Ehl at 1; ring).
    rewrite E1, E2, E3, HBM. rewrite Hcr at 1. rewrite Ell at 1. ring. }
  assert (Rhi : 0 <= hl / M + cr / M + hh < Bw).
  { assert (a * b < Bw * Bw) by (clear - Ha Hb HB; nia).
    assert (0 <= ll mod M + M * (cr mod M)) by (clear - Rll Rcrm HM; nia).
    clear - H H0 Eab R11 Dhl Dcr HB. split; [lia|]. nia. }
  assert (Rlow : 0 <= ll mod M + M * (cr mod M) < Bw) by (clear - Rll Rcrm HM HBM; nia).
  rewrite (Hw0 (hl / M + cr / M + hh)) by assumption.
  set (rhi := hl / M + cr / M + hh) in *.
  assert (Elo : Z.lor (uword (cr * M)) (ll mod M) = (a * b) mod Bw).
  { rewrite HM32. rewrite lor_shift_low by (rewrite <- ?HM32; clear - Rll Rcr; lia). rewrite <- HM32.
    unfold uword. rewrite HBM at 1. rewrite Zmult_mod_distr_r.
    apply Z.mod_unique_pos with (q := rhi); [clear - Rlow; lia | rewrite Eab; ring]. }
  assert (Ehi : rhi = (a * b) / Bw).
  { apply Z.div_unique with (r := ll mod M + M * (cr mod M)); [clear - Rlow; lia | rewrite Eab; ring]. }
  rewrite Elo. unfold mul1x1. destruct sg.
  - (* signed correction *)
    assert (Es : forall x, 0 <= x < Bw -> sword x = x + Bw * (if extended_word true x =? 0 then 0 else -1)
                 /\ (extended_word true x = 0 \/ extended_word true x = Bw - 1)).
    { intros x Hx. unfold extended_word. pose proof Bw_H. pose proof Hw_pos.
      rewrite sword_neg by (apply word_intro; assumption). unfold sword.
      destruct (Z.ltb_spec x Hw); cbn [negb].
      - cbn [Z.eqb]. lia.
      - destruct (Z.eqb_spec (Bw - 1) 0); lia. }
    destruct (Es a Ha) as [Sa Xa]. destruct (Es b Hb) as [Sb Xb].
    set (ea := extended_word true a) in *. set (eb := extended_word true b) in *.
    set (ka := if ea =? 0 then 0 else -1) in *. set (kb := if eb =? 0 then 0 else -1) in *.
    assert (Ka : exists q, ea = ka + q * Bw).
    { destruct Xa as [E|E]; subst ka; rewrite E.
      - exists 0. cbn [Z.eqb]. lia.
      - exists 1. destruct (Z.eqb_spec (Bw - 1) 0); lia. }
    assert (Kb : exists q, eb = kb + q * Bw).
    { destruct Xb as [E|E]; subst kb; rewrite E.
      - exists 0. cbn [Z.eqb]. lia.
      - exists 1. destruct (Z.eqb_spec (Bw - 1) 0); lia. }
    destruct Ka as [qa Ka]. destruct Kb as [qb Kb].
    rewrite Sa, Sb.
    replace ((a + Bw * ka) * (b + Bw * kb)) with (a * b + (a * kb + ka * b + Bw * ka * kb) * Bw) by ring.
    f_equal; [unfold uword; rewrite Z.mod_add by lia; reflexivity|].
    f_equal. rewrite Z.div_add by lia. rewrite <- Ehi.
    unfold uword. rewrite <- Zplus_mod, Zplus_mod_idemp_r.
    rewrite Ka, Kb.
    replace (rhi + (b * (ka + qa * Bw) + a * (kb + qb * Bw)))
      with (rhi + (a * kb + ka * b + Bw * ka * kb) + (b * qa + a * qb - ka * kb) * Bw) by ring.
    apply Z.mod_add. lia.
  - unfold uword. f_equal. f_equal. rewrite <- Ehi. symmetry. apply Z.mod_small. assumption.
Qed.
