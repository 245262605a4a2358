(** Lemmas about word lists and operand words. *)
From Coq Require Import ZArith List Bool Lia ZifyBool ZifyNat.
From Verif Require Import LargeIntsModel LargeIntsSpec.
Import ListNotations.
Local Open Scope Z_scope.

(** Powers of the base. *)
Definition pw (n : nat) : Z := Bw ^ Z.of_nat n.

Lemma Bw_H : Bw = 2 * Hw.
Proof. reflexivity. Qed.
Lemma Hw_pos : 1 < Hw.
Proof. reflexivity. Qed.
Lemma Bw_pos : 1 < Bw.
Proof. reflexivity. Qed.
Lemma Bw_eq : 2 ^ 64 = Bw.
Proof. reflexivity. Qed.
Lemma pw_0 : pw 0 = 1.
Proof. reflexivity. Qed.
Lemma pw_S n : pw (S n) = Bw * pw n.
Proof. unfold pw. rewrite Nat2Z.inj_succ, Z.pow_succ_r by lia. reflexivity. Qed.
Lemma pw_pos n : 0 < pw n.
Proof. unfold pw. apply Z.pow_pos_nonneg; [reflexivity | lia]. Qed.
Lemma pw_add n m : pw (n + m) = pw n * pw m.
Proof. unfold pw. rewrite Nat2Z.inj_add, Z.pow_add_r by lia. reflexivity. Qed.
Lemma pw_1 : pw 1 = Bw.
Proof. unfold pw. apply Z.pow_1_r. Qed.
Lemma pw_wbits n : 2 ^ wbits n = pw n.
Proof. unfold wbits, pw, Bw. rewrite <- Z.pow_mul_r by lia. reflexivity. Qed.
Lemma pw_half n : (0 < n)%nat -> pw n = 2 * 2 ^ (wbits n - 1).
Proof.
  intros H. rewrite <- pw_wbits. unfold wbits.
  replace (64 * Z.of_nat n) with (1 + (64 * Z.of_nat n - 1)) at 1 by lia.
  rewrite Z.pow_add_r by lia. reflexivity.
Qed.
Lemma half_S n : 2 ^ (wbits (S n) - 1) = Hw * pw n.
Proof.
  unfold wbits, pw, Hw, Bw. rewrite <- Z.pow_mul_r by lia.
  rewrite <- Z.pow_add_r by lia. f_equal. lia.
Qed.
Lemma half_pos n : (0 < n)%nat -> 0 < 2 ^ (wbits n - 1).
Proof. intros H. apply Z.pow_pos_nonneg; unfold wbits; lia. Qed.

Lemma is_word_bw w : is_word w -> 0 <= w < Bw.
Proof. exact (fun H => H). Qed.
Lemma word_intro w : 0 <= w < Bw -> is_word w.
Proof. exact (fun H => H). Qed.

Lemma le_val_cons w r : le_val (w :: r) = w + Bw * le_val r.
Proof. reflexivity. Qed.
Lemma le_val_nil : le_val [] = 0.
Proof. reflexivity. Qed.

Lemma le_val_app a b : le_val (a ++ b) = le_val a + pw (length a) * le_val b.
Proof.
  induction a as [|x a IH].
  - cbn [app length]. rewrite le_val_nil, pw_0. lia.
  - rewrite <- app_comm_cons, !le_val_cons, IH. cbn [length]. rewrite pw_S. ring.
Qed.

Lemma le_val_snoc a w : le_val (a ++ [w]) = le_val a + pw (length a) * w.
Proof. rewrite le_val_app, le_val_cons, le_val_nil. ring. Qed.

Lemma le_val_bound ws : Forall is_word ws -> 0 <= le_val ws < pw (length ws).
Proof.
  induction 1 as [|w r Hx _ IH].
  - rewrite le_val_nil. cbn [length]. rewrite pw_0. lia.
  - rewrite le_val_cons. cbn [length]. rewrite pw_S.
    apply is_word_bw in Hx. pose proof Bw_pos.
    assert (0 <= Bw * le_val r) by (apply Z.mul_nonneg_nonneg; lia).
    assert (Bw * le_val r <= Bw * (pw (length r) - 1)) by (apply Z.mul_le_mono_nonneg_l; lia).
    lia.
Qed.

Lemma le_val_inj a b :
  Forall is_word a -> Forall is_word b -> length a = length b ->
  le_val a = le_val b -> a = b.
Proof.
  intros Ha; revert b; induction Ha as [|x a Hx Ha IH]; intros b Hb Hl Hv.
  - destruct b; [reflexivity | discriminate].
  - destruct b as [|y b]; [discriminate|].
    inversion Hb as [|? ? Hy Hb']; subst.
    rewrite !le_val_cons in Hv. apply is_word_bw in Hx, Hy.
    assert (x = y).
    { rewrite (Z.mod_unique_pos (x + Bw * le_val a) Bw (le_val a) x) by lia.
      rewrite Hv. symmetry. apply Z.mod_unique_pos with (q := le_val b); lia. }
    subst y. f_equal. apply IH; [assumption | cbn in Hl; lia | pose proof Bw_pos; nia].
Qed.

Lemma nth_word ws i : Forall is_word ws -> is_word (nth i ws 0).
Proof.
  intros H. destruct (Nat.lt_ge_cases i (length ws)) as [Hi|Hi].
  - rewrite Forall_forall in H. apply H, nth_In, Hi.
  - rewrite nth_overflow by lia. apply word_intro. pose proof Bw_pos. lia.
Qed.

Lemma le_val_split ws i :
  le_val ws = le_val (firstn i ws) + pw (length (firstn i ws)) * le_val (skipn i ws).
Proof. rewrite <- (firstn_skipn i ws) at 1. apply le_val_app. Qed.

Lemma skipn_nth (ws : list Z) i :
  (i < length ws)%nat -> skipn i ws = nth i ws 0 :: skipn (S i) ws.
Proof.
  revert i; induction ws as [|x r IH]; intros i Hi; [cbn in Hi; lia|].
  destruct i as [|i]; [reflexivity|].
  cbn [skipn nth]. rewrite IH by (cbn in Hi; lia). reflexivity.
Qed.

Lemma Forall_firstn {A} (P : A -> Prop) l i : Forall P l -> Forall P (firstn i l).
Proof. intros H; revert i; induction H; intros [|i]; cbn; auto. Qed.
Lemma Forall_skipn {A} (P : A -> Prop) l i : Forall P l -> Forall P (skipn i l).
Proof. intros H; revert i; induction H; intros [|i]; cbn; auto. Qed.

(** The [i]-th word of a list is the [i]-th base-B digit of its value. *)
Lemma nth_digit ws i :
  Forall is_word ws -> (i < length ws)%nat ->
  nth i ws 0 = (le_val ws / pw i) mod Bw.
Proof.
  intros HF Hi. rewrite (le_val_split ws i), (skipn_nth ws i Hi), le_val_cons.
  pose proof (le_val_bound _ (Forall_firstn _ _ i HF)) as Hb.
  rewrite firstn_length_le in * by lia.
  pose proof (nth_word ws i HF) as Hn. apply is_word_bw in Hn.
  pose proof (pw_pos i). 
  replace (le_val (firstn i ws) + pw i * (nth i ws 0 + Bw * le_val (skipn (S i) ws)))
    with (le_val (firstn i ws) + (nth i ws 0 + Bw * le_val (skipn (S i) ws)) * pw i) by ring.
  rewrite Z.div_add, Z.div_small by lia. rewrite Z.add_0_l.
  rewrite (Z.mul_comm Bw), Z.mod_add by (pose proof Bw_pos; lia).
  symmetry. apply Z.mod_small. lia.
Qed.

(** The sign of a word list is decided by its top word. *)
Lemma sword_neg w : is_word w -> (sword w <? 0) = negb (w <? Hw).
Proof.
  intros H. apply is_word_bw in H. unfold sword.
  pose proof Bw_H. destruct (Z.ltb_spec w Hw); lia.
Qed.

Lemma top_word_ge ws :
  ws <> [] -> Forall is_word ws ->
  (nth (length ws - 1) ws 0 <? Hw) = (le_val ws <? 2 ^ (wbits (length ws) - 1)).
Proof.
  intros Hne HF. destruct (exists_last Hne) as [r [w ->]].
  rewrite app_length in *. cbn [length].
  replace (length r + 1 - 1)%nat with (length r) by lia.
  rewrite app_nth2, Nat.sub_diag by lia. cbn [nth].
  rewrite Nat.add_1_r, half_S, le_val_snoc.
  apply Forall_app in HF as [Hr Hl]. inversion Hl as [|? ? Hx _]; subst.
  pose proof (le_val_bound r Hr). apply is_word_bw in Hx.
  pose proof (pw_pos (length r)).
  destruct (Z.ltb_spec w Hw); symmetry; [apply Z.ltb_lt | apply Z.ltb_ge]; nia.
Qed.

(** ** Values of operands *)

Lemma op_value_range_comp sg ws :
  ws <> [] -> Forall is_word ws -> in_range sg (length ws) (op_value (OComp sg ws)).
Proof.
  intros Hne HF. pose proof (le_val_bound ws HF) as Hb.
  assert (Hl : (0 < length ws)%nat) by (destruct ws; [congruence | cbn; lia]).
  pose proof (pw_half _ Hl). pose proof (half_pos _ Hl).
  destruct sg; unfold in_range, op_value, as_signed; rewrite ?pw_wbits; [|lia].
  destruct (Z.ltb_spec (le_val ws) (2 ^ (wbits (length ws) - 1))); lia.
Qed.

Lemma op_value_mod sg ws :
  exists k, op_value (OComp sg ws) = le_val ws + k * pw (length ws).
Proof.
  destruct sg; unfold op_value, as_signed; rewrite ?pw_wbits.
  - destruct (_ <? _); [exists 0 | exists (-1)]; lia.
  - exists 0; lia.
Qed.

Lemma div_neg_small v m : - m <= v < 0 -> 0 < m -> v / m = -1.
Proof. intros. symmetry. apply Z.div_unique with (r := v + m); lia. Qed.

Lemma pw_le i j : (i <= j)%nat -> pw i <= pw j.
Proof.
  intros H. replace j with (i + (j - i))%nat by lia. rewrite pw_add.
  pose proof (pw_pos i). pose proof (pw_pos (j - i)). nia.
Qed.

Lemma pow2_pw k n : (k <= 64 * Z.of_nat n) -> 0 <= k -> 2 ^ k <= pw n.
Proof.
  intros H H0. rewrite <- pw_wbits. apply Z.pow_le_mono_r; unfold wbits; lia.
Qed.

(** Word [i] of a well-formed operand is digit [i] of its two's complement
    expansion. *)
Lemma word_at_digit o i :
  op_wf o -> word_at o i = (op_value o / pw i) mod Bw.
Proof.
  pose proof Bw_pos as HB. destruct o as [sg ws | sg bytes v]; intros Hwf.
  - destruct Hwf as [Hne HF]. unfold word_at.
    destruct (Nat.ltb_spec i (length ws)) as [Hi|Hi].
    + rewrite (nth_digit ws i HF Hi).
      destruct (op_value_mod sg ws) as [k ->].
      replace (length ws) with (i + (1 + (length ws - S i)))%nat by lia.
      rewrite !pw_add, pw_1.
      replace (k * (pw i * (Bw * pw (length ws - S i))))
        with ((k * pw (length ws - S i) * Bw) * pw i) by ring.
      rewrite Z.div_add by (pose proof (pw_pos i); lia).
      rewrite Z.mod_add by lia. reflexivity.
    + pose proof (op_value_range_comp sg ws Hne HF) as Hr.
      assert (Hl : (0 < length ws)%nat) by (destruct ws; [congruence | cbn; lia]).
      pose proof (pw_half _ Hl). pose proof (half_pos _ Hl).
      pose proof (pw_le _ _ Hi). 
      destruct sg; unfold extended_word, in_range in *; rewrite ?pw_wbits in Hr.
      * rewrite sword_neg by (apply nth_word; assumption).
        rewrite top_word_ge by assumption.
        pose proof (le_val_bound ws HF). 
        unfold op_value, as_signed in *. rewrite pw_wbits in *.
        destruct (Z.ltb_spec (le_val ws) (2 ^ (wbits (length ws) - 1))); cbn [negb].
        -- rewrite Z.div_small, Z.mod_0_l by lia. reflexivity.
        -- rewrite div_neg_small by lia.
           apply Z.mod_unique with (q := -1); lia.
      * unfold op_value in *. rewrite Z.div_small, Z.mod_0_l by lia. reflexivity.
  - destruct Hwf as [Hby Hr]. unfold word_at, uword, op_value.
    fold (pw i).
    destruct (Nat.ltb_spec (int_count false (OBuiltin sg bytes v)) (S i)) as [Hi|Hi];
      [|reflexivity].
    unfold int_count in Hi. rewrite orb_true_r in Hi.
    assert (H8 : 8 * Z.of_nat bytes <= 64 * Z.of_nat i).
    { assert ((bytes + 8 - 1) / 8 < S i)%nat as H1 by exact Hi.
      pose proof (Nat.div_mod_eq (bytes + 8 - 1) 8).
      pose proof (Nat.mod_upper_bound (bytes + 8 - 1) 8). lia. }
    destruct sg; unfold builtin_range in Hr; cbn [andb].
    + assert (2 ^ (8 * Z.of_nat bytes - 1) <= pw i) by (apply pow2_pw; lia).
      destruct (Z.ltb_spec v 0).
      * rewrite div_neg_small by lia.
        apply Z.mod_unique with (q := -1); lia.
      * rewrite Z.div_small, Z.mod_0_l by lia. reflexivity.
    + assert (2 ^ (8 * Z.of_nat bytes) <= pw i) by (apply pow2_pw; lia).
      rewrite Z.div_small, Z.mod_0_l by lia. reflexivity.
Qed.

Lemma word_at_word o i : op_wf o -> is_word (word_at o i).
Proof.
  intros H. rewrite word_at_digit by assumption. apply word_intro.
  apply Z.mod_pos_bound. pose proof Bw_pos. lia.
Qed.

Lemma to_words_length n o : length (to_words n o) = n.
Proof.
  induction n as [|n IH]; [reflexivity|]. cbn [to_words].
  rewrite app_length, IH. cbn. lia.
Qed.

Lemma to_words_words n o : op_wf o -> Forall is_word (to_words n o).
Proof.
  intros H. induction n as [|n IH]; [constructor|]. cbn [to_words].
  apply Forall_app; split; [assumption|]. constructor; [|constructor].
  apply word_at_word, H.
Qed.

Lemma mod_pw_S v n : v mod pw (S n) = v mod pw n + pw n * ((v / pw n) mod Bw).
Proof.
  rewrite pw_S, (Z.mul_comm Bw). apply Z.rem_mul_r.
  - pose proof (pw_pos n); lia.
  - pose proof Bw_pos; lia.
Qed.

(** Converting to [n] words keeps the value modulo B^n. *)
Lemma to_words_val n o : op_wf o -> le_val (to_words n o) = op_value o mod pw n.
Proof.
  intros H. induction n as [|n IH].
  - cbn [to_words]. rewrite pw_0, Z.mod_1_r. reflexivity.
  - cbn [to_words]. rewrite le_val_snoc, to_words_length, IH, mod_pw_S.
    rewrite (word_at_digit o n H). reflexivity.
Qed.

(** Reading an [n]-word pattern that is [z mod B^n] gives [wrap]. *)
Lemma op_value_wrap sg ws z n :
  (0 < n)%nat -> length ws = n -> le_val ws = z mod pw n ->
  op_value (OComp sg ws) = wrap sg n z.
Proof.
  intros Hn Hl Hv. pose proof (pw_half n Hn) as Hh. pose proof (half_pos n Hn).
  destruct sg; unfold op_value, wrap, as_signed; rewrite ?Hl, Hv, ?pw_wbits; [|reflexivity].
  set (h := 2 ^ (wbits n - 1)) in *. rewrite Hh.
  pose proof (Z.mod_pos_bound z (2 * h) ltac:(lia)).
  pose proof (Z.div_mod z (2 * h) ltac:(lia)).
  destruct (Z.ltb_spec (z mod (2 * h)) h).
  - rewrite <- (Z.mod_unique_pos (z + h) (2 * h) (z / (2 * h)) (z mod (2 * h) + h)); lia.
  - rewrite <- (Z.mod_unique_pos (z + h) (2 * h) (z / (2 * h) + 1) (z mod (2 * h) - h)); lia.
Qed.

Lemma wrap_id sg n z : (0 < n)%nat -> in_range sg n z -> wrap sg n z = z.
Proof.
  intros Hn. pose proof (pw_half n Hn). pose proof (half_pos n Hn).
  destruct sg; unfold in_range, wrap; rewrite ?pw_wbits; intros Hr.
  - rewrite Z.mod_small; lia.
  - apply Z.mod_small; lia.
Qed.

Lemma wrap_range sg n z : (0 < n)%nat -> in_range sg n (wrap sg n z).
Proof.
  intros Hn. pose proof (pw_half n Hn). pose proof (half_pos n Hn).
  pose proof (pw_pos n).
  destruct sg; unfold in_range, wrap; rewrite ?pw_wbits.
  - pose proof (Z.mod_pos_bound (z + 2 ^ (wbits n - 1)) (pw n) ltac:(lia)). lia.
  - apply Z.mod_pos_bound; lia.
Qed.

Lemma wrap_mod sg n z : (0 < n)%nat -> wrap sg n z mod pw n = z mod pw n.
Proof.
  intros Hn. pose proof (pw_pos n). destruct sg; unfold wrap; rewrite pw_wbits.
  - rewrite Zminus_mod_idemp_l. f_equal. lia.
  - apply Zmod_mod.
Qed.

Lemma wrap_cong sg n x y : x mod pw n = y mod pw n -> wrap sg n x = wrap sg n y.
Proof.
  intros H. destruct sg; unfold wrap; rewrite pw_wbits; [|assumption].
  f_equal. rewrite <- Zplus_mod_idemp_l, H, Zplus_mod_idemp_l. reflexivity.
Qed.

Lemma mod_pw_le v m n : (n <= m)%nat -> (v mod pw m) mod pw n = v mod pw n.
Proof.
  intros H. replace m with (n + (m - n))%nat by lia. rewrite pw_add.
  rewrite Z.rem_mul_r by (pose proof (pw_pos n); pose proof (pw_pos (m - n)); lia).
  rewrite (Z.mul_comm (pw n)), Z.mod_add by (pose proof (pw_pos n); lia).
  apply Z.mod_mod. pose proof (pw_pos n); lia.
Qed.

Lemma comp_wf sg ws n : (0 < n)%nat -> length ws = n -> Forall is_word ws -> op_wf (OComp sg ws).
Proof. intros Hn Hl HF. split; [|assumption]. intros ->. cbn in Hl. lia. Qed.

Lemma op_value_wf_range o : op_wf o ->
  match o with
  | OComp sg ws => in_range sg (length ws) (op_value o)
  | OBuiltin sg bytes v => builtin_range sg bytes (op_value o)
  end.
Proof.
  destruct o as [sg ws|sg bytes v]; intros H.
  - destruct H. apply op_value_range_comp; assumption.
  - apply H.
Qed.

(** A signed type with [int_count] words holds every value of the operand. *)
Lemma int_count_fits sg o n :
  op_wf o -> (sg = true \/ op_signed o = false) -> (int_count sg o <= n)%nat ->
  in_range sg n (op_value o).
Proof.
  intros Hwf Hs Hn. pose proof (op_value_wf_range o Hwf) as Hr.
  destruct o as [s ws|s bytes v]; cbn [op_signed] in Hs.
  - destruct Hwf as [Hne HF].
    assert (Hl : (0 < length ws)%nat) by (destruct ws; [congruence | cbn; lia]).
    unfold int_count in Hn.
    assert (Hmono : forall a b, (a <= b)%nat -> 2 ^ wbits a <= 2 ^ wbits b)
      by (intros; apply Z.pow_le_mono_r; unfold wbits; lia).
    assert (Hmono1 : forall a b, (a <= b)%nat -> 2 ^ (wbits a - 1) <= 2 ^ (wbits b - 1))
      by (intros; apply Z.pow_le_mono_r; unfold wbits; lia).
    destruct sg, s; cbn [andb negb] in Hn; unfold in_range in *.
    + specialize (Hmono1 (length ws) n ltac:(lia)). lia.
    + assert (2 ^ wbits (length ws) <= 2 ^ (wbits n - 1))
        by (apply Z.pow_le_mono_r; unfold wbits; lia).
      pose proof (half_pos n ltac:(lia)). lia.
    + destruct Hs; discriminate.
    + specialize (Hmono (length ws) n ltac:(lia)). lia.
  - unfold int_count in Hn. unfold builtin_range in Hr. destruct Hwf as [Hby _].
    set (k := if s || negb sg then 1%nat else 0%nat) in *.
    assert (Hd : (bytes + 8 - k < 8 * (n + 1))%nat).
    { pose proof (Nat.div_mod_eq (bytes + 8 - k) 8).
      pose proof (Nat.mod_upper_bound (bytes + 8 - k) 8). lia. }
    destruct sg, s; cbn [orb negb] in k; subst k; unfold in_range.
    + assert (2 ^ (8 * Z.of_nat bytes - 1) <= 2 ^ (wbits n - 1))
        by (apply Z.pow_le_mono_r; unfold wbits; lia). lia.
    + assert (2 ^ (8 * Z.of_nat bytes) <= 2 ^ (wbits n - 1))
        by (apply Z.pow_le_mono_r; unfold wbits; lia).
      assert (0 < 2 ^ (wbits n - 1)) by (apply half_pos; lia). lia.
    + destruct Hs; discriminate.
    + assert (2 ^ (8 * Z.of_nat bytes) <= 2 ^ (wbits n))
        by (apply Z.pow_le_mono_r; unfold wbits; lia). lia.
Qed.

Lemma int_count_pos sg o : op_wf o -> (0 < int_count sg o)%nat.
Proof.
  destruct o as [s ws|s bytes v]; intros Hwf; unfold int_count.
  - destruct Hwf as [Hne _]. destruct ws; [congruence|]. cbn [length]. lia.
  - destruct Hwf as [Hby _].
    apply Nat.div_str_pos. destruct (s || negb sg); lia.
Qed.
