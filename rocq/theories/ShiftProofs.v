(** Shifts and leading-zero count. *)
From Coq Require Import ZArith List Bool Lia ZifyBool ZifyNat.
From Verif Require Import LargeIntsModel LargeIntsSpec WordsProofs ArithProofs.
Import ListNotations.
Local Open Scope Z_scope.

Lemma lor_disjoint a b k : 0 <= k -> 0 <= a < 2 ^ k -> 0 <= b -> Z.lor a (b * 2 ^ k) = a + b * 2 ^ k.
Proof.
  intros Hk Ha Hb. symmetry. rewrite <- Z.lxor_lor.
  - apply Z.add_nocarry_lxor.
    apply Z.bits_inj'. intros n Hn. rewrite Z.land_spec, Z.bits_0.
    destruct (Z.lt_ge_cases n k).
    + rewrite Z.mul_pow2_bits_low by lia. apply andb_false_r.
    + replace (Z.testbit a n) with false; [reflexivity|].
      symmetry. destruct (Z.eq_dec a 0) as [->|]; [apply Z.bits_0|].
      apply Z.bits_above_log2; [lia|]. apply Z.log2_lt_pow2; [lia|].
      pose proof (Z.pow_le_mono_r 2 k n). lia.
  - apply Z.bits_inj'. intros n Hn. rewrite Z.land_spec, Z.bits_0.
    destruct (Z.lt_ge_cases n k).
    + rewrite Z.mul_pow2_bits_low by lia. apply andb_false_r.
    + replace (Z.testbit a n) with false; [reflexivity|].
      symmetry. destruct (Z.eq_dec a 0) as [->|]; [apply Z.bits_0|].
      apply Z.bits_above_log2; [lia|]. apply Z.log2_lt_pow2; [lia|].
      pose proof (Z.pow_le_mono_r 2 k n). lia.
Qed.

(** The double-word shift on two adjacent digits of [x]. *)
Lemma shrd_digit x k :
  0 < k < 64 ->
  Z.lor ((x mod Bw) / 2 ^ k) (((x / Bw) mod Bw * 2 ^ (64 - k)) mod Bw) = (x / 2 ^ k) mod Bw.
Proof.
  intros Hk. pose proof Bw_pos as HB.
  assert (HBk : Bw = 2 ^ k * 2 ^ (64 - k)).
  { rewrite <- Z.pow_add_r by lia. unfold Bw. f_equal. lia. }
  assert (0 < 2 ^ k) by (apply Z.pow_pos_nonneg; lia).
  assert (0 < 2 ^ (64 - k)) by (apply Z.pow_pos_nonneg; lia).
  set (K := 2 ^ k) in *. set (L := 2 ^ (64 - k)) in *.
  assert (E1 : ((x / Bw) mod Bw * L) mod Bw = ((x / Bw) mod K) * L).
  { rewrite HBk at 3. rewrite Zmult_mod_distr_r. f_equal.
    set (y := x / Bw). rewrite HBk. rewrite Z.rem_mul_r by lia.
    rewrite Z.mul_comm, Z.mod_add by lia. apply Z.mod_mod. lia. }
  rewrite E1. subst L.
  rewrite lor_disjoint; [|lia| |apply Z.mod_pos_bound; lia].
  - set (L := 2 ^ (64 - k)) in *.
    pose proof (Z.div_mod x Bw ltac:(lia)) as Hx.
    pose proof (Z.mod_pos_bound x Bw ltac:(lia)).
    set (x0 := x mod Bw) in *. set (x1 := x / Bw) in *.
    pose proof (Z.div_mod x1 K ltac:(lia)) as Hx1.
    pose proof (Z.mod_pos_bound x1 K ltac:(lia)).
    apply Z.mod_unique_pos with (q := x1 / K).
    + assert (x0 / K < L) by (apply Z.div_lt_upper_bound; lia).
      assert (0 <= x0 / K) by (apply Z.div_pos; lia). nia.
    + rewrite Hx at 1. rewrite HBk.
      replace (K * L * x1 + x0) with (x0 + (L * x1) * K) by ring.
      rewrite Z.div_add by lia. nia.
  - split; [apply Z.div_pos; [apply Z.mod_pos_bound; lia | lia]|].
    apply Z.div_lt_upper_bound; [lia|]. rewrite <- HBk. apply Z.mod_pos_bound. lia.
Qed.

Lemma digits_val r v n :
  length r = n -> (forall j, (j < n)%nat -> nth j r 0 = (v / pw j) mod Bw) ->
  le_val r = v mod pw n.
Proof.
  revert r v. induction n as [|n IH]; intros r v Hl H.
  - destruct r; [|discriminate]. rewrite pw_0, Z.mod_1_r. reflexivity.
  - destruct r as [|w r]; [discriminate|]. rewrite le_val_cons.
    rewrite (IH r (v / Bw)).
    + pose proof (H 0%nat ltac:(lia)) as H0. cbn [nth] in H0. rewrite pw_0, Z.div_1_r in H0.
      rewrite H0, pw_S. symmetry. apply Z.rem_mul_r; [pose proof Bw_pos; lia|].
      pose proof (pw_pos n). lia.
    + cbn in Hl. lia.
    + intros j Hj. specialize (H (S j) ltac:(lia)). cbn [nth] in H. rewrite H, pw_S.
      rewrite Z.div_div; [reflexivity | pose proof Bw_pos; lia | apply pw_pos].
Qed.

Lemma digits_words r v n :
  length r = n -> (forall j, (j < n)%nat -> nth j r 0 = (v / pw j) mod Bw) ->
  Forall is_word r.
Proof.
  intros Hl H. apply Forall_forall. intros x Hx.
  apply In_nth with (d := 0) in Hx. destruct Hx as (j & Hj & <-).
  rewrite H by lia. apply word_intro, Z.mod_pos_bound. pose proof Bw_pos; lia.
Qed.

Lemma upd_length l i w : length (upd l i w) = length l.
Proof. revert i; induction l as [|x l IH]; intros [|i]; cbn [upd length]; auto. Qed.

Lemma nth_upd l i w j :
  (i < length l)%nat -> nth j (upd l i w) 0 = if Nat.eqb j i then w else nth j l 0.
Proof.
  revert i j; induction l as [|x l IH]; intros [|i] [|j] Hi; cbn [upd nth length Nat.eqb] in *;
    try lia; try reflexivity.
  apply IH. lia.
Qed.

(** ** Right shift *)
Section ShiftRight.
Variables (sg : bool) (a : list Z) (amount : Z).
Hypothesis Hwf : op_wf (OComp sg a).
Hypothesis Hamt : 0 <= amount < 64 * Z.of_nat (length a).
Let n := length a.
Let word := Z.to_nat (amount / 64).
Let bit := amount mod 64.
Let V := op_value (OComp sg a).
Let target (j : nat) : Z := ((V / 2 ^ amount) / pw j) mod Bw.

Lemma word_lt_n : (word < n)%nat.
Proof. unfold word, n. Z.to_euclidean_division_equations; lia. Qed.

Lemma target_eq j : target j = ((V / pw (j + word)) / 2 ^ bit) mod Bw.
Proof.
  unfold target. f_equal.
  assert (E : 2 ^ amount = pw word * 2 ^ bit).
  { unfold word, bit. rewrite <- pw_wbits. unfold wbits.
    rewrite <- Z.pow_add_r by (Z.to_euclidean_division_equations; lia).
    f_equal. Z.to_euclidean_division_equations; lia. }
  assert (0 < 2 ^ bit) by (apply Z.pow_pos_nonneg; unfold bit; Z.to_euclidean_division_equations; lia).
  pose proof (pw_pos word). pose proof (pw_pos j).
  rewrite E, pw_add, !Z.div_div by nia. f_equal. ring.
Qed.

Lemma bit_range : 0 <= bit < 64.
Proof. unfold bit. apply Z.mod_pos_bound. lia. Qed.

Lemma target_shrd j :
  target j = ext_shift_right (word_at (OComp sg a) (j + word)) (word_at (OComp sg a) (S (j + word))) bit.
Proof.
  rewrite target_eq. unfold ext_shift_right. rewrite !word_at_digit by assumption.
  fold V. pose proof bit_range.
  destruct (Z.eqb_spec bit 0) as [->|Hb].
  - rewrite Z.pow_0_r, Z.div_1_r. reflexivity.
  - rewrite pw_S, <- shrd_digit by lia. rewrite (Z.mul_comm Bw), <- Z.div_div.
    + reflexivity.
    + pose proof (pw_pos (j + word)); lia.
    + pose proof Bw_pos; lia.
Qed.

Lemma word_at_in i : (i < n)%nat -> word_at (OComp sg a) i = nth i a 0.
Proof. intros Hi. unfold word_at. fold n. destruct (Nat.ltb_spec i n); [reflexivity | lia]. Qed.

Lemma word_at_out i : (n <= i)%nat -> word_at (OComp sg a) i = extended_word sg (nth (n - 1) a 0).
Proof. intros Hi. unfold word_at. fold n. destruct (Nat.ltb_spec i n); [lia | reflexivity]. Qed.

Lemma n_pos : (0 < n)%nat.
Proof. apply wf_len with sg. exact Hwf. Qed.

(** V / B^(n-1) is the top word with its sign. *)
Lemma top_value : V / pw (n - 1) = if sg then sword (nth (n - 1) a 0) else nth (n - 1) a 0.
Proof.
  pose proof n_pos as Hn.
  pose proof (op_value_range_comp sg a (proj1 Hwf) (proj2 Hwf)) as Hr.
  pose proof (pw_pos (n - 1)) as Hp. fold V in Hr.
  rewrite <- (word_at_in (n - 1)) by lia.
  destruct sg.
  - assert (E : n = S (n - 1)) by lia. fold n in Hr. rewrite E in Hr.
    pose proof (sign_word_digit (OComp true a) (n - 1) true Hwf Hr eq_refl) as Hd.
    fold V in Hd. rewrite Hd at 1. rewrite (Z.mul_comm (pw (n - 1))), Z.div_add by lia.
    rewrite Z.div_small by (apply Z.mod_pos_bound; lia). lia.
  - rewrite word_at_digit by assumption. fold V. symmetry. apply Z.mod_small.
    unfold in_range in Hr. fold n in Hr. rewrite pw_wbits in Hr.
    replace n with (S (n - 1)) in Hr by lia. rewrite pw_S in Hr.
    split; [apply Z.div_pos; lia | apply Z.div_lt_upper_bound; nia].
Qed.

Lemma target_top : target (n - 1 - word) = word_shr sg (nth (n - 1) a 0) bit.
Proof.
  pose proof word_lt_n. rewrite target_eq.
  replace (n - 1 - word + word)%nat with (n - 1)%nat by lia.
  rewrite top_value. unfold word_shr, uword. pose proof bit_range as Hbr.
  pose proof (is_word_bw _ (nth_word a (n - 1) (proj2 Hwf))). destruct sg; [reflexivity|].
  assert (1 <= 2 ^ bit) by (pose proof (Z.pow_pos_nonneg 2 bit); lia).
  apply Z.mod_small. split; [apply Z.div_pos; lia|].
  apply Z.div_lt_upper_bound; nia.
Qed.

Lemma target_fill j : (n - 1 - word < j)%nat -> target j = extended_word sg (nth (n - 1) a 0).
Proof.
  intros Hj. rewrite target_eq. pose proof word_lt_n.
  rewrite <- (word_at_out (j + word)) by lia.
  pose proof (op_value_range_comp sg a (proj1 Hwf) (proj2 Hwf)) as Hr. fold V in Hr.
  fold n in Hr. rewrite word_at_digit by assumption. fold V.
  assert (1 <= 2 ^ bit) by (pose proof (Z.pow_pos_nonneg 2 bit); pose proof bit_range; lia).
  pose proof (pw_le n (j + word) ltac:(lia)). pose proof (pw_pos n).
  pose proof (pw_half n n_pos). pose proof (half_pos n n_pos).
  unfold in_range in Hr. destruct sg.
  - destruct (Z.lt_ge_cases V 0).
    + rewrite (div_neg_small V) by lia. rewrite (div_neg_small (-1)) by lia. reflexivity.
    + rewrite (Z.div_small V) by lia. rewrite Z.div_0_l by lia. reflexivity.
  - rewrite pw_wbits in Hr. rewrite (Z.div_small V) by lia. rewrite Z.div_0_l by lia. reflexivity.
Qed.

Definition src (inplace : bool) (r : list Z) := if inplace then r else a.

(** Array [r] after the first [i] elements have been produced. *)
Definition shr_inv (inplace : bool) (r : list Z) (i : nat) : Prop :=
  length r = n /\ (forall j, (j < i)%nat -> nth j r 0 = target j) /\
  (inplace = true -> forall j, (i <= j)%nat -> nth j r 0 = nth j a 0).

Lemma src_nth inplace r i j :
  shr_inv inplace r i -> (i <= j)%nat -> nth j (src inplace r) 0 = nth j a 0.
Proof. intros (_ & _ & H) Hj. destruct inplace; cbn [src]; auto. Qed.

Lemma shr_step inplace r i w :
  shr_inv inplace r i -> (i < n)%nat -> w = target i -> shr_inv inplace (upd r i w) (S i).
Proof.
  intros (Hl & H1 & H2) Hi ->. split; [rewrite upd_length; assumption|]. split.
  - intros j Hj. rewrite nth_upd by lia. destruct (Nat.eqb_spec j i) as [->|]; [reflexivity|].
    apply H1. lia.
  - intros Hip j Hj. rewrite nth_upd by lia. destruct (Nat.eqb_spec j i); [lia|].
    apply H2; [assumption | lia].
Qed.

Lemma shr_loop1_inv inplace k : forall r i,
  shr_inv inplace r i -> (i + k = n - 1 - word)%nat ->
  snd (shr_loop1 inplace a r word bit i k) = (n - 1 - word)%nat /\
  shr_inv inplace (fst (shr_loop1 inplace a r word bit i k)) (n - 1 - word).
Proof.
  pose proof word_lt_n.
  induction k as [|k IH]; intros r i Hinv Hk; cbn [shr_loop1].
  - cbn [fst snd]. replace (n - 1 - word)%nat with i by lia. auto.
  - apply IH; [|lia]. apply shr_step; [assumption | lia|].
    fold (src inplace r).
    rewrite !(src_nth inplace r i) by (assumption || lia).
    rewrite target_shrd, !word_at_in by lia.
    f_equal. f_equal. lia.
Qed.

Lemma shr_loop2_inv inplace k : forall r i,
  shr_inv inplace r i -> (n - 1 - word < i)%nat -> (i + k = n)%nat ->
  shr_inv inplace (shr_loop2 inplace sg a r n i k) n.
Proof.
  induction k as [|k IH]; intros r i Hinv Hi Hk; cbn [shr_loop2].
  - replace n with i by lia. assumption.
  - apply IH; [|lia|lia]. apply shr_step; [assumption | lia|].
    fold (src inplace r).
    rewrite (src_nth inplace r i) by (assumption || lia).
    symmetry. apply target_fill. lia.
Qed.

Lemma shift_right_arr_correct inplace r :
  length r = n -> (inplace = true -> r = a) ->
  exists ws, shift_right_arr inplace sg a r amount = Ok ws /\
    length ws = n /\ Forall is_word ws /\
    op_value (OComp sg ws) = V / 2 ^ amount.
Proof.
  intros Hlr Hip. pose proof word_lt_n as Hlt. pose proof n_pos as Hn.
  unfold shift_right_arr. fold n. fold word. fold bit.
  destruct (Nat.leb_spec n word); [lia|].
  assert (Hinv0 : shr_inv inplace r 0).
  { split; [assumption|]. split; [intros j Hj; lia|]. intros E j _. rewrite (Hip E). reflexivity. }
  pose proof (shr_loop1_inv inplace (n - 1 - word) r 0 Hinv0 ltac:(lia)) as [Hs Hinv1].
  destruct (shr_loop1 inplace a r word bit 0 (n - 1 - word)) as [r1 i]. cbn [fst snd] in *.
  subst i. destruct (Nat.ltb_spec (n - 1 - word) (n - word)); [|lia].
  eexists. split; [reflexivity|].
  match goal with |- context [shr_loop2 _ _ _ ?r2 _ ?i ?k] =>
    assert (Hinv : shr_inv inplace (shr_loop2 inplace sg a r2 n i k) n) end.
  { apply shr_loop2_inv; [|lia|lia]. apply shr_step; [assumption|lia|].
    fold (src inplace r1). rewrite (src_nth inplace r1 (n - 1 - word)) by (assumption || lia).
    replace (n - 1 - word + word)%nat with (n - 1)%nat by lia.
    symmetry. apply target_top. }
  match goal with |- context [shr_loop2 inplace sg a ?r2 n ?i ?k] =>
    set (ws := shr_loop2 inplace sg a r2 n i k) in * end.
  destruct Hinv as (Hl & Hd & _).
  split; [assumption|]. split; [eapply digits_words; eassumption|].
  rewrite (op_value_wrap sg ws (V / 2 ^ amount) n Hn Hl).
  - apply wrap_id; [assumption|].
    pose proof (op_value_range_comp sg a (proj1 Hwf) (proj2 Hwf)) as Hr. fold V n in Hr.
    assert (1 <= 2 ^ amount) by (pose proof (Z.pow_pos_nonneg 2 amount); lia).
    pose proof (half_pos n Hn).
    clear - Hr H0 H1. revert Hr. generalize V. intros v Hr.
    unfold in_range in *. destruct sg.
    + split; [apply Z.div_le_lower_bound; nia | apply Z.div_lt_upper_bound; nia].
    + split; [apply Z.div_pos; lia | apply Z.div_lt_upper_bound; nia].
  - apply digits_val; assumption.
Qed.
End ShiftRight.

Lemma shift_right_correct sg a junk amount :
  op_wf (OComp sg a) -> length junk = length a -> 0 <= amount < wbits (length a) ->
  exists ws, shift_right sg a junk amount = Ok ws /\
    length ws = length a /\ Forall is_word ws /\
    op_value (OComp sg ws) = op_value (OComp sg a) / 2 ^ amount.
Proof.
  intros. apply shift_right_arr_correct; try assumption. discriminate.
Qed.

Lemma shift_right_assign_correct sg a amount :
  op_wf (OComp sg a) -> 0 <= amount < wbits (length a) ->
  exists ws, shift_right_assign sg a amount = Ok ws /\
    length ws = length a /\ Forall is_word ws /\
    op_value (OComp sg ws) = op_value (OComp sg a) / 2 ^ amount.
Proof.
  intros. apply shift_right_arr_correct; auto.
Qed.

Lemma shift_right_ub inplace sg a r amount :
  wbits (length a) <= amount -> shift_right_arr inplace sg a r amount = UB.
Proof.
  intros H. unfold shift_right_arr.
  destruct (Nat.leb_spec (length a) (Z.to_nat (amount / 64))); [reflexivity|].
  unfold wbits in H. Z.to_euclidean_division_equations; lia.
Qed.

(** ** Left shift *)
Section ShiftLeft.
Variables (a : list Z) (amount : Z).
Hypothesis HF : Forall is_word a.
Hypothesis Hamt : 0 <= amount.
Let n := length a.
Let word := Z.to_nat (amount / 64).
Let bit := amount mod 64.
Let V := le_val a.
Let target (j : nat) : Z := ((V * 2 ^ amount) / pw j) mod Bw.

Lemma amount_split : 2 ^ amount = pw word * 2 ^ bit.
Proof.
  unfold word, bit. rewrite <- pw_wbits. unfold wbits.
  rewrite <- Z.pow_add_r by (Z.to_euclidean_division_equations; lia).
  f_equal. Z.to_euclidean_division_equations; lia.
Qed.

Lemma lbit_range : 0 <= bit < 64.
Proof. unfold bit. apply Z.mod_pos_bound. lia. Qed.

Lemma ltarget_low j : (j < word)%nat -> target j = 0.
Proof.
  intros Hj. unfold target. rewrite amount_split.
  replace word with (j + (1 + (word - S j)))%nat by lia. rewrite !pw_add, pw_1.
  replace (V * (pw j * (Bw * pw (word - S j)) * 2 ^ bit))
    with (V * pw (word - S j) * 2 ^ bit * Bw * pw j) by ring.
  pose proof (pw_pos j). pose proof Bw_pos.
  rewrite Z.div_mul, Z.mod_mul by lia. reflexivity.
Qed.

Lemma ltarget_ge k : target (k + word) = ((V * 2 ^ bit) / pw k) mod Bw.
Proof.
  unfold target. rewrite amount_split, pw_add.
  replace (V * (pw word * 2 ^ bit)) with (V * 2 ^ bit * pw word) by ring.
  pose proof (pw_pos word). pose proof (pw_pos k).
  rewrite Z.div_mul_cancel_r by lia. reflexivity.
Qed.

Lemma ldigit i : (i < n)%nat -> nth i a 0 = (V / pw i) mod Bw.
Proof. intros. apply nth_digit; assumption. Qed.

Lemma ltarget_first : (0 < n)%nat -> target word = (nth 0 a 0 * 2 ^ bit) mod Bw.
Proof.
  intros Hn. change (target word) with (target (0 + word)). rewrite (ltarget_ge 0), pw_0, Z.div_1_r, ldigit, pw_0, Z.div_1_r by assumption.
  rewrite Zmult_mod_idemp_l. reflexivity.
Qed.

Lemma ltarget_shld k : (S k < n)%nat ->
  target (S k + word) = ext_shift_left (nth (S k) a 0) (nth k a 0) bit.
Proof.
  intros Hk. rewrite ltarget_ge. unfold ext_shift_left.
  rewrite (ldigit (S k)), (ldigit k) by lia. pose proof lbit_range.
  destruct (Z.eqb_spec bit 0) as [->|Hb].
  - rewrite Z.pow_0_r, Z.mul_1_r. reflexivity.
  - pose proof (pw_pos k). pose proof Bw_pos.
    assert (HBk : Bw = 2 ^ bit * 2 ^ (64 - bit)).
    { rewrite <- Z.pow_add_r by lia. unfold Bw. f_equal. lia. }
    assert (0 < 2 ^ bit) by (apply Z.pow_pos_nonneg; lia).
    assert (0 < 2 ^ (64 - bit)) by (apply Z.pow_pos_nonneg; lia).
    rewrite pw_S at 1. rewrite HBk at 1.
    replace (2 ^ bit * 2 ^ (64 - bit) * pw k) with (pw k * 2 ^ (64 - bit) * 2 ^ bit) by ring.
    rewrite Z.div_mul_cancel_r by nia. rewrite <- Z.div_div by lia.
    rewrite <- shrd_digit by lia. rewrite Z.lor_comm. f_equal. f_equal.
    rewrite pw_S, (Z.mul_comm Bw), <- Z.div_div by lia. f_equal. f_equal. lia.
Qed.

Definition lsrc (inplace : bool) (r : list Z) := if inplace then r else a.

(** Elements from index [i] up are final; below they are untouched. *)
Definition shl_inv (inplace : bool) (r : list Z) (i : nat) : Prop :=
  length r = n /\ (forall j, (i <= j < n)%nat -> nth j r 0 = target j) /\
  (inplace = true -> forall j, (j < i)%nat -> nth j r 0 = nth j a 0).

Lemma lsrc_nth inplace r i j :
  shl_inv inplace r i -> (j < i)%nat -> nth j (lsrc inplace r) 0 = nth j a 0.
Proof. intros (_ & _ & H) Hj. destruct inplace; cbn [lsrc]; auto. Qed.

Lemma shl_step inplace r i w :
  shl_inv inplace r (S i) -> (i < n)%nat -> w = target i -> shl_inv inplace (upd r i w) i.
Proof.
  intros (Hl & H1 & H2) Hi ->. split; [rewrite upd_length; assumption|]. split.
  - intros j Hj. rewrite nth_upd by lia. destruct (Nat.eqb_spec j i) as [->|]; [reflexivity|].
    apply H1. lia.
  - intros Hip j Hj. rewrite nth_upd by lia. destruct (Nat.eqb_spec j i); [lia|].
    apply H2; [assumption | lia].
Qed.

Lemma shl_loop1_inv inplace k : forall r i,
  shl_inv inplace r i -> (i <= n)%nat -> (k = i - (word + 1))%nat ->
  snd (shl_loop1 inplace a r word bit i k) = (i - k)%nat /\
  shl_inv inplace (fst (shl_loop1 inplace a r word bit i k)) (i - k).
Proof.
  induction k as [|k IH]; intros r i Hinv Hi Hk; cbn [shl_loop1].
  - cbn [fst snd]. rewrite Nat.sub_0_r. auto.
  - specialize (IH (upd r (i - 1) (ext_shift_left
      (nth (i - 1 - word) (if inplace then r else a) 0)
      (nth (i - 1 - 1 - word) (if inplace then r else a) 0) bit)) (i - 1)%nat).
    replace (i - S k)%nat with (i - 1 - k)%nat by lia.
    apply IH; [|lia|lia].
    apply shl_step; [replace (S (i - 1)) with i by lia; assumption | lia |].
    fold (lsrc inplace r).
    rewrite !(lsrc_nth inplace r i) by (assumption || lia).
    set (m := (i - 1 - 1 - word)%nat).
    replace (i - 1 - word)%nat with (S m) by lia.
    replace (i - 1)%nat with (S m + word)%nat by lia.
    symmetry. apply ltarget_shld. lia.
Qed.

Lemma shl_loop2_inv i : forall r,
  length r = n -> (i <= word)%nat -> (i <= n)%nat ->
  (forall j, (i <= j < n)%nat -> nth j r 0 = target j) ->
  length (shl_loop2 r i) = n /\ forall j, (j < n)%nat -> nth j (shl_loop2 r i) 0 = target j.
Proof.
  induction i as [|i IH]; intros r Hl Hw Hi H; cbn [shl_loop2].
  - split; [assumption|]. intros j Hj. apply H. lia.
  - apply IH; [rewrite upd_length; assumption | lia | lia |].
    intros j Hj. rewrite nth_upd by lia. destruct (Nat.eqb_spec j i) as [->|].
    + symmetry. apply ltarget_low. lia.
    + apply H. lia.
Qed.

Lemma shift_left_arr_correct inplace r :
  length r = n -> (inplace = true -> r = a) ->
  length (shift_left_arr inplace a r amount) = n /\
  Forall is_word (shift_left_arr inplace a r amount) /\
  le_val (shift_left_arr inplace a r amount) = (V * 2 ^ amount) mod pw n.
Proof.
  intros Hlr Hip.
  assert (H : length (shift_left_arr inplace a r amount) = n /\
    forall j, (j < n)%nat -> nth j (shift_left_arr inplace a r amount) 0 = target j).
  2:{ destruct H as [Hl H]. split; [assumption|].
      split; [eapply digits_words | apply digits_val]; eassumption. }
  unfold shift_left_arr. fold n. fold word. fold bit.
  assert (Hinv0 : shl_inv inplace r n).
  { split; [assumption|]. split; [intros j Hj; lia|]. intros E j _. rewrite (Hip E). reflexivity. }
  pose proof (shl_loop1_inv inplace (n - (word + 1)) r n Hinv0 ltac:(lia) ltac:(lia)) as [Hs Hinv1].
  destruct (shl_loop1 inplace a r word bit n (n - (word + 1))) as [r1 i]. cbn [fst snd] in *.
  rewrite <- Hs in Hinv1. 
  destruct (Nat.ltb_spec word i) as [Hwi|Hwi].
  - assert (Ei : i = S word) by lia. rewrite Ei in *.
    replace (S word - 1)%nat with word by lia.
    apply shl_loop2_inv.
    + rewrite upd_length. apply Hinv1.
    + lia.
    + lia.
    + apply (shl_step inplace r1 word); [assumption | lia |].
      fold (lsrc inplace r1). rewrite (lsrc_nth inplace r1 (S word)) by (assumption || lia).
      rewrite Nat.sub_diag. symmetry. apply ltarget_first. lia.
  - destruct Hinv1 as (Hl & H1 & _). apply shl_loop2_inv; try assumption; lia.
Qed.
End ShiftLeft.

Lemma shift_left_correct a junk amount :
  Forall is_word a -> length junk = length a -> 0 <= amount ->
  length (shift_left a junk amount) = length a /\
  Forall is_word (shift_left a junk amount) /\
  le_val (shift_left a junk amount) = (le_val a * 2 ^ amount) mod 2 ^ wbits (length a).
Proof.
  intros. rewrite pw_wbits. apply shift_left_arr_correct; try assumption. discriminate.
Qed.

Lemma shift_left_assign_correct a amount :
  Forall is_word a -> 0 <= amount ->
  length (shift_left_assign a amount) = length a /\
  Forall is_word (shift_left_assign a amount) /\
  le_val (shift_left_assign a amount) = (le_val a * 2 ^ amount) mod 2 ^ wbits (length a).
Proof.
  intros. rewrite pw_wbits. apply shift_left_arr_correct; auto.
Qed.

(** ** Leading zeros *)

Lemma word_clz_spec w :
  is_word w ->
  0 <= word_clz w <= 64 /\ w < 2 ^ (64 - word_clz w) /\
  (w <> 0 -> word_clz w < 64 /\ 2 ^ (64 - word_clz w - 1) <= w) /\ (w = 0 -> word_clz w = 64).
Proof.
  intros H. unfold is_word in H. unfold word_clz. destruct (Z.eqb_spec w 0) as [->|Hn].
  - repeat split; lia.
  - assert (0 <= Z.log2 w < 64).
    { split; [apply Z.log2_nonneg|]. apply Z.log2_lt_pow2; lia. }
    pose proof (Z.log2_spec w ltac:(lia)).
    replace (64 - (63 - Z.log2 w)) with (Z.succ (Z.log2 w)) by lia.
    replace (Z.succ (Z.log2 w) - 1) with (Z.log2 w) by lia.
    repeat split; lia.
Qed.

Lemma countl_zero_spec n ws :
  Forall is_word ws -> (0 < n)%nat -> (n <= length ws)%nat ->
  let v := le_val (firstn n ws) in
  let c := countl_zero n ws in
  0 <= c <= wbits n /\ v < 2 ^ (wbits n - c) /\
  (v <> 0 -> c < wbits n /\ 2 ^ (wbits n - c - 1) <= v) /\ (v = 0 -> c = wbits n).
Proof.
  intros HF. induction n as [|n IH]; intros Hn Hl; [lia|]. cbv zeta.
  assert (Hsplit : firstn (S n) ws = firstn n ws ++ [nth n ws 0]).
  { clear - Hl. revert n Hl. induction ws as [|w ws IH]; intros n Hl; [cbn in Hl; lia|].
    destruct n as [|n]; [reflexivity|]. cbn [firstn app nth]. f_equal. apply IH. cbn in Hl. lia. }
  assert (Hlf : length (firstn n ws) = n) by (rewrite firstn_length; lia).
  assert (HV : le_val (firstn (S n) ws) = le_val (firstn n ws) + pw n * nth n ws 0).
  { rewrite Hsplit, le_val_snoc, Hlf. reflexivity. }
  rewrite HV. 
  pose proof (le_val_bound (firstn n ws) (Forall_firstn _ _ n HF)) as Hb. rewrite Hlf in Hb.
  pose proof (nth_word ws n HF) as Hw. pose proof (word_clz_spec _ Hw) as (C1 & C2 & C3 & C4).
  apply is_word_bw in Hw. pose proof (pw_pos n) as Hp.
  assert (Hwb : wbits (S n) = wbits n + 64) by (unfold wbits; lia).
  assert (Hwn : 0 <= wbits n) by (unfold wbits; lia).
  cbn [countl_zero].
  destruct ((nth n ws 0 =? 0) && negb (Nat.eqb n 0)) eqn:E.
  - apply andb_true_iff in E. destruct E as [E1 E2]. apply Z.eqb_eq in E1.
    apply negb_true_iff, Nat.eqb_neq in E2. rewrite E1, Z.mul_0_r, Z.add_0_r.
    specialize (IH ltac:(lia) ltac:(lia)). cbv zeta in IH. destruct IH as (I1 & I2 & I3 & I4).
    rewrite Hwb. replace (wbits n + 64 - (countl_zero n ws + 64)) with (wbits n - countl_zero n ws) by lia.
    repeat split; try lia.
  - assert (Hc : forall k, 0 <= k -> 2 ^ (wbits n + k) = pw n * 2 ^ k).
    { intros k Hk. rewrite Z.pow_add_r, pw_wbits by lia. reflexivity. }
    set (w := nth n ws 0) in *. rewrite Hwb.
    replace (wbits n + 64 - word_clz w) with (wbits n + (64 - word_clz w)) by lia.
    rewrite Hc by lia.
    assert (Hz : w = 0 -> n = 0%nat).
    { intros E0. rewrite E0 in E. cbn [Z.eqb andb] in E.
      apply negb_false_iff, Nat.eqb_eq in E. assumption. }
    split; [lia|]. split; [nia|]. split.
    + intros Hv. assert (w <> 0).
      { intros E0. apply Hv. rewrite E0, Z.mul_0_r, Z.add_0_r. specialize (Hz E0). rewrite Hz.
        reflexivity. }
      destruct (C3 H) as [C5 C6]. split; [lia|].
      replace (wbits n + (64 - word_clz w) - 1) with (wbits n + (64 - word_clz w - 1)) by lia.
      rewrite Hc by lia. nia.
    + intros Hv. assert (E0 : w = 0) by nia. specialize (Hz E0). rewrite (C4 E0).
      rewrite Hz. reflexivity.
Qed.
