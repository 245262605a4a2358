(** Division. *)
From Coq Require Import ZArith List Bool Lia ZifyBool ZifyNat.
From Verif Require Import LargeIntsModel LargeIntsSpec WordsProofs ArithProofs ShiftProofs MulProofs.
Import ListNotations.
Local Open Scope Z_scope.

(** ** Word-by-word division *)

Lemma divmod_each_word_long_spec n a b hi :
  (n <= length a)%nat -> Forall is_word a -> is_word b -> 0 <= hi < b ->
  exists qs r, divmod_each_word_long n a b hi = Ok (qs, r) /\
    length qs = n /\ Forall is_word qs /\ 0 <= r < b /\
    hi * pw n + le_val (firstn n a) = le_val qs * b + r.
Proof.
  intros Hl HF Hb. apply is_word_bw in Hb. revert hi Hl.
  induction n as [|n IH]; intros hi Hl Hhi.
  - exists [], hi. cbn [divmod_each_word_long firstn]. rewrite le_val_nil, pw_0.
    repeat split; try constructor; lia.
  - cbn [divmod_each_word_long]. unfold udiv_insn.
    pose proof (is_word_bw _ (nth_word a n HF)) as Hx.
    set (x := nth n a 0) in *. set (v := hi * Bw + x).
    pose proof Bw_pos as HB.
    assert (Hv : 0 <= v < b * Bw) by (unfold v; nia).
    assert (Hq : 0 <= v / b < Bw) by (split; [apply Z.div_pos; lia | apply Z.div_lt_upper_bound; lia]).
    destruct (Z.eqb_spec b 0); [lia|].
    destruct (Z.leb_spec Bw (v / b)); [lia|].
    pose proof (Z.mod_pos_bound v b ltac:(lia)) as Hm.
    destruct (IH (v mod b) ltac:(lia) Hm) as (qs & r & E & L & F & R & V).
    rewrite E. exists (qs ++ [v / b]), r. split; [reflexivity|].
    rewrite app_length, L. split; [cbn; lia|]. split.
    + apply Forall_app. split; [assumption|]. constructor; [apply word_intro; lia | constructor].
    + split; [assumption|].
      rewrite le_val_snoc, L, le_val_firstn_S by lia. fold x. rewrite pw_S.
      pose proof (Z.div_mod v b ltac:(lia)) as Hd.
      transitivity (v * pw n + le_val (firstn n a)); [unfold v; ring|].
      rewrite Hd at 1. transitivity (b * (v / b) * pw n + (v mod b * pw n + le_val (firstn n a))); [ring|].
      rewrite V. ring.
Qed.

Lemma udivmod_long_spec a b :
  a <> [] -> Forall is_word a -> is_word b -> 0 < b ->
  exists q r, udivmod_long a b = Ok (q, r) /\
    length q = length a /\ length r = length a /\ Forall is_word q /\ Forall is_word r /\
    le_val q = le_val a / b /\ le_val r = le_val a mod b.
Proof.
  intros Hne HF Hb Hpos. pose proof (is_word_bw _ Hb) as Hb'.
  assert (Hgen : (exists q r, match divmod_each_word_long (length a) a b 0 with
      | UB => UB
      | Ok (q, r) => Ok (q, r :: repeat 0 (length a - 1)) end = Ok (q, r) /\
    length q = length a /\ length r = length a /\ Forall is_word q /\ Forall is_word r /\
    le_val q = le_val a / b /\ le_val r = le_val a mod b)).
  { destruct (divmod_each_word_long_spec (length a) a b 0 (le_n _) HF Hb ltac:(lia))
      as (qs & r & E & L & F & R & V).
    rewrite E. exists qs, (r :: repeat 0 (length a - 1)). split; [reflexivity|].
    rewrite firstn_all in V. split; [assumption|].
    split; [cbn [length]; rewrite repeat_length; destruct a; [congruence | cbn; lia]|].
    split; [assumption|].
    split; [constructor; [apply word_intro; lia | apply repeat_zero_words]|].
    rewrite le_val_cons, le_val_zeros. split.
    - apply Z.div_unique with (r := r); lia.
    - rewrite Z.mul_0_r, Z.add_0_r. apply Z.mod_unique with (q := le_val qs); lia. }
  destruct a as [|w [|w2 l]]; [congruence| |exact Hgen].
  unfold udivmod_long. destruct (Z.eqb_spec b 0); [lia|].
  exists [w / b], [w mod b]. inversion HF as [|? ? Hx _]; subst. apply is_word_bw in Hx.
  rewrite !le_val_cons, !le_val_nil, !Z.mul_0_r, !Z.add_0_r.
  repeat split; try reflexivity.
  - constructor; [|constructor]. apply word_intro.
    split; [apply Z.div_pos; lia | apply Z.div_lt_upper_bound; nia].
  - constructor; [|constructor]. apply word_intro. pose proof (Z.mod_pos_bound w b ltac:(lia)). lia.
Qed.

(** ** Shift and subtract *)

Lemma shift_sub_bits_spec k : forall a b q b0 e n,
  length a = n -> length b = n -> (0 < n)%nat -> Forall is_word a -> Forall is_word b ->
  0 <= e -> 0 < b0 ->
  le_val b = b0 * 2 ^ (e + Z.of_nat k) / 2 ->
  le_val a < b0 * 2 ^ (e + Z.of_nat k) ->
  0 <= q -> (q + 1) * 2 ^ Z.of_nat k <= Bw ->
  exists a' b' q', shift_sub_bits k a b q = Ok (a', b', q') /\
    length a' = n /\ length b' = n /\ Forall is_word a' /\ Forall is_word b' /\
    le_val b' = b0 * 2 ^ e / 2 /\
    le_val a' < b0 * 2 ^ e /\
    q * 2 ^ Z.of_nat k <= q' < (q + 1) * 2 ^ Z.of_nat k /\
    le_val a = le_val a' + (q' - q * 2 ^ Z.of_nat k) * (b0 * 2 ^ e).
Proof.
  induction k as [|k IH]; intros a b q b0 e n La Lb Hn Fa Fb He Hb0 Vb Va Hq0 Hq.
  - exists a, b, q. cbn [shift_sub_bits]. rewrite Z.add_0_r in *. rewrite Z.pow_0_r in *.
    repeat split; try assumption; try reflexivity; lia.
  - cbn [shift_sub_bits].
    set (K := 2 ^ Z.of_nat k) in *.
    assert (HK : 0 < K) by (apply Z.pow_pos_nonneg; lia).
    assert (HSk : 2 ^ Z.of_nat (S k) = 2 * K)
      by (replace (Z.of_nat (S k)) with (Z.succ (Z.of_nat k)) by lia; apply Z.pow_succ_r; lia).
    rewrite HSk in *.
    assert (E2 : 2 ^ (e + Z.of_nat (S k)) = 2 * 2 ^ (e + Z.of_nat k)).
    { replace (e + Z.of_nat (S k)) with (Z.succ (e + Z.of_nat k)) by lia. apply Z.pow_succ_r; lia. }
    rewrite E2 in Vb, Va. set (D := b0 * 2 ^ (e + Z.of_nat k)) in *.
    replace (b0 * (2 * 2 ^ (e + Z.of_nat k))) with (D * 2) in * by (unfold D; ring).
    rewrite Z.div_mul in Vb by lia.
    assert (HD : D = b0 * 2 ^ e * K) by (unfold D, K; rewrite Z.pow_add_r by lia; ring).
    assert (Wa : op_wf (OComp false a)) by (eapply comp_wf; eassumption).
    assert (Wb : op_wf (OComp false b)) by (eapply comp_wf; eassumption).
    destruct (subborrow_spec (length a) (OComp false a) (OComp false b) Wa Wb) as [S1 S2].
    pose proof (subborrow_length (length a) (OComp false a) (OComp false b)) as S3.
    destruct (subborrow (length a) (OComp false a) (OComp false b)) as [tmp c]. cbn [fst snd] in *.
    unfold op_value in S2. rewrite La in *.
    pose proof (le_val_bound a Fa) as Ba. pose proof (le_val_bound b Fb) as Bb.
    pose proof (le_val_bound tmp S1) as Bt.
    rewrite La, Lb, S3 in *.
    rewrite !Z.mod_small in S2 by assumption.
    assert (Hc : c = (le_val a <? le_val b)).
    { destruct c; unfold bz in S2; symmetry; [apply Z.ltb_lt | apply Z.ltb_ge]; lia. }
    assert (Huq : uword (q * 2) = q * 2) by (apply Z.mod_small; nia).
    rewrite Huq.
    destruct (shift_right_assign_correct false b 1 Wb) as (b' & Eb' & Lb' & Fb' & Vb').
    { rewrite Lb. unfold wbits. lia. }
    rewrite Z.pow_1_r in Vb'. unfold op_value in Vb'.
    rewrite Lb in Lb'. rewrite Eb'.
    set (bit := if c then 0 else 1).
    assert (Hstep : exists a1, (if c then (a, q * 2) else (tmp, Z.lor (q * 2) 1)) = (a1, q * 2 + bit) /\
              length a1 = n /\ Forall is_word a1 /\ le_val a1 < D /\ le_val a = le_val a1 + bit * D /\ 0 <= bit <= 1).
    { subst bit. destruct c.
      - exists a. rewrite Z.add_0_r. symmetry in Hc. apply Z.ltb_lt in Hc.
        repeat split; try assumption; lia.
      - exists tmp. replace (Z.lor (q * 2) 1) with (q * 2 + 1).
        + unfold bz in S2. symmetry in Hc. apply Z.ltb_ge in Hc.
          repeat split; try assumption; lia.
        + rewrite Z.lor_comm. replace (q * 2) with (q * 2 ^ 1) by (rewrite Z.pow_1_r; reflexivity).
          rewrite lor_disjoint by lia. lia. }
    destruct Hstep as (a1 & Ea1 & La1 & Fa1 & Va1 & Va1e & Hbit). rewrite Ea1.
    destruct (IH a1 b' (q * 2 + bit) b0 e n La1 Lb' Hn Fa1 Fb' He Hb0)
      as (a' & b'' & q' & E & A1 & A2 & A3 & A4 & A5 & A6 & A7 & A8).
    + rewrite Vb', Vb. reflexivity.
    + assumption.
    + lia.
    + nia.
    + rewrite E. exists a', b'', q'. split; [reflexivity|].
      repeat split; try assumption.
      * nia.
      * nia.
      * rewrite Va1e, A8, HD. ring.
Qed.

Lemma shift_sub_words_spec m : forall a b shift b0 n,
  length a = n -> length b = n -> (0 < n)%nat -> Forall is_word a -> Forall is_word b ->
  0 < b0 -> -1 <= shift < 64 * Z.of_nat m ->
  le_val b = b0 * 2 ^ (shift + 1) / 2 -> le_val a < b0 * 2 ^ (shift + 1) ->
  exists r qs, shift_sub_words m a b shift = Ok (r, qs) /\
    length r = n /\ length qs = m /\ Forall is_word r /\ Forall is_word qs /\
    le_val r < b0 /\ le_val a = le_val qs * b0 + le_val r.
Proof.
  induction m as [|m IH]; intros a b shift b0 n La Lb Hn Fa Fb Hb0 Hs Vb Va.
  - assert (shift = -1) by lia. subst shift. cbn [shift_sub_words].
    rewrite Z.mul_1_r in Va. exists a, []. rewrite le_val_nil. repeat split; auto; lia.
  - cbn [shift_sub_words]. set (e := 64 * Z.of_nat m) in *.
    destruct (Z.leb_spec e shift) as [Hle|Hlt].
    + set (k := Z.to_nat (shift - e + 1)).
      assert (Ek : e + Z.of_nat k = shift + 1) by lia.
      destruct (shift_sub_bits_spec k a b 0 b0 e n La Lb Hn Fa Fb ltac:(lia) Hb0)
        as (a' & b' & q' & E & A1 & A2 & A3 & A4 & A5 & A6 & A7 & A8).
      * rewrite Ek. assumption.
      * rewrite Ek. assumption.
      * lia.
      * rewrite Z.add_0_l, Z.mul_1_l. apply Z.pow_le_mono_r; lia.
      * rewrite E.
        assert (Hkw : 2 ^ Z.of_nat k <= Bw) by (apply Z.pow_le_mono_r; lia).
        destruct (IH a' b' (e - 1) b0 n A1 A2 Hn A3 A4 Hb0 ltac:(lia)) as (r & qs & Er & B1 & B2 & B3 & B4 & B5 & B6).
        -- replace (e - 1 + 1) with e by lia. assumption.
        -- replace (e - 1 + 1) with e by lia. assumption.
        -- rewrite Er. exists r, (qs ++ [q']). split; [reflexivity|].
           rewrite Z.mul_0_l in *. rewrite Z.sub_0_r in A8.
           repeat split; try assumption.
           ++ rewrite app_length, B2. cbn. lia.
           ++ apply Forall_app. split; [assumption|]. constructor; [|constructor]. apply word_intro. lia.
           ++ rewrite A8, B6, le_val_snoc, B2. rewrite <- pw_wbits. unfold wbits. fold e. ring.
    + replace (Z.to_nat (shift - e + 1)) with 0%nat by lia. cbn [shift_sub_bits].
      destruct (IH a b shift b0 n La Lb Hn Fa Fb Hb0 ltac:(lia) Vb Va) as (r & qs & Er & B1 & B2 & B3 & B4 & B5 & B6).
      rewrite Er. exists r, (qs ++ [0]). split; [reflexivity|].
      repeat split; try assumption.
      * rewrite app_length, B2. cbn. lia.
      * apply Forall_app. split; [assumption|]. constructor; [|constructor]. apply word_intro. pose proof Bw_pos; lia.
      * rewrite B6, le_val_snoc. ring.
Qed.

Lemma firstn_firstn_nth (ws : list Z) n : firstn n (firstn n ws) = firstn n ws.
Proof. rewrite firstn_firstn. f_equal. lia. Qed.

Lemma udivmod_shift_sub_spec n : forall a b,
  (0 < n)%nat -> (n <= length a)%nat -> (n <= length b)%nat ->
  Forall is_word a -> Forall is_word b -> le_val (firstn n b) <> 0 ->
  exists r q, udivmod_shift_sub n a b = Ok (r, q) /\
    length r = n /\ length q = n /\ Forall is_word r /\ Forall is_word q /\
    le_val q = le_val (firstn n a) / le_val (firstn n b) /\
    le_val r = le_val (firstn n a) mod le_val (firstn n b).
Proof.
  induction n as [|n IH]; intros a b Hn La Lb Fa Fb Hb; [lia|].
  pose proof (le_val_firstn_bound a (S n) Fa La) as Ba.
  pose proof (le_val_firstn_bound b (S n) Fb Lb) as Bb.
  cbn [udivmod_shift_sub]. destruct (Nat.eqb_spec n 0) as [->|Hn0].
  - pose proof (is_word_bw _ (nth_word a 0 Fa)) as Wa. pose proof (is_word_bw _ (nth_word b 0 Fb)) as Wb.
    rewrite !le_val_firstn_S in * by lia. cbn [firstn] in *. rewrite !le_val_nil, !pw_0 in *.
    rewrite !Z.mul_1_l, !Z.add_0_l in *. set (x := nth 0 a 0) in *. set (y := nth 0 b 0) in *.
    destruct (Z.eqb_spec y 0); [lia|].
    exists [x mod y], [x / y]. pose proof (Z.mod_pos_bound x y ltac:(lia)).
    rewrite !le_val_cons, !le_val_nil.
    repeat split; try (constructor; [apply word_intro|constructor]); try lia.
    split; [apply Z.div_pos; lia | apply Z.div_lt_upper_bound; nia].
  - destruct ((nth n a 0 =? 0) && (nth n b 0 =? 0)) eqn:E0.
    + apply andb_true_iff in E0. destruct E0 as [Ea Eb]. apply Z.eqb_eq in Ea, Eb.
      rewrite !le_val_firstn_S in * by lia. rewrite Ea, Eb, !Z.mul_0_r, !Z.add_0_r in *.
      destruct (IH a b ltac:(lia) ltac:(lia) ltac:(lia) Fa Fb Hb) as (r & q & E & L1 & L2 & F1 & F2 & V1 & V2).
      rewrite E. exists (r ++ [0]), (q ++ [0]).
      assert (H0 : is_word 0) by (apply word_intro; pose proof Bw_pos; lia).
      rewrite !app_length, L1, L2, !le_val_snoc, !Z.mul_0_r, !Z.add_0_r.
      repeat split; try assumption; try (apply Forall_app; auto); cbn; lia.
    + set (N := S n) in *. set (a' := firstn N a). set (b' := firstn N b).
      assert (La' : length a' = N) by (subst a'; rewrite firstn_length; lia).
      assert (Lb' : length b' = N) by (subst b'; rewrite firstn_length; lia).
      assert (Fa' : Forall is_word a') by (apply Forall_firstn; assumption).
      assert (Fb' : Forall is_word b') by (apply Forall_firstn; assumption).
      pose proof (countl_zero_spec N a' Fa' Hn ltac:(lia)) as (Ca1 & Ca2 & Ca3 & Ca4).
      pose proof (countl_zero_spec N b' Fb' Hn ltac:(lia)) as (Cb1 & Cb2 & Cb3 & Cb4).
      subst a' b'. rewrite !firstn_firstn_nth in *.
      set (a' := firstn N a) in *. set (b' := firstn N b) in *.
      set (ca := countl_zero N a') in *. set (cb := countl_zero N b') in *.
      set (A := le_val a') in *. set (B := le_val b') in *.
      destruct (Cb3 Hb) as [Cb5 Cb6].
      destruct (Z.ltb_spec (cb - ca) 0) as [Hneg|Hpos].
      * exists a', (repeat 0 N).
        assert (A < B).
        { assert (2 ^ (wbits N - ca) <= 2 ^ (wbits N - cb - 1)) by (apply Z.pow_le_mono_r; lia). lia. }
        rewrite repeat_length, le_val_zeros.
        repeat split; try assumption; try apply repeat_zero_words.
        -- symmetry. apply Z.div_small. lia.
        -- symmetry. apply Z.mod_small. fold A. lia.
      * set (sh := cb - ca) in *.
        destruct (shift_left_assign_correct b' sh Fb' Hpos) as (S1 & S2 & S3).
        rewrite Lb' in *.
        assert (HB : B * 2 ^ sh < 2 ^ (wbits N - ca)).
        { replace (wbits N - ca) with ((wbits N - cb) + sh) by lia.
          rewrite Z.pow_add_r by lia. assert (0 < 2 ^ sh) by (apply Z.pow_pos_nonneg; lia). nia. }
        assert (HAB : A < B * 2 ^ (sh + 1)).
        { assert (E1 : 2 ^ (wbits N - ca) = 2 ^ (wbits N - cb - 1) * 2 ^ (sh + 1)).
          { rewrite <- Z.pow_add_r by lia. f_equal. lia. }
          rewrite E1 in Ca2. assert (0 < 2 ^ (sh + 1)) by (apply Z.pow_pos_nonneg; lia). nia. }
        assert (Hsh : sh < 64 * Z.of_nat N) by (unfold wbits in *; lia).
        assert (HBN : 2 ^ (wbits N - ca) <= 2 ^ wbits N) by (apply Z.pow_le_mono_r; lia).
        rewrite Z.mod_small in S3.
        2:{ fold B. assert (0 < 2 ^ sh) by (apply Z.pow_pos_nonneg; lia). nia. }
        destruct (shift_sub_words_spec N a' (shift_left_assign b' sh) sh B N La' S1 Hn Fa' S2 ltac:(lia) ltac:(lia))
          as (r & qs & E & L1 & L2 & F1 & F2 & V1 & V2).
        -- rewrite S3. fold B. rewrite Z.pow_add_r by lia. rewrite Z.pow_1_r, Z.mul_assoc.
           symmetry. apply Z.div_mul. lia.
        -- assumption.
        -- change (shift_sub_words (S n)) with (shift_sub_words N). rewrite E. exists r, qs.
           pose proof (le_val_bound r F1).
           repeat split; try assumption; fold A in V2.
           ++ apply Z.div_unique with (r := le_val r); lia.
           ++ apply Z.mod_unique with (q := le_val qs); lia.
Qed.
