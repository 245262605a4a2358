(** Signed and unsigned division at the interface level. *)
From Coq Require Import ZArith List Bool Lia ZifyBool ZifyNat.
From Verif Require Import LargeIntsModel LargeIntsSpec WordsProofs ArithProofs ShiftProofs MulProofs DivProofs.
Import ListNotations.
Local Open Scope Z_scope.

(* The certificate cache makes large goals slower. *)
Unset Lia Cache.
Unset Nia Cache.

Lemma to_words_value sg n o :
  (0 < n)%nat -> op_wf o -> op_value (OComp sg (to_words n o)) = wrap sg n (op_value o).
Proof.
  intros Hn Ho. apply op_value_wrap; [assumption | apply to_words_length | apply to_words_val; assumption].
Qed.

Lemma to_words_wf sg n o : (0 < n)%nat -> op_wf o -> op_wf (OComp sg (to_words n o)).
Proof.
  intros Hn Ho. apply comp_wf with n; [assumption | apply to_words_length | apply to_words_words; assumption].
Qed.

Lemma to_words_type sg n o : op_wf o -> has_type sg n (OComp sg (to_words n o)).
Proof. intros Ho. repeat split; [apply to_words_length | apply to_words_words; assumption]. Qed.

Lemma wrap_add_pw sg n x k : wrap sg n (x + k * pw n) = wrap sg n x.
Proof. apply wrap_cong. apply Z.mod_add. pose proof (pw_pos n). lia. Qed.

Lemma top_neg_spec ws : op_wf (OComp true ws) -> top_neg ws = (op_value (OComp true ws) <? 0).
Proof. intros H. rewrite <- (is_negative_correct true ws H). reflexivity. Qed.

Lemma cond_neg ws :
  op_wf (OComp true ws) ->
  match (if top_neg ws then neg ws else Ok (OComp true ws)) with
  | UB => length ws = 1%nat /\ op_value (OComp true ws) = - 2 ^ 63
  | Ok r => exists rs, r = OComp true rs /\ length rs = length ws /\ Forall is_word rs /\
              le_val rs = Z.abs (op_value (OComp true ws))
  end.
Proof.
  intros Hwf. pose proof (wf_len _ _ Hwf) as Hl. rewrite (top_neg_spec _ Hwf).
  pose proof (op_value_range_comp true ws (proj1 Hwf) (proj2 Hwf)) as Hr.
  pose proof (pw_half _ Hl) as Hph. pose proof (half_pos _ Hl) as Hhp.
  pose proof (le_val_bound ws (proj2 Hwf)) as Hlb. unfold in_range in Hr.
  destruct (Z.ltb_spec (op_value (OComp true ws)) 0) as [Hlt|Hge].
  - pose proof (neg_correct ws Hwf) as Hn. destruct (neg ws) as [r|]; [|assumption].
    destruct Hn as [Ht Hv]. destruct r as [s rs|]; [|contradiction]. destruct Ht as (-> & Hlr & HFr).
    exists rs. repeat split; try assumption.
    assert (Hm : le_val rs mod pw (length ws) = (- op_value (OComp true ws)) mod pw (length ws)).
    { rewrite <- (wrap_mod true (length ws) (- op_value _)) by lia. rewrite <- Hv.
      destruct (op_value_mod true rs) as [k ->]. rewrite Hlr.
      rewrite Z.mod_add by (pose proof (pw_pos (length ws)); lia). reflexivity. }
    pose proof (le_val_bound rs HFr) as Hbr. rewrite Hlr in Hbr.
    rewrite !Z.mod_small in Hm by lia. lia.
  - exists ws. repeat split; [apply Hwf|].
    unfold op_value, as_signed in *. rewrite pw_wbits in *.
    destruct (Z.ltb_spec (le_val ws) (2 ^ (wbits (length ws) - 1))); lia.
Qed.

(** Negating the pattern of a magnitude. *)
Lemma cond_neg_pattern (c : bool) ws Q n :
  length ws = n -> (0 < n)%nat -> Forall is_word ws -> le_val ws = Q ->
  (n = 1%nat -> Q <> 2 ^ 63) ->
  exists r, (if c then neg ws else Ok (OComp true ws)) = Ok r /\ has_type true n r /\
     op_value r = wrap true n (if c then - Q else Q).
Proof.
  intros Hl Hn HF HQ H1.
  assert (Hwf : op_wf (OComp true ws)) by (eapply comp_wf; [|eassumption|eassumption]; assumption).
  destruct (op_value_mod true ws) as [k Hk]. rewrite Hl, HQ in Hk.
  destruct c.
  - pose proof (neg_correct ws Hwf) as Hg. destruct (neg ws) as [r|].
    + exists r. split; [reflexivity|]. rewrite Hl in Hg. destruct Hg as [Ht Hv]. split; [assumption|].
      rewrite Hv, Hk. rewrite <- (wrap_add_pw true n (- Q) (- k)). f_equal. ring.
    + exfalso. destruct Hg as [G1 G2]. apply H1; [lia|].
      rewrite G2 in Hk. pose proof (le_val_bound ws HF) as Hb. rewrite HQ, Hl in Hb.
      assert (n = 1%nat) by lia. subst n. rewrite H, pw_1 in *. pose proof Bw_H. unfold Bw, Hw in *. lia.
  - exists (OComp true ws). split; [reflexivity|]. split; [repeat split; assumption|].
    apply op_value_wrap; [assumption|assumption|]. rewrite HQ. symmetry. apply Z.mod_small.
    rewrite <- HQ, <- Hl. apply le_val_bound, HF.
Qed.

Lemma icf_le_gen sg b : (int_count false b <= int_count sg b)%nat.
Proof.
  unfold int_count. destruct b as [s ws|s bytes v]; cbn [andb]; [lia|].
  rewrite orb_true_r. apply Nat.div_le_mono; [lia|]. destruct (s || negb sg); lia.
Qed.

Lemma icf_signed_gen sg b : op_signed b = true -> int_count false b = int_count sg b.
Proof.
  unfold int_count. destruct b as [s ws|s bytes v]; cbn [op_signed andb]; intros ->.
  - rewrite andb_false_r. reflexivity.
  - reflexivity.
Qed.

(** |b| as computed by [abs_op]. *)
Lemma abs_op_gen sg b : op_wf b -> (sg = true \/ op_signed b = false) ->
  match abs_op b with
  | UB => exists bytes, (b = OBuiltin true bytes (- 2 ^ (8 * Z.of_nat bytes - 1)) /\ (4 <= bytes)%nat) \/
                        (exists ws, b = OComp true ws /\ length ws = 1%nat /\ op_value b = - 2 ^ 63)
  | Ok o => op_wf o /\ (exists k, op_value o = Z.abs (op_value b) + k * pw (int_count sg b))
  end.
Proof.
  intros Hb Hsg. unfold abs_op. destruct b as [s ws|s bytes v].
  - pose proof (abs_correct s ws Hb) as H. destruct (abs s ws) as [o|].
    + destruct H as [Ht (rs & -> & Hv)]. destruct Ht as (_ & Hl & HF).
      pose proof (wf_len _ _ Hb) as Hlen. split; [eapply comp_wf; [|eassumption|eassumption]; lia|].
      destruct (op_value_mod s rs) as [k Hk]. rewrite Hk, Hv, Hl.
      unfold int_count. destruct sg, s; cbn [andb negb]; try (rewrite Nat.add_0_r; exists k; reflexivity).
      exists 0. unfold op_value in Hk at 1. rewrite Hl in Hk. pose proof (pw_pos (length ws)).
      assert (k = 0) by nia. subst k. ring.
    + exists 0%nat. right. destruct H as (-> & H1 & H2). exists ws. auto.
  - destruct Hb as [Hby Hrg]. unfold builtin_range in Hrg. destruct s.
    + destruct (Nat.leb_spec 4 bytes); cbn [andb].
      * destruct (Z.eqb_spec v (- 2 ^ (8 * Z.of_nat bytes - 1))) as [->|Hne].
        -- exists bytes. left. split; [reflexivity | assumption].
        -- split; [|exists 0; cbn [op_value]; ring]. rewrite Nat.max_r by assumption.
           split; [assumption|]. unfold builtin_range. lia.
      * split; [|exists 0; cbn [op_value]; ring]. split; [lia|]. unfold builtin_range.
        assert (2 ^ (8 * Z.of_nat bytes - 1) < 2 ^ (8 * Z.of_nat (Nat.max 4 bytes) - 1))
          by (apply Z.pow_lt_mono_r; lia). lia.
    + split; [split; assumption|]. exists 0. cbn [op_value]. rewrite Z.abs_eq by lia. ring.
Qed.

Section Divmod.
Variables (divx : bool) (a b : operand).
Hypothesis Ha : op_wf a.
Hypothesis Hb : op_wf b.
Hypothesis Hb0 : op_value b <> 0.
Let sg := res_signed a b.
Let n := max_int_count sg a b.
Let nr := int_count sg b.
Let icf := int_count false b.
Let nb := if divx && Nat.eqb nr 1 then 1%nat else n.
Let va := op_value a.
Let vb := op_value b.
Let Q := Z.abs va / Z.abs vb.
Let R := Z.abs va mod Z.abs vb.

Lemma nr_pos : (0 < nr)%nat.
Proof. apply int_count_pos, Hb. Qed.
Lemma n_ge_nr : (nr <= n)%nat.
Proof. unfold n, nr, max_int_count. lia. Qed.
Lemma dn_pos : (0 < n)%nat.
Proof. pose proof nr_pos. pose proof n_ge_nr. lia. Qed.

Lemma va_range : in_range sg n va.
Proof. apply (common_in_range a b n Ha Hb eq_refl). Qed.
Lemma vb_range : in_range sg nr vb.
Proof. apply int_count_fits; [assumption | apply res_signed_r | unfold nr; lia]. Qed.
Lemma vb_range_n : in_range sg n vb.
Proof. apply (common_in_range a b n Ha Hb eq_refl). Qed.
Lemma nb_range : in_range sg nb vb.
Proof.
  pose proof vb_range_n as H1. pose proof vb_range as H2.
  unfold nb. destruct (divx && Nat.eqb nr 1) eqn:E; [|exact H1].
  apply andb_true_iff in E. destruct E as [_ E]. apply Nat.eqb_eq in E. rewrite <- E. exact H2.
Qed.
Lemma nb_pos : (0 < nb)%nat.
Proof. unfold nb. pose proof dn_pos. destruct (divx && Nat.eqb nr 1); lia. Qed.

Lemma icf_pos : (0 < icf)%nat.
Proof. apply int_count_pos, Hb. Qed.

Lemma icf_le : (icf <= nr)%nat.
Proof. apply icf_le_gen. Qed.

Lemma icf_signed : op_signed b = true -> icf = nr.
Proof. apply icf_signed_gen. Qed.

Lemma icf_unsigned : sg = false -> icf = nr.
Proof. unfold icf, nr. intros ->. reflexivity. Qed.

Lemma R_bound : 0 <= R < Z.abs vb.
Proof. apply Z.mod_pos_bound. lia. Qed.

Lemma R_lt_pw : R < pw nr.
Proof.
  pose proof R_bound. pose proof vb_range as H0. pose proof (pw_half nr nr_pos).
  unfold in_range in H0. rewrite pw_wbits in H0. pose proof (half_pos nr nr_pos).
  destruct sg; lia.
Qed.

(** The division of magnitudes, both code paths. *)
Lemma core_div a1 b1 :
  length a1 = n -> length b1 = nb -> Forall is_word a1 -> Forall is_word b1 ->
  le_val a1 = Z.abs va -> le_val b1 = Z.abs vb ->
  exists rw qw,
   (if Nat.eqb nb 1
    then obind (udivmod_long a1 (nth 0 b1 0)) (fun qr => Ok (snd qr, fst qr))
    else udivmod_shift_sub n a1 b1) = Ok (rw, qw) /\
   length rw = n /\ length qw = n /\ Forall is_word rw /\ Forall is_word qw /\
   le_val qw = Q /\ le_val rw = R.
Proof.
  intros La Lb Fa Fb Va Vb. pose proof dn_pos as Hn.
  destruct (Nat.eqb_spec nb 1) as [E|E].
  - assert (Eb : le_val b1 = nth 0 b1 0).
    { destruct b1 as [|w [|? ?]]; cbn [length] in Lb; try lia. cbn [nth]. rewrite le_val_cons, le_val_nil. lia. }
    destruct (udivmod_long_spec a1 (nth 0 b1 0)) as (q & r & E1 & L1 & L2 & F1 & F2 & V1 & V2).
    + intros ->. cbn in La. lia.
    + assumption.
    + apply nth_word, Fb.
    + rewrite <- Eb, Vb. unfold vb in *. lia.
    + rewrite E1. cbn [obind fst snd]. exists r, q. rewrite <- Eb, Vb, Va in *.
      repeat split; try assumption; lia.
  - assert (Enb : nb = n).
    { unfold nb in *. destruct (divx && Nat.eqb nr 1); congruence. }
    rewrite Enb in Lb.
    destruct (udivmod_shift_sub_spec n a1 b1 Hn ltac:(lia) ltac:(lia) Fa Fb) as (r & q & E1 & L1 & L2 & F1 & F2 & V1 & V2).
    + rewrite <- Lb, firstn_all, Vb. unfold vb in *. lia.
    + rewrite E1. exists r, q. 
      assert (Fa1 : firstn n a1 = a1) by (rewrite <- La; apply firstn_all).
      assert (Fb1 : firstn n b1 = b1) by (rewrite <- Lb; apply firstn_all).
      rewrite Fa1, Fb1, Va, Vb in V1, V2. repeat split; assumption.
Qed.

Definition rem_ok := (sg = true -> op_signed b = true) \/ R < 2 ^ 63.

(** The truncated remainder of line 1338. *)
Lemma rem0_spec rw :
  length rw = n -> Forall is_word rw -> le_val rw = R ->
  let rem0 := to_words nr (OComp sg (to_words icf (OComp sg rw))) in
  length rem0 = nr /\ Forall is_word rem0 /\ (rem_ok -> le_val rem0 = R) /\
  (nr = 1%nat -> sg = true -> le_val rem0 = R).
Proof.
  intros Lw Fw Vw rem0. pose proof dn_pos as Hn. pose proof icf_pos as Hi. pose proof nr_pos as Hr.
  assert (W1 : op_wf (OComp sg rw)) by (eapply comp_wf; [|eassumption|eassumption]; assumption).
  assert (W2 : op_wf (OComp sg (to_words icf (OComp sg rw)))) by (apply to_words_wf; assumption).
  split; [apply to_words_length|]. split; [apply to_words_words; assumption|].
  assert (Hval : in_range sg icf R -> le_val rem0 = R).
  { intros Hin. unfold rem0. rewrite to_words_val by assumption. rewrite to_words_value by assumption.
    destruct (op_value_mod sg rw) as [k Hk]. rewrite Hk, Vw, Lw.
    assert (Ed : exists d, pw n = d * pw icf).
    { exists (pw (n - icf)). rewrite <- pw_add. f_equal. pose proof icf_le. pose proof n_ge_nr. lia. }
    destruct Ed as [d ->]. rewrite Z.mul_assoc, wrap_add_pw, wrap_id by assumption.
    apply Z.mod_small. pose proof R_bound. pose proof R_lt_pw. lia. }
  assert (Hsgn : sg = true -> op_signed b = true -> in_range sg icf R).
  { intros E1 E2. rewrite (icf_signed E2). pose proof vb_range as Hv. rewrite E1 in *.
    unfold in_range in *. pose proof R_bound as RB. revert RB Hv. generalize R vb. clear. lia. }
  assert (H63 : R < 2 ^ 63 -> in_range sg icf R).
  { intros Hlt. pose proof R_bound. unfold in_range.
    assert (2 ^ 63 <= 2 ^ (wbits icf - 1)) by (apply Z.pow_le_mono_r; unfold wbits; lia).
    assert (2 ^ (wbits icf - 1) <= 2 ^ wbits icf) by (apply Z.pow_le_mono_r; unfold wbits; lia).
    revert Hlt H H0 H1. generalize R sg. clear. intros r s. destruct s; lia. }
  split.
  - intros [H|H]; [|auto]. destruct (bool_dec sg true) as [Esg|Esg]; [auto|].
    apply not_true_is_false in Esg.
    apply Hval. rewrite Esg at 1. rewrite (icf_unsigned Esg). unfold in_range. rewrite pw_wbits.
    pose proof R_lt_pw. pose proof R_bound. lia.
  - intros E1 E2. apply Hval, H63. pose proof vb_range as Hv. rewrite E1, E2 in Hv.
    unfold in_range, wbits in Hv. pose proof R_bound. cbn in Hv. lia.
Qed.

Definition no_trap : Prop :=
  ~ (sg = true /\ n = 1%nat /\ va = - 2 ^ 63 /\ vb = -1) /\
  ~ (divx = true /\ sg = true /\ (1 < n)%nat /\ nr = 1%nat /\ vb = - 2 ^ 63).

Definition signs_differ : bool := xorb (va <? 0) (vb <? 0).

Lemma quot_Q : Z.quot va vb = if signs_differ then - Q else Q.
Proof.
  rewrite Z.quot_div by assumption. unfold Q, signs_differ.
  destruct (Z.ltb_spec va 0), (Z.ltb_spec vb 0); cbn [xorb].
  - rewrite (Z.sgn_neg va), (Z.sgn_neg vb) by lia. lia.
  - rewrite (Z.sgn_neg va), (Z.sgn_pos vb) by (unfold vb in *; lia). lia.
  - rewrite (Z.sgn_neg vb) by lia. destruct (Z.eq_dec va 0) as [E|E].
    + rewrite E. change (Z.abs 0) with 0. rewrite Z.div_0_l by (unfold vb in *; lia). reflexivity.
    + rewrite (Z.sgn_pos va) by lia. lia.
  - rewrite (Z.sgn_pos vb) by (unfold vb in *; lia). destruct (Z.eq_dec va 0) as [E|E].
    + rewrite E. change (Z.abs 0) with 0. rewrite Z.div_0_l by (unfold vb in *; lia). reflexivity.
    + rewrite (Z.sgn_pos va) by lia. lia.
Qed.

Lemma rem_R : Z.rem va vb = if va <? 0 then - R else R.
Proof.
  rewrite Z.rem_mod by assumption. unfold R.
  destruct (Z.ltb_spec va 0).
  - rewrite (Z.sgn_neg va) by lia. lia.
  - destruct (Z.eq_dec va 0) as [E|E].
    + rewrite E. change (Z.abs 0) with 0. rewrite Z.mod_0_l by (unfold vb in *; lia). reflexivity.
    + rewrite (Z.sgn_pos va) by lia. lia.
Qed.

Lemma Q_bound : 0 <= Q <= Z.abs va.
Proof.
  unfold Q. assert (0 < Z.abs vb) by (unfold vb in *; lia). split; [apply Z.div_pos; lia|].
  apply Z.div_le_upper_bound; nia.
Qed.

Lemma single_a : n = 1%nat -> va = if sg then sword (word_at a 0) else word_at a 0.
Proof.
  intros E. apply single_word_value; [assumption | apply res_signed_l |].
  pose proof (int_count_pos sg a Ha). unfold n, max_int_count in E. fold sg. lia.
Qed.
Lemma single_b : n = 1%nat -> vb = if sg then sword (word_at b 0) else word_at b 0.
Proof.
  intros E. apply single_word_value; [assumption | apply res_signed_r |].
  pose proof (int_count_pos sg b Hb). unfold n, max_int_count in E. fold sg. lia.
Qed.

Lemma range1 z : in_range true 1 z <-> - 2 ^ 63 <= z < 2 ^ 63.
Proof. reflexivity. Qed.

(** Preparation shared by both rounding modes when n > 1 and signed. *)
Lemma signed_prep :
  sg = true -> n <> 1%nat -> no_trap ->
  top_neg (to_words n a) = (va <? 0) /\ top_neg (to_words nb b) = (vb <? 0) /\
  exists a1 b1,
   (if va <? 0 then neg (to_words n a) else Ok (OComp true (to_words n a))) = Ok (OComp true a1) /\
   (if vb <? 0 then neg (to_words nb b) else Ok (OComp true (to_words nb b))) = Ok (OComp true b1) /\
   length a1 = n /\ length b1 = nb /\ Forall is_word a1 /\ Forall is_word b1 /\
   le_val a1 = Z.abs va /\ le_val b1 = Z.abs vb.
Proof.
  intros Esg En [_ Ht]. pose proof dn_pos as Hn. pose proof nb_pos as Hnb.
  pose proof (to_words_wf true n a Hn Ha) as Wa. pose proof (to_words_wf true nb b Hnb Hb) as Wb.
  pose proof (to_words_value true n a Hn Ha) as Va. pose proof (to_words_value true nb b Hnb Hb) as Vb.
  rewrite wrap_id in Va by (try assumption; rewrite <- Esg; apply va_range).
  rewrite wrap_id in Vb by (try assumption; rewrite <- Esg; apply nb_range).
  fold va in Va. fold vb in Vb.
  pose proof (top_neg_spec _ Wa) as Ta. pose proof (top_neg_spec _ Wb) as Tb.
  rewrite Va in Ta. rewrite Vb in Tb.
  split; [assumption|]. split; [assumption|].
  pose proof (cond_neg _ Wa) as Ca. pose proof (cond_neg _ Wb) as Cb.
  rewrite Ta, Va, to_words_length in Ca. rewrite Tb, Vb, to_words_length in Cb.
  destruct (if va <? 0 then _ else _) as [ra|]; [|exfalso; lia].
  destruct (if vb <? 0 then _ else _) as [rb|].
  2:{ exfalso. apply Ht. destruct Cb as [C1 C2]. unfold nb in C1.
      destruct (divx && Nat.eqb nr 1) eqn:Ed; [|lia].
      apply andb_true_iff in Ed. destruct Ed as [Ed1 Ed2]. apply Nat.eqb_eq in Ed2.
      repeat split; try assumption. lia. }
  destruct Ca as (a1 & -> & A1 & A2 & A3). destruct Cb as (b1 & -> & B1 & B2 & B3).
  exists a1, b1. repeat split; assumption.
Qed.

Lemma divmod_unsigned m :
  sg = false ->
  exists q r, divmod divx m a b = Ok (q, r) /\ has_type false n q /\ has_type false nr r /\
    op_value q = Q /\ op_value r = R.
Proof.
  intros Esg. pose proof dn_pos as Hn. pose proof nb_pos as Hnb. pose proof nr_pos as Hr.
  pose proof va_range as Rva. pose proof vb_range as Rvb. pose proof nb_range as Rnb.
  unfold divmod. fold sg. fold n. fold nr. fold nb. rewrite Esg in *. cbn iota.
  assert (Pa : 0 <= va) by (unfold in_range in Rva; lia).
  assert (Pb : 0 < vb) by (unfold in_range in Rvb; unfold vb in *; lia).
  destruct (Nat.eqb_spec n 1) as [E|E].
  - pose proof (single_a E) as Ea. pose proof (single_b E) as Eb. rewrite Esg in *.
    rewrite <- Ea, <- Eb. destruct (Z.eqb_spec vb 0); [lia|].
    assert (Enr : nr = 1%nat) by (pose proof n_ge_nr; lia).
    eexists _, _. split; [reflexivity|].
    pose proof R_bound. pose proof Q_bound. 
    unfold in_range, wbits in Rva, Rvb. rewrite E in Rva. rewrite Enr in *.
    unfold Q, R in *. rewrite (Z.abs_eq va), (Z.abs_eq vb) in * by lia.
    change (64 * Z.of_nat 1) with 64 in *.
    split; [split; [reflexivity | split; [symmetry; exact E|]]|].
    { constructor; [|constructor]. unfold is_word. lia. }
    split; [split; [reflexivity | split; [reflexivity|]]|].
    { constructor; [|constructor]. unfold is_word. lia. }
    split.
    + unfold op_value. rewrite le_val_cons, le_val_nil. lia.
    + unfold op_value. rewrite le_val_cons, le_val_nil. lia.
  - destruct (core_div (to_words n a) (to_words nb b)) as (rw & qw & E1 & L1 & L2 & F1 & F2 & V1 & V2);
      try apply to_words_length; try (apply to_words_words; assumption).
    { rewrite to_words_val by assumption. fold va. rewrite Z.abs_eq by lia. apply Z.mod_small.
      unfold in_range in Rva. rewrite pw_wbits in Rva. assumption. }
    { rewrite to_words_val by assumption. fold vb. rewrite Z.abs_eq by lia. apply Z.mod_small.
      unfold in_range in Rnb. rewrite pw_wbits in Rnb. assumption. }
    rewrite E1. cbn [obind]. pose proof (rem0_spec rw L1 F1 V2) as (R1 & R2 & R3 & _).
    fold icf. rewrite Esg in *.
    eexists _, _. split; [reflexivity|].
    repeat split; try assumption. unfold op_value. apply R3. left. congruence.
Qed.

Lemma divmod_truncate_signed :
  sg = true -> no_trap ->
  exists q r, divmod divx truncate a b = Ok (q, r) /\ has_type true n q /\ has_type true nr r /\
    op_value q = wrap true n (Z.quot va vb) /\ (rem_ok -> op_value r = Z.rem va vb).
Proof.
  intros Esg Hnt. pose proof dn_pos as Hn. pose proof nr_pos as Hr. pose proof n_ge_nr as Hnr.
  pose proof va_range as Rva. pose proof vb_range as Rvb.
  unfold divmod. fold sg. fold n. fold nr. fold nb. rewrite Esg in Rva, Rvb.
  destruct (Nat.eqb_spec n 1) as [E|E].
  - pose proof (single_a E) as Ea. pose proof (single_b E) as Eb. rewrite Esg in *.
    rewrite <- Ea, <- Eb. destruct (Z.eqb_spec vb 0); [unfold vb in *; lia|].
    assert (Enr : nr = 1%nat) by lia.
    destruct ((va =? - Hw) && (vb =? -1)) eqn:Etr.
    { exfalso. apply andb_true_iff in Etr. destruct Etr as [E1 E2]. apply Z.eqb_eq in E1, E2.
      apply (proj1 Hnt). repeat split; assumption. }
    cbn [xorb]. eexists _, _. split; [reflexivity|].
    rewrite E, Enr in *. rewrite !uword_val.
    repeat split; try (constructor; [apply uword_word | constructor]).
    intros _. apply wrap_id; [lia|]. rewrite rem_R. pose proof R_bound.
    rewrite range1 in *. destruct (va <? 0); lia.
  - destruct (signed_prep Esg E Hnt) as (Ta & Tb & a1 & b1 & Ea1 & Eb1 & La & Lb & Fa & Fb & Va & Vb).
    rewrite Ta, Tb, Ea1, Eb1. cbn [obind words_of].
    destruct (core_div a1 b1 La Lb Fa Fb Va Vb) as (rw & qw & E1 & L1 & L2 & F1 & F2 & V1 & V2).
    rewrite E1. cbn [obind]. pose proof (rem0_spec rw L1 F1 V2) as (R1 & R2 & R3 & R4).
    fold icf. rewrite Esg in *. cbv beta zeta in *.
    set (rem0 := to_words nr (OComp true (to_words icf (OComp true rw)))) in *.
    destruct (cond_neg_pattern (xorb (va <? 0) (vb <? 0)) qw Q n L2 Hn F2 V1) as (q & Eq & Tq & Vq).
    { intros; lia. }
    destruct (cond_neg_pattern (va <? 0) rem0 (le_val rem0) nr R1 Hr R2 eq_refl) as (r & Er & Tr & Vr).
    { intros En1. rewrite (R4 En1 eq_refl). pose proof R_bound. rewrite En1, range1 in Rvb. lia. }
    rewrite Eq, Er. cbn [obind]. exists q, r. split; [reflexivity|].
    split; [assumption|]. split; [assumption|]. split.
    + rewrite Vq, quot_Q. reflexivity.
    + intros Hok. rewrite Vr, (R3 Hok), rem_R. apply wrap_id; [assumption|].
      pose proof R_bound as RB. unfold in_range in Rvb |- *. revert RB Rvb. generalize R vb (va <? 0). clear.
      intros r v s RB Rvb. destruct s; lia.
Qed.

Lemma abs_op_spec :
  match abs_op b with
  | UB => exists bytes, (b = OBuiltin true bytes (- 2 ^ (8 * Z.of_nat bytes - 1)) /\ (4 <= bytes)%nat) \/
                        (exists ws, b = OComp true ws /\ length ws = 1%nat /\ vb = - 2 ^ 63)
  | Ok o => op_wf o /\ (exists k, op_value o = Z.abs vb + k * pw nr)
  end.
Proof. apply (abs_op_gen sg b Hb). apply res_signed_r. Qed.

(** abs(b) does not overflow: needed by the euclid mode when the signs differ. *)
Definition abs_ok : Prop :=
  ~ (exists bytes, b = OBuiltin true bytes (- 2 ^ (8 * Z.of_nat bytes - 1)) /\ (4 <= bytes)%nat) /\
  ~ (n = 1%nat /\ vb = - 2 ^ 63) /\
  ~ (exists ws, b = OComp true ws /\ length ws = 1%nat /\ vb = - 2 ^ 63).

Lemma sub_mod m x y :
  op_wf x -> op_wf y -> (m <= max_int_count (res_signed x y) x y)%nat -> (0 < m)%nat ->
  op_value (OComp true (to_words m (sub x y))) = wrap true m (op_value x - op_value y).
Proof.
  intros Hx Hy Hm Hpos. unfold sub. set (N := max_int_count (res_signed x y) x y) in *.
  set (s := res_signed x y) in *.
  assert (W : op_wf (OComp s (fst (subborrow N x y)))).
  { eapply comp_wf with (n := N); [lia | apply subborrow_length | apply subborrow_spec; assumption]. }
  rewrite to_words_value by assumption.
  rewrite (op_value_wrap s _ (op_value x - op_value y) N);
    [|lia | apply subborrow_length | apply subborrow_val; assumption].
  apply wrap_cong. rewrite <- (mod_pw_le (wrap s N _) N m) by assumption.
  rewrite wrap_mod by lia. apply mod_pw_le. assumption.
Qed.

Lemma sub_wf x y : op_wf x -> op_wf y -> op_wf (sub x y).
Proof.
  intros Hx Hy. unfold sub. eapply comp_wf; [|apply subborrow_length|apply subborrow_spec; assumption].
  apply max_int_count_pos; assumption.
Qed.

Lemma divmod_euclid_signed :
  sg = true -> no_trap -> (signs_differ = true -> abs_ok) ->
  exists q r, divmod divx euclid a b = Ok (q, r) /\ has_type true n q /\ has_type true nr r /\
    op_value q = wrap true n (if signs_differ then - 1 - Q else Q) /\
    (rem_ok -> op_value r = wrap true nr (if signs_differ then Z.abs vb - R else R)).
Proof.
  intros Esg Hnt Habs. pose proof dn_pos as Hn. pose proof nr_pos as Hr. pose proof n_ge_nr as Hnr.
  pose proof va_range as Rva. pose proof vb_range as Rvb. pose proof R_bound as RB.
  unfold divmod. fold sg. fold n. fold nr. fold nb. rewrite Esg in Rva, Rvb.
  destruct (Nat.eqb_spec n 1) as [E|E].
  - pose proof (single_a E) as Ea. pose proof (single_b E) as Eb. rewrite Esg in *.
    rewrite <- Ea, <- Eb. destruct (Z.eqb_spec vb 0); [unfold vb in *; lia|].
    assert (Enr : nr = 1%nat) by lia.
    destruct ((va =? - Hw) && (vb =? -1)) eqn:Etr.
    { exfalso. apply andb_true_iff in Etr. destruct Etr as [E1 E2]. apply Z.eqb_eq in E1, E2.
      apply (proj1 Hnt). repeat split; assumption. }
    rewrite E, Enr in *. rewrite range1 in Rva, Rvb.
    assert (Wr : op_wf (OComp true [uword (Z.rem va vb)])).
    { split; [discriminate|]. constructor; [apply uword_word | constructor]. }
    assert (Vr : op_value (OComp true [uword (Z.rem va vb)]) = Z.rem va vb).
    { rewrite uword_val. apply wrap_id; [lia|]. rewrite rem_R, range1. revert RB Rvb. generalize R vb (va <? 0). clear.
      intros r v s RB Rvb. destruct s; lia. }
    pose proof (abs_correct true _ Wr) as Hab. rewrite Vr in Hab.
    destruct (abs true [uword (Z.rem va vb)]) as [ra|].
    2:{ exfalso. destruct Hab as (_ & _ & Hab). rewrite rem_R in Hab. revert RB Rvb Hab. generalize R vb (va <? 0). clear.
        intros r v s RB Rvb Hab. destruct s; lia. }
    destruct Hab as [Hty (rs & -> & Vrs)].
    destruct Hty as (_ & Lr & Fr). cbn [obind].
    assert (VrsR : le_val rs = R) by (rewrite Vrs, rem_R; revert RB; generalize R vb (va <? 0); clear; intros r v s RB; destruct s; lia).
    assert (Wrs : op_wf (OComp true rs)) by (eapply comp_wf; [|exact Lr|assumption]; cbn; lia).
    assert (VrsV : op_value (OComp true rs) = R).
    { rewrite (op_value_wrap true rs R 1); [|lia|assumption|].
      - apply wrap_id; [clear; lia|]. rewrite range1. revert RB Rvb. generalize R vb. clear. lia.
      - rewrite VrsR. symmetry. apply Z.mod_small. rewrite pw_1. unfold Bw. revert RB Rvb. generalize R vb. clear. lia. }
    fold signs_differ. destruct signs_differ eqn:Esd.
    + destruct (Habs eq_refl) as (Ab1 & Ab2 & Ab3).
      unfold abs_op. change (Nat.leb 4 8) with true. cbn [andb].
      change (8 * Z.of_nat 8 - 1) with 63.
      destruct (Z.eqb_spec vb (- 2 ^ 63)) as [Em|Em]; [exfalso; apply Ab2; auto|].
      cbn [obind]. change (Nat.max 4 8) with 8%nat.
      assert (Wab : op_wf (OBuiltin true 8 (Z.abs vb))).
      { split; [lia|]. unfold builtin_range. change (8 * Z.of_nat 8 - 1) with 63. revert Rvb Em. generalize vb. clear. lia. }
      assert (W1 : op_wf (OBuiltin true 4 1)).
      { split; [lia|]. unfold builtin_range. split; [|reflexivity]. assert (0 <= 2 ^ (8 * Z.of_nat 4 - 1)) by (apply Z.pow_nonneg; lia). lia. }
      assert (Wq : op_wf (OComp true [uword (Z.quot va vb)])).
      { split; [discriminate|]. constructor; [apply uword_word | constructor]. }
      destruct (add_assign_correct true [uword (Z.quot va vb)] (OBuiltin true 4 1) Wq W1) as [_ _].
      destruct (sub_assign_correct true [uword (Z.quot va vb)] (OBuiltin true 4 1) Wq W1) as [Tq Vq].
      eexists _, _. split; [reflexivity|]. cbn [length] in Tq, Vq.
      split; [assumption|]. split; [apply to_words_type, sub_wf; assumption|]. split.
      * rewrite Vq, uword_val. cbn [op_value].
        rewrite quot_Q, Esd. apply wrap_cong. rewrite Zminus_mod, wrap_mod by lia.
        rewrite <- Zminus_mod. f_equal. generalize Q. clear. lia.
      * intros _. rewrite sub_mod; try assumption; try lia.
        -- rewrite VrsV. reflexivity.
        -- pose proof (max_int_count_pos (res_signed (OBuiltin true 8 (Z.abs vb)) (OComp true rs)) _ (OComp true rs) Wab). lia.
    + eexists _, _. split; [reflexivity|].
      split; [repeat split; constructor; [apply uword_word | constructor]|].
      split; [repeat split; [exact Lr | assumption]|]. split.
      * rewrite uword_val, quot_Q, Esd. reflexivity.
      * intros _. rewrite VrsV. symmetry. apply wrap_id; [clear; lia|]. rewrite range1. revert RB Rvb. generalize R vb. clear. lia.
  - destruct (signed_prep Esg E Hnt) as (Ta & Tb & a1 & b1 & Ea1 & Eb1 & La & Lb & Fa & Fb & Va & Vb).
    rewrite Ta, Tb, Esg, Ea1, Eb1. cbn [obind words_of].
    destruct (core_div a1 b1 La Lb Fa Fb Va Vb) as (rw & qw & E1 & L1 & L2 & F1 & F2 & V1 & V2).
    rewrite E1. cbn [obind]. pose proof (rem0_spec rw L1 F1 V2) as (R1 & R2 & R3 & R4).
    fold icf. rewrite Esg in R1, R2, R3, R4. cbv beta zeta in *.
    set (rem0 := to_words nr (OComp true (to_words icf (OComp true rw)))) in *.
    fold signs_differ.
    assert (Wq : op_wf (OComp true qw)) by (eapply comp_wf; [|eassumption|eassumption]; assumption).
    assert (Wrem : op_wf (OComp true rem0)) by (eapply comp_wf; [|eassumption|eassumption]; assumption).
    assert (Vq : exists k, op_value (OComp true qw) = Q + k * pw n).
    { destruct (op_value_mod true qw) as [k ->]. rewrite V1, L2. exists k. reflexivity. }
    assert (Vrem : rem_ok -> exists k, op_value (OComp true rem0) = R + k * pw nr).
    { intros Hok. destruct (op_value_mod true rem0) as [k ->]. rewrite (R3 Hok), R1. exists k. reflexivity. }
    destruct signs_differ eqn:Esd.
    + destruct (Habs eq_refl) as (Ab1 & Ab2 & Ab3). pose proof abs_op_spec as Hab.
      destruct (abs_op b) as [bab|].
      2:{ exfalso. destruct Hab as (bytes & [Hab|Hab]); [apply Ab1; exists bytes; assumption|apply Ab3; assumption]. }
      destruct Hab as [Wbab (kb & Vbab)]. cbn [obind].
      assert (Wm1 : op_wf (OBuiltin true 4 (-1))).
      { split; [lia|]. unfold builtin_range.
        assert (1 <= 2 ^ (8 * Z.of_nat 4 - 1)) by (pose proof (Z.pow_pos_nonneg 2 (8 * Z.of_nat 4 - 1)); lia). lia. }
      eexists _, _. split; [reflexivity|].
      split; [apply to_words_type, sub_wf; assumption|].
      split; [apply to_words_type, sub_wf; assumption|]. split.
      * rewrite sub_mod; try assumption.
        -- destruct Vq as [k ->]. cbn [op_value].
           rewrite <- (wrap_add_pw true n (-1 - Q) (- k)). f_equal. ring.
        -- unfold max_int_count, res_signed. cbn [op_signed orb]. unfold int_count at 2.
           rewrite andb_false_r. lia.
      * intros Hok. rewrite sub_mod; try assumption.
        -- destruct (Vrem Hok) as [k ->]. rewrite Vbab.
           rewrite <- (wrap_add_pw true nr (Z.abs vb - R) (kb - k)). f_equal. ring.
        -- unfold max_int_count. unfold int_count at 2. cbn [andb negb]. rewrite andb_false_r. lia.
    + eexists _, _. split; [reflexivity|].
      split; [repeat split; assumption|]. split; [repeat split; assumption|]. split.
      * destruct Vq as [k Vq]. rewrite <- (wrap_id true n (op_value (OComp true qw))).
        -- rewrite Vq. apply wrap_add_pw.
        -- assumption.
        -- rewrite <- L2. apply op_value_range_comp; apply Wq.
      * intros Hok. destruct (Vrem Hok) as [k Vr]. rewrite <- (wrap_id true nr (op_value (OComp true rem0))).
        -- rewrite Vr. apply wrap_add_pw.
        -- assumption.
        -- rewrite <- R1. apply op_value_range_comp; apply Wrem.
Qed.
End Divmod.
