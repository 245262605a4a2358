(** Properties of the wide integers (C01-C12, C57). *)
From Coq Require Import ZArith List Bool Lia.
From Verif Require Import LargeIntsModel LargeIntsSpec WordsProofs ArithProofs ShiftProofs MulProofs
  DivProofs DivmodProofs ConvProofs EuclidProofs DivFinal.
Import ListNotations.
Local Open Scope Z_scope.

(** Tactics for the concrete instances. *)
Ltac words_tac := repeat constructor; try discriminate; unfold is_word, builtin_range; cbn; lia.

(** ** C01 *)
Theorem C01_add : forall a b n,
  op_wf a -> op_wf b -> common_width (op_signed a || op_signed b) n a b ->
  has_type (op_signed a || op_signed b) n (add a b) /\
  op_value (add a b) = wrap (op_signed a || op_signed b) n (op_value a + op_value b).
Proof. exact add_correct. Qed.
Print Assumptions C01_add.

Theorem C01_sub : forall a b n,
  op_wf a -> op_wf b -> common_width (op_signed a || op_signed b) n a b ->
  has_type (op_signed a || op_signed b) n (sub a b) /\
  op_value (sub a b) = wrap (op_signed a || op_signed b) n (op_value a - op_value b).
Proof. exact sub_correct. Qed.
Print Assumptions C01_sub.

(** The width in the two theorems above always exists. *)
Theorem C01_width_exists : forall a b, op_wf a -> op_wf b ->
  exists n, common_width (op_signed a || op_signed b) n a b.
Proof. intros a b Ha Hb. eexists. apply common_width_max; assumption. Qed.
Print Assumptions C01_width_exists.

Theorem C01_add_assign : forall sg ws b,
  op_wf (OComp sg ws) -> op_wf b ->
  has_type sg (length ws) (add_assign sg ws b) /\
  op_value (add_assign sg ws b) = wrap sg (length ws) (op_value (OComp sg ws) + op_value b).
Proof. exact add_assign_correct. Qed.
Print Assumptions C01_add_assign.

Theorem C01_sub_assign : forall sg ws b,
  op_wf (OComp sg ws) -> op_wf b ->
  has_type sg (length ws) (sub_assign sg ws b) /\
  op_value (sub_assign sg ws b) = wrap sg (length ws) (op_value (OComp sg ws) - op_value b).
Proof. exact sub_assign_correct. Qed.
Print Assumptions C01_sub_assign.

(** Exact when the result fits. *)
Theorem C01_exact_when_fits : forall a b n,
  op_wf a -> op_wf b -> common_width (op_signed a || op_signed b) n a b ->
  (in_range (op_signed a || op_signed b) n (op_value a + op_value b) ->
   op_value (add a b) = op_value a + op_value b) /\
  (in_range (op_signed a || op_signed b) n (op_value a - op_value b) ->
   op_value (sub a b) = op_value a - op_value b).
Proof.
  intros a b n Ha Hb Hn. pose proof Hn as [Hp _].
  split; intros Hr.
  - destruct (add_correct a b n Ha Hb Hn) as [_ ->]. apply wrap_id; assumption.
  - destruct (sub_correct a b n Ha Hb Hn) as [_ ->]. apply wrap_id; assumption.
Qed.
Print Assumptions C01_exact_when_fits.

(** A carry across words, operands of different kinds and widths. *)
Example C01_example :
  op_wf (OComp true [2 ^ 64 - 1; 2 ^ 64 - 1; 7]) /\ op_wf (OBuiltin true 4 (-3)) /\
  op_value (add (OComp true [2 ^ 64 - 1; 2 ^ 64 - 1; 7]) (OBuiltin false 4 3)) = 8 * 2 ^ 128 + 2 /\
  op_value (sub (OBuiltin true 4 (-3)) (OComp false [5; 1])) = - 2 ^ 64 - 8.
Proof. split; [words_tac|]. split; [words_tac|]. split; vm_compute; reflexivity. Qed.

(** ** C02 *)
Theorem C02_neg_partial : forall ws, op_wf (OComp true ws) ->
  match neg ws with
  | Ok r => has_type true (length ws) r /\
            op_value r = wrap true (length ws) (- op_value (OComp true ws))
  | UB => length ws = 1%nat /\ op_value (OComp true ws) = - 2 ^ 63
  end.
Proof. exact neg_correct. Qed.
Print Assumptions C02_neg_partial.

Theorem C02_negative : forall sg ws, op_wf (OComp sg ws) ->
  is_negative sg ws = true <-> op_value (OComp sg ws) < 0.
Proof. intros sg ws H. rewrite (is_negative_correct sg ws H). apply Z.ltb_lt. Qed.
Print Assumptions C02_negative.

(** The words returned, read as an unsigned number, are the absolute value. *)
Theorem C02_abs_partial : forall sg ws, op_wf (OComp sg ws) ->
  match abs sg ws with
  | Ok r => has_type sg (length ws) r /\
            exists rs, r = OComp sg rs /\ le_val rs = Z.abs (op_value (OComp sg ws))
  | UB => sg = true /\ length ws = 1%nat /\ op_value (OComp sg ws) = - 2 ^ 63
  end.
Proof. exact abs_correct. Qed.
Print Assumptions C02_abs_partial.

(** The full claim ("for every x, including the most negative value") fails for
    one-word signed integers: both operations are undefined there. *)
Theorem C02_refuted : exists ws, op_wf (OComp true ws) /\ neg ws = UB /\ abs true ws = UB.
Proof. exists [2 ^ 63]. split; [words_tac|]. split; reflexivity. Qed.
Print Assumptions C02_refuted.

Example C02_example :
  op_wf (OComp true [0; 2 ^ 63]) /\
  neg [0; 2 ^ 63] = Ok (OComp true [0; 2 ^ 63]) /\ abs true [0; 2 ^ 63] = Ok (OComp true [0; 2 ^ 63]) /\
  op_value (OComp true [0; 2 ^ 63]) = - 2 ^ 127 /\
  neg [5; 0; 0] = Ok (OComp true [2 ^ 64 - 5; 2 ^ 64 - 1; 2 ^ 64 - 1]).
Proof. split; [words_tac|]. repeat split; vm_compute; reflexivity. Qed.

(** ** C03 *)
Theorem C03_compare : forall a b, op_wf a -> op_wf b -> cmp a b = (op_value a ?= op_value b).
Proof. exact cmp_correct. Qed.
Print Assumptions C03_compare.

Theorem C03_equal : forall a b, op_wf a -> op_wf b -> eq a b = true <-> op_value a = op_value b.
Proof. exact eq_correct. Qed.
Print Assumptions C03_equal.

Example C03_example :
  op_wf (OComp true [0; 2 ^ 64 - 1]) /\ op_wf (OComp false [1]) /\
  cmp (OComp true [0; 2 ^ 64 - 1]) (OComp false [1]) = Lt /\
  cmp (OComp false [2 ^ 64 - 1]) (OBuiltin true 8 (-1)) = Gt.
Proof. split; [words_tac|]. split; [words_tac|]. split; vm_compute; reflexivity. Qed.

(** ** C04 *)
Theorem C04_shift_right : forall sg a junk amount,
  op_wf (OComp sg a) -> length junk = length a -> 0 <= amount < wbits (length a) ->
  exists ws, shift_right sg a junk amount = Ok ws /\ length ws = length a /\
    Forall is_word ws /\ op_value (OComp sg ws) = op_value (OComp sg a) / 2 ^ amount.
Proof. exact shift_right_correct. Qed.
Print Assumptions C04_shift_right.

Theorem C04_shift_right_assign : forall sg a amount,
  op_wf (OComp sg a) -> 0 <= amount < wbits (length a) ->
  exists ws, shift_right_assign sg a amount = Ok ws /\ length ws = length a /\
    Forall is_word ws /\ op_value (OComp sg ws) = op_value (OComp sg a) / 2 ^ amount.
Proof. exact shift_right_assign_correct. Qed.
Print Assumptions C04_shift_right_assign.

Theorem C04_shift_left : forall a junk amount,
  Forall is_word a -> length junk = length a -> 0 <= amount ->
  length (shift_left a junk amount) = length a /\ Forall is_word (shift_left a junk amount) /\
  le_val (shift_left a junk amount) = (le_val a * 2 ^ amount) mod 2 ^ wbits (length a).
Proof. exact shift_left_correct. Qed.
Print Assumptions C04_shift_left.

Theorem C04_shift_left_assign : forall a amount,
  Forall is_word a -> 0 <= amount ->
  length (shift_left_assign a amount) = length a /\ Forall is_word (shift_left_assign a amount) /\
  le_val (shift_left_assign a amount) = (le_val a * 2 ^ amount) mod 2 ^ wbits (length a).
Proof. exact shift_left_assign_correct. Qed.
Print Assumptions C04_shift_left_assign.

(** The bound on right shifts is needed: larger amounts run out of bounds. *)
Theorem C04_shift_right_bound : forall inplace sg a r amount,
  wbits (length a) <= amount -> shift_right_arr inplace sg a r amount = UB.
Proof. exact shift_right_ub. Qed.
Print Assumptions C04_shift_right_bound.

Example C04_example :
  op_wf (OComp true [3; 5; 2 ^ 63]) /\
  shift_right true [3; 5; 2 ^ 63] [9; 9; 9] 65 = Ok [2; 2 ^ 62 + 2 ^ 63; 2 ^ 64 - 1] /\
  shift_left [3; 5; 2 ^ 63] [9; 9; 9] 65 = [0; 6; 10].
Proof. split; [words_tac|]. split; vm_compute; reflexivity. Qed.

(** ** C05 *)
(** Partial: excluded are two small built-ins of which one is unsigned, and
    unsigned products with exactly one single-word operand (both refuted below). *)
Theorem C05_mul_partial : forall a b na nb,
  op_wf a -> op_wf b -> is_small a && is_small b = false ->
  least_width (op_signed a || op_signed b) na a ->
  least_width (op_signed a || op_signed b) nb b ->
  op_signed a || op_signed b = true \/ na = 1%nat /\ nb = 1%nat \/ (1 < na)%nat /\ (1 < nb)%nat ->
  exists ws, mul a b = MWords (OComp (op_signed a || op_signed b) ws) /\
    length ws = (na + nb)%nat /\ Forall is_word ws /\
    op_value (OComp (op_signed a || op_signed b) ws) = op_value a * op_value b.
Proof. exact mul_correct. Qed.
Print Assumptions C05_mul_partial.

Theorem C05_mul_small_partial : forall sa sb ba bb va vb,
  op_wf (OBuiltin sa ba va) -> op_wf (OBuiltin sb bb vb) -> (ba < 8)%nat -> (bb < 8)%nat ->
  sa = true -> sb = true -> In ba [1; 2; 4]%nat -> In bb [1; 2; 4]%nat ->
  exists bytes, mul (OBuiltin sa ba va) (OBuiltin sb bb vb) = MBuiltin bytes (va * vb) /\
    builtin_range true bytes (va * vb).
Proof. exact mul_small_correct. Qed.
Print Assumptions C05_mul_small_partial.

Theorem C05_mul_unsigned_refuted : forall a b na nb,
  op_wf a -> op_wf b -> op_signed a = false -> op_signed b = false ->
  least_width false na a -> least_width false nb b ->
  na = 1%nat /\ (1 < nb)%nat \/ nb = 1%nat /\ (1 < na)%nat -> mul a b = MNoReturn.
Proof. exact mul_no_return. Qed.
Print Assumptions C05_mul_unsigned_refuted.

Theorem C05_mul_small_unsigned_refuted : exists a b,
  op_wf a /\ op_wf b /\ mul a b = MUB.
Proof.
  exists (OBuiltin false 2 65535), (OBuiltin false 2 65535).
  split; [words_tac|]. split; [words_tac|]. vm_compute. reflexivity.
Qed.
Print Assumptions C05_mul_small_unsigned_refuted.

Example C05_example :
  op_wf (OComp true [1; 2 ^ 63]) /\ op_wf (OComp false [2 ^ 64 - 1; 2 ^ 64 - 1]) /\
  (exists ws, mul (OComp true [1; 2 ^ 63]) (OComp false [2 ^ 64 - 1; 2 ^ 64 - 1])
              = MWords (OComp true ws) /\
     op_value (OComp true ws) = (1 - 2 ^ 127) * (2 ^ 128 - 1)) /\
  mul (OComp false [1; 2]) (OComp false [3]) = MNoReturn.
Proof.
  split; [words_tac|]. split; [words_tac|]. split; [|vm_compute; reflexivity].
  eexists. split; [vm_compute; reflexivity | vm_compute; reflexivity].
Qed.

(** ** C06 *)
(** Partial: the three exclusions are the unrepresentable quotient MIN/-1, the
    platform path with a one-word divisor equal to the most negative word, and a
    remainder of 2^63 or more with an unsigned divisor in a signed division. *)
Theorem C06_truncating_division_partial : forall divx a b n nr,
  op_wf a -> op_wf b -> op_value b <> 0 ->
  let sg := op_signed a || op_signed b in
  common_width sg n a b -> least_width sg nr b ->
  ~ (sg = true /\ op_value a = - 2 ^ (wbits n - 1) /\ op_value b = -1) ->
  ~ (divx = true /\ sg = true /\ (1 < n)%nat /\ nr = 1%nat /\ op_value b = - 2 ^ 63) ->
  (sg = true -> op_signed b = true) \/ Z.abs (op_value a) mod Z.abs (op_value b) < 2 ^ 63 ->
  exists q r, divmod divx truncate a b = Ok (q, r) /\
    has_type sg n q /\ has_type sg nr r /\
    op_value a = op_value q * op_value b + op_value r /\
    Z.abs (op_value r) < Z.abs (op_value b) /\
    0 <= op_value r * op_value a.
Proof. exact divmod_law. Qed.
Print Assumptions C06_truncating_division_partial.

(** The quotient MIN/-1 wraps when the common type has more than one word. *)
Theorem C06_min_wraps : forall divx a b n nr,
  op_wf a -> op_wf b -> op_value b <> 0 ->
  let sg := op_signed a || op_signed b in
  common_width sg n a b -> least_width sg nr b ->
  ~ (sg = true /\ n = 1%nat /\ op_value a = - 2 ^ 63 /\ op_value b = -1) ->
  ~ (divx = true /\ sg = true /\ (1 < n)%nat /\ nr = 1%nat /\ op_value b = - 2 ^ 63) ->
  exists q r, divmod divx truncate a b = Ok (q, r) /\
    has_type sg n q /\ has_type sg nr r /\
    op_value q = wrap sg n (Z.quot (op_value a) (op_value b)) /\
    ((sg = true -> op_signed b = true) \/ Z.abs (op_value a) mod Z.abs (op_value b) < 2 ^ 63 ->
     op_value r = Z.rem (op_value a) (op_value b)).
Proof. exact divmod_truncate_final. Qed.
Print Assumptions C06_min_wraps.

(** (2^64 - 2) / (2^64 - 1) with a signed dividend and an unsigned divisor
    returns the remainder -2. *)
Theorem C06_remainder_refuted : exists a b q r,
  op_wf a /\ op_wf b /\ op_value b <> 0 /\ divmod true truncate a b = Ok (q, r) /\
  op_value a <> op_value q * op_value b + op_value r /\ op_value r < 0 /\ 0 < op_value a.
Proof.
  exists (OComp true [2 ^ 64 - 2; 0]), (OBuiltin false 8 (2 ^ 64 - 1)).
  eexists _, _. split; [words_tac|]. split; [words_tac|]. split; [discriminate|].
  split; [vm_compute; reflexivity|]. repeat split; vm_compute; discriminate || reflexivity.
Qed.
Print Assumptions C06_remainder_refuted.

(** Division by the most negative word is undefined on platforms with the
    double-word divide, although the quotient is representable. *)
Theorem C06_min_divisor_refuted : exists a b,
  op_wf a /\ op_wf b /\ op_value b <> 0 /\ op_value a = 2 ^ 70 /\
  divmod true truncate a b = UB /\
  exists q r, divmod false truncate a b = Ok (q, r) /\ op_value q = - 128 /\ op_value r = 0.
Proof.
  exists (OComp true [0; 64]), (OBuiltin true 8 (- 2 ^ 63)).
  split; [words_tac|]. split; [words_tac|]. split; [discriminate|]. split; [reflexivity|].
  split; [vm_compute; reflexivity|]. eexists _, _. split; [vm_compute; reflexivity|].
  split; vm_compute; reflexivity.
Qed.
Print Assumptions C06_min_divisor_refuted.

(** MIN/-1 does not wrap for one-word integers: it is undefined. *)
Theorem C06_min_wraps_refuted : exists a b,
  op_wf a /\ op_wf b /\ op_value b = -1 /\ divmod true truncate a b = UB.
Proof.
  exists (OComp true [2 ^ 63]), (OBuiltin true 8 (-1)).
  split; [words_tac|]. split; [words_tac|]. split; vm_compute; reflexivity.
Qed.
Print Assumptions C06_min_wraps_refuted.

Example C06_example :
  op_wf (OComp true [5; 7; 2 ^ 64 - 9]) /\ op_wf (OComp true [3; 2]) /\
  exists q r, divmod true truncate (OComp true [5; 7; 2 ^ 64 - 9]) (OComp true [3; 2]) = Ok (q, r) /\
    op_value q = (5 + 7 * 2 ^ 64 - 9 * 2 ^ 128) ÷ (3 + 2 * 2 ^ 64) /\
    op_value r = Z.rem (5 + 7 * 2 ^ 64 - 9 * 2 ^ 128) (3 + 2 * 2 ^ 64).
Proof.
  split; [words_tac|]. split; [words_tac|].
  eexists _, _. split; [vm_compute; reflexivity | split; vm_compute; reflexivity].
Qed.

(** ** C07 *)
(** Partial: positive divisor, and not an exact division of a negative number. *)
Theorem C07_euclid_divmod_partial : forall divx a b n nr,
  op_wf a -> op_wf b -> 0 < op_value b ->
  let sg := op_signed a || op_signed b in
  common_width sg n a b -> least_width sg nr b ->
  0 <= op_value a \/ op_value a mod op_value b <> 0 ->
  (sg = true -> op_signed b = true) \/ Z.abs (op_value a) mod Z.abs (op_value b) < 2 ^ 63 ->
  exists q r, divmod divx euclid a b = Ok (q, r) /\
    has_type sg n q /\ has_type sg nr r /\
    op_value a = op_value q * op_value b + op_value r /\ 0 <= op_value r < Z.abs (op_value b).
Proof. exact euclid_final. Qed.
Print Assumptions C07_euclid_divmod_partial.

Theorem C07_euclid_unmul_partial : forall divx nq a b nb,
  op_wf a -> op_wf b -> 0 < op_value b -> (0 < nq)%nat ->
  let sg := op_signed a || op_signed b in
  least_width sg nb b ->
  0 <= op_value a \/ op_value a mod op_value b <> 0 ->
  in_range sg nq (op_value a / op_value b) ->
  (sg = true -> op_signed b = true) \/ Z.abs (op_value a) mod Z.abs (op_value b) < 2 ^ 63 ->
  exists q r, unmul divx nq euclid a b = Ok (q, r) /\
    has_type sg nq q /\ has_type sg nb r /\
    op_value a = op_value q * op_value b + op_value r /\ 0 <= op_value r < Z.abs (op_value b).
Proof. exact unmul_euclid_final. Qed.
Print Assumptions C07_euclid_unmul_partial.

(** What the code computes for every sign combination: the law holds with |b|
    in place of b and the sign of b moved to a; the remainder reaches |b| exactly
    when the division is exact and the signs differ. *)
Theorem C07_euclid_actual_partial : forall divx a b n nr,
  op_wf a -> op_wf b -> op_value b <> 0 -> op_signed a = true -> op_signed b = true ->
  common_width true n a b -> least_width true nr b -> (1 < n)%nat ->
  - 2 ^ (wbits n - 1) < op_value a -> - 2 ^ (wbits nr - 1) < op_value b ->
  (forall bytes v, b = OBuiltin true bytes v -> - 2 ^ (8 * Z.of_nat bytes - 1) < v) ->
  exists q r, divmod divx euclid a b = Ok (q, r) /\
    op_value a * Z.sgn (op_value b) = op_value q * Z.abs (op_value b) + op_value r /\
    0 <= op_value r <= Z.abs (op_value b) /\
    (op_value r = Z.abs (op_value b) <->
     op_value a mod op_value b = 0 /\ xorb (op_value a <? 0) (op_value b <? 0) = true).
Proof. exact euclid_actual. Qed.
Print Assumptions C07_euclid_actual_partial.

(** 7 / -2 gives quotient -4, remainder 1. *)
Theorem C07_negative_divisor_refuted : exists a b q r,
  op_wf a /\ op_wf b /\ op_value a = 7 /\ op_value b = -2 /\
  divmod true euclid a b = Ok (q, r) /\ op_value q = -4 /\ op_value r = 1 /\
  op_value a <> op_value q * op_value b + op_value r.
Proof.
  exists (OComp true [7; 0]), (OBuiltin true 8 (-2)).
  eexists _, _. split; [words_tac|]. split; [words_tac|]. split; [reflexivity|]. split; [reflexivity|].
  split; [vm_compute; reflexivity|]. split; [reflexivity|]. split; [reflexivity|]. vm_compute. discriminate.
Qed.
Print Assumptions C07_negative_divisor_refuted.

(** -4 / 2 gives quotient -3, remainder 2, in divmod and in both paths of unmul. *)
Theorem C07_exact_refuted : exists a b,
  op_wf a /\ op_wf b /\ op_value a = -4 /\ op_value b = 2 /\
  forall divx, exists q r, divmod divx euclid a b = Ok (q, r) /\ unmul divx 1 euclid a b
    = Ok (OComp true [2 ^ 64 - 3], OComp true [2]) /\
  op_value q = -3 /\ op_value r = 2.
Proof.
  exists (OComp true [2 ^ 64 - 4; 2 ^ 64 - 1]), (OBuiltin true 8 2).
  split; [words_tac|]. split; [words_tac|]. split; [reflexivity|]. split; [reflexivity|].
  intros [|]; eexists _, _; (split; [vm_compute; reflexivity|]); repeat split; vm_compute; reflexivity.
Qed.
Print Assumptions C07_exact_refuted.

Example C07_example :
  op_wf (OComp true [2 ^ 64 - 7; 2 ^ 64 - 1]) /\ op_value (OComp true [2 ^ 64 - 7; 2 ^ 64 - 1]) = -7 /\
  divmod true euclid (OComp true [2 ^ 64 - 7; 2 ^ 64 - 1]) (OBuiltin true 8 2)
    = Ok (OComp true [2 ^ 64 - 4; 2 ^ 64 - 1], OComp true [1]).
Proof. split; [words_tac|]. split; vm_compute; reflexivity. Qed.

(** ** C08 *)
(** The portable addition agrees except on one input. *)
Theorem C08_adc_partial : forall a b c, is_word a -> is_word b ->
  fst (adc_portable a b c) = fst (adc a b c) /\
  (snd (adc_portable a b c) = snd (adc a b c) <-> ~ (c = true /\ a = 0 /\ b = Bw - 1)).
Proof. exact adc_portable_exact. Qed.
Print Assumptions C08_adc_partial.

Theorem C08_sbb_partial : forall a b, is_word a -> is_word b ->
  sbb_portable a b false = sbb a b false.
Proof. exact sbb_portable_no_carry. Qed.
Print Assumptions C08_sbb_partial.

(** The fall-back loses a carry, so sums of wide integers come out wrong:
    (2^64-1)*2^64 + 2^64-1 + 1 has words [0;0] instead of [0;0] with a carry into
    the third word. *)
Theorem C08_refuted : exists a b,
  op_wf a /\ op_wf b /\ fst (addcarry_portable 3 a b) <> fst (addcarry 3 a b).
Proof.
  exists (OComp false [2 ^ 64 - 1; 0; 5]), (OComp false [1; 2 ^ 64 - 1; 0]).
  split; [words_tac|]. split; [words_tac|]. vm_compute. discriminate.
Qed.
Print Assumptions C08_refuted.

Theorem C08_sub_refuted : exists a b,
  op_wf a /\ op_wf b /\ fst (subborrow_portable 3 a b) <> fst (subborrow 3 a b).
Proof.
  exists (OComp false [0; 2 ^ 64 - 1; 5]), (OComp false [1; 2 ^ 64 - 1; 0]).
  split; [words_tac|]. split; [words_tac|]. vm_compute. discriminate.
Qed.
Print Assumptions C08_sub_refuted.

Theorem C08_inplace_refuted : exists a b, is_word a /\ is_word b /\
  adc_to_portable a b true <> adc a b true.
Proof. exists (2 ^ 64 - 1), 0. split; [words_tac|]. split; [words_tac|]. vm_compute. discriminate. Qed.
Print Assumptions C08_inplace_refuted.

(** The builtin version is the specification: a full adder. *)
Theorem C08_builtin_adc : forall a b c, is_word a -> is_word b ->
  fst (adc a b c) + Bw * (if snd (adc a b c) then 1 else 0) = a + b + (if c then 1 else 0).
Proof.
  intros a b c Ha Hb. destruct (adc a b c) as [w c'] eqn:E.
  pose proof (adc_spec a b c Ha Hb) as H. rewrite E in H. cbn [fst snd] in *. unfold bz in H. destruct H as [_ H]. destruct c, c'; lia.
Qed.
Print Assumptions C08_builtin_adc.

(** ** C09 *)
Theorem C09_mul1x1 : forall sg a b, is_word a -> is_word b ->
  mul1x1_portable sg a b = mul1x1 sg a b.
Proof. exact mul1x1_portable_correct. Qed.
Print Assumptions C09_mul1x1.

Example C09_example : is_word (2 ^ 64 - 1) /\
  mul1x1_portable true (2 ^ 64 - 1) (2 ^ 63) = [2 ^ 63; 0] /\
  mul1x1_portable false (2 ^ 64 - 1) (2 ^ 64 - 1) = [1; 2 ^ 64 - 2].
Proof. split; [words_tac|]. split; vm_compute; reflexivity. Qed.

(** ** C10 *)
Theorem C10_convert : forall sg n o, (0 < n)%nat -> op_wf o ->
  has_type sg n (OComp sg (to_words n o)) /\
  op_value (OComp sg (to_words n o)) = wrap sg n (op_value o) /\
  (in_range sg n (op_value o) -> op_value (OComp sg (to_words n o)) = op_value o).
Proof.
  intros sg n o Hn Ho. split; [apply to_words_type; assumption|].
  rewrite (to_words_value sg n o Hn Ho). split; [reflexivity|]. apply wrap_id. assumption.
Qed.
Print Assumptions C10_convert.

Theorem C10_to_bool : forall sg ws, op_wf (OComp sg ws) ->
  to_bool ws = true <-> op_value (OComp sg ws) <> 0.
Proof.
  intros sg ws Hwf. pose proof (wf_len _ _ Hwf) as Hl. destruct Hwf as [Hne HF].
  rewrite to_bool_correct by assumption.
  pose proof (le_val_bound ws HF). pose proof (pw_half _ Hl). pose proof (half_pos _ Hl).
  destruct sg; cbn [op_value]; [|reflexivity]. unfold as_signed. rewrite pw_wbits.
  destruct (Z.ltb_spec (le_val ws) (2 ^ (wbits (length ws) - 1))); lia.
Qed.
Print Assumptions C10_to_bool.

(** Partial: casts to built-in types of at most 64 bits. *)
Theorem C10_cast_partial : forall sg ws bits,
  op_wf (OComp sg ws) -> 0 < bits <= 64 ->
  cast_to bits ws sg = op_value (OComp sg ws) mod 2 ^ bits.
Proof. exact cast_small. Qed.
Print Assumptions C10_cast_partial.

(** A cast to a 128-bit built-in puts the high word in the wrong place. *)
Theorem C10_cast_refuted : exists ws,
  op_wf (OComp false ws) /\ in_range false 2 (op_value (OComp false ws)) /\
  cast_to 128 ws false <> op_value (OComp false ws) mod 2 ^ 128.
Proof.
  exists [0; 1]. split; [words_tac|]. split; [vm_compute; split; congruence|].
  vm_compute. discriminate.
Qed.
Print Assumptions C10_cast_refuted.

Example C10_example : op_wf (OBuiltin true 4 (-5)) /\
  to_words 3 (OBuiltin true 4 (-5)) = [2 ^ 64 - 5; 2 ^ 64 - 1; 2 ^ 64 - 1] /\
  cast_to 32 [2 ^ 64 - 5; 7] true = 2 ^ 32 - 5.
Proof. split; [words_tac|]. split; vm_compute; reflexivity. Qed.

(** ** C11 *)
(** Value of a most-significant-first digit list. *)
Fixpoint digits_value (acc : Z) (ds : list Z) : Z :=
  match ds with [] => acc | d :: r => digits_value (16 * acc + d) r end.

Lemma digits_value_rev ds : forall acc, digits_value acc ds = hex_le (rev ds ++ [acc]).
Proof.
  assert (H : forall xs y, hex_le (xs ++ [y]) = hex_le xs + 16 ^ Z.of_nat (length xs) * y).
  { induction xs as [|x xs IH]; intros y; cbn [app hex_le length].
    - change (Z.of_nat 0) with 0. lia.
    - rewrite IH. rewrite Nat2Z.inj_succ, Z.pow_succ_r by lia. ring. }
  induction ds as [|d ds IH]; intros acc; cbn [digits_value rev].
  - cbn. lia.
  - rewrite IH, !H, app_length, rev_length. cbn [length].
    rewrite Nat2Z.inj_add. change (Z.of_nat 1) with 1. rewrite Z.pow_add_r by lia. ring.
Qed.

Theorem C11_hex_literal : forall ds, Forall (fun d => 0 <= d < 16) ds ->
  op_wf (compi_literal ds) /\ op_value (compi_literal ds) = digits_value 0 ds.
Proof.
  intros ds H. destruct (compi_literal_correct ds H) as [W V]. split; [assumption|].
  rewrite V, digits_value_rev.
  assert (E : forall xs, hex_le (xs ++ [0]) = hex_le xs) by (induction xs as [|x xs IH]; [reflexivity | cbn [app hex_le]; rewrite IH; reflexivity]).
  rewrite E. reflexivity.
Qed.
Print Assumptions C11_hex_literal.

Example C11_example :
  Forall (fun d => 0 <= d < 16) [15;15;0;0;0;0;0;0;0;0;0;0;0;0;0;1] /\
  compi_literal [15;15;0;0;0;0;0;0;0;0;0;0;0;0;0;1] = OComp true [255 * 2 ^ 56 + 1; 0] /\
  compi_literal [0;15] = OComp true [15].
Proof. split; [repeat constructor; lia|]. split; vm_compute; reflexivity. Qed.

(** ** C12 *)
Theorem C12_unmul_partial : forall divx nq a b na nb,
  op_wf a -> op_wf b -> op_value b <> 0 -> (0 < nq)%nat ->
  let sg := op_signed a || op_signed b in
  least_width sg na a -> least_width sg nb b ->
  in_range sg nq (Z.quot (op_value a) (op_value b)) ->
  ~ (sg = true /\ op_value a = - 2 ^ (wbits (Nat.max na nb) - 1) /\ op_value b = -1) ->
  ~ (divx = true /\ sg = true /\ nb = 1%nat /\ op_value b = - 2 ^ 63 /\
     ((2 < na)%nat \/ (na = 2%nat /\ (1 < nq)%nat))) ->
  (sg = true -> op_signed b = true) \/ Z.abs (op_value a) mod Z.abs (op_value b) < 2 ^ 63 ->
  exists q r, unmul divx nq truncate a b = Ok (q, r) /\
    has_type sg nq q /\ has_type sg nb r /\
    op_value q = Z.quot (op_value a) (op_value b) /\ op_value r = Z.rem (op_value a) (op_value b).
Proof. exact unmul_final. Qed.
Print Assumptions C12_unmul_partial.

(** MIN/-1 into a wider quotient fits but is lost. *)
Theorem C12_unmul_refuted : exists a b q r,
  op_wf a /\ op_wf b /\ in_range true 3 (Z.quot (op_value a) (op_value b)) /\
  unmul true 3 truncate a b = Ok (q, r) /\ op_value q <> Z.quot (op_value a) (op_value b).
Proof.
  exists (OComp true [0; 2 ^ 63]), (OBuiltin true 8 (-1)).
  eexists _, _. split; [words_tac|]. split; [words_tac|].
  split; [vm_compute; split; congruence|]. split; [vm_compute; reflexivity|]. vm_compute. discriminate.
Qed.
Print Assumptions C12_unmul_refuted.

Example C12_example : op_wf (OComp true [12; 2 ^ 64 - 3]) /\ op_wf (OBuiltin true 8 (- 2 ^ 63)) /\
  unmul true 1 truncate (OComp true [12; 2 ^ 64 - 3]) (OBuiltin true 8 (- 2 ^ 63))
    = Ok (OComp true [5], OComp true [2 ^ 63 + 12]).
Proof. split; [words_tac|]. split; [words_tac|]. vm_compute. reflexivity. Qed.

(** ** C57 *)
(** Partial: at most two words; floating point rounding is not modelled. *)
Theorem C57_to_float_partial : forall sg ws,
  op_wf (OComp sg ws) -> (length ws <= 2)%nat -> to_float sg ws = Ok (op_value (OComp sg ws)).
Proof. exact to_float_small. Qed.
Print Assumptions C57_to_float_partial.

(** With three words the scale is off by 2^32. *)
Theorem C57_to_float_refuted : exists ws,
  op_wf (OComp true ws) /\ op_value (OComp true ws) = 2 ^ 128 /\ to_float true ws = Ok (2 ^ 96).
Proof. exists [0; 0; 1]. split; [words_tac|]. split; vm_compute; reflexivity. Qed.
Print Assumptions C57_to_float_refuted.

Example C57_example : op_wf (OComp true [0; 2 ^ 63]) /\
  to_float true [0; 2 ^ 63] = Ok (- 2 ^ 127).
Proof. split; [words_tac|]. vm_compute. reflexivity. Qed.
