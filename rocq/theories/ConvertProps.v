(** Operands that convert to a wide integer without a cast keep their value: property C78. *)
From Coq Require Import ZArith List Bool Arith Lia.
From Verif Require Import LargeIntsModel LargeIntsSpec WordsProofs ArithProofs DivmodProofs LargeIntsProps.
Import ListNotations.
Local Open Scope Z_scope.

(** The types let in by safe_comp_or_single_i, which are those that the constructor converts
    implicitly, are just the types all of whose values fit. *)
Theorem C78_safe : forall n sg o, (0 < n)%nat -> op_wf o ->
  safe_operand n sg o = true <-> holds_type sg n o.
Proof.
  intros n sg o Hn Ho. unfold safe_operand. rewrite andb_true_iff, orb_true_iff, negb_true_iff, Nat.leb_le. split.
  - intros (C & S) z Hz. exact (type_range_holds sg o n z Ho S C Hz).
  - intros H. split; [exact (holds_int_count sg o n Ho Hn H)|]. destruct sg; [left; reflexivity|right].
    destruct o as [[] ws|[] bytes v]; [exfalso| reflexivity |exfalso|reflexivity].
    + specialize (H (-1)). unfold type_range, in_range in H. assert (0 < 2 ^ (wbits (length ws) - 1)) by (apply half_pos; eapply wf_len; exact Ho). lia.
    + specialize (H (-1)). unfold type_range, in_range, builtin_range in H. assert (0 < 2 ^ (8 * Z.of_nat bytes - 1)) by (apply Z.pow_pos_nonneg; destruct Ho; lia). lia.
Qed.
Print Assumptions C78_safe.

(** Converting such an operand keeps its value, and gives an integer of the type converted to. *)
Theorem C78_value : forall n sg o, (0 < n)%nat -> op_wf o -> safe_operand n sg o = true ->
  has_type sg n (OComp sg (to_words n o)) /\ op_value (OComp sg (to_words n o)) = op_value o.
Proof.
  intros n sg o Hn Ho S. split; [apply to_words_type; exact Ho|]. rewrite to_words_value by assumption. apply wrap_id; [exact Hn|].
  unfold safe_operand in S. rewrite andb_true_iff, orb_true_iff, negb_true_iff, Nat.leb_le in S. apply int_count_fits; tauto.
Qed.
Print Assumptions C78_value.

(** Any other operand can lose its value: converting gives it back reduced to the type. *)
Theorem C78_wraps : forall n sg o, (0 < n)%nat -> op_wf o ->
  op_value (OComp sg (to_words n o)) = wrap sg n (op_value o).
Proof. intros n sg o Hn Ho. exact (to_words_value sg n o Hn Ho). Qed.
Print Assumptions C78_wraps.

(** An unsigned word goes into two signed words but not into one; a negative number goes into
    signed words only. *)
Example ex_C78 : op_wf (OBuiltin false 8 (2 ^ 64 - 1)) /\ safe_operand 2 true (OBuiltin false 8 (2 ^ 64 - 1)) = true /\
  safe_operand 1 true (OBuiltin false 8 (2 ^ 64 - 1)) = false /\ op_value (OComp true (to_words 1 (OBuiltin false 8 (2 ^ 64 - 1)))) = -1 /\
  op_wf (OBuiltin true 4 (-3)) /\ safe_operand 2 true (OBuiltin true 4 (-3)) = true /\ to_words 2 (OBuiltin true 4 (-3)) = [2 ^ 64 - 3; 2 ^ 64 - 1] /\
  safe_operand 2 false (OBuiltin true 4 (-3)) = false.
Proof. repeat split; try (vm_compute; reflexivity); try lia; vm_compute; discriminate. Qed.
