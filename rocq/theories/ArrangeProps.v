(** Properties of the judgements in an arrangement of closed loops. *)
From Coq Require Import ZArith QArith List Bool Arith Lia Permutation.
From Verif Require Import GeomModel GeomSpec BalanceModel WindSpec JoinSpec JoinProps ArrangeSpec ArrangeCore ArrangeProofs ArrangeSum ArrangeHit ArrangeVertex ArrangeStack ArrangeCheck.
Import ListNotations.
Local Open Scope Z_scope.

(** The change of the selection across a line, and the part of it that goes backward. *)
Definition sel (op : bool_op) (ws wc : Z) : Z := f01 (selected op ws wc).
Definition rev_sel (op : bool_op) (ws wc : Z) : Z :=
  match op with
  | OpUnion | OpIntersection => 0
  | OpXor => f01 ((0 <? ws) && (0 <? wc))
  | OpDifference => f01 (0 <? wc)
  | OpNormalize => (ws + wc) / 2
  end.
Definition value (r : lstate) : Z := match r with LSkeep => 1 | LSkeep_rev => -1 | _ => 0 end.
Definition rev_value (r : lstate) : Z := match r with LSkeep_rev | LSdiscard_rev => 1 | _ => 0 end.
Lemma odd_rem w : (Z.rem w 2 =? 0) = negb (Z.odd w).
Proof.
  pose proof (Z.quot_rem w 2) as Q. pose proof (Z.rem_bound_abs w 2) as B. rewrite <- Z.negb_even, negb_involutive. destruct (Z.eqb_spec (Z.rem w 2) 0) as [E|E]; symmetry.
  - apply Z.even_spec. exists (Z.quot w 2). lia.
  - rewrite <- Z.negb_odd. apply negb_false_iff, Z.odd_spec. destruct (Z.eq_dec (Z.rem w 2) 1); [exists (Z.quot w 2); lia|exists (Z.quot w 2 - 1); lia].
Qed.
Ltac dz := cbn [bset_eqb f01]; repeat match goal with |- context [?a <? ?b] => destruct (Z.ltb_spec a b) | |- context [?a =? ?b] => destruct (Z.eqb_spec a b) end; try lia; reflexivity.
Lemma parity w : exists k b, w = 2 * k + f01 b /\ Z.odd w = b /\ Z.odd (w + 1) = negb b /\ w / 2 = k /\ (w + 1) / 2 = k + f01 b.
Proof.
  exists (w / 2), (Z.odd w). pose proof (Z.div_mod w 2 ltac:(lia)) as D. rewrite Zmod_odd in D. unfold f01. split; [exact D|]. split; [reflexivity|]. split; [rewrite Z.odd_add; destruct (Z.odd w); reflexivity|]. split; [reflexivity|].
  destruct (Z.odd w).
  - symmetry. apply (Z.div_unique _ _ _ 0); lia.
  - symmetry. apply (Z.div_unique _ _ _ 1); lia.
Qed.
Lemma result_jump op cat ws wc : let a := f01 (bset_eqb cat Subject) in let b := f01 (bset_eqb cat Clip) in
  value (line_balance_result op cat ws wc) = sel op (ws + a) (wc + b) - sel op ws wc /\
  rev_value (line_balance_result op cat ws wc) = rev_sel op (ws + a) (wc + b) - rev_sel op ws wc.
Proof.
  cbn zeta. unfold sel, rev_sel, selected, line_balance_result.
  destruct op.
  - split; destruct cat; dz.
  - split; destruct cat; dz.
  - split; destruct cat; dz.
  - split; destruct cat; dz.
  - replace (ws + f01 (bset_eqb cat Subject) + (wc + f01 (bset_eqb cat Clip))) with (ws + wc + 1) by (destruct cat; cbn [bset_eqb f01]; lia). rewrite odd_rem.
    destruct (parity (ws + wc)) as (k & b & _ & -> & -> & -> & ->). destruct b; cbn [negb value rev_value f01]; lia.
Qed.

(** ** Balance *)
Lemma at_v_tot es : (forall v, tot (at_v v) es = 0) -> balanced es.
Proof.
  intros H k. specialize (H k). assert (E : tot (at_v k) es = Z.of_nat (starts_at k es) - Z.of_nat (ends_at k es)); [|lia].
  clear H. unfold starts_at, ends_at. induction es as [|e es IH]; [reflexivity|]. rewrite tot_cons, IH. cbn [filter]. unfold at_v. destruct (point_eqb (fst e) k), (point_eqb (snd e) k); unfold f01; cbn [length]; lia.
Qed.
Lemma output_tot v r e : tot (at_v v) (output_of r e) = at_v v e * value r.
Proof. destruct r; cbn [output_of value]; rewrite ?tot_cons, ?tot_nil; unfold at_v, turned; cbn [fst snd]; lia. Qed.
Lemma reversed_tot v r e : tot (at_v v) (reversed_of r e) = at_v v e * rev_value r.
Proof. destruct r; cbn [reversed_of rev_value]; rewrite ?tot_cons, ?tot_nil; lia. Qed.
Lemma result_jumps ls op l ck : arranged ls -> In l ls -> column l ls ck ->
  value (line_result op l ck) = jump (sel op) ls l /\ rev_value (line_result op l ck) = jump (rev_sel op) ls l.
Proof.
  intros AR IL CO. unfold line_result, jump. pose proof (balance_is ls l ck Subject AR IL CO) as E1. pose proof (balance_is ls l ck Clip AR IL CO) as E2. cbn [wn_get] in E1, E2. cbn zeta. unfold wind. rewrite E1, E2. apply result_jump.
Qed.

(** C25: closed loops, split where they meet, and every line judged by the lines of its
    column: as many output lines end at any point as start there, and the same holds for the
    lines to be reversed. *)
Theorem C25_balance op ls cks :
  arranged ls -> (forall l, In l ls -> column l ls (cks l)) ->
  balanced (flat_map (fun l => output_of (line_result op l (cks l)) (ln_e l)) ls) /\
  balanced (flat_map (fun l => reversed_of (line_result op l (cks l)) (ln_e l)) ls).
Proof.
  intros AR CO. split; apply at_v_tot; intros v; rewrite tot_flat.
  - rewrite <- (vertex ls v (sel op) AR). apply tot_ext. intros l I. rewrite output_tot. f_equal. apply (result_jumps ls op l _ AR I (CO l I)).
  - rewrite <- (vertex ls v (rev_sel op) AR). apply tot_ext. intros l I. rewrite reversed_tot. f_equal. apply (result_jumps ls op l _ AR I (CO l I)).
Qed.
Print Assumptions C25_balance.

(** Two squares that overlap along part of an edge and cross, split where they meet. *)
Definition ex_lines : list line :=
  let l (i : nat) (a b : point) (s : bool_set) := mk_line i (a, b) s in
  [l 0%nat (0, 0) (2, 0) Subject; l 1%nat (2, 0) (4, 0) Subject; l 2%nat (4, 0) (4, 4) Subject; l 3%nat (4, 4) (2, 4) Subject; l 4%nat (2, 4) (0, 4) Subject; l 5%nat (0, 4) (0, 0) Subject;
   l 6%nat (2, 0) (4, 0) Clip; l 7%nat (4, 0) (6, 0) Clip; l 8%nat (6, 0) (6, 6) Clip; l 9%nat (6, 6) (2, 6) Clip; l 10%nat (2, 6) (2, 4) Clip; l 11%nat (2, 4) (2, 0) Clip].
Example C25_meets : arranged ex_lines /\ forall l, In l ex_lines -> column l ex_lines (column_of ex_lines l).
Proof. assert (H : arranged ex_lines) by (apply arranged_check; vm_compute; reflexivity). split; [exact H|]. intros l _. apply column_of_ok, H. Qed.
(** Of the two equal lines 1 and 6 one is kept for the union and the other one for the
    intersection; for the symmetric difference they cancel. *)
Example C25_union : map (fun l => line_result OpUnion l (column_of ex_lines l)) ex_lines =
  [LSkeep; LSdiscard; LSdiscard; LSdiscard; LSkeep; LSkeep; LSkeep; LSkeep; LSkeep; LSkeep; LSkeep; LSdiscard].
Proof. vm_compute. reflexivity. Qed.
Example C25_intersection : map (fun l => line_result OpIntersection l (column_of ex_lines l)) ex_lines =
  [LSdiscard; LSkeep; LSkeep; LSkeep; LSdiscard; LSdiscard; LSdiscard; LSdiscard; LSdiscard; LSdiscard; LSdiscard; LSkeep].
Proof. vm_compute. reflexivity. Qed.
Example C25_xor : map (fun l => line_result OpXor l (column_of ex_lines l)) ex_lines =
  [LSkeep; LSkeep_rev; LSkeep_rev; LSkeep_rev; LSkeep; LSkeep; LSkeep; LSkeep; LSkeep; LSkeep; LSkeep; LSkeep_rev].
Proof. vm_compute. reflexivity. Qed.
Example C25_difference : map (fun l => line_result OpDifference l (column_of ex_lines l)) ex_lines =
  [LSkeep; LSdiscard; LSdiscard; LSdiscard; LSkeep; LSkeep; LSdiscard_rev; LSdiscard_rev; LSdiscard_rev; LSdiscard_rev; LSdiscard_rev; LSkeep_rev].
Proof. vm_compute. reflexivity. Qed.
