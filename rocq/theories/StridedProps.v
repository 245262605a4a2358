(** Strided ranges. *)
From Coq Require Import ZArith List Bool Lia ZifyBool ZifyNat.
From Verif Require Import StridedModel StridedProofs.
Import ListNotations.
Local Open Scope Z_scope.

(** C34.  A range with a non-zero stride visits exactly its elements in order, and stops. *)
Theorem C34_visits : forall start stride n fuel, stride <> 0 -> (n <= fuel)%nat ->
  exists l, visit fuel (range_begin start stride) (range_end start stride n) = Some l /\
    length l = n /\ forall i, (i < n)%nat -> nth_error l i = Some (start + Z.of_nat i * stride).
Proof.
  intros start stride n fuel H L. eexists. split; [apply visit_all; assumption|].
  unfold positions. split; [rewrite map_length, seq_length; reflexivity|].
  intros i Hi. rewrite nth_error_map.
  rewrite (nth_error_nth' _ 0%nat) by (rewrite seq_length; lia). rewrite seq_nth by lia. reflexivity.
Qed.
Print Assumptions C34_visits.

(** Random access agrees with repeated increments. *)
Theorem C34_random_access : forall a i,
  it_index a (Z.of_nat i) = it_ptr (Nat.iter i it_next a) /\ it_add a (Z.of_nat i) = Nat.iter i it_next a /\
  it_sub a (Z.of_nat i) = Nat.iter i it_prev a.
Proof.
  intros [p s] i. induction i as [|i (I1 & I2 & I3)].
  - unfold it_index, it_add, it_sub. cbn. split; [lia|]. split; f_equal; lia.
  - cbn [Nat.iter nat_rect]. unfold Nat.iter in *. rewrite <- I2, <- I3. unfold it_index, it_add, it_sub, it_next, it_prev.
    cbn [it_ptr it_stride]. split; [lia|]. split; f_equal; lia.
Qed.
Print Assumptions C34_random_access.

Theorem C34_blob : forall mem data coord_stride point_stride n fuel, point_stride <> 0 -> (n <= fuel)%nat ->
  blob_to_point_range mem data coord_stride point_stride n fuel =
  Some (map (fun i => (mem (data + Z.of_nat i * point_stride), mem (data + Z.of_nat i * point_stride + coord_stride))) (seq 0 n)).
Proof.
  intros mem data cs ps n fuel H L. unfold blob_to_point_range. rewrite visit_all by assumption. cbn [option_map].
  unfold positions, blob_point. rewrite map_map. reflexivity.
Qed.
Print Assumptions C34_blob.

Example C34_example : visit 10 (range_begin 100 (-8)) (range_end 100 (-8) 3) = Some [100; 92; 84].
Proof. reflexivity. Qed.

(** C35.  Missing: the distance counts elements only for stride 1 and the order is
    reversed for negative strides. *)
Theorem C35_laws_partial : forall a b n m,
  it_add (it_add a n) m = it_add a (n + m) /\ it_sub (it_add a n) n = a /\ it_rsub n (it_add a n) = a /\ it_prev (it_next a) = a /\
  (it_stride a = 1 -> it_diff (it_add a n) a = n) /\
  (it_stride a = 1 -> it_stride b = 1 -> it_add a (it_diff b a) = b) /\
  (0 < it_stride a -> it_cmp a (it_add a n) = (0 ?= n)) /\
  (it_cmp a b = (it_diff a b ?= 0)) /\
  (it_diff (it_add a n) a = n * it_stride a).
Proof.
  intros [p s] [q t] n m. unfold it_add, it_sub, it_rsub, it_prev, it_next, it_diff, it_cmp. cbn [it_ptr it_stride].
  split; [f_equal; lia|]. split; [f_equal; lia|]. split; [f_equal; lia|]. split; [f_equal; lia|]. split; [lia|].
  split; [intros -> ->; f_equal; lia|]. split.
  { intros Hs. destruct (Z.compare_spec 0 n); [subst; apply Z.compare_eq_iff; lia|apply Z.compare_lt_iff; nia|apply Z.compare_gt_iff; nia]. }
  split; [|lia]. destruct (Z.compare_spec p q); symmetry; [apply Z.compare_eq_iff; lia|apply Z.compare_lt_iff; lia|apply Z.compare_gt_iff; lia].
Qed.
Print Assumptions C35_laws_partial.

(** The distance is not divided by the stride: the size a range reports is wrong for every
    stride but 1. *)
Theorem C35_size : forall start stride n, range_size start stride n = Z.of_nat n * stride.
Proof. intros. unfold range_size, it_diff, range_end, it_add, range_begin. cbn [it_ptr it_stride]. lia. Qed.
Print Assumptions C35_size.

Theorem C35_distance_refuted : exists a n b,
  it_diff (it_add a n) a <> n /\ it_stride a = it_stride b /\ it_add a (it_diff b a) <> b.
Proof. exists (mk_sitr 100 8), 3, (mk_sitr 108 8). repeat split; discriminate. Qed.
Print Assumptions C35_distance_refuted.

(** With a negative stride an earlier position compares greater. *)
Theorem C35_order_refuted : exists a n, 0 < n /\ it_cmp a (it_add a n) = Gt.
Proof. exists (mk_sitr 100 (-8)), 3. split; reflexivity. Qed.
Print Assumptions C35_order_refuted.
