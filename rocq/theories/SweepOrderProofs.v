(** The sweep order against the geometric order. *)
From Coq Require Import ZArith QArith Lqa List Bool Lia ZifyBool ZifyNat.
From Verif Require Import GeomModel GeomSpec GeomProofs IsectProofs.
Import ListNotations.
Local Open Scope Z_scope.

(** [triangle_winding b a _] on rational points. *)
Definition tq (a b : point) (X Y : Q) : Q :=
  ((injX a - injX b) * (Y - injY b) - (X - injX b) * (injY a - injY b))%Q.

Lemma tq_int a b q : (inject_Z (triangle_winding b a q) == tq a b (injX q) (injY q))%Q.
Proof. unfold triangle_winding, tq, injX, injY. rewrite injm, !inject_Z_mult, !injm. reflexivity. Qed.

Lemma tq_diff a b X Y1 Y2 : on_seg a b X Y1 -> (tq a b X Y2 == inject_Z (px b - px a) * (Y1 - Y2))%Q.
Proof.
  intros (t & _ & HX & HY). unfold tq, injX, injY. rewrite HX, HY, !injm. ring.
Qed.

Lemma tq_seg a b c d X Y u :
  (X == inject_Z (px c) + u * inject_Z (px d - px c))%Q ->
  (Y == inject_Z (py c) + u * inject_Z (py d - py c))%Q ->
  (tq a b X Y == (1 - u) * inject_Z (triangle_winding b a c) + u * inject_Z (triangle_winding b a d))%Q.
Proof.
  intros HX HY. rewrite !tq_int. unfold tq, injX, injY. rewrite HX, HY, !injm. ring.
Qed.

Lemma on_seg_a a b : on_seg a b (injX a) (injY a).
Proof. exists 0%Q. split; [lra|]. unfold injX, injY. split; ring. Qed.
Lemma on_seg_b a b : on_seg a b (injX b) (injY b).
Proof. exists 1%Q. split; [lra|]. unfold injX, injY. rewrite !injm. split; ring. Qed.

Lemma seg_at a b (X : Q) : px a < px b -> (injX a <= X <= injX b)%Q -> exists Y, on_seg a b X Y.
Proof.
  intros H HX. assert (Hq : (0 < inject_Z (px b - px a))%Q) by (apply (inj_lt 0); lia).
  set (t := ((X - injX a) / inject_Z (px b - px a))%Q).
  assert (E : (t * inject_Z (px b - px a) == X - injX a)%Q) by (unfold t; field; lra).
  exists (inject_Z (py a) + t * inject_Z (py b - py a))%Q, t. split.
  - rewrite injm in *. unfold injX in *. split; nra.
  - split; [|reflexivity]. rewrite E. unfold injX. ring.
Qed.

Lemma on_seg_x a b X Y : px a <= px b -> on_seg a b X Y -> (injX a <= X <= injX b)%Q.
Proof.
  intros H HS. apply on_seg_bounds in HS. destruct HS as [HS _].
  rewrite Z.min_l, Z.max_r in HS by lia. exact HS.
Qed.

Lemma qpos_z a k (n : Z) : (0 < k)%Q -> (a == k * inject_Z n)%Q -> (0 < a)%Q -> 0 < n.
Proof. intros Hk E H. apply (proj1 (inj_lt 0 n)). change (inject_Z 0) with 0%Q. nra. Qed.

(** base segment s (non-vertical), second segment c d whose start is not above it
    and which has a point strictly below it *)
Lemma base_test a b c d :
  px a < px b ->
  (forall X Y1 Y2, on_seg a b X Y1 -> on_seg c d X Y2 -> (Y2 <= Y1)%Q) ->
  (exists X Y1 Y2, on_seg a b X Y1 /\ on_seg c d X Y2 /\ (Y2 < Y1)%Q) ->
  px a <= px c <= px b ->
  0 <= triangle_winding b a c /\ (triangle_winding b a c = 0 -> 0 < triangle_winding b a d).
Proof.
  intros Hab Hge (X & Y1 & Y2 & H1 & H2 & Hgt) Hc.
  assert (Hq : (0 < inject_Z (px b - px a))%Q) by (apply (inj_lt 0); lia).
  split.
  - destruct (seg_at a b (injX c) Hab) as [Y HY].
    { unfold injX. split; apply inj_le; lia. }
    pose proof (Hge _ _ _ HY (on_seg_a c d)) as G.
    pose proof (tq_diff a b _ _ (injY c) HY) as E. rewrite <- tq_int in E.
    apply (proj1 (inj_le 0 _)). change (inject_Z 0) with 0%Q. rewrite E. nra.
  - intros Z0. pose proof (tq_diff a b _ _ Y2 H1) as E.
    destruct H2 as (u & Hu & HX & HY). rewrite (tq_seg a b c d X Y2 u HX HY), Z0 in E.
    change (inject_Z 0) with 0%Q in E.
    apply (proj1 (inj_lt 0 _)). change (inject_Z 0) with 0%Q.
    assert (0 < inject_Z (px b - px a) * (Y1 - Y2))%Q by nra.
    assert (0 < u * inject_Z (triangle_winding b a d))%Q by lra. nra.
Qed.

(** the same with the base segment below *)
Lemma base_test_below a b c d :
  px a < px b ->
  (forall X Y1 Y2, on_seg c d X Y1 -> on_seg a b X Y2 -> (Y2 <= Y1)%Q) ->
  (exists X Y1 Y2, on_seg c d X Y1 /\ on_seg a b X Y2 /\ (Y2 < Y1)%Q) ->
  px a <= px c <= px b ->
  triangle_winding b a c <= 0 /\ (triangle_winding b a c = 0 -> triangle_winding b a d < 0).
Proof.
  intros Hab Hge (X & Y1 & Y2 & H1 & H2 & Hgt) Hc.
  assert (Hq : (0 < inject_Z (px b - px a))%Q) by (apply (inj_lt 0); lia).
  split.
  - destruct (seg_at a b (injX c) Hab) as [Y HY].
    { unfold injX. split; apply inj_le; lia. }
    pose proof (Hge _ _ _ (on_seg_a c d) HY) as G.
    pose proof (tq_diff a b _ _ (injY c) HY) as E. rewrite <- tq_int in E.
    apply (proj1 (inj_le _ 0)). change (inject_Z 0) with 0%Q. rewrite E. nra.
  - intros Z0. pose proof (tq_diff a b _ _ Y1 H2) as E.
    destruct H1 as (u & Hu & HX & HY). rewrite (tq_seg a b c d X Y1 u HX HY), Z0 in E.
    change (inject_Z 0) with 0%Q in E.
    apply (proj1 (inj_lt _ 0)). change (inject_Z 0) with 0%Q.
    assert (inject_Z (px b - px a) * (Y1 - Y2) > 0)%Q by nra.
    assert (u * inject_Z (triangle_winding b a d) < 0)%Q by lra. nra.
Qed.

(** the segments the clipper stores: first end not to the right, ends different *)
Lemma stored_x a b : px a <= px b -> a <> b -> px a < px b \/ (px a = px b /\ py a <> py b).
Proof.
  intros H N. destruct (Z.eq_dec (px a) (px b)) as [E|E]; [|lia]. right. split; [assumption|].
  intros E'. apply N. rewrite <- (pair_eta a), <- (pair_eta b). congruence.
Qed.

Lemma sweep_cmp_above s1 s2 :
  px (sg_pa s1) <= px (sg_pb s1) -> sg_pa s1 <> sg_pb s1 ->
  px (sg_pa s2) <= px (sg_pb s2) -> sg_pa s2 <> sg_pb s2 ->
  above s1 s2 -> sweep_cmp s1 s2 = true.
Proof.
  intros L1 N1 L2 N2 [Hge Hgt]. pose proof (stored_x _ _ L1 N1) as L1'. pose proof (stored_x _ _ L2 N2) as L2'.
  clear L1 L2 N1 N2. rename L1' into L1. rename L2' into L2.
  rewrite sweep_cmp_tests. unfold sweep_tests.
  destruct s1 as [i1 j1 a1 b1], s2 as [i2 j2 a2 b2]. cbn [sg_pa sg_pb] in *.
  pose proof Hgt as (X & Y1 & Y2 & W1 & W2 & HW).
  pose proof (on_seg_x a1 b1 _ _ ltac:(lia) W1) as R1.
  pose proof (on_seg_x a2 b2 _ _ ltac:(lia) W2) as R2.
  unfold injX in R1, R2.
  assert (C1 : px a1 <= px b2) by (apply inj_le; lra).
  assert (C2 : px a2 <= px b1) by (apply inj_le; lra).
  destruct (Z.eqb_spec (px a1) (px a2)) as [Ex|Ex].
  - assert (Hy : py a2 <= py a1).
    { apply inj_le. apply (Hge (injX a1)); [apply on_seg_a|].
      unfold injX. rewrite Ex. apply on_seg_a. }
    cbn [first_nz fold_right]. destruct (Z.eqb_spec (py a1 - py a2) 0) as [Ey|Ey]; cbn [negb]; [|lia].
    assert (Ea : a2 = a1) by (rewrite <- (pair_eta a1), <- (pair_eta a2); f_equal; lia). subst a2.
    destruct L1 as [L1|[L1 L1']].
    + destruct (base_test a1 b1 a1 b2 L1 Hge Hgt ltac:(lia)) as [_ G].
      specialize (G ltac:(unfold triangle_winding; ring)).
      destruct (Z.eqb_spec (triangle_winding b1 a1 b2) 0); cbn [negb]; lia.
    + (* s1 vertical *)
      assert (py a1 <= py b1).
      { apply inj_le. apply (Hge (injX a1)); [|apply on_seg_a]. unfold injX. rewrite L1. apply on_seg_b. }
      destruct L2 as [L2|[L2 L2']].
      * assert (0 < triangle_winding b1 a1 b2).
        { unfold triangle_winding. rewrite L1. nia. }
        destruct (Z.eqb_spec (triangle_winding b1 a1 b2) 0); cbn [negb]; lia.
      * assert (py b2 <= py a1).
        { apply inj_le. apply (Hge (injX a1)); [apply on_seg_a|]. unfold injX. rewrite L2. apply on_seg_b. }
        replace (triangle_winding b1 a1 b2) with 0
          by (unfold triangle_winding; rewrite <- L1, <- L2; ring).
        cbn [Z.eqb negb]. destruct (Z.eqb_spec (py b1 - py b2) 0); cbn [negb]; lia.
  - destruct (Z.ltb_spec (px a1) (px a2)).
    + destruct L1 as [L1|L1]; [|lia].
      destruct (Z.eqb_spec (px a1) (px b1)); [lia|]. cbn [negb first_nz fold_right].
      destruct (base_test a1 b1 a2 b2 L1 Hge Hgt ltac:(lia)) as [G0 G].
      destruct (Z.eqb_spec (triangle_winding b1 a1 a2) 0) as [E|E]; cbn [negb]; [|lia].
      specialize (G E). destruct (Z.eqb_spec (triangle_winding b1 a1 b2) 0); cbn [negb]; lia.
    + destruct L2 as [L2|L2]; [|lia].
      destruct (Z.eqb_spec (px a2) (px b2)); [lia|]. cbn [negb first_nz fold_right].
      destruct (base_test_below a2 b2 a1 b1 L2 Hge Hgt ltac:(lia)) as [G0 G].
      rewrite (tw_swap12 b2 a2 a1), (tw_swap12 b2 a2 b1).
      destruct (Z.eqb_spec (- triangle_winding b2 a2 a1) 0) as [E|E]; cbn [negb]; [|lia].
      specialize (G ltac:(lia)). destruct (Z.eqb_spec (- triangle_winding b2 a2 b1) 0); cbn [negb]; lia.
Qed.

Lemma nonvert_ne a b : px a < px b -> a <> b.
Proof. intros H ->. lia. Qed.

Lemma slope_intercept a b : px a < px b ->
  exists k c : Q, (forall X Y, on_seg a b X Y -> (Y == c + k * X)%Q).
Proof.
  intros H. assert (Hq : ~ (inject_Z (px b - px a) == 0)%Q) by (apply inj_nz; lia).
  exists (inject_Z (py b - py a) / inject_Z (px b - px a))%Q,
    (injY a - inject_Z (py b - py a) / inject_Z (px b - px a) * injX a)%Q.
  intros X Y (t & _ & HX & HY). rewrite HX, HY. unfold injX, injY. field. assumption.
Qed.

(** weakly cyclic order on a common interval forces equality *)
Lemma above_cycle s1 s2 s3 x0 x1 :
  x0 < x1 ->
  px (sg_pa s1) <= x0 -> px (sg_pa s2) <= x0 -> px (sg_pa s3) <= x0 ->
  x1 <= px (sg_pb s1) -> x1 <= px (sg_pb s2) -> x1 <= px (sg_pb s3) ->
  above s1 s2 -> above s2 s3 ->
  (forall X Y1 Y2, on_seg (sg_pa s3) (sg_pb s3) X Y1 -> on_seg (sg_pa s1) (sg_pb s1) X Y2 -> (Y2 <= Y1)%Q) ->
  False.
Proof.
  intros Hx A1 A2 A3 B1 B2 B3 [G12 (X & Y1 & Y2 & W1 & W2 & HW)] [G23 _] G31.
  destruct (slope_intercept (sg_pa s1) (sg_pb s1) ltac:(lia)) as (k1 & c1 & F1).
  destruct (slope_intercept (sg_pa s2) (sg_pb s2) ltac:(lia)) as (k2 & c2 & F2).
  destruct (slope_intercept (sg_pa s3) (sg_pb s3) ltac:(lia)) as (k3 & c3 & F3).
  assert (P : forall x, x0 <= x <= x1 -> (c1 + k1 * inject_Z x == c2 + k2 * inject_Z x)%Q).
  { intros x Hr.
    destruct (seg_at (sg_pa s1) (sg_pb s1) (inject_Z x) ltac:(lia)) as [y1 O1]; [split; apply inj_le; lia|].
    destruct (seg_at (sg_pa s2) (sg_pb s2) (inject_Z x) ltac:(lia)) as [y2 O2]; [split; apply inj_le; lia|].
    destruct (seg_at (sg_pa s3) (sg_pb s3) (inject_Z x) ltac:(lia)) as [y3 O3]; [split; apply inj_le; lia|].
    pose proof (G12 _ _ _ O1 O2). pose proof (G23 _ _ _ O2 O3). pose proof (G31 _ _ _ O3 O1).
    rewrite <- (F1 _ _ O1), <- (F2 _ _ O2). lra. }
  pose proof (P x0 ltac:(lia)) as P0. pose proof (P x1 ltac:(lia)) as P1.
  rewrite (F1 _ _ W1), (F2 _ _ W2) in HW. apply inj_lt in Hx.
  assert (K : (k1 == k2)%Q).
  { apply (Qmult_inj_r _ _ (inject_Z x1 - inject_Z x0)); [lra|].
    assert ((k1 - k2) * (inject_Z x1 - inject_Z x0) == 0)%Q by lra. lra. }
  rewrite K in *. lra.
Qed.

Lemma sweep_cmp_same s1 s2 :
  sg_pa s1 = sg_pa s2 -> sg_pb s1 = sg_pb s2 -> sweep_cmp s1 s2 = sweep_cmp_tie s1 s2.
Proof.
  intros E1 E2. rewrite sweep_cmp_tests. unfold sweep_tests. rewrite E1, E2, Z.eqb_refl, !Z.sub_diag.
  replace (triangle_winding (sg_pb s2) (sg_pa s2) (sg_pb s2)) with 0 by (unfold triangle_winding; ring).
  reflexivity.
Qed.

Lemma above_ext s1 s2 t1 t2 :
  sg_pa s1 = sg_pa t1 -> sg_pb s1 = sg_pb t1 -> sg_pa s2 = sg_pa t2 -> sg_pb s2 = sg_pb t2 ->
  above s1 s2 -> above t1 t2.
Proof. unfold above. intros -> -> -> ->. tauto. Qed.

Lemma above_not_same s1 s2 : px (sg_pa s1) < px (sg_pb s1) ->
  above s1 s2 -> sg_pa s1 = sg_pa s2 -> sg_pb s1 = sg_pb s2 -> False.
Proof.
  intros L [_ (X & Y1 & Y2 & W1 & W2 & HW)] E1 E2. rewrite <- E1, <- E2 in W2.
  destruct (slope_intercept _ _ L) as (k & c & F). rewrite (F _ _ W1), (F _ _ W2) in HW. lra.
Qed.

Lemma sweep_tie_trans s1 s2 s3 :
  sweep_cmp_tie s1 s2 = true -> sweep_cmp_tie s2 s3 = true -> sweep_cmp_tie s1 s3 = true.
Proof.
  unfold sweep_cmp_tie.
  destruct (Nat.eqb_spec (sg_b s1) (sg_b s2)), (Nat.eqb_spec (sg_b s2) (sg_b s3)), (Nat.eqb_spec (sg_b s1) (sg_b s3)); lia.
Qed.

(** sweep_cmp on ordered, non-vertical segments *)
Lemma sweep_cmp_inv s1 s2 :
  px (sg_pa s1) < px (sg_pb s1) -> px (sg_pa s2) < px (sg_pb s2) -> ordered s1 s2 ->
  sweep_cmp s1 s2 = true ->
  above s1 s2 \/ (sg_pa s1 = sg_pa s2 /\ sg_pb s1 = sg_pb s2 /\ sweep_cmp_tie s1 s2 = true).
Proof.
  intros L1 L2 [A|[A|[E1 E2]]] H; [auto| |right].
  - exfalso. apply sweep_cmp_above in A; try lia; try (apply nonvert_ne; assumption).
    apply sweep_cmp_asym in A. congruence.
  - rewrite (sweep_cmp_same _ _ E1 E2) in H. auto.
Qed.

Lemma sweep_cmp_trans s1 s2 s3 x0 x1 :
  x0 < x1 ->
  px (sg_pa s1) <= x0 -> px (sg_pa s2) <= x0 -> px (sg_pa s3) <= x0 ->
  x1 <= px (sg_pb s1) -> x1 <= px (sg_pb s2) -> x1 <= px (sg_pb s3) ->
  ordered s1 s2 -> ordered s2 s3 -> ordered s1 s3 ->
  sweep_cmp s1 s2 = true -> sweep_cmp s2 s3 = true -> sweep_cmp s1 s3 = true.
Proof.
  intros Hx A1 A2 A3 B1 B2 B3 O12 O23 O13 H12 H23.
  assert (PL : forall s, px (sg_pa s) <= x0 -> x1 <= px (sg_pb s) -> px (sg_pa s) <= px (sg_pb s)) by (intros; lia).
  assert (PN : forall s, px (sg_pa s) <= x0 -> x1 <= px (sg_pb s) -> sg_pa s <> sg_pb s)
    by (intros; apply nonvert_ne; lia).
  apply sweep_cmp_inv in H12; [|lia|lia|assumption]. apply sweep_cmp_inv in H23; [|lia|lia|assumption].
  destruct H12 as [H12|(E1 & E2 & T12)].
  - destruct H23 as [H23|(F1 & F2 & T23)].
    + destruct O13 as [O|[O|[O1 O2]]].
      * apply sweep_cmp_above; auto.
      * exfalso. apply (above_cycle s1 s2 s3 x0 x1); auto. apply O.
      * exfalso. apply (above_cycle s1 s2 s3 x0 x1); auto.
        intros X Y1 Y2 W1 W2. rewrite O1, O2 in W2.
        destruct (slope_intercept (sg_pa s3) (sg_pb s3) ltac:(lia)) as (k & c & F).
        rewrite (F _ _ W1), (F _ _ W2). lra.
    + apply sweep_cmp_above; auto. apply (above_ext s1 s2); auto.
  - destruct H23 as [H23|(F1 & F2 & T23)].
    + apply sweep_cmp_above; auto. apply (above_ext s2 s3); auto.
    + rewrite sweep_cmp_same by congruence. eapply sweep_tie_trans; eassumption.
Qed.
