(** Proofs about parallel segments. *)
From Coq Require Import ZArith QArith Lqa List Bool Lia ZifyBool ZifyNat.
From Verif Require Import GeomModel GeomSpec GeomProofs IsectProofs.
Import ListNotations.
Local Open Scope Z_scope.

Lemma sq_pos p q : p <> 0 \/ q <> 0 -> 0 < p * p + q * q.
Proof.
  intros H. pose proof (Z.square_nonneg p). pose proof (Z.square_nonneg q).
  assert (p * p <> 0 \/ q * q <> 0) by (destruct H as [H|H]; [left|right]; intros E; apply Z.mul_eq_0 in E; lia).
  lia.
Qed.

Lemma ne_diff (a b : point) : a <> b -> px b - px a <> 0 \/ py b - py a <> 0.
Proof.
  intros H. destruct (Z.eq_dec (px a) (px b)) as [E|E], (Z.eq_dec (py a) (py b)) as [E'|E']; try lia.
  exfalso. apply H. rewrite <- (pair_eta a), <- (pair_eta b). congruence.
Qed.

Section Par.
  (* the first segment a1 b1, direction v *)
  Variables a1 b1 : point.
  Hypothesis N1 : a1 <> b1.
  Let vx := px b1 - px a1.
  Let vy := py b1 - py a1.
  Let L := vx * vx + vy * vy.
  (* coordinate of an integer point along the line *)
  Let dq (q : point) := (px q - px a1) * vx + (py q - py a1) * vy.

  Lemma L_pos : 0 < L.
  Proof.
    apply sq_pos, ne_diff, N1.
  Qed.

  Definition oncol (q : point) : Prop := vx * (py q - py a1) = (px q - px a1) * vy.

  Lemma col_param q : oncol q -> L * (px q - px a1) = dq q * vx /\ L * (py q - py a1) = dq q * vy.
  Proof.
    unfold oncol, dq, L. intros H. split.
    - transitivity (vx * vx * (px q - px a1) + vy * ((px q - px a1) * vy)); [ring|]. rewrite <- H. ring.
    - transitivity (vx * (vx * (py q - py a1)) + vy * vy * (py q - py a1)); [ring|]. rewrite H. ring.
  Qed.

  Lemma dq_inj q q' : oncol q -> oncol q' -> dq q = dq q' -> q = q'.
  Proof.
    intros H H' E. apply col_param in H, H'. pose proof L_pos. rewrite E in H. destruct H as [A B], H' as [A' B'].
    rewrite <- A' in A. rewrite <- B' in B.
    apply Z.mul_reg_l in A; [|lia]. apply Z.mul_reg_l in B; [|lia].
    rewrite <- (pair_eta q), <- (pair_eta q'). f_equal; lia.
  Qed.

  Lemma dq_a1 : dq a1 = 0. Proof. unfold dq. ring. Qed.
  Lemma dq_b1 : dq b1 = L. Proof. unfold dq, L, vx, vy. ring. Qed.
  Lemma oncol_a1 : oncol a1. Proof. unfold oncol. ring. Qed.
  Lemma oncol_b1 : oncol b1. Proof. unfold oncol, vx, vy. ring. Qed.

  (* coordinate of a rational point *)
  Let fq (X Y : Q) : Q := ((X - injX a1) * inject_Z vx + (Y - injY a1) * inject_Z vy)%Q.

  Lemma fq_seg a2 b2 t : 
    (fq (inject_Z (px a2) + t * inject_Z (px b2 - px a2)) (inject_Z (py a2) + t * inject_Z (py b2 - py a2))
     == inject_Z (dq a2) + t * inject_Z (dq b2 - dq a2))%Q.
  Proof. unfold fq, dq, injX, injY. clear. generalize vx vy. intros. qz. ring. Qed.

  (* the rational point with coordinate s/L *)
  Lemma param_on a2 b2 s : oncol a2 -> oncol b2 -> dq a2 <> dq b2 ->
    Z.min (dq a2) (dq b2) <= s <= Z.max (dq a2) (dq b2) ->
    on_seg a2 b2 (injX a1 + inject_Z s / inject_Z L * inject_Z vx)
                 (injY a1 + inject_Z s / inject_Z L * inject_Z vy).
  Proof.
    intros C1 C2 Hne Hs. pose proof L_pos as HL.
    assert (HLq : ~ (inject_Z L == 0)%Q) by (apply inj_nz; lia).
    assert (HDq : ~ (inject_Z (dq b2 - dq a2) == 0)%Q) by (apply inj_nz; lia).
    exists (inject_Z (s - dq a2) / inject_Z (dq b2 - dq a2))%Q. split; [|split].
    - apply (in_unit_q (s - dq a2) (dq b2 - dq a2)); [lia| field; assumption|]. unfold in_unit. lia.
    - destruct (col_param a2 C1) as [A _]. destruct (col_param b2 C2) as [B _].
      apply (f_equal inject_Z) in A, B. rewrite !inject_Z_mult, !injm in A, B.
      assert (A' : (inject_Z (px a2) == injX a1 + inject_Z (dq a2) / inject_Z L * inject_Z vx)%Q).
      { unfold injX. apply (Qmult_inj_l _ _ (inject_Z L)); [assumption|]. 
        transitivity (inject_Z L * (inject_Z (px a2) - inject_Z (px a1)) + inject_Z L * inject_Z (px a1))%Q; [ring|].
        rewrite A. field. assumption. }
      assert (B' : (inject_Z (px b2) == injX a1 + inject_Z (dq b2) / inject_Z L * inject_Z vx)%Q).
      { unfold injX. apply (Qmult_inj_l _ _ (inject_Z L)); [assumption|]. 
        transitivity (inject_Z L * (inject_Z (px b2) - inject_Z (px a1)) + inject_Z L * inject_Z (px a1))%Q; [ring|].
        rewrite B. field. assumption. }
      rewrite (injm (px b2)). rewrite A', B'. rewrite !injm in *. field. split; assumption.
    - destruct (col_param a2 C1) as [_ A]. destruct (col_param b2 C2) as [_ B].
      apply (f_equal inject_Z) in A, B. rewrite !inject_Z_mult, !injm in A, B.
      assert (A' : (inject_Z (py a2) == injY a1 + inject_Z (dq a2) / inject_Z L * inject_Z vy)%Q).
      { unfold injY. apply (Qmult_inj_l _ _ (inject_Z L)); [assumption|]. 
        transitivity (inject_Z L * (inject_Z (py a2) - inject_Z (py a1)) + inject_Z L * inject_Z (py a1))%Q; [ring|].
        rewrite A. field. assumption. }
      assert (B' : (inject_Z (py b2) == injY a1 + inject_Z (dq b2) / inject_Z L * inject_Z vy)%Q).
      { unfold injY. apply (Qmult_inj_l _ _ (inject_Z L)); [assumption|]. 
        transitivity (inject_Z L * (inject_Z (py b2) - inject_Z (py a1)) + inject_Z L * inject_Z (py a1))%Q; [ring|].
        rewrite B. field. assumption. }
      rewrite (injm (py b2)). rewrite A', B'. rewrite !injm in *. field. split; assumption.
  Qed.

  (* an integer collinear point with coordinate between those of a2, b2 lies on a2 b2 *)
  Lemma point_on a2 b2 q : oncol a2 -> oncol b2 -> oncol q -> dq a2 <> dq b2 ->
    Z.min (dq a2) (dq b2) <= dq q <= Z.max (dq a2) (dq b2) -> on_seg a2 b2 (injX q) (injY q).
  Proof.
    intros C1 C2 Cq Hne Hs. destruct (param_on a2 b2 (dq q) C1 C2 Hne Hs) as (t & Ht & HX & HY).
    pose proof L_pos as HL. assert (HLq : ~ (inject_Z L == 0)%Q) by (apply inj_nz; lia).
    exists t. split; [assumption|]. rewrite <- HX, <- HY.
    destruct (col_param q Cq) as [A B]. apply (f_equal inject_Z) in A, B. rewrite !inject_Z_mult, !injm in A, B.
    unfold injX, injY. split; (apply (Qmult_inj_l _ _ (inject_Z L)); [assumption|]).
    - transitivity (inject_Z L * (inject_Z (px q) - inject_Z (px a1)) + inject_Z L * inject_Z (px a1))%Q; [ring|].
      rewrite A. field. assumption.
    - transitivity (inject_Z L * (inject_Z (py q) - inject_Z (py a1)) + inject_Z L * inject_Z (py a1))%Q; [ring|].
      rewrite B. field. assumption.
  Qed.

  Lemma q_interval (t : Q) u w : (0 <= t <= 1)%Q ->
    (inject_Z (Z.min u w) <= inject_Z u + t * inject_Z (w - u) <= inject_Z (Z.max u w))%Q.
  Proof.
    intros Ht. rewrite injm. destruct (Z.le_ge_cases u w) as [H|H].
    - rewrite Z.min_l, Z.max_r by assumption. apply inj_le in H. split; nra.
    - rewrite Z.min_r, Z.max_l by lia. apply inj_le in H. split; nra.
  Qed.

  (* overlap of collinear segments in terms of coordinates *)
  Lemma overlap_coord a2 b2 : oncol a2 -> oncol b2 -> dq a2 <> dq b2 ->
    ((exists X Y X' Y', on_seg a1 b1 X Y /\ on_seg a2 b2 X Y /\ on_seg a1 b1 X' Y' /\ on_seg a2 b2 X' Y'
       /\ ~ (X == X' /\ Y == Y')%Q)
     <-> Z.max 0 (Z.min (dq a2) (dq b2)) < Z.min L (Z.max (dq a2) (dq b2))).
  Proof.
    intros C1 C2 Hne. pose proof L_pos as HL. split.
    - intros (X & Y & X' & Y' & (t & Ht & HX & HY) & (u & Hu & HX2 & HY2) & (t' & Ht' & HX' & HY')
        & (u' & Hu' & HX2' & HY2') & Hd).
      assert (F1 : (fq X Y == t * inject_Z L)%Q).
      { unfold fq. rewrite HX, HY. unfold L, injX, injY. fold vx vy. rewrite inject_Z_plus, !inject_Z_mult. ring. }
      assert (F1' : (fq X' Y' == t' * inject_Z L)%Q).
      { unfold fq. rewrite HX', HY'. unfold L, injX, injY. fold vx vy. rewrite inject_Z_plus, !inject_Z_mult. ring. }
      assert (F2 : (fq X Y == inject_Z (dq a2) + u * inject_Z (dq b2 - dq a2))%Q).
      { rewrite <- fq_seg. unfold fq. rewrite HX2, HY2. reflexivity. }
      assert (F2' : (fq X' Y' == inject_Z (dq a2) + u' * inject_Z (dq b2 - dq a2))%Q).
      { rewrite <- fq_seg. unfold fq. rewrite HX2', HY2'. reflexivity. }
      pose proof (q_interval u (dq a2) (dq b2) Hu) as I1. rewrite <- F2, F1 in I1.
      pose proof (q_interval u' (dq a2) (dq b2) Hu') as I2. rewrite <- F2', F1' in I2.
      assert (Hne' : ~ (t == t')%Q).
      { intros E. apply Hd. split; [rewrite HX, HX'|rewrite HY, HY']; rewrite E; reflexivity. }
      assert (HLq : (0 < inject_Z L)%Q) by (apply (inj_lt 0 L); assumption).
      destruct (Z_lt_ge_dec (Z.max 0 (Z.min (dq a2) (dq b2))) (Z.min L (Z.max (dq a2) (dq b2)))) as [|G]; [assumption|].
      exfalso. set (lo := Z.min (dq a2) (dq b2)) in *. set (hi := Z.max (dq a2) (dq b2)) in *.
      assert (hi <= 0 \/ L <= lo \/ hi <= lo) as G' by lia. apply Hne'. clear - I1 I2 Ht Ht' HLq G'.
      destruct G' as [G'|[G'|G']].
      + apply (inj_le _ 0) in G'. change (inject_Z 0) with 0%Q in G'.
        assert (t * inject_Z L <= 0)%Q by lra. assert (t' * inject_Z L <= 0)%Q by lra.
        assert (t == 0)%Q by nra. assert (t' == 0)%Q by nra. lra.
      + apply inj_le in G'.
        assert (inject_Z L <= t * inject_Z L)%Q by lra. assert (inject_Z L <= t' * inject_Z L)%Q by lra.
        assert (t == 1)%Q by nra. assert (t' == 1)%Q by nra. lra.
      + apply inj_le in G'. assert (t * inject_Z L == t' * inject_Z L)%Q as E by lra.
        apply (Qmult_inj_r _ _ (inject_Z L)); lra.
    - intros H.
      set (lo := Z.max 0 (Z.min (dq a2) (dq b2))) in *. set (hi := Z.min L (Z.max (dq a2) (dq b2))) in *.
      exists (injX a1 + inject_Z lo / inject_Z L * inject_Z vx)%Q, (injY a1 + inject_Z lo / inject_Z L * inject_Z vy)%Q,
             (injX a1 + inject_Z hi / inject_Z L * inject_Z vx)%Q, (injY a1 + inject_Z hi / inject_Z L * inject_Z vy)%Q.
      pose proof dq_a1 as Da. pose proof dq_b1 as Db.
      assert (On1 : forall s, 0 <= s <= L -> on_seg a1 b1 (injX a1 + inject_Z s / inject_Z L * inject_Z vx)
                 (injY a1 + inject_Z s / inject_Z L * inject_Z vy)).
      { intros s Hs. apply param_on; [apply oncol_a1|apply oncol_b1|lia|lia]. }
      split; [apply On1; lia|]. split; [apply param_on; [assumption|assumption|lia|lia]|].
      split; [apply On1; lia|]. split; [apply param_on; [assumption|assumption|lia|lia]|].
      intros [E1 E2].
      assert (HLq : (0 < inject_Z L)%Q) by (apply (inj_lt 0 L); assumption).
      assert (E : (inject_Z lo * inject_Z L == inject_Z hi * inject_Z L)%Q).
      { assert (EL : (inject_Z L == inject_Z vx * inject_Z vx + inject_Z vy * inject_Z vy)%Q)
          by (unfold L; rewrite inject_Z_plus, !inject_Z_mult; reflexivity).
        assert (E1' : (inject_Z lo / inject_Z L * inject_Z vx == inject_Z hi / inject_Z L * inject_Z vx)%Q) by lra.
        assert (E2' : (inject_Z lo / inject_Z L * inject_Z vy == inject_Z hi / inject_Z L * inject_Z vy)%Q) by lra.
        assert (E3 : (inject_Z lo / inject_Z L * inject_Z L == inject_Z hi / inject_Z L * inject_Z L)%Q).
        { rewrite EL at 2 4. rewrite !Qmult_plus_distr_r, !Qmult_assoc, E1', E2'. reflexivity. }
        assert (HLz : ~ (inject_Z L == 0)%Q) by lra.
        transitivity (inject_Z lo / inject_Z L * inject_Z L * inject_Z L)%Q; [field; assumption|].
        rewrite E3. field. assumption. }
      rewrite <- !inject_Z_mult in E. apply (proj1 (inj_eq _ _)) in E. nia.
  Qed.
End Par.

Definition pdq (a1 b1 q : point) : Z :=
  (px q - px a1) * (px b1 - px a1) + (py q - py a1) * (py b1 - py a1).
Definition plen (a1 b1 : point) : Z :=
  (px b1 - px a1) * (px b1 - px a1) + (py b1 - py a1) * (py b1 - py a1).

Lemma tw_oncol a b q : triangle_winding a b q = 0 <-> oncol a b q.
Proof. unfold triangle_winding, oncol. lia. Qed.

Lemma par_oncol a b c d : dir_cross a b c d = 0 -> a <> b -> oncol a b c -> oncol a b d.
Proof. unfold dir_cross, oncol. intros. lia. Qed.

Lemma off_line a b c d X Y : dir_cross a b c d = 0 -> on_seg a b X Y -> on_seg c d X Y -> oncol a b c.
Proof.
  intros HD (t & _ & HX & HY) (u & _ & HX' & HY'). rewrite HX in HX'. rewrite HY in HY'.
  unfold oncol. apply (inj_eq). apply (f_equal inject_Z) in HD.
  assert (HDq : ((inject_Z (px b) - inject_Z (px a)) * (inject_Z (py d) - inject_Z (py c))
      - (inject_Z (py b) - inject_Z (py a)) * (inject_Z (px d) - inject_Z (px c)) == 0)%Q).
  { unfold dir_cross in HD. rewrite injm, !inject_Z_mult, !injm in HD. rewrite HD. reflexivity. }
  rewrite !inject_Z_mult, !injm. rewrite !injm in HX', HY'.
  revert HDq HX' HY'. generalize (inject_Z (px a)) (inject_Z (py a)) (inject_Z (px b)) (inject_Z (py b))
   (inject_Z (px c)) (inject_Z (py c)) (inject_Z (px d)) (inject_Z (py d)). clear.
  intros ax ay bx by_ cx cy dx dy HD HX HY.
  (* vx*(cy-ay) - (cx-ax)*vy = vx*(t*vy - u*ey) - vy*(t*vx - u*ex) = -u*(vx*ey - vy*ex) *)
  assert (C1 : (cy - ay == t * (by_ - ay) - u * (dy - cy))%Q) by lra.
  assert (C2 : (cx - ax == t * (bx - ax) - u * (dx - cx))%Q) by lra.
  rewrite C1, C2.
  assert (Z : ((bx - ax) * (t * (by_ - ay) - u * (dy - cy)) - (t * (bx - ax) - u * (dx - cx)) * (by_ - ay)
          == - u * ((bx - ax) * (dy - cy) - (by_ - ay) * (dx - cx)))%Q) by ring.
  rewrite HD in Z. lra.
Qed.

Lemma parallel_unfold rx ry s1 s2 : dir_cross (sg_pa s1) (sg_pb s1) (sg_pa s2) (sg_pb s2) = 0 ->
  intersects rx ry s1 s2 = intersects_parallel s1 s2.
Proof.
  intros H. unfold intersects.
  replace ((px (sg_pa s1) - px (sg_pb s1)) * (py (sg_pa s2) - py (sg_pb s2))
    - (py (sg_pa s1) - py (sg_pb s1)) * (px (sg_pa s2) - px (sg_pb s2)))
    with (dir_cross (sg_pa s1) (sg_pb s1) (sg_pa s2) (sg_pb s2)) by (unfold dir_cross; ring).
  rewrite H. reflexivity.
Qed.

(** The cases of [intersects_parallel] for collinear segments. *)
Lemma parallel_cases s1 s2 (a1 := sg_pa s1) (b1 := sg_pb s1) (a2 := sg_pa s2) (b2 := sg_pb s2) :
  a1 <> b1 -> a2 <> b2 -> oncol a1 b1 a2 -> oncol a1 b1 b2 ->
  match intersects_parallel s1 s2 with
  | None => ~ overlap s1 s2 \/ same_vertices s1 s2
  | Some (Some p, e1, e2) =>
      overlap s1 s2 /\ ~ same_vertices s1 s2 /\
      on_seg a1 b1 (injX p) (injY p) /\ on_seg a2 b2 (injX p) (injY p) /\
      edge_ok e1 a1 b1 p /\ edge_ok e2 a2 b2 p /\ (e1 <> AEno \/ e2 <> AEno)
  | Some (None, e1, e2) =>
      overlap s1 s2 /\ ~ same_vertices s1 s2 /\ e1 = AEboth /\ e2 = AEboth /\ coincident s1 s2
  end.
Proof.
  intros N1 N2 C1 C2.
  pose proof (L_pos a1 b1 N1) as HL.
  pose proof (dq_inj a1 b1 N1) as INJ.
  pose proof (dq_a1 a1 b1) as Da. pose proof (dq_b1 a1 b1) as Db.
  pose proof (oncol_a1 a1 b1) as Ca. pose proof (oncol_b1 a1 b1) as Cb.
  assert (Hne : pdq a1 b1 a2 <> pdq a1 b1 b2) by (intros E; apply N2; apply INJ; assumption).
  pose proof (overlap_coord a1 b1 N1 a2 b2 C1 C2 Hne) as OV.
  fold (overlap s1 s2) in OV.
  pose proof (point_on a1 b1 N1) as PON.
  cbv zeta in *.
  change (forall q q', oncol a1 b1 q -> oncol a1 b1 q' -> pdq a1 b1 q = pdq a1 b1 q' -> q = q') in INJ.
  change (pdq a1 b1 a1 = 0) in Da. change (pdq a1 b1 b1 = plen a1 b1) in Db.
  change (0 < plen a1 b1) in HL.
  change (overlap s1 s2 <-> Z.max 0 (Z.min (pdq a1 b1 a2) (pdq a1 b1 b2))
     < Z.min (plen a1 b1) (Z.max (pdq a1 b1 a2) (pdq a1 b1 b2))) in OV.
  change (forall a2 b2 q, oncol a1 b1 a2 -> oncol a1 b1 b2 -> oncol a1 b1 q -> pdq a1 b1 a2 <> pdq a1 b1 b2 ->
     Z.min (pdq a1 b1 a2) (pdq a1 b1 b2) <= pdq a1 b1 q <= Z.max (pdq a1 b1 a2) (pdq a1 b1 b2) ->
     on_seg a2 b2 (injX q) (injY q)) in PON.
  unfold intersects_parallel. fold a1 b1 a2 b2.
  rewrite (proj2 (tw_oncol _ _ _) C1). rewrite Z.eqb_refl. cbn [negb].
  change (int_dot (psub b1 a1) (psub b1 a1)) with (plen a1 b1).
  change (int_dot (psub a2 a1) (psub b1 a1)) with (pdq a1 b1 a2).
  change (int_dot (psub b2 a1) (psub b1 a1)) with (pdq a1 b1 b2).
  (* equality of the end points is equality of their coordinates *)
  assert (EQ : forall q q', oncol a1 b1 q -> oncol a1 b1 q' -> (q = q' <-> pdq a1 b1 q = pdq a1 b1 q')).
  { intros q q' H H'. split; [congruence|]. apply INJ; assumption. }
  assert (P1 : a1 = a2 <-> 0 = pdq a1 b1 a2) by (rewrite <- Da; apply EQ; assumption).
  assert (P2 : a1 = b2 <-> 0 = pdq a1 b1 b2) by (rewrite <- Da; apply EQ; assumption).
  assert (P3 : b1 = a2 <-> plen a1 b1 = pdq a1 b1 a2) by (rewrite <- Db; apply EQ; assumption).
  assert (P4 : b1 = b2 <-> plen a1 b1 = pdq a1 b1 b2) by (rewrite <- Db; apply EQ; assumption).
  assert (S : same_vertices s1 s2 ->
     (0 = pdq a1 b1 a2 /\ plen a1 b1 = pdq a1 b1 b2 /\ sg_a s1 = sg_a s2 /\ sg_b s1 = sg_b s2) \/
     (0 = pdq a1 b1 b2 /\ plen a1 b1 = pdq a1 b1 a2 /\ sg_a s1 = sg_b s2 /\ sg_b s1 = sg_a s2)).
  { unfold same_vertices. fold a1 b1 a2 b2. tauto. }
  assert (S' : (0 = pdq a1 b1 a2 /\ plen a1 b1 = pdq a1 b1 b2 /\ sg_a s1 = sg_a s2 /\ sg_b s1 = sg_b s2) \/
     (0 = pdq a1 b1 b2 /\ plen a1 b1 = pdq a1 b1 a2 /\ sg_a s1 = sg_b s2 /\ sg_b s1 = sg_a s2) -> same_vertices s1 s2).
  { unfold same_vertices. fold a1 b1 a2 b2. tauto. }
  assert (S2 : (0 = pdq a1 b1 a2 /\ plen a1 b1 = pdq a1 b1 b2 /\ sg_a s1 <> sg_a s2 /\ sg_b s1 <> sg_b s2) \/
     (0 = pdq a1 b1 b2 /\ plen a1 b1 = pdq a1 b1 a2 /\ sg_a s1 <> sg_b s2 /\ sg_b s1 <> sg_a s2) -> coincident s1 s2).
  { unfold coincident. fold a1 b1 a2 b2. tauto. }
  pose proof (PON a1 b1 a1 Ca Cb Ca) as O11. pose proof (PON a1 b1 b1 Ca Cb Cb) as O12.
  pose proof (PON a1 b1 a2 Ca Cb C1) as O13. pose proof (PON a1 b1 b2 Ca Cb C2) as O14.
  pose proof (PON a2 b2 a1 C1 C2 Ca) as O21. pose proof (PON a2 b2 b1 C1 C2 Cb) as O22.
  pose proof (PON a2 b2 a2 C1 C2 C1) as O23. pose proof (PON a2 b2 b2 C1 C2 C2) as O24.
  rewrite Da, Db in *.
  unfold between.
  destruct (Z.ltb_spec (Z.min (pdq a1 b1 a2) (pdq a1 b1 b2)) 0) as [B1|B1];
  destruct (Z.ltb_spec 0 (Z.max (pdq a1 b1 a2) (pdq a1 b1 b2))) as [B2|B2]; cbn [andb].
  1: { split; [apply OV; lia|]. split; [intros Q; apply S in Q; lia|].
    split; [apply O11; lia|]. split; [apply O21; lia|]. split; [reflexivity|]. split; [|left; discriminate].
    split; [rewrite P1|rewrite P2]; lia. }
  all: destruct (Z.ltb_spec (Z.min (pdq a1 b1 a2) (pdq a1 b1 b2)) (plen a1 b1)) as [B3|B3];
    destruct (Z.ltb_spec (plen a1 b1) (Z.max (pdq a1 b1 a2) (pdq a1 b1 b2))) as [B4|B4]; cbn [andb];
    try lia;
    try (split; [apply OV; lia|]; split; [intros Q; apply S in Q; lia|];
      split; [apply O12; lia|]; split; [apply O22; lia|]; split; [reflexivity|]; split; [|left; discriminate];
      split; [rewrite P3|rewrite P4]; lia).
  all: destruct (Z.ltb_spec (Z.min 0 (plen a1 b1)) (pdq a1 b1 a2)) as [B5|B5];
    destruct (Z.ltb_spec (pdq a1 b1 a2) (Z.max 0 (plen a1 b1))) as [B6|B6]; cbn [andb]; try lia;
    try (split; [apply OV; lia|]; split; [intros Q; apply S in Q; lia|];
      split; [apply O13; lia|]; split; [apply O23; lia|];
      split; [|split; [reflexivity|right; discriminate]];
      split; intros K; symmetry in K; revert K; [rewrite P1|rewrite P3]; lia).
  all: destruct (Z.ltb_spec (Z.min 0 (plen a1 b1)) (pdq a1 b1 b2)) as [B7|B7];
    destruct (Z.ltb_spec (pdq a1 b1 b2) (Z.max 0 (plen a1 b1))) as [B8|B8]; cbn [andb]; try lia;
    try (split; [apply OV; lia|]; split; [intros Q; apply S in Q; lia|];
      split; [apply O14; lia|]; split; [apply O24; lia|];
      split; [|split; [reflexivity|right; discriminate]];
      split; intros K; symmetry in K; revert K; [rewrite P2|rewrite P4]; lia).
  all: destruct (Z.eqb_spec (Z.min 0 (plen a1 b1)) (Z.min (pdq a1 b1 a2) (pdq a1 b1 b2))) as [B9|B9];
    destruct (Z.eqb_spec (Z.max 0 (plen a1 b1)) (Z.max (pdq a1 b1 a2) (pdq a1 b1 b2))) as [B10|B10]; cbn [andb];
    try (left; intros Q; apply OV in Q; lia).
  all: destruct (Z.eqb_spec 0 (pdq a1 b1 a2)) as [B11|B11];
    [destruct (Nat.eqb_spec (sg_a s1) (sg_a s2)) as [I1|I1], (Nat.eqb_spec (sg_b s1) (sg_b s2)) as [I2|I2]
    |destruct (Nat.eqb_spec (sg_a s1) (sg_b s2)) as [I1|I1], (Nat.eqb_spec (sg_b s1) (sg_a s2)) as [I2|I2]];
    cbn [negb]; try lia.
  all: try (right; apply S'; lia).
  all: split; [apply OV; lia|]; split; [intros Q; apply S in Q; lia|].
  all: try (split; [reflexivity|]; split; [reflexivity|]; apply S2; lia).
  all: split; [first [apply O11; lia|apply O12; lia]|]; split; [first [apply O21; lia|apply O22; lia]|];
    split; [reflexivity|]; split; [|left; discriminate].
  all: cbn [edge_ok]; first [apply P1; lia|apply P2; lia|apply P3; lia|apply P4; lia].
Qed.
