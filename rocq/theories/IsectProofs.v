(** Proofs about segment intersection. *)
From Coq Require Import ZArith QArith Lqa List Bool Lia ZifyBool ZifyNat.
From Verif Require Import GeomModel GeomSpec GeomProofs.
Import ListNotations.
Local Open Scope Z_scope.

Lemma injm a b : inject_Z (a - b) = (inject_Z a - inject_Z b)%Q.
Proof. unfold Z.sub. rewrite inject_Z_plus, inject_Z_opp. reflexivity. Qed.

Ltac qz := repeat (first [rewrite injm in * | rewrite inject_Z_plus in * | rewrite inject_Z_mult in * | rewrite inject_Z_opp in *]).

Lemma inj_le a b : (inject_Z a <= inject_Z b)%Q <-> a <= b.
Proof. rewrite <- Zle_Qle. tauto. Qed.
Lemma inj_lt a b : (inject_Z a < inject_Z b)%Q <-> a < b.
Proof. rewrite <- Zlt_Qlt. tauto. Qed.
Lemma inj_eq a b : (inject_Z a == inject_Z b)%Q <-> a = b.
Proof. apply inject_Z_injective. Qed.
Lemma inj_nz a : a <> 0 -> ~ (inject_Z a == 0)%Q.
Proof. intros H E. apply H. apply (inj_eq a 0). exact E. Qed.

Lemma line_solve (x1 y1 dx dy x3 y3 ex ey t u : Q) :
  (x1 + t * dx == x3 + u * ex)%Q -> (y1 + t * dy == y3 + u * ey)%Q ->
  (t * (dx * ey - dy * ex) == (x3 - x1) * ey - (y3 - y1) * ex)%Q /\
  (u * (dx * ey - dy * ex) == (x3 - x1) * dy - (y3 - y1) * dx)%Q.
Proof.
  intros H1 H2. split.
  - setoid_replace (t * (dx * ey - dy * ex))%Q
      with ((x1 + t * dx - x1) * ey - (y1 + t * dy - y1) * ex)%Q by ring.
    rewrite H1, H2. ring.
  - setoid_replace (u * (dx * ey - dy * ex))%Q
      with ((x3 + u * ex - x3) * - dy + (y3 + u * ey - y3) * dx)%Q by ring.
    rewrite <- H1, <- H2. ring.
Qed.

(** Numerators and denominator of the two parameters. *)
Definition num_t (a b c d : point) : Z :=
  (px c - px a) * (py d - py c) - (py c - py a) * (px d - px c).
Definition num_u (a b c d : point) : Z :=
  (px c - px a) * (py b - py a) - (py c - py a) * (px b - px a).

(** n/d lies between 0 and 1. *)
Definition in_unit (n d : Z) : Prop := (0 < d /\ 0 <= n <= d) \/ (d < 0 /\ d <= n <= 0).

Lemma in_unit_q n d t : d <> 0 -> (t * inject_Z d == inject_Z n)%Q ->
  ((0 <= t <= 1)%Q <-> in_unit n d).
Proof.
  intros Hd E. unfold in_unit.
  destruct (Z_lt_ge_dec 0 d) as [Hp|Hp].
  - assert (Hdq : (0 < inject_Z d)%Q) by (apply (inj_lt 0 d); assumption).
    split.
    + intros [H0 H1]. left. split; [assumption|].
      assert (0 <= inject_Z n)%Q by nra. assert (inject_Z n <= inject_Z d)%Q by nra.
      split; [apply (inj_le 0 n)|apply inj_le]; assumption.
    + intros [[_ [H0 H1]]|H]; [|lia].
      apply (inj_le 0 n) in H0. apply inj_le in H1. change (inject_Z 0) with 0%Q in H0. nra.
  - assert (Hdq : (inject_Z d < 0)%Q) by (apply (inj_lt d 0); lia).
    split.
    + intros [H0 H1]. right. split; [lia|].
      assert (inject_Z n <= 0)%Q by nra. assert (inject_Z d <= inject_Z n)%Q by nra.
      split; [apply inj_le|apply (inj_le n 0)]; assumption.
    + intros [H|[_ [H0 H1]]]; [lia|].
      apply (inj_le n 0) in H1. apply inj_le in H0. change (inject_Z 0) with 0%Q in H1. nra.
Qed.

(** Two segments in non-parallel directions meet iff both parameters are in [0,1]. *)
Lemma seg_meet a b c d : dir_cross a b c d <> 0 ->
  ((exists X Y, on_seg a b X Y /\ on_seg c d X Y) <->
   in_unit (num_t a b c d) (dir_cross a b c d) /\ in_unit (num_u a b c d) (dir_cross a b c d)).
Proof.
  intros HD. split.
  - intros (X & Y & (t & Ht & HX & HY) & (u & Hu & HX' & HY')).
    rewrite HX in HX'. rewrite HY in HY'.
    destruct (line_solve _ _ _ _ _ _ _ _ _ _ HX' HY') as [E1 E2].
    split; [apply (in_unit_q _ _ t HD)|apply (in_unit_q _ _ u HD)]; try assumption;
      unfold dir_cross, num_t, num_u; qz; assumption.
  - intros [H1 H2].
    pose proof (inj_nz _ HD) as HDq.
    set (D := dir_cross a b c d) in *.
    set (t := (inject_Z (num_t a b c d) / inject_Z D)%Q).
    set (u := (inject_Z (num_u a b c d) / inject_Z D)%Q).
    assert (Et : (t * inject_Z D == inject_Z (num_t a b c d))%Q) by (unfold t; field; assumption).
    assert (Eu : (u * inject_Z D == inject_Z (num_u a b c d))%Q) by (unfold u; field; assumption).
    exists (inject_Z (px a) + t * inject_Z (px b - px a))%Q,
           (inject_Z (py a) + t * inject_Z (py b - py a))%Q.
    split.
    + exists t. split; [apply (in_unit_q _ _ _ HD Et); assumption|]. split; reflexivity.
    + exists u. split; [apply (in_unit_q _ _ _ HD Eu); assumption|].
      assert (EX : (num_t a b c d * (px b - px a) + px a * D = num_u a b c d * (px d - px c) + px c * D)%Z)
        by (unfold D, num_t, num_u, dir_cross; ring).
      assert (EY : (num_t a b c d * (py b - py a) + py a * D = num_u a b c d * (py d - py c) + py c * D)%Z)
        by (unfold D, num_t, num_u, dir_cross; ring).
      apply (f_equal inject_Z) in EX, EY. rewrite !inject_Z_plus, !inject_Z_mult in EX, EY.
      assert (EXq := Qeq_refl (inject_Z (num_t a b c d) * inject_Z (px b - px a) + inject_Z (px a) * inject_Z D)).
      rewrite EX in EXq at 2. rewrite <- Et, <- Eu in EXq.
      assert (EYq := Qeq_refl (inject_Z (num_t a b c d) * inject_Z (py b - py a) + inject_Z (py a) * inject_Z D)).
      rewrite EY in EYq at 2. rewrite <- Et, <- Eu in EYq.
      split.
      * apply (Qmult_inj_r _ _ (inject_Z D)); [assumption|].
        transitivity (t * inject_Z D * inject_Z (px b - px a) + inject_Z (px a) * inject_Z D)%Q; [ring|].
        rewrite EXq. ring.
      * apply (Qmult_inj_r _ _ (inject_Z D)); [assumption|].
        transitivity (t * inject_Z D * inject_Z (py b - py a) + inject_Z (py a) * inject_Z D)%Q; [ring|].
        rewrite EYq. ring.
Qed.

(** [intersects] for segments that are not parallel and share no vertex. *)
Definition isect_np (rx ry : bool) (a b c d : point) : isect :=
  let D := dir_cross a b c d in
  let t := num_t a b c d in
  let u := num_u a b c d in
  if (if 0 <? D then (t <? 0) || (D <? t) || (u <? 0) || (D <? u)
      else (0 <? t) || (t <? D) || (0 <? u) || (u <? D)) then None
  else if t =? 0 then Some (Some a, AEstart, is_edge u D)
  else if t =? D then Some (Some b, AEend, is_edge u D)
  else if u =? 0 then Some (Some c, AEno, AEstart)
  else if u =? D then Some (Some d, AEno, AEend)
  else
    let p := (px a + (if rx then qfloor (t * (px b - px a)) D else qceil (t * (px b - px a)) D),
              py a + (if ry then qfloor (t * (py b - py a)) D else qceil (t * (py b - py a)) D)) in
    Some (Some p,
          (if point_eqb p a then AEstart else if point_eqb p b then AEend else AEno),
          (if point_eqb p c then AEstart else if point_eqb p d then AEend else AEno)).

Lemma pair_eta (p : point) : (px p, py p) = p.
Proof. destruct p; reflexivity. Qed.

Lemma intersects_np rx ry s1 s2 :
  no_shared s1 s2 -> dir_cross (sg_pa s1) (sg_pb s1) (sg_pa s2) (sg_pb s2) <> 0 ->
  intersects rx ry s1 s2 = isect_np rx ry (sg_pa s1) (sg_pb s1) (sg_pa s2) (sg_pb s2).
Proof.
  intros (N1 & N2 & N3 & N4) HD. unfold intersects, isect_np.
  destruct s1 as [ia ib a b], s2 as [ic id c d]. cbn [sg_a sg_b sg_pa sg_pb] in *.
  replace ((px a - px b) * (py c - py d) - (py a - py b) * (px c - px d)) with (dir_cross a b c d)
    by (unfold dir_cross; ring).
  replace ((px a - px c) * (py c - py d) - (py a - py c) * (px c - px d)) with (num_t a b c d)
    by (unfold num_t; ring).
  replace ((px a - px c) * (py a - py b) - (py a - py c) * (px a - px b)) with (num_u a b c d)
    by (unfold num_u; ring).
  destruct (Z.eqb_spec (dir_cross a b c d) 0) as [E|_]; [contradiction|].
  rewrite (proj2 (Nat.eqb_neq _ _) N1), (proj2 (Nat.eqb_neq _ _) N2),
    (proj2 (Nat.eqb_neq _ _) N3), (proj2 (Nat.eqb_neq _ _) N4). cbn [orb].
  rewrite !pair_eta. reflexivity.
Qed.

Lemma range_false D t u : D <> 0 ->
  (if 0 <? D then (t <? 0) || (D <? t) || (u <? 0) || (D <? u)
   else (0 <? t) || (t <? D) || (0 <? u) || (u <? D)) = false <->
  in_unit t D /\ in_unit u D.
Proof. unfold in_unit. intros H. destruct (Z.ltb_spec 0 D); lia. Qed.

Lemma isect_np_some rx ry a b c d : dir_cross a b c d <> 0 ->
  ((exists r, isect_np rx ry a b c d = Some r) <->
   in_unit (num_t a b c d) (dir_cross a b c d) /\ in_unit (num_u a b c d) (dir_cross a b c d)).
Proof.
  intros HD. rewrite <- (range_false _ _ _ HD). unfold isect_np.
  destruct (if 0 <? _ then _ else _).
  - split; [intros [r H]|]; discriminate.
  - split; [reflexivity|]. intros _.
    repeat (match goal with |- context [if ?b then Some _ else _] => destruct b end; [eexists; reflexivity|]).
    eexists; reflexivity.
Qed.

Lemma intersects_iff_meet rx ry s1 s2 :
  no_shared s1 s2 -> dir_cross (sg_pa s1) (sg_pb s1) (sg_pa s2) (sg_pb s2) <> 0 ->
  ((exists r, intersects rx ry s1 s2 = Some r) <->
   (exists X Y, on_seg (sg_pa s1) (sg_pb s1) X Y /\ on_seg (sg_pa s2) (sg_pb s2) X Y)).
Proof.
  intros HN HD. rewrite (intersects_np _ _ _ _ HN HD), (isect_np_some _ _ _ _ _ _ HD).
  symmetry. apply seg_meet. assumption.
Qed.

(** The common point of two non-parallel segments, as exact fractions over D. *)
Lemma meet_exact a b c d X Y : dir_cross a b c d <> 0 -> on_seg a b X Y -> on_seg c d X Y ->
  (X * inject_Z (dir_cross a b c d) == inject_Z (px a * dir_cross a b c d + num_t a b c d * (px b - px a)))%Q /\
  (Y * inject_Z (dir_cross a b c d) == inject_Z (py a * dir_cross a b c d + num_t a b c d * (py b - py a)))%Q /\
  (X * inject_Z (dir_cross a b c d) == inject_Z (px c * dir_cross a b c d + num_u a b c d * (px d - px c)))%Q /\
  (Y * inject_Z (dir_cross a b c d) == inject_Z (py c * dir_cross a b c d + num_u a b c d * (py d - py c)))%Q.
Proof.
  intros HD (t & Ht & HX & HY) (u & Hu & HX' & HY').
  assert (E : (t * inject_Z (dir_cross a b c d) == inject_Z (num_t a b c d))%Q /\
              (u * inject_Z (dir_cross a b c d) == inject_Z (num_u a b c d))%Q).
  { pose proof HX as HX1. pose proof HY as HY1. rewrite HX' in HX1. rewrite HY' in HY1. symmetry in HX1, HY1.
    destruct (line_solve _ _ _ _ _ _ _ _ _ _ HX1 HY1) as [E1 E2].
    unfold dir_cross, num_t, num_u. clear - E1 E2. qz. split; assumption. }
  destruct E as [Et Eu].
  rewrite !(inject_Z_plus (_ * _)), !(inject_Z_mult _ (dir_cross a b c d)),
    !(inject_Z_mult (num_t a b c d)), !(inject_Z_mult (num_u a b c d)).
  rewrite <- Et, <- Eu. repeat split; [rewrite HX|rewrite HY|rewrite HX'|rewrite HY']; ring.
Qed.

Lemma meet_unique a b c d X Y X' Y' : dir_cross a b c d <> 0 ->
  on_seg a b X Y -> on_seg c d X Y -> on_seg a b X' Y' -> on_seg c d X' Y' -> (X == X' /\ Y == Y')%Q.
Proof.
  intros HD H1 H2 H3 H4.
  destruct (meet_exact _ _ _ _ _ _ HD H1 H2) as (E1 & E2 & _).
  destruct (meet_exact _ _ _ _ _ _ HD H3 H4) as (E3 & E4 & _).
  rewrite <- E3 in E1. rewrite <- E4 in E2.
  split; eapply Qmult_inj_r; eauto using inj_nz.
Qed.

Lemma frac_floor (X : Q) n D x0 : D <> 0 -> (X * inject_Z D == inject_Z (x0 * D + n))%Q ->
  (inject_Z (x0 + qfloor n D) <= X < inject_Z (x0 + qfloor n D) + 1)%Q.
Proof.
  intros HD E. unfold qfloor. rewrite inject_Z_plus, inject_Z_mult in E.
  rewrite inject_Z_plus. 
  pose proof (Z.div_mod n D HD) as DM.
  assert (HE : ((X - inject_Z x0 - inject_Z (n / D)) * inject_Z D == inject_Z (n mod D))%Q).
  { transitivity (X * inject_Z D - inject_Z x0 * inject_Z D - inject_Z (n / D) * inject_Z D)%Q; [ring|].
    rewrite E. rewrite DM at 1. rewrite inject_Z_plus, inject_Z_mult. ring. }
  destruct (Z_lt_ge_dec 0 D) as [Hp|Hp].
  - pose proof (Z.mod_pos_bound n D Hp) as [R1 R2]. apply (inj_le 0) in R1. apply inj_lt in R2.
    apply (inj_lt 0) in Hp. change (inject_Z 0) with 0%Q in *. clear - HE R1 R2 Hp. 
    revert HE R1 R2 Hp. generalize (inject_Z D) (inject_Z (n mod D)) (inject_Z x0) (inject_Z (n / D)).
    intros. split; nra.
  - assert (Hn : D < 0) by lia. pose proof (Z.mod_neg_bound n D Hn) as [R1 R2].
    apply (inj_le _ 0) in R2. apply inj_lt in R1. apply (inj_lt _ 0) in Hn.
    change (inject_Z 0) with 0%Q in *. clear - HE R1 R2 Hn.
    revert HE R1 R2 Hn. generalize (inject_Z D) (inject_Z (n mod D)) (inject_Z x0) (inject_Z (n / D)).
    intros. split; nra.
Qed.

Lemma frac_ceil (X : Q) n D x0 : D <> 0 -> (X * inject_Z D == inject_Z (x0 * D + n))%Q ->
  (inject_Z (x0 + qceil n D) - 1 < X <= inject_Z (x0 + qceil n D))%Q.
Proof.
  intros HD E. unfold qceil.
  assert (E' : (- X * inject_Z D == inject_Z (- x0 * D + - n))%Q).
  { replace (- x0 * D + - n) with (- (x0 * D + n)) by ring. rewrite inject_Z_opp, <- E. ring. }
  pose proof (frac_floor _ _ _ _ HD E') as [H1 H2]. unfold qfloor in *.
  clear E E'. rewrite inject_Z_plus, inject_Z_opp in H1, H2. rewrite inject_Z_plus, inject_Z_opp. split; lra.
Qed.

Lemma frac_round (r : bool) (X : Q) n D x0 : D <> 0 -> (X * inject_Z D == inject_Z (x0 * D + n))%Q ->
  (inject_Z (x0 + if r then qfloor n D else qceil n D) - 1 < X
   < inject_Z (x0 + if r then qfloor n D else qceil n D) + 1)%Q.
Proof.
  intros HD E. destruct r.
  - pose proof (frac_floor _ _ _ _ HD E). split; lra.
  - pose proof (frac_ceil _ _ _ _ HD E). split; lra.
Qed.

Lemma on_seg_bounds a b X Y : on_seg a b X Y ->
  (inject_Z (Z.min (px a) (px b)) <= X <= inject_Z (Z.max (px a) (px b)))%Q /\
  (inject_Z (Z.min (py a) (py b)) <= Y <= inject_Z (Z.max (py a) (py b)))%Q.
Proof.
  intros (t & Ht & HX & HY). rewrite HX, HY. rewrite !injm.
  assert (G : forall z w, (inject_Z (Z.min z w) <= inject_Z z + t * (inject_Z w - inject_Z z)
                           <= inject_Z (Z.max z w))%Q).
  { intros z w. destruct (Z.le_ge_cases z w) as [L|L].
    - rewrite Z.min_l, Z.max_r by assumption. apply inj_le in L. split; nra.
    - rewrite Z.min_r, Z.max_l by lia. apply inj_le in L. split; nra. }
  split; apply G.
Qed.

Lemma near_in_box z lo hi X : (inject_Z lo <= X <= inject_Z hi)%Q ->
  (inject_Z z - 1 < X < inject_Z z + 1)%Q -> lo <= z <= hi.
Proof.
  intros [H1 H2] [H3 H4].
  assert (A : (inject_Z lo < inject_Z (z + 1))%Q) by (rewrite inject_Z_plus; change (inject_Z 1) with 1%Q; lra).
  assert (B : (inject_Z z < inject_Z (hi + 1))%Q) by (rewrite inject_Z_plus; change (inject_Z 1) with 1%Q; lra).
  apply (proj1 (inj_lt _ _)) in A, B. lia.
Qed.

Lemma near_integral z k X : (inject_Z z - 1 < X < inject_Z z + 1)%Q -> (X == inject_Z k)%Q -> z = k.
Proof.
  intros [H1 H2] E. rewrite E in *.
  assert (A : (inject_Z z < inject_Z (k + 1))%Q) by (rewrite inject_Z_plus; change (inject_Z 1) with 1%Q; lra).
  assert (B : (inject_Z k < inject_Z (z + 1))%Q) by (rewrite inject_Z_plus; change (inject_Z 1) with 1%Q; lra).
  apply (proj1 (inj_lt _ _)) in A, B. lia.
Qed.

Lemma point_eqb_spec a b : reflect (a = b) (point_eqb a b).
Proof.
  unfold point_eqb. destruct a as [x y], b as [x' y']. geo.
  destruct (Z.eqb_spec x x'), (Z.eqb_spec y y'); cbn [andb]; constructor; congruence.
Qed.

Definition near (p : point) (X Y : Q) : Prop :=
  (injX p - 1 < X < injX p + 1)%Q /\ (injY p - 1 < Y < injY p + 1)%Q.

Lemma seg_nondeg a b c d : dir_cross a b c d <> 0 -> a <> b /\ c <> d.
Proof. intros H. split; intros ->; apply H; unfold dir_cross; ring. Qed.

(** Integer points on the line at parameter n/D. *)
Lemma param_start a b t D : D <> 0 -> a <> b ->
  (px a * D = px a * D + t * (px b - px a)) -> (py a * D = py a * D + t * (py b - py a)) -> t = 0.
Proof.
  intros HD Hab H1 H2. destruct a as [ax ay], b as [bx by_]. geo.
  assert (bx - ax <> 0 \/ by_ - ay <> 0) as [K|K].
  { destruct (Z.eq_dec ax bx), (Z.eq_dec ay by_); try lia. subst. congruence. }
  - assert (t * (bx - ax) = 0) as M by lia. apply Z.mul_eq_0 in M. lia.
  - assert (t * (by_ - ay) = 0) as M by lia. apply Z.mul_eq_0 in M. lia.
Qed.
Lemma param_end a b t D : D <> 0 -> a <> b ->
  (px b * D = px a * D + t * (px b - px a)) -> (py b * D = py a * D + t * (py b - py a)) -> t = D.
Proof.
  intros HD Hab H1 H2. assert (t - D = 0); [|lia].
  apply (param_start a b (t - D) D HD Hab); lia.
Qed.

(** Everything about the returned point. *)
Lemma isect_np_point rx ry a b c d r : dir_cross a b c d <> 0 ->
  isect_np rx ry a b c d = Some r ->
  exists p e1 e2 X Y, r = (Some p, e1, e2) /\ on_seg a b X Y /\ on_seg c d X Y /\ near p X Y /\
    edge_ok e1 a b p /\ edge_ok e2 c d p.
Proof.
  intros HD HI.
  assert (HU := proj1 (isect_np_some rx ry a b c d HD) (ex_intro _ r HI)).
  destruct (proj2 (seg_meet a b c d HD) HU) as (X & Y & H1 & H2).
  destruct (meet_exact _ _ _ _ _ _ HD H1 H2) as (EX & EY & EX' & EY').
  destruct (seg_nondeg _ _ _ _ HD) as [Nab Ncd].
  set (D := dir_cross a b c d) in *. set (t := num_t a b c d) in *. set (u := num_u a b c d) in *.
  (* exact location of an integer point *)
  assert (LOC : forall q : point, (X == injX q)%Q -> (Y == injY q)%Q ->
     (q = a <-> t = 0) /\ (q = b <-> t = D) /\ (q = c <-> u = 0) /\ (q = d <-> u = D)).
  { intros q Q1 Q2. unfold injX, injY in *.
    rewrite Q1, <- inject_Z_mult in EX, EX'. rewrite Q2, <- inject_Z_mult in EY, EY'.
    apply (proj1 (inj_eq _ _)) in EX, EX', EY, EY'. clear - EX EX' EY EY' HD Nab Ncd.
    assert (P : forall q' : point, px q * D = px q' * D -> py q * D = py q' * D -> q = q').
    { intros q' A B. apply Z.mul_reg_r in A; [|assumption]. apply Z.mul_reg_r in B; [|assumption].
      rewrite <- (pair_eta q), <- (pair_eta q'). congruence. }
    repeat split; intros H.
    - subst q. apply (param_start a b t D HD Nab EX EY).
    - apply P; [rewrite EX|rewrite EY]; rewrite H; ring.
    - subst q. apply (param_end a b t D HD Nab EX EY).
    - apply P; [rewrite EX|rewrite EY]; rewrite H; ring.
    - subst q. apply (param_start c d u D HD Ncd EX' EY').
    - apply P; [rewrite EX'|rewrite EY']; rewrite H; ring.
    - subst q. apply (param_end c d u D HD Ncd EX' EY').
    - apply P; [rewrite EX'|rewrite EY']; rewrite H; ring. }
  assert (NEAR : forall q : point, (X == injX q)%Q -> (Y == injY q)%Q -> near q X Y).
  { intros q Q1 Q2. unfold near. rewrite Q1, Q2. repeat split; lra. }
  assert (ATA : t = 0 -> (X == injX a)%Q /\ (Y == injY a)%Q).
  { intros H. split; (apply (Qmult_inj_r _ _ (inject_Z D)); [apply inj_nz; assumption|]);
      unfold injX, injY; rewrite <- inject_Z_mult; [rewrite EX|rewrite EY]; apply inj_eq; rewrite H; ring. }
  assert (ATB : t = D -> (X == injX b)%Q /\ (Y == injY b)%Q).
  { intros H. split; (apply (Qmult_inj_r _ _ (inject_Z D)); [apply inj_nz; assumption|]);
      unfold injX, injY; rewrite <- inject_Z_mult; [rewrite EX|rewrite EY]; apply inj_eq; rewrite H; ring. }
  assert (ATC : u = 0 -> (X == injX c)%Q /\ (Y == injY c)%Q).
  { intros H. split; (apply (Qmult_inj_r _ _ (inject_Z D)); [apply inj_nz; assumption|]);
      unfold injX, injY; rewrite <- inject_Z_mult; [rewrite EX'|rewrite EY']; apply inj_eq; rewrite H; ring. }
  assert (ATD : u = D -> (X == injX d)%Q /\ (Y == injY d)%Q).
  { intros H. split; (apply (Qmult_inj_r _ _ (inject_Z D)); [apply inj_nz; assumption|]);
      unfold injX, injY; rewrite <- inject_Z_mult; [rewrite EX'|rewrite EY']; apply inj_eq; rewrite H; ring. }
  assert (EDGE : forall q : point, (X == injX q)%Q -> (Y == injY q)%Q -> edge_ok (is_edge u D) c d q).
  { intros q Q1 Q2. destruct (LOC q Q1 Q2) as (_ & _ & L3 & L4). unfold is_edge.
    destruct (Z.eqb_spec u 0); [cbn; tauto|]. destruct (Z.eqb_spec u D); cbn; tauto. }
  unfold isect_np in HI. fold D t u in HI.
  destruct (if 0 <? D then _ else _); [discriminate|].
  destruct (Z.eqb_spec t 0) as [T0|T0].
  { destruct (ATA T0) as [Q1 Q2]. injection HI as <-. exists a, AEstart, (is_edge u D), X, Y.
    repeat match goal with |- _ /\ _ => split end; auto; reflexivity. }
  destruct (Z.eqb_spec t D) as [T1|T1].
  { destruct (ATB T1) as [Q1 Q2]. injection HI as <-. exists b, AEend, (is_edge u D), X, Y.
    repeat match goal with |- _ /\ _ => split end; auto; reflexivity. }
  destruct (Z.eqb_spec u 0) as [U0|U0].
  { destruct (ATC U0) as [Q1 Q2]. injection HI as <-. exists c, AEno, AEstart, X, Y.
    destruct (LOC c Q1 Q2) as (L1 & L2 & _).
    split; [reflexivity|]. repeat (split; [auto; fail|]). split; [split; tauto|reflexivity]. }
  destruct (Z.eqb_spec u D) as [U1|U1].
  { destruct (ATD U1) as [Q1 Q2]. injection HI as <-. exists d, AEno, AEend, X, Y.
    destruct (LOC d Q1 Q2) as (L1 & L2 & _).
    split; [reflexivity|]. repeat (split; [auto; fail|]). split; [split; tauto|reflexivity]. }
  set (p := (px a + (if rx then qfloor (t * (px b - px a)) D else qceil (t * (px b - px a)) D),
              py a + (if ry then qfloor (t * (py b - py a)) D else qceil (t * (py b - py a)) D))) in *.
  injection HI as <-.
  eexists p, _, _, X, Y. split; [reflexivity|]. split; [assumption|]. split; [assumption|].
  split; [split; unfold p, injX, injY; geo; apply frac_round; assumption|].
  split; repeat match goal with |- context [if point_eqb ?u ?v then _ else _] => destruct (point_eqb_spec u v) end;
    cbn [edge_ok]; auto.
Qed.
