(** Lines that only meet at common ends: which lines are above a line does not depend on where
    along the line one looks. *)
From Coq Require Import ZArith QArith List Bool Arith Lia Psatz Field.
From Verif Require Import GeomModel GeomSpec ArrangeSpec ArrangeCore.
Import ListNotations.
Local Open Scope Z_scope.

Notation edge := (point * point)%type.
(** The ends in the order of abscissas, then ordinates. *)
Definition llo (e : edge) : point := if point_less (snd e) (fst e) then snd e else fst e.
Definition lhi (e : edge) : point := if point_less (snd e) (fst e) then fst e else snd e.
Definition lsgn (e : edge) : Z := if point_less (snd e) (fst e) then -1 else 1.
(** A linear function with this order for points of small ordinates. *)
Definition lx (M : Z) (p : point) : Z := M * px p + py p.
Definition small (M : Z) (p : point) : Prop := 2 * Z.abs (py p) < M.
Lemma less_lx M a b : small M a -> small M b -> point_less a b = (lx M a <? lx M b).
Proof.
  unfold small, point_less, lx. intros A B. destruct (Z.eqb_spec (px a) (px b)) as [E|E]; [rewrite E; lia|].
  destruct (Z.ltb_spec (px a) (px b)), (Z.ltb_spec (M * px a + py a) (M * px b + py b)); try reflexivity; exfalso; nia.
Qed.
Lemma lx_inj M a b : small M a -> small M b -> lx M a = lx M b -> a = b.
Proof.
  unfold small, lx. intros A B E. destruct a as (xa, ya), b as (xb, yb). unfold px, py in *. cbn [fst snd] in *.
  assert (xa = xb) by nia. subst. f_equal. lia.
Qed.
Lemma small_four a b c d : exists M, small M a /\ small M b /\ small M c /\ small M d.
Proof. exists (2 * (Z.abs (py a) + Z.abs (py b) + Z.abs (py c) + Z.abs (py d)) + 1). unfold small. lia. Qed.
Lemma less_irrefl a : point_less a a = false.
Proof. unfold point_less. rewrite Z.eqb_refl. apply Z.ltb_irrefl. Qed.
Lemma less_antisym a b : point_less a b = true -> point_less b a = true -> False.
Proof. unfold point_less. rewrite (Z.eqb_sym (px b)). destruct (Z.eqb_spec (px a) (px b)); lia. Qed.
Lemma less_total a b : a <> b -> point_less a b = true \/ point_less b a = true.
Proof.
  unfold point_less. rewrite (Z.eqb_sym (px b)). destruct a as (xa, ya), b as (xb, yb). unfold px, py in *. cbn [fst snd] in *. intros H. destruct (Z.eqb_spec xa xb) as [->|E]; [|lia].
  assert (ya <> yb) by congruence. lia.
Qed.
Lemma less_trans a b c : point_less a b = true -> point_less b c = true -> point_less a c = true.
Proof. unfold point_less. destruct (Z.eqb_spec (px a) (px b)), (Z.eqb_spec (px b) (px c)), (Z.eqb_spec (px a) (px c)); lia. Qed.
Lemma lo_hi e : fst e <> snd e -> point_less (llo e) (lhi e) = true.
Proof. intros N. unfold llo, lhi. destruct (point_less (snd e) (fst e)) eqn:E; [exact E|]. destruct (less_total _ _ N) as [H|H]; [exact H|congruence]. Qed.
Lemma lo_hi_ends e : (llo e = fst e /\ lhi e = snd e /\ lsgn e = 1) \/ (llo e = snd e /\ lhi e = fst e /\ lsgn e = -1).
Proof. unfold llo, lhi, lsgn. destruct (point_less _ _); auto. Qed.

(** ** Areas *)
Lemma area_shear M a b c d z : let P := area2 a b in
  (lx M b - lx M a) * area2 c d z = (lx M d - lx M c) * (P z - P c) - (lx M z - lx M c) * (P d - P c).
Proof. unfold area2, lx. cbn zeta. ring. Qed.
Lemma area_aba a b : area2 a b a = 0. Proof. unfold area2. ring. Qed.
Lemma area_abb a b : area2 a b b = 0. Proof. unfold area2. ring. Qed.

(** ** From planarity to signs *)
Definition strictly (e : edge) (v : point) : Prop := point_less (llo e) v = true /\ point_less v (lhi e) = true.
Record apart (e1 e2 : edge) : Prop := {
  ap_ends : forall v, v = llo e2 \/ v = lhi e2 -> strictly e1 v -> area2 (llo e1) (lhi e1) v <> 0;
  ap_sdne : forall v, v = llo e1 \/ v = lhi e1 -> strictly e2 v -> area2 (llo e2) (lhi e2) v <> 0;
  ap_cross : area2 (llo e1) (lhi e1) (llo e2) * area2 (llo e1) (lhi e1) (lhi e2) < 0 -> area2 (llo e2) (lhi e2) (llo e1) * area2 (llo e2) (lhi e2) (lhi e1) < 0 -> False }.
Lemma on_seg_sym a b X Y : on_seg a b X Y -> on_seg b a X Y.
Proof.
  intros (t & (T0 & T1) & EX & EY). exists (1 - t)%Q. split; [split; lra|]. unfold Z.sub in *. rewrite !inject_Z_plus, !inject_Z_opp in *. rewrite EX, EY. split; ring.
Qed.
Lemma on_llo e X Y : on_seg (llo e) (lhi e) X Y <-> on_seg (fst e) (snd e) X Y.
Proof. unfold llo, lhi. destruct (point_less _ _); split; auto using on_seg_sym. Qed.
Lemma inj_eq a b : (inject_Z a == inject_Z b)%Q <-> a = b.
Proof. unfold Qeq. cbn. lia. Qed.
Lemma on_at a b n d X Y : 0 < d -> 0 <= n <= d -> (inject_Z d * X == inject_Z (d * px a + n * (px b - px a)))%Q -> (inject_Z d * Y == inject_Z (d * py a + n * (py b - py a)))%Q -> on_seg a b X Y.
Proof.
  intros D N EX EY. assert (DQ : ~ (inject_Z d == 0)%Q) by (change 0%Q with (inject_Z 0); rewrite inj_eq; lia). exists (inject_Z n / inject_Z d)%Q. split.
  - assert (0 < inject_Z d)%Q by (change 0%Q with (inject_Z 0); rewrite <- Zlt_Qlt; exact D). split.
    + apply Qle_shift_div_l; [assumption|]. rewrite Qmult_0_l. change 0%Q with (inject_Z 0). rewrite <- Zle_Qle. lia.
    + apply Qle_shift_div_r; [assumption|]. rewrite Qmult_1_l. rewrite <- Zle_Qle. lia.
  - rewrite inject_Z_plus, !inject_Z_mult in EX, EY. split.
    + apply (Qmult_inj_l _ _ _ DQ). rewrite EX. field. exact DQ.
    + apply (Qmult_inj_l _ _ _ DQ). rewrite EY. field. exact DQ.
Qed.
Lemma strictly_on e v : strictly e v -> area2 (llo e) (lhi e) v = 0 -> on_seg (fst e) (snd e) (injX v) (injY v).
Proof.
  intros (A & B) H. apply on_llo. set (a := llo e) in *. set (b := lhi e) in *. destruct (small_four a b v v) as (M & SA & SB & SV & _). rewrite (less_lx M) in A, B by assumption.
  apply (on_at a b (lx M v - lx M a) (lx M b - lx M a)); [lia|lia| |]; unfold injX, injY; rewrite <- inject_Z_mult, inj_eq; apply Z.sub_move_0_r.
  - match goal with |- ?L = 0 => first [replace L with (area2 a b v) by (unfold area2, lx; ring)|replace L with (- area2 a b v) by (unfold area2, lx; ring)] end. lia.
  - match goal with |- ?L = 0 => first [replace L with (M * area2 a b v) by (unfold area2, lx; ring)|replace L with (- M * area2 a b v) by (unfold area2, lx; ring)] end. rewrite H. ring.
Qed.
Lemma on_area a b v : on_seg a b (injX v) (injY v) -> area2 a b v = 0.
Proof.
  intros (t & _ & EX & EY). unfold injX, injY in *.
  assert (H : (inject_Z (px b - px a) * (inject_Z (py v) - inject_Z (py a)) == inject_Z (py b - py a) * (inject_Z (px v) - inject_Z (px a)))%Q) by (rewrite EX, EY; ring).
  unfold Qminus in H. rewrite <- !inject_Z_opp, <- !inject_Z_plus, <- !inject_Z_mult, inj_eq in H. unfold area2. lia.
Qed.
Lemma strictly_not_end e v : strictly e v -> ~ end_of e (injX v) (injY v).
Proof.
  intros (A & B) H. assert (v = fst e \/ v = snd e) as W.
  { destruct H as [(X & Y)|(X & Y)]; unfold injX, injY in *; rewrite !inj_eq in *; [left|right]; destruct v, (fst e), (snd e); unfold px, py in *; cbn in *; congruence. }
  destruct (lo_hi_ends e) as [(E1 & E2 & _)|(E1 & E2 & _)]; rewrite E1, E2 in *; destruct W as [->| ->]; rewrite less_irrefl in *; discriminate.
Qed.
Lemma cross_common a b c d : area2 a b c * area2 a b d < 0 -> area2 c d a * area2 c d b < 0 ->
  exists X Y, on_seg a b X Y /\ on_seg c d X Y.
Proof.
  intros H1 H2. set (D := area2 c d a - area2 c d b). assert (D <> 0) by (unfold D; nia).
  assert (DE : area2 a b d - area2 a b c = D) by (unfold D, area2; ring).
  (* the point a + (Qa/D)(b - a) *)
  set (s := Z.sgn D). assert (SD : 0 < s * D) by (unfold s; rewrite Z.mul_comm; rewrite <- Z.abs_sgn; lia). assert (S1 : s = 1 \/ s = -1) by (unfold s; lia). clearbody s.
  assert (DQ : ~ (inject_Z (s * D) == 0)%Q) by (change 0%Q with (inject_Z 0); rewrite inj_eq; lia).
  exists (inject_Z (s * D * px a + s * area2 c d a * (px b - px a)) / inject_Z (s * D))%Q, (inject_Z (s * D * py a + s * area2 c d a * (py b - py a)) / inject_Z (s * D))%Q. split.
  - apply (on_at a b (s * area2 c d a) (s * D)); [exact SD| | |]; try (field; exact DQ). unfold D in *. destruct S1 as [->| ->]; nia.
  - apply (on_at c d (s * - area2 a b c) (s * D)); [exact SD| | |].
    + destruct S1 as [->| ->]; nia.
    + transitivity (inject_Z (s * D * px a + s * area2 c d a * (px b - px a))); [field; exact DQ|]. rewrite inj_eq. unfold D, area2. ring.
    + transitivity (inject_Z (s * D * py a + s * area2 c d a * (py b - py a))); [field; exact DQ|]. rewrite inj_eq. unfold D, area2. ring.
Qed.
Lemma same_ends_lohi e1 e2 : fst e1 <> snd e1 -> same_ends e1 e2 -> llo e1 = llo e2 /\ lhi e1 = lhi e2.
Proof.
  intros N [->| ->]; [auto|]. unfold llo, lhi. cbn [fst snd]. destruct (point_less (fst e2) (snd e2)) eqn:E1, (point_less (snd e2) (fst e2)) eqn:E2; auto; exfalso.
  - eapply less_antisym; eassumption.
  - cbn in N. destruct (less_total _ _ N); congruence.
Qed.
Lemma planar_apart es e1 e2 : planar es -> proper_lines es -> In e1 es -> In e2 es -> apart e1 e2.
Proof.
  intros PL PR I1 I2. destruct (PL e1 e2 I1 I2) as [S|S].
  - destruct (same_ends_lohi _ _ (PR _ I1) S) as (E1 & E2). constructor; unfold strictly; rewrite E1, E2.
    + intros v [->| ->] (A & B); rewrite less_irrefl in *; discriminate.
    + intros v [->| ->] (A & B); rewrite less_irrefl in *; discriminate.
    + rewrite area_aba. lia.
  - assert (EN : forall e v, v = llo e \/ v = lhi e -> on_seg (fst e) (snd e) (injX v) (injY v)).
    { intros e v H. apply on_llo. destruct H as [->| ->]; [exists 0%Q|exists 1%Q]; (split; [split; discriminate|]); unfold injX, injY; unfold Z.sub; rewrite !inject_Z_plus, !inject_Z_opp; split; ring. }
    constructor.
    + intros v H ST Z. apply (strictly_not_end e1 v ST). apply S; [apply strictly_on; assumption|apply EN; exact H].
    + intros v H ST Z. apply (strictly_not_end e2 v ST). apply S; [apply EN; exact H|apply strictly_on; assumption].
    + intros H1 H2. destruct (cross_common _ _ _ _ H1 H2) as (X & Y & O1 & O2). assert (O3 := proj1 (on_llo _ _ _) O2). apply on_llo in O1. destruct (S X Y O1 O3) as (E & _).
      assert (G : forall v, (X == injX v /\ Y == injY v)%Q -> area2 (llo e2) (lhi e2) v = 0).
      { intros v (A & B). apply on_area. destruct O2 as (t & T & U & W). exists t. rewrite <- A, <- B. auto. }
      destruct (lo_hi_ends e1) as [(L1 & L2 & _)|(L1 & L2 & _)]; rewrite L1, L2 in H2; destruct E as [E|E]; apply G in E; rewrite E in H2; lia.
Qed.
