(** Proofs about the fractions, the crossing test and the stored points. *)
From Coq Require Import List Bool Arith ZArith QArith Qround Lia Lqa.
From Verif Require Import GeomModel GeomSpec RasterModel RasterSpec PointSinkSpec PointSinkProofs.
Import ListNotations.
Local Open Scope Z_scope.

Lemma make_frac_valid n d : d <> 0 -> frac_valid (make_frac n d).
Proof. unfold make_frac, frac_valid. intros H. destruct (Z.ltb_spec d 0); cbn; lia. Qed.
Lemma inject_neq z : z <> 0 -> ~ (inject_Z z == 0)%Q.
Proof. unfold Qeq, inject_Z. cbn. lia. Qed.
Lemma frac_val_div f : frac_valid f -> (frac_val f == inject_Z (fr_num f) / inject_Z (fr_den f))%Q.
Proof.
  unfold frac_valid, frac_val. intros H. unfold Qeq, Qdiv, Qmult, Qinv, inject_Z. cbn.
  destruct (fr_den f) as [|p|p]; try lia. cbn. lia.
Qed.
Lemma make_frac_val n d : d <> 0 -> (frac_val (make_frac n d) == inject_Z n / inject_Z d)%Q.
Proof.
  intros H. rewrite frac_val_div by (apply make_frac_valid; exact H). unfold make_frac. destruct (Z.ltb_spec d 0); cbn; [|reflexivity].
  rewrite !inject_Z_opp. field. apply inject_neq. exact H.
Qed.
Lemma same_order_compare x y : same_order (x ?= y)%Q x y.
Proof. unfold same_order. destruct (x ?= y)%Q eqn:E; [apply Qeq_alt; exact E|apply Qlt_alt; exact E|apply Qgt_alt; exact E]. Qed.
Lemma frac_cmp_val a b : frac_valid a -> frac_valid b -> frac_cmp a b = (frac_val a ?= frac_val b)%Q.
Proof. unfold frac_valid, frac_cmp, frac_val, Qcompare. cbn. intros Ha Hb. rewrite !Z2Pos.id by lia. reflexivity. Qed.
Lemma frac_cmp_int_val a b : frac_valid a -> frac_cmp_int a b = (frac_val a ?= inject_Z b)%Q.
Proof. unfold frac_valid, frac_cmp_int, frac_val, Qcompare, inject_Z. cbn. intros Ha. rewrite !Z2Pos.id by lia. rewrite Z.mul_1_r. reflexivity. Qed.
Lemma frac_eqb_val a b : frac_valid a -> frac_valid b -> (frac_eqb a b = true <-> (frac_val a == frac_val b)%Q).
Proof. unfold frac_valid, frac_eqb, frac_val, Qeq. cbn. intros Ha Hb. rewrite !Z2Pos.id by lia. apply Z.eqb_eq. Qed.

Lemma frac_proper_bounds f : frac_valid f -> 0 <= fr_num f < fr_den f -> (0 <= frac_val f /\ frac_val f < 1)%Q.
Proof. unfold frac_valid, frac_val, Qle, Qlt. cbn. intros H B. rewrite Z2Pos.id by lia. lia. Qed.

Lemma wf_cmp_val a b : proper a -> proper b -> same_order (wf_cmp a b) (wf_val a) (wf_val b).
Proof.
  intros (Va & Ba) (Vb & Bb). unfold wf_cmp, wf_val. destruct (frac_proper_bounds _ Va Ba) as (A1 & A2). destruct (frac_proper_bounds _ Vb Bb) as (B1 & B2).
  destruct (Z.compare_spec (wf_whole a) (wf_whole b)) as [E|E|E]; unfold same_order.
  - rewrite frac_cmp_val by assumption. pose proof (same_order_compare (frac_val (wf_frac a)) (frac_val (wf_frac b))) as S. unfold same_order in S.
    rewrite E. destruct (_ ?= _)%Q; lra.
  - assert (inject_Z (wf_whole a) + 1 <= inject_Z (wf_whole b))%Q by (change 1%Q with (inject_Z 1); rewrite <- inject_Z_plus, <- Zle_Qle; lia). lra.
  - assert (inject_Z (wf_whole b) + 1 <= inject_Z (wf_whole a))%Q by (change 1%Q with (inject_Z 1); rewrite <- inject_Z_plus, <- Zle_Qle; lia). lra.
Qed.
Lemma wf_cmp_int_val a y : proper a -> same_order (wf_cmp_int a y) (wf_val a) (inject_Z y).
Proof.
  intros (Va & Ba). unfold wf_cmp_int, wf_val. destruct (frac_proper_bounds _ Va Ba) as (A1 & A2).
  destruct (Z.compare_spec (wf_whole a) y) as [E|E|E]; unfold same_order.
  - rewrite frac_cmp_int_val by assumption. pose proof (same_order_compare (frac_val (wf_frac a)) (inject_Z 0)) as S. unfold same_order in S.
    change (inject_Z 0) with 0%Q in *. rewrite E. destruct (_ ?= _)%Q; lra.
  - assert (inject_Z (wf_whole a) + 1 <= inject_Z y)%Q by (change 1%Q with (inject_Z 1); rewrite <- inject_Z_plus, <- Zle_Qle; lia). lra.
  - assert (inject_Z y + 1 <= inject_Z (wf_whole a))%Q by (change 1%Q with (inject_Z 1); rewrite <- inject_Z_plus, <- Zle_Qle; lia). lra.
Qed.
Lemma wf_eqb_val a b : proper a -> proper b -> (wf_eqb a b = true <-> (wf_val a == wf_val b)%Q).
Proof.
  intros Pa Pb. pose proof (wf_cmp_val a b Pa Pb) as S. destruct Pa as (Va & Ba), Pb as (Vb & Bb). unfold wf_eqb. rewrite andb_true_iff, Z.eqb_eq, (frac_eqb_val _ _ Va Vb).
  unfold wf_cmp in S. split.
  - intros (E & F). unfold wf_val. rewrite E, F. reflexivity.
  - intros E. destruct (Z.compare_spec (wf_whole a) (wf_whole b)) as [W|W|W]; unfold same_order in S.
    + split; [exact W|]. unfold wf_val in E. rewrite W in E. lra.
    + lra.
    + lra.
Qed.

(** The division. *)
Lemma code_euclid_spec a d : d <> 0 -> let '(q, r) := code_euclid a d in
  a * Z.sgn d = q * Z.abs d + r /\ 0 <= r <= Z.abs d /\
  (r = Z.abs d <-> a mod d = 0 /\ xorb (a <? 0) (d <? 0) = true).
Proof.
  intros H. unfold code_euclid. assert (AD : 0 < Z.abs d) by lia.
  pose proof (Z.div_mod (Z.abs a) (Z.abs d) ltac:(lia)) as DM. pose proof (Z.mod_pos_bound (Z.abs a) (Z.abs d) AD) as MB.
  assert (M0 : a mod d = 0 <-> Z.abs a mod Z.abs d = 0).
  { rewrite !Z.mod_divide by lia. rewrite Z.divide_abs_l, Z.divide_abs_r. reflexivity. }
  set (q := Z.abs a / Z.abs d) in *. set (r := Z.abs a mod Z.abs d) in *. clearbody q r.
  destruct (xorb (a <? 0) (d <? 0)) eqn:X; (split; [|split]).
  - destruct (Z.ltb_spec a 0), (Z.ltb_spec d 0); cbn in X; try discriminate; nia.
  - lia.
  - rewrite M0. split; [intros; split; [lia|reflexivity]|lia].
  - destruct (Z.ltb_spec a 0), (Z.ltb_spec d 0); cbn in X; try discriminate; nia.
  - lia.
  - split; [intros; lia|intros (_ & ?); discriminate].
Qed.
Lemma code_euclid_val a d : d <> 0 -> let '(q, r) := code_euclid a d in
  (wf_val (mk_wfrac q (mk_frac r (Z.abs d))) == inject_Z a / inject_Z d)%Q.
Proof.
  intros H. pose proof (code_euclid_spec a d H) as S. destruct (code_euclid a d) as (q, r). destruct S as (E & _ & _).
  unfold wf_val. cbn [wf_whole wf_frac]. rewrite frac_val_div by (unfold frac_valid; cbn; lia). cbn [fr_num fr_den].
  assert (D : ~ (inject_Z (Z.abs d) == 0)%Q) by (apply inject_neq; lia).
  assert (D' : ~ (inject_Z d == 0)%Q) by (apply inject_neq; exact H).
  assert (EQ : (inject_Z a * inject_Z (Z.sgn d) == inject_Z q * inject_Z (Z.abs d) + inject_Z r)%Q) by (rewrite <- !inject_Z_mult, <- inject_Z_plus, E; reflexivity).
  assert (SG : (inject_Z (Z.sgn d) * inject_Z d == inject_Z (Z.abs d))%Q) by (rewrite <- inject_Z_mult; replace (Z.sgn d * d) with (Z.abs d) by lia; reflexivity).
  assert (X : (inject_Z q + inject_Z r / inject_Z (Z.abs d) == (inject_Z q * inject_Z (Z.abs d) + inject_Z r) / inject_Z (Z.abs d))%Q) by (field; exact D).
  rewrite X, <- EQ, <- SG. field. split; [exact D'|]. apply inject_neq. lia.
Qed.

(** The crossing test. *)
Definition det (s1 s2 : cseg) : Z := (px (sg_pa s1) - px (sg_pb s1)) * (py (sg_pa s2) - py (sg_pb s2)) - (py (sg_pa s1) - py (sg_pb s1)) * (px (sg_pa s2) - px (sg_pb s2)).
Definition tnum (s1 s2 : cseg) : Z := (px (sg_pa s1) - px (sg_pa s2)) * (py (sg_pa s2) - py (sg_pb s2)) - (py (sg_pa s1) - py (sg_pa s2)) * (px (sg_pa s2) - px (sg_pb s2)).
Definition unum (s1 s2 : cseg) : Z := (px (sg_pa s1) - px (sg_pa s2)) * (py (sg_pa s1) - py (sg_pb s1)) - (py (sg_pa s1) - py (sg_pa s2)) * (px (sg_pa s1) - px (sg_pb s1)).
Definition within (d t : Z) : Prop := (0 < d /\ 0 < t < d) \/ (d < 0 /\ d < t < 0).

Lemma within_Q d t : within d t <-> d <> 0 /\ (0 < inject_Z t / inject_Z d /\ inject_Z t / inject_Z d < 1)%Q.
Proof.
  unfold within. split.
  - intros [(D & T)|(D & T)]; (split; [lia|]).
    + assert (P : (0 < inject_Z d)%Q) by (change 0%Q with (inject_Z 0); rewrite <- Zlt_Qlt; lia).
      split; [apply Qlt_shift_div_l; [exact P|]; rewrite Qmult_0_l; change 0%Q with (inject_Z 0); rewrite <- Zlt_Qlt; lia|].
      apply Qlt_shift_div_r; [exact P|]. rewrite Qmult_1_l, <- Zlt_Qlt. lia.
    + assert (P : (0 < inject_Z (- d))%Q) by (change 0%Q with (inject_Z 0); rewrite <- Zlt_Qlt; lia).
      assert (E : (inject_Z t / inject_Z d == inject_Z (- t) / inject_Z (- d))%Q) by (rewrite !inject_Z_opp; field; apply inject_neq; lia).
      rewrite E. split; [apply Qlt_shift_div_l; [exact P|]; rewrite Qmult_0_l; change 0%Q with (inject_Z 0); rewrite <- Zlt_Qlt; lia|].
      apply Qlt_shift_div_r; [exact P|]. rewrite Qmult_1_l, <- Zlt_Qlt. lia.
  - intros (D & A & B). assert (D' : ~ (inject_Z d == 0)%Q) by (apply inject_neq; exact D).
    set (x := (inject_Z t / inject_Z d)%Q) in *. assert (E : (inject_Z t == x * inject_Z d)%Q) by (unfold x; field; exact D').
    destruct (Z.lt_trichotomy d 0) as [L|[L|L]]; [right|lia|left]; (split; [exact L|]).
    + assert (P : (inject_Z d < 0)%Q) by (change 0%Q with (inject_Z 0); rewrite <- Zlt_Qlt; lia).
      rewrite !Zlt_Qlt. change (inject_Z 0) with 0%Q. clearbody x. split; nra.
    + assert (P : (0 < inject_Z d)%Q) by (change 0%Q with (inject_Z 0); rewrite <- Zlt_Qlt; lia).
      rewrite !Zlt_Qlt. change (inject_Z 0) with 0%Q. clearbody x. split; nra.
Qed.

Definition shared (s1 s2 : cseg) : bool :=
  (Nat.eqb (sg_a s1) (sg_a s2) || Nat.eqb (sg_a s1) (sg_b s2) || Nat.eqb (sg_b s1) (sg_a s2) || Nat.eqb (sg_b s1) (sg_b s2))%bool.
Lemma rintersects_eq s1 s2 w : rintersects s1 s2 = Some w <->
  shared s1 s2 = false /\ within (det s1 s2) (tnum s1 s2) /\ within (det s1 s2) (unum s1 s2) /\
  (let '(q, r) := code_euclid (tnum s1 s2 * (py (sg_pb s1) - py (sg_pa s1)) + det s1 s2 * py (sg_pa s1)) (det s1 s2) in
   w = mk_wfrac q (mk_frac r (Z.abs (det s1 s2)))).
Proof.
  unfold rintersects. fold (shared s1 s2). cbv zeta. change ((px (sg_pa s1) - px (sg_pb s1)) * (py (sg_pa s2) - py (sg_pb s2)) - (py (sg_pa s1) - py (sg_pb s1)) * (px (sg_pa s2) - px (sg_pb s2))) with (det s1 s2).
  change ((px (sg_pa s1) - px (sg_pa s2)) * (py (sg_pa s2) - py (sg_pb s2)) - (py (sg_pa s1) - py (sg_pa s2)) * (px (sg_pa s2) - px (sg_pb s2))) with (tnum s1 s2).
  change ((px (sg_pa s1) - px (sg_pa s2)) * (py (sg_pa s1) - py (sg_pb s1)) - (py (sg_pa s1) - py (sg_pa s2)) * (px (sg_pa s1) - px (sg_pb s1))) with (unum s1 s2).
  generalize (det s1 s2) (tnum s1 s2) (unum s1 s2). intros d t u. destruct (shared s1 s2); [split; [discriminate|intros (? & _); discriminate]|].
  destruct (Z.eqb_spec d 0) as [->|D]; [split; [discriminate|unfold within; lia]|].
  destruct (if 0 <? d then _ else _) eqn:C.
  - split; [discriminate|]. unfold within. intros (_ & A & B & _). exfalso. destruct (Z.ltb_spec 0 d); rewrite !orb_true_iff, !Z.leb_le in C; lia.
  - assert (within d t /\ within d u) as (A & B).
    { unfold within. destruct (Z.ltb_spec 0 d); rewrite !orb_false_iff, !Z.leb_gt in C; lia. }
    destruct (code_euclid _ d) as (q, r). split; [intros E; injection E as <-; auto|intros (_ & _ & _ & ->); reflexivity].
Qed.

Definition qd (s1 s2 : cseg) : Q := inject_Z (det s1 s2).
Lemma inject_sub a b : (inject_Z (a - b) == inject_Z a - inject_Z b)%Q.
Proof. unfold Z.sub. rewrite inject_Z_plus, inject_Z_opp. reflexivity. Qed.
Lemma det_cross s1 s2 : det s1 s2 = dir_cross (sg_pa s1) (sg_pb s1) (sg_pa s2) (sg_pb s2).
Proof. unfold det, dir_cross. ring. Qed.
Lemma det_Q s1 s2 : (inject_Z (det s1 s2) == (injX (sg_pa s1) - injX (sg_pb s1)) * (injY (sg_pa s2) - injY (sg_pb s2)) - (injY (sg_pa s1) - injY (sg_pb s1)) * (injX (sg_pa s2) - injX (sg_pb s2)))%Q.
Proof. unfold det, injX, injY. rewrite inject_sub, !inject_Z_mult, !inject_sub. reflexivity. Qed.
Lemma tnum_Q s1 s2 : (inject_Z (tnum s1 s2) == (injX (sg_pa s1) - injX (sg_pa s2)) * (injY (sg_pa s2) - injY (sg_pb s2)) - (injY (sg_pa s1) - injY (sg_pa s2)) * (injX (sg_pa s2) - injX (sg_pb s2)))%Q.
Proof. unfold tnum, injX, injY. rewrite inject_sub, !inject_Z_mult, !inject_sub. reflexivity. Qed.
Lemma unum_Q s1 s2 : (inject_Z (unum s1 s2) == (injX (sg_pa s1) - injX (sg_pa s2)) * (injY (sg_pa s1) - injY (sg_pb s1)) - (injY (sg_pa s1) - injY (sg_pa s2)) * (injX (sg_pa s1) - injX (sg_pb s1)))%Q.
Proof. unfold unum, injX, injY. rewrite inject_sub, !inject_Z_mult, !inject_sub. reflexivity. Qed.
Definition ynum (s1 s2 : cseg) : Z := tnum s1 s2 * (py (sg_pb s1) - py (sg_pa s1)) + det s1 s2 * py (sg_pa s1).
Lemma ynum_Q s1 s2 : (inject_Z (ynum s1 s2) == inject_Z (tnum s1 s2) * (injY (sg_pb s1) - injY (sg_pa s1)) + inject_Z (det s1 s2) * injY (sg_pa s1))%Q.
Proof. unfold ynum, injX, injY. rewrite inject_Z_plus, !inject_Z_mult, inject_sub. reflexivity. Qed.

Lemma cross_sound s1 s2 : within (det s1 s2) (tnum s1 s2) -> within (det s1 s2) (unum s1 s2) ->
  exists X, cross_at s1 s2 X (inject_Z (ynum s1 s2) / inject_Z (det s1 s2))%Q.
Proof.
  intros T U. apply within_Q in T as (D & T1 & T2). apply within_Q in U as (_ & U1 & U2).
  exists (injX (sg_pa s1) + inject_Z (tnum s1 s2) / inject_Z (det s1 s2) * (injX (sg_pb s1) - injX (sg_pa s1)))%Q.
  split; [rewrite <- det_cross; exact D|]. exists (inject_Z (tnum s1 s2) / inject_Z (det s1 s2))%Q, (inject_Z (unum s1 s2) / inject_Z (det s1 s2))%Q.
  assert (D' : ~ (inject_Z (det s1 s2) == 0)%Q) by (apply inject_neq; exact D).
  split; [exact T1|]. split; [exact T2|]. split; [exact U1|]. split; [exact U2|]. clear T1 T2 U1 U2 D.
  pose proof (det_Q s1 s2) as Ed. rewrite ynum_Q, tnum_Q, unum_Q. set (d := inject_Z (det s1 s2)) in *. clearbody d.
  split; [reflexivity|]. split; [field; exact D'|].
  rewrite Ed in *. clear Ed d. split; field; exact D'.
Qed.
Lemma cross_complete s1 s2 X Y : cross_at s1 s2 X Y ->
  within (det s1 s2) (tnum s1 s2) /\ within (det s1 s2) (unum s1 s2) /\ (Y == inject_Z (ynum s1 s2) / inject_Z (det s1 s2))%Q.
Proof.
  intros (D & t & u & T1 & T2 & U1 & U2 & X1 & Y1 & X2 & Y2). rewrite <- det_cross in D.
  assert (D' : ~ (inject_Z (det s1 s2) == 0)%Q) by (apply inject_neq; exact D).
  assert (Et : (t * inject_Z (det s1 s2) == inject_Z (tnum s1 s2))%Q).
  { rewrite det_Q, tnum_Q. clear -X1 Y1 X2 Y2. rewrite X1 in X2. rewrite Y1 in Y2. 
    generalize dependent (injX (sg_pa s1)). generalize dependent (injX (sg_pb s1)). generalize dependent (injX (sg_pa s2)). generalize dependent (injX (sg_pb s2)).
    generalize dependent (injY (sg_pa s1)). generalize dependent (injY (sg_pb s1)). generalize dependent (injY (sg_pa s2)). generalize dependent (injY (sg_pb s2)).
    intros y4 y3 y2 y1 _ Y2 x4 x3 x2 x1 _ X2.
    assert (A : (t * (x2 - x1) == x3 + u * (x4 - x3) - x1)%Q) by lra. assert (B : (t * (y2 - y1) == y3 + u * (y4 - y3) - y1)%Q) by lra.
    transitivity (((t * (x2 - x1)) * (y4 - y3) - (t * (y2 - y1)) * (x4 - x3))%Q); [ring|]. rewrite A, B. ring. }
  assert (Eu : (u * inject_Z (det s1 s2) == inject_Z (unum s1 s2))%Q).
  { rewrite det_Q, unum_Q. clear -X1 Y1 X2 Y2. rewrite X1 in X2. rewrite Y1 in Y2. 
    generalize dependent (injX (sg_pa s1)). generalize dependent (injX (sg_pb s1)). generalize dependent (injX (sg_pa s2)). generalize dependent (injX (sg_pb s2)).
    generalize dependent (injY (sg_pa s1)). generalize dependent (injY (sg_pb s1)). generalize dependent (injY (sg_pa s2)). generalize dependent (injY (sg_pb s2)).
    intros y4 y3 y2 y1 _ Y2 x4 x3 x2 x1 _ X2.
    assert (A : (u * (x4 - x3) == x1 + t * (x2 - x1) - x3)%Q) by lra. assert (B : (u * (y4 - y3) == y1 + t * (y2 - y1) - y3)%Q) by lra.
    transitivity (((u * (y4 - y3)) * (x2 - x1) - (u * (x4 - x3)) * (y2 - y1))%Q); [ring|]. rewrite A, B. ring. }
  split; [|split].
  - apply within_Q. split; [exact D|]. rewrite <- Et. assert (E : (t * inject_Z (det s1 s2) / inject_Z (det s1 s2) == t)%Q) by (field; exact D'). rewrite E. auto.
  - apply within_Q. split; [exact D|]. rewrite <- Eu. assert (E : (u * inject_Z (det s1 s2) / inject_Z (det s1 s2) == u)%Q) by (field; exact D'). rewrite E. auto.
  - rewrite ynum_Q, <- Et, Y1. field. exact D'.
Qed.
(** Segments with a common end do not cross elsewhere. *)
Lemma shared_no_cross s1 s2 X Y : ends_agree s1 s2 -> shared s1 s2 = true -> ~ cross_at s1 s2 X Y.
Proof.
  intros (E1 & E2 & E3 & E4) H C. apply cross_complete in C as (T & U & _). unfold shared in H. rewrite !orb_true_iff, !Nat.eqb_eq in H.
  unfold within, det, tnum, unum in *. destruct H as [[[H|H]|H]|H].
  - rewrite (E1 H) in *. lia.
  - rewrite (E2 H) in *. nia.
  - rewrite (E3 H) in *. nia.
  - rewrite (E4 H) in *. nia.
Qed.
Lemma rintersects_iff s1 s2 : ends_agree s1 s2 ->
  ((exists w, rintersects s1 s2 = Some w) <-> exists X Y, cross_at s1 s2 X Y).
Proof.
  intros H. split.
  - intros (w & E). apply rintersects_eq in E as (_ & T & U & _). destruct (cross_sound _ _ T U) as (X & C). eauto.
  - intros (X & Y & C). pose proof (shared_no_cross s1 s2 X Y H) as S. pose proof (cross_complete _ _ _ _ C) as (T & U & _).
    fold (ynum s1 s2) in *.
    destruct (code_euclid (ynum s1 s2) (det s1 s2)) as (q, r) eqn:E.
    exists (mk_wfrac q (mk_frac r (Z.abs (det s1 s2)))). apply rintersects_eq. fold (ynum s1 s2). rewrite E.
    destruct (shared s1 s2); [exfalso; apply S; auto|]. auto.
Qed.
Lemma rintersects_value s1 s2 w X Y : rintersects s1 s2 = Some w -> cross_at s1 s2 X Y -> (wf_val w == Y)%Q.
Proof.
  intros E C. apply rintersects_eq in E as (_ & _ & _ & E). fold (ynum s1 s2) in E. pose proof (cross_complete _ _ _ _ C) as (_ & _ & V).
  destruct C as (D & _). rewrite <- det_cross in D. pose proof (code_euclid_val (ynum s1 s2) (det s1 s2) D) as W.
  destruct (code_euclid _ _) as (q, r). subst w. rewrite W, V. reflexivity.
Qed.
(** The shape of the value: proper, unless the crossing is at a whole number. *)
Lemma rintersects_shape s1 s2 w : rintersects s1 s2 = Some w ->
  0 < fr_den (wf_frac w) /\ 0 <= fr_num (wf_frac w) <= fr_den (wf_frac w).
Proof.
  intros E. apply rintersects_eq in E as (_ & T & _ & E). fold (ynum s1 s2) in E. assert (D : det s1 s2 <> 0) by (unfold within in T; lia).
  pose proof (code_euclid_spec (ynum s1 s2) _ D) as S. destruct (code_euclid _ _) as (q, r). destruct S as (_ & B & _). subst w. cbn. lia.
Qed.

(** The place of an edge on a row. *)
Lemma x_intercept_valid s e y : py s <> py e -> frac_valid (x_intercept s e y).
Proof. intros H. apply make_frac_valid. lia. Qed.
Lemma x_intercept_val s e y : py s <> py e -> (frac_val (x_intercept s e y) == line_x s e (inject_Z y))%Q.
Proof.
  intros H. unfold x_intercept. rewrite make_frac_val by lia. unfold line_x, injX, injY.
  rewrite inject_Z_plus, !inject_Z_mult, !inject_sub. field.
  assert (A : ~ (inject_Z (py s - py e) == 0)%Q) by (apply inject_neq; lia). rewrite inject_sub in A. split; lra.
Qed.
Lemma line_x_between a b y : py a <= y <= py b -> py a < py b ->
  (inject_Z (Z.min (px a) (px b)) <= line_x a b (inject_Z y) <= inject_Z (Z.max (px a) (px b)))%Q.
Proof.
  intros Y H. unfold line_x, injX, injY. set (t := ((inject_Z y - inject_Z (py a)) / (inject_Z (py b) - inject_Z (py a)))%Q).
  assert (P : (0 < inject_Z (py b) - inject_Z (py a))%Q) by (rewrite <- inject_sub; change 0%Q with (inject_Z 0); rewrite <- Zlt_Qlt; lia).
  assert (T : (0 <= t /\ t <= 1)%Q).
  { unfold t. split; [apply Qle_shift_div_l; [exact P|]|apply Qle_shift_div_r; [exact P|]].
    - rewrite Qmult_0_l, <- inject_sub. change 0%Q with (inject_Z 0). rewrite <- Zle_Qle. lia.
    - rewrite Qmult_1_l, <- !inject_sub, <- Zle_Qle. lia. }
  assert (A1 : (inject_Z (Z.min (px a) (px b)) <= inject_Z (px a))%Q) by (rewrite <- Zle_Qle; lia).
  assert (A2 : (inject_Z (Z.min (px a) (px b)) <= inject_Z (px b))%Q) by (rewrite <- Zle_Qle; lia).
  assert (A3 : (inject_Z (px a) <= inject_Z (Z.max (px a) (px b)))%Q) by (rewrite <- Zle_Qle; lia).
  assert (A4 : (inject_Z (px b) <= inject_Z (Z.max (px a) (px b)))%Q) by (rewrite <- Zle_Qle; lia).
  clearbody t. split; nra.
Qed.

(** Rounding towards zero and clamping keep the order. *)
Lemma clamp_mono x y lo hi : lo <= hi -> x <= y -> clamp x lo hi <= clamp y lo hi.
Proof. unfold clamp. intros. destruct (Z.ltb_spec x lo), (Z.ltb_spec y lo), (Z.ltb_spec hi x), (Z.ltb_spec hi y); lia. Qed.
Lemma clamp_range x lo hi : lo <= hi -> lo <= clamp x lo hi <= hi.
Proof. unfold clamp. intros. destruct (Z.ltb_spec x lo), (Z.ltb_spec hi x); lia. Qed.
Lemma quot_bounds n d : 0 < d -> (0 <= n -> Z.quot n d * d <= n < (Z.quot n d + 1) * d) /\ (n <= 0 -> (Z.quot n d - 1) * d < n <= Z.quot n d * d).
Proof.
  intros H. pose proof (Z.quot_rem n d ltac:(lia)) as E. split; intros N.
  - pose proof (Z.rem_bound_pos n d N H). nia.
  - pose proof (Z.rem_bound_abs n d ltac:(lia)). pose proof (Z.rem_nonpos n d ltac:(lia) N). nia.
Qed.
Lemma quot_mono n1 d1 n2 d2 : 0 < d1 -> 0 < d2 -> n1 * d2 <= n2 * d1 -> Z.quot n1 d1 <= Z.quot n2 d2.
Proof.
  intros H1 H2 L. destruct (quot_bounds n1 d1 H1) as (A & B). destruct (quot_bounds n2 d2 H2) as (C & D).
  destruct (Z_le_gt_dec (Z.quot n1 d1) (Z.quot n2 d2)) as [?|G]; [assumption|exfalso].
  assert (P : 0 < d1 * d2) by nia. set (q1 := Z.quot n1 d1) in *. set (q2 := Z.quot n2 d2) in *. clearbody q1 q2.
  destruct (Z_le_gt_dec 0 n1), (Z_le_gt_dec 0 n2).
  - specialize (A ltac:(lia)). specialize (C ltac:(lia)).
    assert (q1 * d1 * d2 <= n1 * d2) by (apply Z.mul_le_mono_nonneg_r; lia). assert (n2 * d1 < (q2 + 1) * d2 * d1) by (apply Z.mul_lt_mono_pos_r; lia).
    assert (q1 * (d1 * d2) < (q2 + 1) * (d1 * d2)) as X by lia. apply Z.mul_lt_mono_pos_r in X; lia.
  - assert (n1 * d2 >= 0) by nia. assert (n2 * d1 < 0) by nia. lia.
  - specialize (B ltac:(lia)). specialize (C ltac:(lia)). assert (q1 - 1 < 0) by nia. assert (0 < q2 + 1) by nia. lia.
  - specialize (B ltac:(lia)). specialize (D ltac:(lia)).
    assert ((q1 - 1) * d1 * d2 < n1 * d2) by (apply Z.mul_lt_mono_pos_r; lia). assert (n2 * d1 <= q2 * d2 * d1) by (apply Z.mul_le_mono_nonneg_r; lia).
    assert ((q1 - 1) * (d1 * d2) < q2 * (d1 * d2)) as X by lia. apply Z.mul_lt_mono_pos_r in X; lia.
Qed.
Lemma to_coord_mono f g lo hi : lo <= hi -> frac_valid f -> frac_valid g -> (frac_val f <= frac_val g)%Q -> to_coord f lo hi <= to_coord g lo hi.
Proof.
  unfold to_coord, frac_valid, frac_val, Qle. cbn. intros H Vf Vg L. rewrite !Z2Pos.id in L by lia. apply clamp_mono; [exact H|]. apply quot_mono; assumption.
Qed.
Lemma to_coord_range f lo hi : lo <= hi -> lo <= to_coord f lo hi <= hi.
Proof. intros. apply clamp_range. assumption. Qed.
(** Towards zero means: the pixel that the place lies in, for places in the image. *)
Lemma to_coord_floor f hi : frac_valid f -> (0 <= frac_val f)%Q -> (frac_val f < inject_Z (hi + 1))%Q -> to_coord f 0 hi = Qround.Qfloor (frac_val f).
Proof.
  unfold to_coord, frac_valid, frac_val, Qle, Qlt, Qround.Qfloor. cbn. intros V P L. rewrite ?Z2Pos.id, ?Z.mul_1_r in * by lia.
  assert (E : Z.quot (fr_num f) (fr_den f) = fr_num f / fr_den f) by (apply Z.quot_div_nonneg; lia). rewrite E.
  assert (0 <= fr_num f / fr_den f) by (apply Z.div_pos; lia). assert (fr_num f / fr_den f < hi + 1) by (apply Z.div_lt_upper_bound; lia).
  unfold clamp. destruct (Z.ltb_spec (fr_num f / fr_den f) 0); [lia|]. destruct (Z.ltb_spec hi (fr_num f / fr_den f)); [lia|]. reflexivity.
Qed.

(** * Storing points *)
Lemma rback_app l x : rback (l ++ [x]) = Some x.
Proof. unfold rback. rewrite app_length. cbn [length]. rewrite nth_error_app2 by lia. replace (length l + 1 - 1 - length l)%nat with O by lia. reflexivity. Qed.
(** A chain that is not closed yet. *)
Fixpoint rchain (base : nat) (l : list point) : list rpoint :=
  match l with [] => [] | p :: l' => mk_rpoint p (S base) :: rchain (S base) l' end.
Lemma rchain_length l : forall b, length (rchain b l) = length l.
Proof. induction l; intros b; cbn; auto. Qed.
Lemma rchain_app l p : forall b, rchain b (l ++ [p]) = rchain b l ++ [mk_rpoint p (S (b + length l))].
Proof. induction l as [|q l IH]; intros b; cbn; [rewrite Nat.add_0_r; reflexivity|]. rewrite IH. do 4 f_equal. lia. Qed.
Lemma rback_chain pts b l d : l <> [] -> exists n, rback (pts ++ rchain b l) = Some (mk_rpoint (last l d) n).
Proof.
  intros N. destruct (exists_last N) as (m & x & ->). rewrite rchain_app, app_assoc, rback_app, last_last. eauto.
Qed.
Lemma puts_state pts l : forall m z, m <> [] -> 
  fold_left rsink_put l (mk_rsink (pts ++ rchain (length pts) (uniq m)) z (length pts) true) =
    (let mz := m ++ z :: l in mk_rsink (pts ++ rchain (length pts) (uniq (removelast mz))) (last mz z) (length pts) true).
Proof.
  induction l as [|p l IH]; intros m z N; cbn [fold_left].
  - cbv zeta. rewrite removelast_last, last_last. reflexivity.
  - unfold rsink_put at 2. cbn [rk_started rk_pts rk_prev rk_first].
    assert (U : uniq m <> []) by (destruct m as [|a m]; [congruence|]; destruct (uniq_hd a m) as (k & ->); discriminate).
    destruct (rback_chain pts (length pts) (uniq m) (0, 0) U) as (n & ->). cbn [rp_data].
    assert (LU : last (uniq m) (0, 0) = last m (0, 0)) by (destruct m as [|a m]; [congruence|]; apply last_uniq).
    assert (ST : (if point_eqb z (last (uniq m) (0, 0)) then mk_rsink (pts ++ rchain (length pts) (uniq m)) p (length pts) true
      else mk_rsink ((pts ++ rchain (length pts) (uniq m)) ++ [mk_rpoint z (S (length (pts ++ rchain (length pts) (uniq m))))]) p (length pts) true)
      = mk_rsink (pts ++ rchain (length pts) (uniq (m ++ [z]))) p (length pts) true).
    { rewrite uniq_app, LU. destruct (exists_last N) as (m0 & y & ->). rewrite rev_app_distr, last_last. cbn [rev app].
      destruct (point_eqb z y); [reflexivity|]. rewrite rchain_app, <- app_assoc, app_length, rchain_length. reflexivity. }
    rewrite ST. rewrite IH by (destruct m; discriminate). cbv zeta. rewrite <- app_assoc. cbn [app].
    f_equal. destruct m; [congruence|]. apply last_default. discriminate.
Qed.

(** What is left of a polygon: as norm, but the last point is compared with the first only
    if it differs from the one before. *)
Definition rnorm (l : list point) : list point :=
  let u := match rev l with
           | z :: y :: _ => if point_eqb z y then uniq l else open_end (uniq l)
           | _ => l
           end in
  if Nat.ltb (length u) 3 then [] else u.

Lemma rring_chain base l p : rring base (l ++ [p]) = rchain base l ++ [mk_rpoint p base].
Proof.
  unfold rring. rewrite app_length. cbn [length]. rewrite seq_app. cbn [seq].
  assert (C : forall (A B : Type) (a a' : list A) (b b' : list B), length a = length b -> combine (a ++ a') (b ++ b') = combine a b ++ combine a' b').
  { intros A B a. induction a as [|x a IH]; intros a' [|y b] b' L; try discriminate; [reflexivity|]. cbn in *. rewrite IH by lia. reflexivity. }
  rewrite C by apply seq_length. rewrite map_app. f_equal.
  - assert (G : forall n (m : list point) k, (k + length m <= n)%nat -> map (fun ip : nat * point => let '(i, q) := ip in mk_rpoint q (if Nat.eqb (S i) (n + 1) then base else (base + S i)%nat)) (combine (seq k (length m)) m) = rchain (base + k) m).
    { intros n m. induction m as [|q m IH]; intros k L; cbn [length seq combine map rchain] in *; [reflexivity|]. rewrite IH by lia.
      destruct (Nat.eqb_spec (S k) (n + 1)); [lia|]. replace (base + S k)%nat with (S (base + k)) by lia. reflexivity. }
    specialize (G (length l) l O). rewrite Nat.add_0_r in G. apply G. lia.
  - cbn [combine map Nat.add]. destruct (Nat.eqb_spec (S (length l)) (length l + 1)); [reflexivity|lia].
Qed.
Lemma nth_pts_chain pts l p m : l = p :: m -> nth_error (pts ++ rchain (length pts) l) (length pts) = Some (mk_rpoint p (S (length pts))).
Proof. intros ->. rewrite nth_error_app2, Nat.sub_diag by lia. reflexivity. Qed.

(** Closing. *)
Lemma close_ok pts L z f : pts ++ rchain (length pts) L <> [] -> True -> forall m, L = f :: m ->
  let u := if negb (point_eqb z (last L f)) && negb (point_eqb z f) then L ++ [z] else L in
  rsink_close (mk_rsink (pts ++ rchain (length pts) L) z (length pts) true) = pts ++ rring (length pts) (if Nat.ltb (length u) 3 then [] else u).
Proof.
  intros _ _ m E. cbv zeta. unfold rsink_close. cbn [rk_started rk_pts rk_prev rk_first].
  assert (N : L <> []) by (rewrite E; discriminate). destruct (rback_chain pts (length pts) L f N) as (n & ->). rewrite (nth_pts_chain pts L f m E). cbn [rp_data].
  set (app := negb (point_eqb z (last L f)) && negb (point_eqb z f)).
  set (u := if app then L ++ [z] else L).
  assert (exists v x k, u = v ++ [x] /\ (if app then (pts ++ rchain (length pts) L) ++ [mk_rpoint z 0] else pts ++ rchain (length pts) L) = pts ++ rchain (length pts) v ++ [mk_rpoint x k]) as (v & x & k & U & ->).
  { unfold u. destruct app; [exists L, z, O; split; [reflexivity|]; rewrite <- app_assoc; reflexivity|]. destruct (exists_last N) as (v & x & V). exists v, x, (S (length pts + length v)).
    split; [exact V|]. rewrite V, rchain_app. reflexivity. }
  assert (LU : length u = S (length v)) by (rewrite U, app_length; cbn; lia).
  rewrite !app_length, rchain_length. cbn [length]. replace (length pts + (length v + 1) - length pts)%nat with (S (length v)) by lia. rewrite LU.
  destruct (Nat.ltb_spec (S (length v)) 3).
  - replace (length pts + (length v + 1) - S (length v))%nat with (length pts + 0)%nat by lia. rewrite firstn_app_2. cbn. rewrite app_nil_r. reflexivity.
  - rewrite app_assoc, rback_app. cbn [rp_data]. rewrite U, rring_chain.
    replace (length pts + (length v + 1) - 1)%nat with (length (pts ++ rchain (length pts) v) + 0)%nat by (rewrite app_length, rchain_length; lia).
    rewrite firstn_app_2. cbn. rewrite app_nil_r, <- app_assoc. reflexivity.
Qed.

Lemma radd_loop_exact pts l : radd_loop pts l = pts ++ rring (length pts) (rnorm l).
Proof.
  unfold radd_loop. destruct l as [|f l].
  - cbn. rewrite app_nil_r. reflexivity.
  - cbn [fold_left]. unfold rsink_put at 2. cbn [rk_started rk_pts rk_prev rk_first].
    change ([mk_rpoint f (S (length pts))]) with (rchain (length pts) [f]).
    (* the first point counts as put twice *)
    destruct l as [|g l].
    + cbn [fold_left]. assert (A : pts ++ rchain (length pts) [f] <> []) by (destruct pts; discriminate).
      rewrite (close_ok pts [f] f f A I [] eq_refl). cbn [last]. assert (point_eqb f f = true) as -> by (apply point_eqb_eq; reflexivity). reflexivity.
    + change [f] with (uniq [f]). cbn [fold_left].
      assert (P1 : rsink_put (mk_rsink (pts ++ rchain (length pts) (uniq [f])) f (length pts) true) g = mk_rsink (pts ++ rchain (length pts) (uniq [f])) g (length pts) true).
      { unfold rsink_put. cbn [rk_started rk_pts rk_prev rk_first uniq rchain]. rewrite rback_app. cbn [rp_data]. assert (point_eqb f f = true) as -> by (apply point_eqb_eq; reflexivity). reflexivity. }
      rewrite P1, puts_state by discriminate. cbv zeta.
      set (w := [f] ++ g :: l). assert (WN : w <> []) by discriminate. destruct (exists_last WN) as (m & z & W).
      assert (MN : exists m', m = f :: m'). { unfold w in W. cbn in W. destruct m as [|a m]; cbn in W; [destruct l; discriminate|]. injection W as <- _. eauto. }
      destruct MN as (m' & M). rewrite W. rewrite removelast_last, last_last. 
      destruct (uniq_hd f m') as (k & UK). rewrite <- M in UK.
      assert (A : pts ++ rchain (length pts) (uniq m) <> []) by (rewrite UK; destruct pts; discriminate).
      rewrite (close_ok pts (uniq m) z f A I k UK). do 2 f_equal. unfold rnorm. change (f :: g :: l) with w. rewrite W, rev_app_distr. cbn [rev app].
      assert (NE : m <> []) by (rewrite M; discriminate). destruct (exists_last NE) as (m0 & y & Y). 
      assert (LU : last (uniq m) f = y) by (rewrite M, last_uniq, <- M, Y, last_last; reflexivity).
      assert (RM : rev m = y :: rev m0) by (rewrite Y, rev_app_distr; reflexivity).
      rewrite LU, RM.
      assert (UA : uniq (m ++ [z]) = if point_eqb z y then uniq m else uniq m ++ [z]).
      { rewrite uniq_app, RM. reflexivity. }
      rewrite UA. destruct (point_eqb z y) eqn:ZY; cbn [negb andb]; [reflexivity|].
      unfold open_end. rewrite UK. cbn [app]. destruct (k ++ [z]) as [|q r] eqn:KZ; [destruct k; discriminate|]. rewrite <- KZ.
      change (f :: k ++ [z]) with ((f :: k) ++ [z]). rewrite last_last, removelast_last.
      destruct (point_eqb z f); reflexivity.
Qed.

Lemma rnorm_norm l : ~ trailing_repeat l -> rnorm l = norm l.
Proof.
  intros T. unfold rnorm, norm. destruct (rev l) as [|z [|y r]] eqn:R.
  - apply (f_equal (@rev point)) in R. rewrite rev_involutive in R. subst l. reflexivity.
  - apply (f_equal (@rev point)) in R. rewrite rev_involutive in R. cbn in R. subst l. reflexivity.
  - destruct (point_eqb z y) eqn:E; [|reflexivity]. apply point_eqb_eq in E. subst y.
    apply (f_equal (@rev point)) in R. rewrite rev_involutive in R. cbn in R. rewrite <- app_assoc in R. cbn [app] in R.
    destruct l as [|f l]; [destruct (rev r); discriminate|]. destruct (uniq_hd f l) as (k & K).
    unfold open_end. rewrite K. destruct k as [|g k]; [reflexivity|].
    assert (L : last (f :: g :: k) f = z). { rewrite <- K, last_uniq, R. change [z; z] with ([z] ++ [z]). rewrite app_assoc, last_last. reflexivity. }
    rewrite L. destruct (point_eqb z f) eqn:ZF; [|reflexivity]. apply point_eqb_eq in ZF. subst f. exfalso. apply T.
    exists z, (rev r). split; [exact R|]. split; [reflexivity|].
    exists g. split.
    + assert (In g (uniq (z :: l))) as I by (rewrite K; right; left; reflexivity).
      clear -I. revert I. generalize (z :: l). intros l0. induction l0 as [|a l0 IH]; [auto|]. rewrite uniq_cons. destruct l0 as [|b l0]; [auto|].
      destruct (point_eqb a b); [right; auto|]. intros [->|I]; [left; reflexivity|right; auto].
    + intros E. apply (uniq_adj (z :: l) 0 z g); [rewrite K; reflexivity|rewrite K; reflexivity|symmetry; exact E].
Qed.
