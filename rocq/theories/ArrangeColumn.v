(** The lines above a point that is on no line. *)
From Coq Require Import ZArith QArith List Bool Arith Lia Permutation.
From Verif Require Import GeomModel GeomSpec BalanceModel WindSpec JoinSpec ArrangeSpec ArrangeCore ArrangeProofs ArrangeSum ArrangeHit ArrangeVertex ArrangeStack.
Import ListNotations.
Local Open Scope Z_scope.

Lemma small_all (ps : list point) : exists M, forall p, In p ps -> small M p.
Proof.
  induction ps as [|p ps (M & H)]; [exists 0; intros p []|]. exists (Z.abs M + 2 * Z.abs (py p) + 1). intros q [<-|I]; unfold small in *; [lia|]. specialize (H q I). lia.
Qed.
(** v is strictly between the ends. *)
Definition span (v : point) (l : line) : bool := point_less (lo l) v && point_less v (hi l).
Section Column.
Variable M : Z.
Definition wd (l : line) : Z := lx M (hi l) - lx M (lo l).
(** How far m is above l, on the column of v. *)
Definition gap (v : point) (l m : line) : Z := wd l * A m v - wd m * A l v.
Definition gt_v (v : point) (m l : line) : bool := (0 <? gap v l m) || ((gap v l m =? 0) && over m l).
Lemma gap_ends v l m : gap v l m = (lx M (hi l) - lx M v) * A m (lo l) + (lx M v - lx M (lo l)) * A m (hi l).
Proof. unfold gap, wd, area2, lx. ring. Qed.
Lemma gap_anti v l m : gap v m l = - gap v l m.
Proof. unfold gap. ring. Qed.
Record sized (v : point) (l : line) : Prop := { sz_lo : small M (lo l); sz_hi : small M (hi l); sz_v : small M v }.
Lemma span_lx v l : sized v l -> span v l = true -> lx M (lo l) < lx M v < lx M (hi l).
Proof. intros [S1 S2 S3]. unfold span. rewrite !(less_lx M) by assumption. lia. Qed.
Lemma two_signs x y p q : 0 < x -> 0 < y -> x * p + y * q = 0 -> p * q < 0 \/ (p = 0 /\ q = 0).
Proof. intros X Y E. destruct (Z.lt_trichotomy p 0) as [P|[P|P]]; [left|right|left]; nia. Qed.
Lemma zero_other l m : wd m <> 0 -> A m (lo l) = 0 -> A m (hi l) = 0 -> A l (lo m) = 0 /\ A l (hi m) = 0.
Proof.
  intros W E1 E2. pose proof (area_shear M (lo m) (hi m) (lo l) (hi l) (lo m)) as H1. pose proof (area_shear M (lo m) (hi m) (lo l) (hi l) (hi m)) as H2. cbn zeta in H1, H2. fold (wd m) in H1, H2.
  rewrite E1, E2, area_aba in H1. rewrite E1, E2, area_abb in H2. split; [apply (Z.mul_reg_l _ _ (wd m)); [exact W|]; lia|apply (Z.mul_reg_l _ _ (wd m)); [exact W|]; lia].
Qed.
Lemma gap_zero v l m : sized v l -> sized v m -> apart (ln_e l) (ln_e m) -> span v l = true -> span v m = true -> gap v l m = 0 -> lo m = lo l /\ hi m = hi l.
Proof.
  intros SL SM [N1 N2 NX] PL PM G. pose proof (span_lx v l SL PL) as XL. pose proof (span_lx v m SM PM) as XM.
  assert (G' : gap v m l = 0) by (rewrite gap_anti, G; reflexivity). rewrite gap_ends in G, G'.
  apply two_signs in G; [|lia|lia]. apply two_signs in G'; [|lia|lia].
  assert (Z : A m (lo l) = 0 /\ A m (hi l) = 0 /\ A l (lo m) = 0 /\ A l (hi m) = 0).
  { destruct G as [G|(G1 & G2)].
    - destruct G' as [G'|(G1 & G2)]; [exfalso; apply NX; [exact G'|exact G]|]. destruct (zero_other m l) as (H1 & H2); [unfold wd; lia|assumption|assumption|]. auto.
    - destruct (zero_other l m) as (H1 & H2); [unfold wd; lia|assumption|assumption|]. auto. }
  clear G G'. destruct Z as (Z1 & Z2 & Z3 & Z4). unfold span in PL, PM. apply andb_true_iff in PL, PM. destruct PL as (PL1 & PL2), PM as (PM1 & PM2). split.
  - destruct (point_eq_dec (lo m) (lo l)) as [E|E]; [exact E|exfalso]. destruct (less_total _ _ E) as [H|H].
    + apply (N2 (lo l)); [auto|split; [exact H|apply (less_trans _ v); assumption]|exact Z1].
    + apply (N1 (lo m)); [auto|split; [exact H|apply (less_trans _ v); assumption]|exact Z3].
  - destruct (point_eq_dec (hi m) (hi l)) as [E|E]; [exact E|exfalso]. destruct (less_total _ _ E) as [H|H].
    + apply (N1 (hi m)); [auto|split; [apply (less_trans _ v); assumption|exact H]|exact Z4].
    + apply (N2 (hi l)); [auto|split; [apply (less_trans _ v); assumption|exact H]|exact Z2].
Qed.
(** The line m is above l on the column of v. *)
Definition ab_v (v : point) (l m : line) : bool := span v m && gt_v v m l.
Definition below_v (v : point) (l : line) (z : point) : bool := point_less (lo l) z && point_less z v && (A l z <? 0).
Lemma scaled_sign k a : 0 < k -> (0 <? k * a) = (0 <? a) /\ (k * a <? 0) = (a <? 0) /\ (k * a =? 0) = (a =? 0).
Proof. intros K. destruct (Z.lt_trichotomy a 0) as [H|[H|H]]; [assert (k * a < 0) by nia|subst a; rewrite Z.mul_0_r; auto|assert (0 < k * a) by nia]; repeat split; lia. Qed.
Lemma core_mid xa xb xc xd xv Pc Pd Qa Qb ov : xa < xv < xb -> xc < xd ->
  (xb - xa) * Qa = - ((xd - xa) * Pc + (xa - xc) * Pd) -> (xb - xa) * Qb = - ((xd - xb) * Pc + (xb - xc) * Pd) ->
  (xa < xc < xb -> Pc <> 0) -> (xa < xd < xb -> Pd <> 0) -> (xc < xa < xd -> Qa <> 0) -> (Pc * Pd < 0 -> Qa * Qb < 0 -> False) ->
  xc <> xv -> xd <> xv -> (xa = xc -> Pc = 0 /\ Qa = 0) -> (xa = xd -> Pd = 0 /\ Qa = 0) ->
  let W := (xb - xv) * Qa + (xv - xa) * Qb in (xc < xv < xd -> W <> 0) ->
  f01 ((xc <? xv) && (xv <? xd) && ((0 <? W) || ((W =? 0) && ov))) - f01 ((xc <? xa) && (xa <? xd) && (0 <? Qa) || (xc =? xa) && ((0 <? Qb) || ((Qb =? 0) && ov)))
  = f01 ((xa <? xc) && (xc <? xv) && (Pc <? 0)) - f01 ((xa <? xd) && (xd <? xv) && (Pd <? 0)).
Proof.
  intros XL CD EA EB NC ND NA NX VC VD SAC SAD W NW.
  assert (EW : W = - ((xd - xv) * Pc + (xv - xc) * Pd)).
  { apply (Z.mul_reg_l _ _ (xb - xa)); [clear - XL; lia|]. transitivity ((xb - xv) * ((xb - xa) * Qa) + (xv - xa) * ((xb - xa) * Qb)); [unfold W; ring|]. rewrite EA, EB. ring. }
  pose proof (core xa xv xc xd ((xv - xa) * Pc) ((xv - xa) * Pd) ((xb - xa) * Qa) W ov) as H. cbn beta zeta in H.
  destruct (scaled_sign (xv - xa) Pc) as (_ & C2 & _); [clear - XL; lia|]. destruct (scaled_sign (xv - xa) Pd) as (_ & D2 & _); [clear - XL; lia|]. destruct (scaled_sign (xb - xa) Qa) as (A1 & _ & A3); [clear - XL; lia|].
  rewrite C2, D2, A1, A3 in H. clear C2 D2 A1 A3. rewrite <- H; clear H.
  - f_equal.
    + replace (xd =? xv) with false by (clear - VD; lia). cbn [andb]. rewrite orb_false_r. destruct ((xc <? xv) && (xv <? xd)) eqn:X; [|reflexivity]. cbn [andb]. assert (W <> 0) by (apply NW; clear - X; lia). replace (W =? 0) with false by (clear - H; lia). cbn [andb]. rewrite orb_false_r. reflexivity.
    + apply (f_equal f01). apply (f_equal (orb _)). destruct (Z.eqb_spec xc xa) as [E|E]; [|reflexivity]. cbn [andb]. destruct (SAC (eq_sym E)) as (_ & Q0). assert (W = (xv - xa) * Qb) as -> by (unfold W; rewrite Q0; ring).
      destruct (scaled_sign (xv - xa) Qb) as (B1 & _ & B3); [clear - XL; lia|]. rewrite B1, B3. reflexivity.
  - clear - XL. lia.
  - exact CD.
  - transitivity ((xv - xa) * ((xb - xa) * Qa)); [ring|]. rewrite EA. ring.
  - rewrite EW. ring.
  - intros X Y. apply NC; [clear - X XL; lia|]. apply (Z.mul_reg_l _ _ (xv - xa)); [clear - XL; lia|]. rewrite Y. ring.
  - intros X Y. apply ND; [clear - X XL; lia|]. apply (Z.mul_reg_l _ _ (xv - xa)); [clear - XL; lia|]. rewrite Y. ring.
  - intros X Y. apply NA; [exact X|]. apply (Z.mul_reg_l _ _ (xb - xa)); [clear - XL; lia|]. rewrite Y. ring.
  - exact NW.
  - intros X Y. apply NX.
    + clear - X XL. apply (neg_of (xv - xa)); [lia|]. apply (neg_of (xv - xa)); [lia|]. replace ((xv - xa) * ((xv - xa) * (Pc * Pd))) with ((xv - xa) * Pc * ((xv - xa) * Pd)) by ring. exact X.
    + clear - Y XL. subst W. rewrite <- Z.mul_assoc in Y. apply neg_of in Y; [|lia]. apply (neg_of (xv - xa)); [lia|]. assert (0 <= (xb - xv) * (Qa * Qa)) by (apply Z.mul_nonneg_nonneg; [lia|apply Z.square_nonneg]). replace (Qa * ((xb - xv) * Qa + (xv - xa) * Qb)) with ((xb - xv) * (Qa * Qa) + (xv - xa) * (Qa * Qb)) in Y by ring. lia.
  - intros X. destruct (SAC X) as (-> & ->). split; ring.
  - intros X. destruct (SAD X) as (-> & ->). split; ring.
  - intros X. exfalso. apply VC. symmetry. exact X.
  - intros X. exfalso. apply VD. symmetry. exact X.
Qed.
Theorem edge_mid v l m : sized v l -> sized v m -> proper m -> apart (ln_e l) (ln_e m) -> span v l = true -> lo m <> v -> hi m <> v ->
  f01 (ab_v v l m) - f01 (ab_lo l m) = f01 (below_v v l (lo m)) - f01 (below_v v l (hi m)).
Proof.
  intros SL SM PM AP SP NV1 NV2. pose proof (span_lx v l SL SP) as XL. pose proof (lo_hi _ PM) as CD.
  assert (EQ : (lo m = lo l /\ hi m = hi l) \/ ~ (lo m = lo l /\ hi m = hi l)) by (destruct (point_eq_dec (lo m) (lo l)), (point_eq_dec (hi m) (hi l)); tauto).
  destruct EQ as [(EL & EH)|EQ].
  { assert (ab_v v l m = over m l) as ->.
    { unfold ab_v, gt_v, span. rewrite EL, EH. fold (span v l). rewrite SP. assert (gap v l m = 0) as -> by (unfold gap, wd; rewrite EL, EH; ring). reflexivity. }
    assert (ab_lo l m = over m l) as ->.
    { unfold ab_lo, above_pt. rewrite EL, EH, less_irrefl, area_abb, eqb_pt, !Z.eqb_refl. reflexivity. }
    unfold below_v. rewrite EL, EH, less_irrefl. unfold span in SP. apply andb_true_iff in SP. destruct SP as (_ & SP). replace (point_less (hi l) v) with false; [rewrite andb_false_r; cbn [andb f01]; lia|].
    destruct (point_less (hi l) v) eqn:X; [exfalso; eapply less_antisym; eassumption|reflexivity]. }
  assert (NZ : span v m = true -> gap v l m <> 0) by (intros SP' G; apply EQ; exact (gap_zero v l m SL SM AP SP SP' G)). clear EQ.
  destruct AP as [NE1 NE2 NX]. unfold strictly in NE1, NE2. unfold ab_v, gt_v, ab_lo, above_pt, below_v, span in *. rewrite gap_ends in *. generalize (over m l). intros ov.
  destruct SL as [SA SB SV], SM as [SC SD _]. set (a := lo l) in *; set (b := hi l) in *; set (c := lo m) in *; set (d := hi m) in *.
  pose proof (area_shear M a b c d a) as EA; pose proof (area_shear M a b c d b) as EB; cbn zeta in EA, EB. rewrite area_aba in EA. rewrite area_abb in EB.
  pose proof (NE1 c (or_introl eq_refl)) as NC; pose proof (NE1 d (or_intror eq_refl)) as ND; pose proof (NE2 a (or_introl eq_refl)) as NA; clear NE1 NE2.
  assert (VC : lx M c <> lx M v) by (intros E; apply lx_inj in E; [apply NV1; exact E|assumption..]). assert (VD : lx M d <> lx M v) by (intros E; apply lx_inj in E; [apply NV2; exact E|assumption..]).
  assert (SAC : lx M a = lx M c -> area2 a b c = 0 /\ area2 c d a = 0) by (intros E; apply lx_inj in E; [|assumption..]; rewrite <- E, !area_aba; auto).
  assert (SAD : lx M a = lx M d -> area2 a b d = 0 /\ area2 c d a = 0) by (intros E; apply lx_inj in E; [|assumption..]; rewrite <- E, area_aba, area_abb; auto).
  rewrite !(eqb_lx M) by assumption. rewrite !(less_lx M) in * by assumption.
  apply core_mid; try assumption.
  - clear - CD. lia.
  - rewrite EA. ring.
  - rewrite EB. ring.
  - intros X. apply NC. clear - X. lia.
  - intros X. apply ND. clear - X. lia.
  - intros X. apply NA. clear - X. lia.
  - intros X. apply NZ. clear - X. lia.
Qed.
End Column.
