(** The distance of two edges of the rasteriser at any height. *)
From Coq Require Import List Bool Arith ZArith QArith Qround Permutation Sorted Lia Lqa.
From Verif Require Import GeomModel GeomSpec RasterModel RasterSpec RasterArith RasterOrder RasterRun RasterSpans RasterFinal RasterInput RasterEnds.
Import ListNotations.
Local Open Scope Z_scope.

Local Open Scope Q_scope.
Definition lineQ (s : cseg) (h : Q) : Q := injX (sg_pa s) * (injY (sg_pb s) - h) + injX (sg_pb s) * (h - injY (sg_pa s)).
Definition tallQ (s : cseg) : Q := injY (sg_pb s) - injY (sg_pa s).
Definition gapQ (s t : cseg) (h : Q) : Q := lineQ s h * tallQ t - lineQ t h * tallQ s.
Definition spans (h : Q) (s : cseg) : Prop := injY (sg_pa s) < h /\ h < injY (sg_pb s).
Lemma gapQ_int s t z : gapQ s t (inject_Z z) == inject_Z (gap s t z).
Proof. unfold gapQ, lineQ, tallQ, gap, xnum, tall, injX, injY. rewrite inject_sub, !inject_Z_mult, !inject_Z_plus, !inject_Z_mult, !inject_sub. ring. Qed.
Lemma gapQ_line s t h k : gapQ s t (h + k) == gapQ s t h + k * inject_Z (det s t).
Proof. rewrite det_Q. unfold gapQ, lineQ, tallQ. ring. Qed.
Lemma gapQ_sym s t h : gapQ t s h == - gapQ s t h.
Proof. unfold gapQ. ring. Qed.
Lemma det_sym s t : det t s = (- det s t)%Z.
Proof. unfold det. ring. Qed.
Lemma tall_pos s : down s -> 0 < tallQ s.
Proof. unfold down, tallQ, injY. intros H. rewrite Zlt_Qlt in H. lra. Qed.
#[global] Instance gapQ_comp s t : Proper (Qeq ==> Qeq) (gapQ s t).
Proof. intros a b E. unfold gapQ, lineQ. rewrite E. reflexivity. Qed.
Lemma gapQ_at s t h h' : gapQ s t h' == gapQ s t h + (h' - h) * inject_Z (det s t).
Proof. rewrite <- gapQ_line. apply gapQ_comp. ring. Qed.

(** ** Crossings *)
Lemma cross_gap s t X Y : cross_at s t X Y -> gapQ s t Y == 0.
Proof. intros (_ & a & b & _ & _ & _ & _ & X1 & Y1 & X2 & Y2). unfold gapQ.
  assert (E1 : lineQ s Y == tallQ s * X) by (unfold lineQ, tallQ; rewrite X1, Y1; ring). assert (E2 : lineQ t Y == tallQ t * X) by (unfold lineQ, tallQ; rewrite X2, Y2; ring).
  rewrite E1, E2. ring. Qed.
Lemma inner a b t : a < b -> 0 < t -> t < 1 -> a < a + t * (b - a) /\ a + t * (b - a) < b.
Proof.
  intros A B C. assert (0 < t * (b - a)) by (apply Qmult_lt_0_compat; lra). assert (0 < (1 - t) * (b - a)) by (apply Qmult_lt_0_compat; lra). split; [lra|].
  setoid_replace b with (a + t * (b - a) + (1 - t) * (b - a)) at 2 by ring. lra.
Qed.
Lemma cross_spans s t X Y : down s -> down t -> cross_at s t X Y -> spans Y s /\ spans Y t.
Proof.
  intros S T (_ & a & b & A1 & A2 & B1 & B2 & _ & Y1 & _ & Y2). apply tall_pos in S, T. unfold tallQ in *. unfold spans.
  pose proof (inner (injY (sg_pa s)) (injY (sg_pb s)) a ltac:(lra) A1 A2). pose proof (inner (injY (sg_pa t)) (injY (sg_pb t)) b ltac:(lra) B1 B2). lra.
Qed.
Lemma cross_sym s t X Y : cross_at s t X Y -> cross_at t s X Y.
Proof.
  intros (D & a & b & H). split; [|exists b, a; tauto]. rewrite <- det_cross in *. rewrite det_sym. lia.
Qed.
Lemma meets_cross s t w : rintersects s t = Some w -> exists X, cross_at s t X (wf_val w).
Proof.
  intros E. pose proof E as E'. apply rintersects_eq in E as (_ & A & B & _). destruct (cross_sound s t A B) as (X & C). exists X.
  pose proof (rintersects_value s t w _ _ E' C) as V. destruct C as (D & a & b & H). split; [exact D|]. exists a, b. rewrite V. exact H.
Qed.
Lemma meets s t w : down s -> down t -> rintersects s t = Some w -> det s t <> 0%Z /\ gapQ s t (wf_val w) == 0 /\ spans (wf_val w) s /\ spans (wf_val w) t.
Proof.
  intros S T E. destruct (meets_cross s t w E) as (X & C). split; [destruct C as (D & _); rewrite det_cross; exact D|]. split; [apply (cross_gap s t X); exact C|]. apply (cross_spans s t X); assumption.
Qed.
Lemma agree_sym s t : ends_agree s t -> ends_agree t s.
Proof. unfold ends_agree. intros (A & B & C & D). repeat split; intros; symmetry; auto. Qed.
Lemma meets_sym s t w : ends_agree s t -> rintersects s t = Some w -> exists w', rintersects t s = Some w' /\ wf_val w' == wf_val w.
Proof.
  intros G E. destruct (meets_cross s t w E) as (X & C). apply cross_sym in C. destruct (proj2 (rintersects_iff t s (agree_sym _ _ G))) as (w' & E'); [eauto|].
  exists w'. split; [exact E'|]. exact (rintersects_value t s w' X _ E' C).
Qed.
(** A change of side comes from a crossing. *)
Lemma injZ_lt a b : inject_Z a < inject_Z b -> (a < b)%Z.
Proof. intros H. rewrite Zlt_Qlt. exact H. Qed.
Lemma sign_cross s t h1 h2 : down s -> down t -> injY (sg_pa s) <= h1 -> injY (sg_pa t) <= h1 -> h2 <= injY (sg_pb s) -> h2 <= injY (sg_pb t) -> h1 < h2 ->
  0 < gapQ s t h1 -> gapQ s t h2 < 0 -> exists X Y, cross_at s t X Y.
Proof.
  intros S T A1 A2 B1 B2 H P N. assert (D : inject_Z (det s t) < 0).
  { pose proof (gapQ_at s t h1 h2) as E. destruct (Qlt_le_dec (inject_Z (det s t)) 0) as [?|G]; [assumption|]. assert (0 <= (h2 - h1) * inject_Z (det s t)) by (apply Qmult_le_0_compat; lra). lra. }
  assert (P' : forall z, inject_Z z <= h1 -> (0 < gap s t z)%Z).
  { intros z Z. apply injZ_lt. rewrite <- gapQ_int. rewrite (gapQ_at s t h1). assert (0 <= (h1 - inject_Z z) * - inject_Z (det s t)) by (apply Qmult_le_0_compat; lra). change (inject_Z 0) with 0. lra. }
  assert (M' : forall z, h2 <= inject_Z z -> (gap s t z < 0)%Z).
  { intros z Z. apply injZ_lt. rewrite <- gapQ_int. rewrite (gapQ_at s t h2). assert (0 <= (inject_Z z - h2) * - inject_Z (det s t)) by (apply Qmult_le_0_compat; lra). change (inject_Z 0) with 0. lra. }
  pose proof (P' _ A1) as P1. pose proof (P' _ A2) as P2. pose proof (M' _ B1) as M1. pose proof (M' _ B2) as M2. clear P' M' P N A1 A2 B1 B2.
  rewrite gap_top_l in P1. rewrite gap_top_r in P2. rewrite gap_end_l in M1. rewrite gap_end_r in M2. unfold down in S, T. change 0 with (inject_Z 0) in D. apply injZ_lt in D.
  assert (HS : (0 < tall s)%Z) by (unfold tall; lia). assert (HT : (0 < tall t)%Z) by (unfold tall; lia).
  destruct (cross_sound s t) as (X & CR); [right; split; [lia|nia]|right; split; [lia|nia]|]. eauto.
Qed.
Local Open Scope Z_scope.

(** The order on later rows. *)
Lemma keep_rows s t z : down s -> down t -> (forall X Y, ~ cross_at s t X Y) -> active z s = true -> active z t = true -> rsweep_cmp z t s = false ->
  forall k : nat, active (z + Z.of_nat k) s = true -> active (z + Z.of_nat k) t = true -> rsweep_cmp (z + Z.of_nat k) t s = false.
Proof.
  intros S T NX A B C. induction k as [|k IH]; intros A' B'; [rewrite Z.add_0_r; exact C|].
  replace (z + Z.of_nat (Datatypes.S k)) with (z + Z.of_nat k + 1) in * by lia.
  assert (A2 : active (z + Z.of_nat k) s = true) by (unfold active in *; rewrite andb_true_iff, Z.leb_le, Z.ltb_lt in *; lia).
  assert (B2 : active (z + Z.of_nat k) t = true) by (unfold active in *; rewrite andb_true_iff, Z.leb_le, Z.ltb_lt in *; lia).
  apply keep_order; auto.
Qed.
Lemma cmp_side y s t : down s -> down t -> rsweep_cmp y t s = false -> 0 <= gap s t y /\ (gap s t y = 0 -> 0 <= gap s t (y + 1)).
Proof. intros S T C. assert (N : ~ rsweep_cmp y t s = true) by congruence. rewrite (cmp_gap y s t S T) in N. lia. Qed.

(** Edges of one run agree in their ends. *)
Lemma edge_ends pts : forall l i r, (forall k, nth_error l k = nth_error pts (i + k)) -> edges_from pts i l = Some r ->
  forall s, In s r -> (exists n, nth_error pts (sg_a s) = Some (mk_rpoint (sg_pa s) n)) /\ (exists n, nth_error pts (sg_b s) = Some (mk_rpoint (sg_pb s) n)).
Proof.
  induction l as [|p l IH]; intros i r H; cbn [edges_from]; [intros E; injection E as <-; intros s []|].
  destruct (edge_of pts i p) as [a|] eqn:E1; [|discriminate]. destruct (edges_from pts (S i) l) as [b|] eqn:E2; [|discriminate]. intros E. injection E as <-. intros s I. apply in_app_or in I as [I|I].
  - pose proof (H O) as P. cbn in P. rewrite Nat.add_0_r in P. symmetry in P. unfold edge_of in E1. destruct (nth_error pts (rp_next p)) as [q|] eqn:Q; [|discriminate].
    destruct (py (rp_data p) =? py (rp_data q)); [injection E1 as <-; destruct I|]. destruct (py (rp_data q) <? py (rp_data p)); injection E1 as <-; destruct I as [<-|[]]; cbn; rewrite P, Q; destruct p, q; cbn; eauto.
  - apply (IH (S i) b); [intros k; specialize (H (S k)); cbn in H; rewrite H; f_equal; lia|exact E2|exact I].
Qed.
Lemma edges_agree pts r : edges_from pts 0 pts = Some r -> forall s t, In s r -> In t r -> ends_agree s t.
Proof.
  intros E s t I J. destruct (edge_ends pts pts 0 r (fun k => eq_refl) E s I) as ((a1 & A1) & (b1 & B1)). destruct (edge_ends pts pts 0 r (fun k => eq_refl) E t J) as ((a2 & A2) & (b2 & B2)).
  repeat split; intros H; congruence.
Qed.
