(** Properties of the rasteriser. *)
From Coq Require Import List Bool Arith ZArith QArith Qabs Qround Permutation Sorted Lia Lqa.
From Verif Require Import GeomModel GeomSpec PointSinkSpec PointSinkProofs RasterModel RasterSpec RasterArith RasterOrder RasterRun RasterSpans RasterFinal RasterInput RasterEnds RasterGap RasterCross.
Import ListNotations.
Local Open Scope Z_scope.

(** * C47: scan lines stay inside the image
    Proved: for every polygon, whatever the two sorts return, every scan line lies in the
    image. x1 <= x2 is proved for runs in which no assertion fails, and false otherwise. The
    sizes are those the types can hold: coordinates of wbits bits and unsigned sizes. *)
Theorem C47_in_image : forall sort_events sort_new ls wbits width height fuel out st' s,
  width_ok wbits width -> height <= 2 ^ 32 ->
  scan_all sort_events sort_new (radd_loops [] ls) wbits width height fuel = Some (out, st') -> In s out ->
  0 <= sl_y s < height /\ 0 <= sl_x1 s <= width - 1 /\ 0 <= sl_x2 s <= width - 1 /\ sl_winding s <> 0.
Proof. intros se sn ls wbits width height fuel out st' s W H. exact (scan_bounds se sn (radd_loops [] ls) wbits width height W fuel out st' s H). Qed.
Print Assumptions C47_in_image.

Theorem C47_order_partial : forall sort_events sort_new ls wbits width height fuel out st' s,
  sorts_valid valid revent_lt sort_events -> sorts_valid (fun en => valid (fst en)) new_lt sort_new ->
  width_ok wbits width -> height <= 2 ^ 32 ->
  scan_all sort_events sort_new (radd_loops [] ls) wbits width height fuel = Some (out, st') -> rs_ok st' = true -> In s out ->
  0 <= sl_x1 s /\ sl_x1 s <= sl_x2 s /\ sl_x2 s <= width - 1.
Proof. intros se sn ls wbits width height fuel out st' s SE SN W H R OK I. destruct (scan_sound se sn SE SN ls wbits width height W H fuel out st' s R OK I) as (_ & A & B & C & _). auto. Qed.
Print Assumptions C47_order_partial.

(** Where three edges meet in one point the order of the sweep may be wrong. Then the
    assertion of consistent_order fails; with assertions compiled out, x1 is larger than x2. *)
Definition three_meet : list (list point) := [[(0,0); (10,10); (20,0)]; [(10,0); (0,10); (-10,0)]; [(5,5); (7,9); (6,20)]].
Theorem C47_order_refuted : exists ls out st' s,
  scan_all rsort rsort_new (radd_loops [] ls) 32 30 15 100 = Some (out, st') /\ In s out /\ sl_x2 s < sl_x1 s /\ rs_ok st' = false.
Proof.
  assert (Q : match scan_all rsort rsort_new (radd_loops [] three_meet) 32 30 15 100 with Some (o, t) => existsb (fun s => sl_x2 s <? sl_x1 s) o && negb (rs_ok t) | None => false end = true) by (vm_compute; reflexivity).
  exists three_meet. destruct (scan_all rsort rsort_new (radd_loops [] three_meet) 32 30 15 100) as [(out, st')|]; [|discriminate].
  apply andb_true_iff in Q as (Q1 & Q2). apply existsb_exists in Q1 as (s & I & L). apply Z.ltb_lt in L. apply negb_true_iff in Q2. exists out, st', s. auto.
Qed.
Print Assumptions C47_order_refuted.

(** With width 0 the column of every scan line is 2^32 - 1. *)
Theorem C47_empty_width_refuted : exists ls out st' s,
  scan_all rsort rsort_new (radd_loops [] ls) 32 0 15 100 = Some (out, st') /\ In s out /\ 0 <= sl_x1 s /\ ~ sl_x1 s <= 0 - 1 /\ sl_x1 s = 2 ^ 32 - 1 /\ rs_ok st' = true.
Proof.
  exists [[(0,0); (10,10); (20,0)]]. do 2 eexists. exists (mk_scan (2 ^ 32 - 1) (2 ^ 32 - 1) 0 (-1)). split; [vm_compute; reflexivity|]. split; [left; reflexivity|]. vm_compute. repeat split; congruence.
Qed.
Print Assumptions C47_empty_width_refuted.

(** * C48: edge crossings of a scan line are exact
    The position is kept as one fraction with a positive denominator. Within the image the
    pixel is the one that contains the exact position. *)
Theorem C48_exact : forall a b y, py a <> py b ->
  0 < fr_den (x_intercept a b y) /\ (frac_val (x_intercept a b y) == line_x a b (inject_Z y))%Q.
Proof. intros a b y H. split; [exact (x_intercept_valid a b y H)|exact (x_intercept_val a b y H)]. Qed.
Print Assumptions C48_exact.
Theorem C48_between : forall a b y, py a < py b -> py a <= y <= py b ->
  (inject_Z (Z.min (px a) (px b)) <= frac_val (x_intercept a b y) <= inject_Z (Z.max (px a) (px b)))%Q.
Proof. intros a b y H Y. rewrite (x_intercept_val a b y) by lia. exact (line_x_between a b y Y H). Qed.
Print Assumptions C48_between.
Theorem C48_ends : forall a b, py a <> py b ->
  (frac_val (x_intercept a b (py a)) == injX a)%Q /\ (frac_val (x_intercept a b (py b)) == injX b)%Q.
Proof.
  intros a b H. rewrite !x_intercept_val by exact H. unfold line_x, injX, injY. assert (N : ~ (inject_Z (py b) - inject_Z (py a) == 0)%Q).
  { rewrite <- inject_sub. apply inject_neq. lia. } split; field; exact N.
Qed.
Print Assumptions C48_ends.
Theorem C48_pixel : forall a b y hi, py a <> py b -> (0 <= line_x a b (inject_Z y))%Q -> (line_x a b (inject_Z y) < inject_Z (hi + 1))%Q ->
  to_coord (x_intercept a b y) 0 hi = Qfloor (line_x a b (inject_Z y)).
Proof.
  intros a b y hi H L U. rewrite <- (x_intercept_val a b y H) in *. apply to_coord_floor; [apply x_intercept_valid; exact H|exact L|exact U].
Qed.
Print Assumptions C48_pixel.
Example ex_C48 : x_intercept (-7, 5) (8, -2) 1 = mk_frac 11 7 /\ Qfloor (line_x (-7, 5) (8, -2) 1) = 1.
Proof. vm_compute. auto. Qed.

(** * C49: exactly the interior crossings are found *)
Theorem C49_found : forall s1 s2, ends_agree s1 s2 ->
  ((exists w, rintersects s1 s2 = Some w) <-> exists X Y, cross_at s1 s2 X Y).
Proof. exact rintersects_iff. Qed.
Print Assumptions C49_found.
Theorem C49_height : forall s1 s2 w X Y, rintersects s1 s2 = Some w -> cross_at s1 s2 X Y ->
  (wf_val w == Y)%Q /\ 0 < fr_den (wf_frac w) /\ 0 <= fr_num (wf_frac w) <= fr_den (wf_frac w).
Proof. intros s1 s2 w X Y E C. split; [exact (rintersects_value _ _ _ _ _ E C)|exact (rintersects_shape _ _ _ E)]. Qed.
Print Assumptions C49_height.
Definition xs1 : cseg := mk_cseg 0 1 (0, 0) (10, 10).
Definition xs2 : cseg := mk_cseg 2 3 (7, 1) (1, 5).
Example ex_C49 : ends_agree xs1 xs2 /\ rintersects xs1 xs2 = Some (mk_wfrac 3 (mk_frac 40 100)) /\ cross_at xs1 xs2 (17 # 5) (17 # 5).
Proof.
  split; [repeat split; cbn; congruence|]. split; [vm_compute; reflexivity|]. split; [vm_compute; discriminate|].
  exists (17 # 50), (3 # 5). repeat split; vm_compute; reflexivity.
Qed.
Example ex_C49_touch : rintersects xs1 (mk_cseg 2 3 (5, 5) (1, 9)) = None.
Proof. vm_compute. reflexivity. Qed.

(** * C50: fractions compare as rationals
    True of every fraction, and of a whole number plus a fraction below one. The crossings
    found by the rasteriser at negative whole heights have the fraction d/d; these compare
    wrongly. *)
Theorem C50_fraction : forall n1 d1 n2 d2, d1 <> 0 -> d2 <> 0 ->
  same_order (frac_cmp (make_frac n1 d1) (make_frac n2 d2)) (inject_Z n1 / inject_Z d1) (inject_Z n2 / inject_Z d2) /\
  (frac_eqb (make_frac n1 d1) (make_frac n2 d2) = true <-> (inject_Z n1 / inject_Z d1 == inject_Z n2 / inject_Z d2)%Q).
Proof.
  intros n1 d1 n2 d2 H1 H2. pose proof (make_frac_valid n1 d1 H1) as V1. pose proof (make_frac_valid n2 d2 H2) as V2. split.
  - rewrite frac_cmp_val by assumption. pose proof (same_order_compare (frac_val (make_frac n1 d1)) (frac_val (make_frac n2 d2))) as S.
    destruct (Qcompare _ _); cbn in *; rewrite <- (make_frac_val n1 d1 H1), <- (make_frac_val n2 d2 H2); exact S.
  - rewrite frac_eqb_val by assumption. rewrite (make_frac_val n1 d1 H1), (make_frac_val n2 d2 H2). reflexivity.
Qed.
Print Assumptions C50_fraction.
Theorem C50_fraction_int : forall n d k, d <> 0 -> same_order (frac_cmp_int (make_frac n d) k) (inject_Z n / inject_Z d) (inject_Z k).
Proof.
  intros n d k H. rewrite frac_cmp_int_val by (apply make_frac_valid; exact H). pose proof (same_order_compare (frac_val (make_frac n d)) (inject_Z k)) as S.
  destruct (Qcompare _ _); cbn in *; rewrite <- (make_frac_val n d H); exact S.
Qed.
Print Assumptions C50_fraction_int.
Theorem C50_whole : forall a b k, proper a -> proper b ->
  same_order (wf_cmp a b) (wf_val a) (wf_val b) /\ (wf_eqb a b = true <-> (wf_val a == wf_val b)%Q) /\ same_order (wf_cmp_int a k) (wf_val a) (inject_Z k).
Proof. intros a b k A B. split; [exact (wf_cmp_val a b A B)|]. split; [exact (wf_eqb_val a b A B)|exact (wf_cmp_int_val a k A)]. Qed.
Print Assumptions C50_whole.
Theorem C50_whole_refuted : exists s1 s2 w, rintersects s1 s2 = Some w /\ ends_agree s1 s2 /\ (wf_val w == -5)%Q /\
  wf_cmp_int w (-5) = Lt /\ wf_cmp w (wf_of_int (-5)) = Lt /\ wf_eqb w (wf_of_int (-5)) = false.
Proof.
  exists (mk_cseg 0 1 (10, -10) (0, 0)), (mk_cseg 2 3 (0, -10) (10, 0)). eexists. split; [vm_compute; reflexivity|]. split; [repeat split; cbn; congruence|]. vm_compute. auto.
Qed.
Print Assumptions C50_whole_refuted.
Example ex_C50 : frac_cmp (make_frac 3 (-7)) (make_frac (-4) 9) = Gt /\ frac_eqb (make_frac 3 (-7)) (make_frac (-6) 14) = true /\
  proper (mk_wfrac (-2) (mk_frac 3 7)) /\ wf_cmp (mk_wfrac (-2) (mk_frac 3 7)) (mk_wfrac (-2) (mk_frac 4 9)) = Lt.
Proof. vm_compute. repeat split; congruence. Qed.

(** * C58: rounding a whole number plus a fraction
    A whole number is rounded to the next one; no caller uses this function. *)
Theorem C58_round_refuted : exists w, proper w /\ (wf_val w == 5)%Q /\ wf_round w = 6.
Proof. exists (mk_wfrac 5 (mk_frac 0 1)). vm_compute. repeat split; congruence. Qed.
Print Assumptions C58_round_refuted.
(** Exactly when it gives a nearest integer: if the fraction is at least a half.
    Partial: the full statement is that it always does. *)
Theorem C58_round_partial : forall w, proper w ->
  ((forall k, (Qabs.Qabs (inject_Z (wf_round w) - wf_val w) <= Qabs.Qabs (inject_Z k - wf_val w))%Q) <-> (1 # 2 <= frac_val (wf_frac w))%Q).
Proof. exact round_nearest. Qed.
Print Assumptions C58_round_partial.
Example ex_C58 : proper (mk_wfrac (-3) (mk_frac 2 3)) /\ wf_round (mk_wfrac (-3) (mk_frac 2 3)) = -2 /\ (1 # 2 <= frac_val (mk_frac 2 3))%Q.
Proof. vm_compute. repeat split; congruence. Qed.

(** * C51: fill rules *)
Theorem C51_rules : forall w,
  (should_fill NonZero w = true <-> w <> 0) /\ (should_fill EvenOdd w = true <-> Z.Odd w) /\
  (should_fill Positive w = true <-> 0 < w) /\ (should_fill Negative w = true <-> w < 0).
Proof. exact fill_rules. Qed.
Print Assumptions C51_rules.
(** fill_row is called for exactly those scan lines whose winding number the rule fills. *)
Theorem C51_draw : forall sort_events sort_new pts wbits width height fuel rule calls,
  draw sort_events sort_new pts wbits width height fuel rule = Some calls ->
  exists out st', scan_all sort_events sort_new pts wbits width height fuel = Some (out, st') /\
  calls = map (fun s => (sl_x1 s, sl_x2 s, sl_y s)) (filter (fun s => should_fill rule (sl_winding s)) out).
Proof.
  intros se sn pts wbits width height fuel rule calls. unfold draw. destruct (scan_all _ _ _ _ _ _ _) as [(out, st')|]; [|discriminate]. intros E. injection E as <-. eauto.
Qed.
Print Assumptions C51_draw.
(** If no assertion fails: a scan line runs between two edges of the polygons that were
    added, and its number is the winding number of every point between them. *)
Theorem C51_winding : forall sort_events sort_new ls wbits width height fuel out st' s,
  sorts_valid valid revent_lt sort_events -> sorts_valid (fun en => valid (fst en)) new_lt sort_new ->
  width_ok wbits width -> height <= 2 ^ 32 ->
  scan_all sort_events sort_new (radd_loops [] ls) wbits width height fuel = Some (out, st') -> rs_ok st' = true -> In s out ->
  exists e f, In e (flat_map polygon_edges ls) /\ In f (flat_map polygon_edges ls) /\
    crosses_row (sl_y s) e = true /\ crosses_row (sl_y s) f = true /\
    sl_x1 s = pixel width (edge_x (sl_y s) f) /\ sl_x2 s = pixel width (edge_x (sl_y s) e) /\ (edge_x (sl_y s) f <= edge_x (sl_y s) e)%Q /\
    forall x, (edge_x (sl_y s) f < x)%Q -> (x < edge_x (sl_y s) e)%Q -> ray (flat_map polygon_edges ls) (sl_y s) x = sl_winding s.
Proof.
  intros se sn ls wbits width height fuel out st' s SE SN W H R OK I.
  destruct (scan_sound se sn SE SN ls wbits width height W H fuel out st' s R OK I) as (_ & _ & _ & _ & _ & e & f & M1 & M2 & M3 & M4 & M5 & M6 & M7 & M8).
  exists e, f. split; [exact (polygons_incl ls e M1)|]. split; [exact (polygons_incl ls f M2)|]. do 5 (split; [assumption|]).
  intros x X1 X2. rewrite <- polygons_ray. exact (M8 x X1 X2).
Qed.
Print Assumptions C51_winding.
(** Every point of a row that lies on no edge and has a winding number other than zero is
    in a scan line with that number. *)
Theorem C51_covered : forall sort_events sort_new ls wbits width height fuel out st' y x,
  sorts_valid valid revent_lt sort_events -> sorts_valid (fun en => valid (fst en)) new_lt sort_new ->
  width_ok wbits width -> height <= 2 ^ 32 ->
  scan_all sort_events sort_new (radd_loops [] ls) wbits width height fuel = Some (out, st') -> rs_ok st' = true -> 0 <= y < height ->
  (forall e, In e (flat_map polygon_edges ls) -> crosses_row y e = true -> ~ (edge_x y e == x)%Q) ->
  ray (flat_map polygon_edges ls) y x <> 0 ->
  exists s, In s out /\ sl_y s = y /\ sl_winding s = ray (flat_map polygon_edges ls) y x /\ sl_x1 s <= pixel width x <= sl_x2 s.
Proof.
  intros se sn ls wbits width height fuel out st' y x SE SN W H R OK Y N RAY. rewrite <- polygons_ray in RAY.
  destruct (scan_complete se sn SE SN ls wbits width height W H fuel out st' y x R OK Y (fun e I => N e (polygons_incl ls e I)) RAY) as (s & e & f & I & EY & EW & M & X1 & X2).
  exists s. split; [exact I|]. split; [exact EY|]. split; [rewrite EW; apply polygons_ray|].
  destruct M as (_ & _ & _ & _ & M5 & M6 & _). rewrite EY in M5, M6. rewrite M5, M6. split; apply pixel_mono; apply Qlt_le_weak; assumption.
Qed.
Print Assumptions C51_covered.
(** The winding number can be read off on either side. *)
Theorem C51_left_right : forall ls y x,
  (forall e, In e (flat_map polygon_edges ls) -> crosses_row y e = true -> ~ (edge_x y e == x)%Q) ->
  left_ray (flat_map polygon_edges ls) y x = - ray (flat_map polygon_edges ls) y x.
Proof. intros ls y x. apply left_right. exact (polygons_total y (fun l => l) ls). Qed.
Print Assumptions C51_left_right.

(** * C52: the order of the events *)
Theorem C52_order : forall x y z, valid x -> valid y -> valid z ->
  revent_lt x x = false /\
  (revent_lt x y = true -> revent_lt y z = true -> revent_lt x z = true) /\
  (revent_lt x y = true -> revent_lt x z = true \/ revent_lt z y = true) /\
  (revent_lt x y = true -> revent_lt y x = false).
Proof. exact revent_swo. Qed.
Print Assumptions C52_order.
Theorem C52_height : forall x y, ev_unit x -> ev_unit y -> (ev_height x < ev_height y)%Q -> revent_lt x y = true.
Proof. exact order_height. Qed.
Print Assumptions C52_height.
(** Events at one height should be ordered by type and indices alone; two crossings at
    height 0 found with opposite signs of the determinant are not taken as equal. *)
Theorem C52_same_height_refuted : exists s1 s2 t1 t2 v w, rintersects s1 s2 = Some v /\ rintersects t1 t2 = Some w /\
  (wf_val v == wf_val w)%Q /\ revent_lt (swap_event 9 9 v) (swap_event 1 1 w) = true /\ revent_lt (swap_event 1 1 v) (swap_event 9 9 v) = true.
Proof.
  exists (mk_cseg 0 1 (5, -5) (-5, 5)), (mk_cseg 2 3 (-5, -5) (5, 5)), (mk_cseg 0 1 (-5, -5) (5, 5)), (mk_cseg 2 3 (5, -5) (-5, 5)). do 2 eexists.
  split; [vm_compute; reflexivity|]. split; [vm_compute; reflexivity|]. vm_compute. auto.
Qed.
Print Assumptions C52_same_height_refuted.
Example ex_C52 : let e1 := swap_event 3 4 (mk_wfrac 2 (mk_frac 1 3)) in let e2 := mk_revent RForward 1 2 3 1 (wf_of_int 0) in
  valid e1 /\ valid e2 /\ ev_unit e1 /\ ev_unit e2 /\ (ev_height e1 < ev_height e2)%Q /\ revent_lt e1 e2 = true.
Proof. vm_compute. repeat split; congruence. Qed.

(** * C53: loops are stored closed without repeated neighbours
    Proved except for input that repeats the first point more than once at the end. *)
Theorem C53_stored_partial : forall pts l, ~ trailing_repeat l ->
  radd_loop pts l = pts ++ rring (length pts) (norm l) /\ no_equal_neighbours (norm l).
Proof. intros pts l T. split; [rewrite radd_loop_exact, rnorm_norm by exact T; reflexivity|exact (norm_neighbours l)]. Qed.
Print Assumptions C53_stored_partial.
Theorem C53_trailing_repeat_refuted : exists l stored, radd_loop [] l = rring 0 stored /\ ~ no_equal_neighbours stored.
Proof.
  exists [(0,0); (5,0); (5,5); (0,0); (0,0)], [(0,0); (5,0); (5,5); (0,0)]. split; [vm_compute; reflexivity|].
  intros N. exact (N 3%nat (0,0) (0,0) eq_refl eq_refl eq_refl).
Qed.
Print Assumptions C53_trailing_repeat_refuted.
(** In every case the stored points make the edges of the polygon that was given, except
    that a polygon with fewer than three different neighbours leaves none; and the winding
    numbers are those of the input. *)
Theorem C53_edges : forall l pts, exists stored, radd_loop pts l = pts ++ rring (length pts) stored /\
  incl (polygon_edges stored) (polygon_edges l) /\ (stored <> [] -> polygon_edges stored = polygon_edges l) /\
  forall y x, ray (polygon_edges stored) y x = ray (polygon_edges l) y x.
Proof.
  intros l pts. exists (rnorm l). split; [apply radd_loop_exact|]. split; [exact (rnorm_incl l)|]. split; [exact (rnorm_edges l)|]. intros; apply rnorm_ray.
Qed.
Print Assumptions C53_edges.
Example ex_C53 : ~ trailing_repeat [(0,0); (0,0); (5,0); (5,5); (5,5); (0,0)] /\ norm [(0,0); (0,0); (5,0); (5,5); (5,5); (0,0)] = [(0,0); (5,0); (5,5)].
Proof.
  split; [|reflexivity]. intros (p & m & E & _). change [(0,0); (0,0); (5,0); (5,5); (5,5); (0,0)] with ([(0,0); (0,0); (5,0); (5,5)] ++ [(5,5); (0,0)]) in E.
  apply app_inj_tail_iff with (x := (5,5)) (a := (0,0)) || idtac. change [p; p] with ([p] ++ [p]) in E. rewrite app_assoc in E.
  change ([(0,0); (0,0); (5,0); (5,5)] ++ [(5,5); (0,0)]) with (([(0,0); (0,0); (5,0); (5,5)] ++ [(5,5)]) ++ [(0,0)]) in E.
  apply app_inj_tail in E as (E & <-). apply app_inj_tail in E as (_ & E). discriminate.
Qed.

(** * C59: the sweep of a row holds exactly the edges that the row meets *)
Theorem C59_active : forall sort_events sort_new ls wbits width height fuel rws st' es,
  sorts_valid valid revent_lt sort_events -> sorts_valid (fun en => valid (fst en)) new_lt sort_new ->
  edges_from (radd_loops [] ls) 0 (radd_loops [] ls) = Some es ->
  scan_rows sort_events sort_new (radd_loops [] ls) wbits width height fuel = Some (rws, st') ->
  (forall y sw spans, In (y, sw, spans) rws -> y < height /\ Permutation (map (fun n => nth n (dummy_node :: es) dummy_node) sw) (filter (active y) es)) /\
  (forall y, y < height -> In y (map (fun r => fst (fst r)) rws) \/ forall s, In s es -> active y s = false) /\
  StronglySorted Z.lt (map (fun r => fst (fst r)) rws).
Proof. exact active_rows. Qed.
Print Assumptions C59_active.

(** * C60: rasterising ends
    False: three edges that cross in one point are swapped with each other forever. *)
Theorem C60_ends_refuted : exists ls, forall fuel, scan_all rsort rsort_new (radd_loops [] ls) 32 30 15 fuel = None.
Proof. exists forever. exact no_end. Qed.
Print Assumptions C60_ends_refuted.

(** It ends, and no assertion fails, if no two edges cross inside both; they may touch and
    coincide. The number of steps is the number of ends of edges. Partial: the full
    statement is the same without the assumption about crossings. *)
Theorem C60_ends_partial : forall sort_events sort_new ls wbits width height fuel,
  sorts_valid valid revent_lt sort_events -> sorts_valid (fun en => valid (fst en)) new_lt sort_new ->
  (forall e f, In e (flat_map polygon_edges ls) -> In f (flat_map polygon_edges ls) -> ~ edges_cross e f) ->
  (2 * length (flat_map polygon_edges ls) <= fuel)%nat ->
  exists out st', scan_all sort_events sort_new (radd_loops [] ls) wbits width height fuel = Some (out, st') /\ rs_ok st' = true.
Proof. exact scan_ends. Qed.
Print Assumptions C60_ends_partial.
(** The whole of it for such polygons: the scan lines are in the image, they carry the
    winding numbers, and they cover every point with a number other than zero. *)
Theorem C51_not_crossing : forall sort_events sort_new ls wbits width height fuel,
  sorts_valid valid revent_lt sort_events -> sorts_valid (fun en => valid (fst en)) new_lt sort_new ->
  width_ok wbits width -> height <= 2 ^ 32 ->
  (forall e f, In e (flat_map polygon_edges ls) -> In f (flat_map polygon_edges ls) -> ~ edges_cross e f) ->
  (2 * length (flat_map polygon_edges ls) <= fuel)%nat ->
  exists out st', scan_all sort_events sort_new (radd_loops [] ls) wbits width height fuel = Some (out, st') /\
    (forall s, In s out -> 0 <= sl_y s < height /\ 0 <= sl_x1 s /\ sl_x1 s <= sl_x2 s /\ sl_x2 s <= width - 1 /\ sl_winding s <> 0 /\
      exists e f, In e (flat_map polygon_edges ls) /\ In f (flat_map polygon_edges ls) /\
        crosses_row (sl_y s) e = true /\ crosses_row (sl_y s) f = true /\
        sl_x1 s = pixel width (edge_x (sl_y s) f) /\ sl_x2 s = pixel width (edge_x (sl_y s) e) /\
        forall x, (edge_x (sl_y s) f < x)%Q -> (x < edge_x (sl_y s) e)%Q -> ray (flat_map polygon_edges ls) (sl_y s) x = sl_winding s) /\
    (forall y x, 0 <= y < height -> (forall e, In e (flat_map polygon_edges ls) -> crosses_row y e = true -> ~ (edge_x y e == x)%Q) ->
      ray (flat_map polygon_edges ls) y x <> 0 ->
      exists s, In s out /\ sl_y s = y /\ sl_winding s = ray (flat_map polygon_edges ls) y x /\ sl_x1 s <= pixel width x <= sl_x2 s).
Proof.
  intros se sn ls wbits width height fuel SE SN W H NX LF. destruct (scan_ends se sn ls wbits width height fuel SE SN NX LF) as (out & st' & R & OK).
  exists out, st'. split; [exact R|]. split.
  - intros s I. destruct (C47_in_image se sn ls wbits width height fuel out st' s W H R I) as (A1 & _ & _ & A2).
    destruct (C47_order_partial se sn ls wbits width height fuel out st' s SE SN W H R OK I) as (B1 & B2 & B3).
    destruct (C51_winding se sn ls wbits width height fuel out st' s SE SN W H R OK I) as (e & f & M1 & M2 & M3 & M4 & M5 & M6 & _ & M8).
    repeat (split; [assumption|]). exists e, f. auto 10.
  - intros y x Y N RAY. exact (C51_covered se sn ls wbits width height fuel out st' y x SE SN W H R OK Y N RAY).
Qed.
Print Assumptions C51_not_crossing.
(** A frame with a triangle inside that touches it, a loop that runs along the frame, and a
    loop that goes back along its own line. *)
Definition framed : list (list point) :=
  [[(2,2); (38,2); (38,38); (2,38)]; [(10,10); (20,30); (38,20)]; [(2,5); (2,12); (-7,9)]; [(12,4); (12,9); (12,6)]].
Example ex_C60 : (forall e f, In e (flat_map polygon_edges framed) -> In f (flat_map polygon_edges framed) -> ~ edges_cross e f) /\
  (2 * length (flat_map polygon_edges framed) <= 30)%nat /\
  exists out st', scan_all rsort rsort_new (radd_loops [] framed) 32 40 40 30 = Some (out, st') /\ rs_ok st' = true /\ In (mk_scan 2 15 20 1) out.
Proof.
  split; [apply cross_b_ok; vm_compute; reflexivity|]. split; [apply Nat.leb_le; vm_compute; reflexivity|].
  do 2 eexists. split; [vm_compute; reflexivity|]. split; [reflexivity|]. vm_compute. intuition.
Qed.

(** * The hypotheses hold *)
Example ex_sorts : sorts_valid valid revent_lt rsort /\ sorts_valid (fun en => valid (fst en)) new_lt rsort_new.
Proof. split; [exact rsort_ok|exact rsort_new_ok]. Qed.
Definition star : list (list point) := [[(20,2); (30,38); (2,14); (38,14); (10,38)]; [(-5,20); (50,25); (50,20)]].
Example ex_run : width_ok 32 40 /\ exists out st', scan_all rsort rsort_new (radd_loops [] star) 32 40 40 200 = Some (out, st') /\ rs_ok st' = true /\
  In (mk_scan 15 25 20 1) out /\ In (mk_scan 31 39 20 (-1)) out.
Proof.
  split; [vm_compute; repeat split; congruence|]. do 2 eexists. split; [vm_compute; reflexivity|]. vm_compute. intuition.
Qed.
Example ex_point : (forall e, In e (flat_map polygon_edges star) -> crosses_row 20 e = true -> ~ (edge_x 20 e == 20)%Q) /\ ray (flat_map polygon_edges star) 20 20 = 1.
Proof.
  split; [|vm_compute; reflexivity]. intros e I C. vm_compute in I. repeat (destruct I as [<-|I]; [first [discriminate C|vm_compute; discriminate]|]). destruct I.
Qed.

(** * C60, C51: polygons whose edges cross
    It ends, and no assertion fails, if no crossing is at a whole height and no third edge
    passes through it; edges may also touch and coincide. Partial: the full statement is the
    same without the assumption about crossings. *)
Theorem C60_crossing_partial : forall sort_events sort_new ls wbits width height fuel,
  sorts_valid valid revent_lt sort_events -> sorts_valid (fun en => valid (fst en)) new_lt sort_new ->
  plain_crossings (flat_map polygon_edges ls) ->
  (let n := length (flat_map polygon_edges ls) in 6 * n + 2 * (n * n) < fuel)%nat ->
  exists out st', scan_all sort_events sort_new (radd_loops [] ls) wbits width height fuel = Some (out, st') /\ rs_ok st' = true.
Proof. exact scan_crossing. Qed.
Print Assumptions C60_crossing_partial.
(** The whole of it for such polygons. *)
Theorem C51_crossing : forall sort_events sort_new ls wbits width height fuel,
  sorts_valid valid revent_lt sort_events -> sorts_valid (fun en => valid (fst en)) new_lt sort_new ->
  width_ok wbits width -> height <= 2 ^ 32 ->
  plain_crossings (flat_map polygon_edges ls) ->
  (let n := length (flat_map polygon_edges ls) in 6 * n + 2 * (n * n) < fuel)%nat ->
  exists out st', scan_all sort_events sort_new (radd_loops [] ls) wbits width height fuel = Some (out, st') /\
    (forall s, In s out -> 0 <= sl_y s < height /\ 0 <= sl_x1 s /\ sl_x1 s <= sl_x2 s /\ sl_x2 s <= width - 1 /\ sl_winding s <> 0 /\
      exists e f, In e (flat_map polygon_edges ls) /\ In f (flat_map polygon_edges ls) /\
        crosses_row (sl_y s) e = true /\ crosses_row (sl_y s) f = true /\
        sl_x1 s = pixel width (edge_x (sl_y s) f) /\ sl_x2 s = pixel width (edge_x (sl_y s) e) /\
        forall x, (edge_x (sl_y s) f < x)%Q -> (x < edge_x (sl_y s) e)%Q -> ray (flat_map polygon_edges ls) (sl_y s) x = sl_winding s) /\
    (forall y x, 0 <= y < height -> (forall e, In e (flat_map polygon_edges ls) -> crosses_row y e = true -> ~ (edge_x y e == x)%Q) ->
      ray (flat_map polygon_edges ls) y x <> 0 ->
      exists s, In s out /\ sl_y s = y /\ sl_winding s = ray (flat_map polygon_edges ls) y x /\ sl_x1 s <= pixel width x <= sl_x2 s).
Proof.
  intros se sn ls wbits width height fuel SE SN W H NX LF. destruct (scan_crossing se sn ls wbits width height fuel SE SN NX LF) as (out & st' & R & OK).
  exists out, st'. split; [exact R|]. split.
  - intros s I. destruct (C47_in_image se sn ls wbits width height fuel out st' s W H R I) as (A1 & _ & _ & A2).
    destruct (C47_order_partial se sn ls wbits width height fuel out st' s SE SN W H R OK I) as (B1 & B2 & B3).
    destruct (C51_winding se sn ls wbits width height fuel out st' s SE SN W H R OK I) as (e & f & M1 & M2 & M3 & M4 & M5 & M6 & _ & M8).
    repeat (split; [assumption|]). exists e, f. auto 10.
  - intros y x Y N RAY. exact (C51_covered se sn ls wbits width height fuel out st' y x SE SN W H R OK Y N RAY).
Qed.
Print Assumptions C51_crossing.
(** A five-pointed star and a triangle across it. *)
Example ex_C60_crossing : plain_crossings (flat_map polygon_edges star) /\
  (exists e f, In e (flat_map polygon_edges star) /\ In f (flat_map polygon_edges star) /\ edges_cross e f) /\
  (let n := length (flat_map polygon_edges star) in 6 * n + 2 * (n * n) < 200)%nat.
Proof.
  split; [apply plain_b_ok; vm_compute; reflexivity|]. split; [|apply Nat.ltb_lt; vm_compute; reflexivity].
  exists ((20, 2), (30, 38), 1), ((38, 14), (10, 38), 1). split; [vm_compute; intuition|]. split; [vm_compute; intuition|]. split; [vm_compute; discriminate|].
  exists (340 # 13)%Q, (314 # 13)%Q, (8 # 13)%Q, (11 # 26)%Q. vm_compute. repeat split; congruence.
Qed.

(** * C73: no assertion for polygons whose edges cross two at a time
    False: a crossing at the height of a corner of some other polygon is handled one row too
    late, and the checks at the end of the row fail. *)
Definition late : list (list point) := [[(0,0); (10,10); (10,0); (0,10)]; [(20,5); (25,8); (22,12)]].
Theorem C73_assert_refuted : exists ls, two_at_a_crossing (flat_map polygon_edges ls) /\
  exists out st', scan_all rsort rsort_new (radd_loops [] ls) 32 40 40 200 = Some (out, st') /\ rs_ok st' = false.
Proof. exists late. split; [apply two_b_ok; vm_compute; reflexivity|]. do 2 eexists. split; [vm_compute; reflexivity|reflexivity]. Qed.
Print Assumptions C73_assert_refuted.
(** True if no crossing is at a whole height. Partial: the full statement has no such
    assumption. *)
Theorem C73_assert_partial : forall sort_events sort_new ls wbits width height fuel,
  sorts_valid valid revent_lt sort_events -> sorts_valid (fun en => valid (fst en)) new_lt sort_new ->
  two_at_a_crossing (flat_map polygon_edges ls) ->
  (forall i j e f X Y (z : Z), nth_error (flat_map polygon_edges ls) i = Some e -> nth_error (flat_map polygon_edges ls) j = Some f -> cross_in_point e f X Y -> ~ (Y == inject_Z z)%Q) ->
  (let n := length (flat_map polygon_edges ls) in 6 * n + 2 * (n * n) < fuel)%nat ->
  exists out st', scan_all sort_events sort_new (radd_loops [] ls) wbits width height fuel = Some (out, st') /\ rs_ok st' = true.
Proof. intros se sn ls wbits width height fuel SE SN T W. exact (scan_crossing se sn ls wbits width height fuel SE SN (conj W T)). Qed.
Print Assumptions C73_assert_partial.
Example ex_C73 : two_at_a_crossing (flat_map polygon_edges star) /\ exists out st', scan_all rsort rsort_new (radd_loops [] star) 32 40 40 200 = Some (out, st') /\ rs_ok st' = true.
Proof. split; [exact (proj2 (proj1 ex_C60_crossing))|]. exact (C73_assert_partial rsort rsort_new star 32 40 40 200 rsort_ok rsort_new_ok (proj2 (proj1 ex_C60_crossing)) (proj1 (proj1 ex_C60_crossing)) (proj2 (proj2 ex_C60_crossing))). Qed.
