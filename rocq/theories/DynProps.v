(** Boolean operations on polygons whose edges cross at points with whole coordinates. *)
From Coq Require Import ZArith QArith List Bool Arith Permutation Lia.
From Verif Require Import GeomModel GeomSpec BalanceModel EventsModel EventsSpec EventsProofs WindSpec OutModel ClipModel ClipSpec ClipProofs SweepProofs PointSinkModel PointSinkSpec JoinSpec ClipProps JudgeProps ArrangeSpec RegionProps
  SegSpec SegClean SegProps WholeProofs WholeRuns WholeCore WholeTotal WholeSpec WholeInput WholeProps TotalSpec TotalEnds TotalProps ExactProofs GeneralProofs GeneralExact GeneralProps DynSpec DynInput DynFinal.
Import ListNotations.
Local Open Scope nat_scope.

(** C71: the lines that splitting leaves have the same ends or meet only where both end, and
    where they do the points are to be judged, unless one line goes on where the other ends. *)
Theorem C71_split : forall place sort_events sort_new draws fuel pt rand ps,
  sorts event_lt sort_events -> sorts (lt_new _ _ (fun e => e) event_lt) sort_new -> finds place -> places place ->
  plain_input None ps -> meet_on_grid (map snd (all_edges ps)) -> Forall (fun sp => no_going_back (norm (snd sp))) ps ->
  let n := length (all_edges ps) in let t := all_steps ps in (t - n) * (8 * t + 2) + 4 * t <= fuel ->
  exists c log st,
    add_all clip_new [] pt ps = Done (c, log) /\
    self_intersection intersects place sort_events sort_new draws fuel (stored (cs_points c)) rand = Some st /\
    exact_splits n (s_pts st) (s_log st) /\ SegSpec.apart (s_pts st) /\ marked (s_pts st) (s_pts st).
Proof.
  intros place se sn draws fuel pt rand ps SE SN FI PLC PI MG NB n t F1.
  destruct (add_rings ps clip_new [] pt None eq_refl) as (c & log & A & P & _); [intros p (m & b & E & _); destruct m; discriminate|exact PI|]. cbn [clip_new cs_points app length] in P.
  assert (LP : length (stored (rings 0 ps)) = n) by (unfold n; rewrite pts_length, <- all_edges_length; reflexivity).
  destruct (C69_split place se sn draws fuel (stored (rings 0 ps)) rand SE SN PLC (poly_proper ps) (poly_nonzero ps)) as (st & R & _); [rewrite LP, around_steps; exact F1|].
  exists c, log, st. split; [exact A|]. rewrite P. split; [exact R|]. rewrite <- LP.
  exact (split_final place se sn draws SE SN PLC FI (stored (rings 0 ps)) (poly_proper ps) (poly_nonzero ps) (poly_grid ps MG) (poly_no_fold ps NB) fuel rand st R).
Qed.
Print Assumptions C71_split.

(** C71: the operation gives a result, and the polygons of the result wind once around the points
    that are selected and not around the others. *)
Theorem C71_region : forall place sort_events sort_new draws fuel op tree pt rand ps,
  sorts event_lt sort_events -> sorts (lt_new _ _ (fun e => e) event_lt) sort_new -> finds place -> places place ->
  plain_input None ps -> meet_on_grid (map snd (all_edges ps)) -> Forall (fun sp => no_going_back (norm (snd sp))) ps ->
  let n := length (all_edges ps) in let t := all_steps ps in
  (t - n) * (8 * t + 2) + 4 * t <= fuel -> t * (2 + t) <= fuel ->
  exists c log fps loops ss splits merged r Ls,
    add_all clip_new [] pt ps = Done (c, log) /\
    do_op intersects place sort_events sort_new draws fuel op tree (stored (cs_points c)) rand = Some (fps, loops, ss, splits, merged, r) /\
    Forall2 (fun loc L => L <> [] /\ iterate_loop fps (fst loc) (snd loc) = Some L) loops Ls /\
    region_of op ps (flat_map (loop_lines fps) Ls).
Proof.
  intros place se sn draws fuel op tree pt rand ps SE SN FI PLC PI MG NB n t F1 F2.
  destruct (C70_region_partial place se sn draws fuel op tree pt rand ps SE SN PLC PI F1 F2) as (c & log & st & A & R & H).
  destruct (C71_split place se sn draws fuel pt rand ps SE SN FI PLC PI MG NB F1) as (c' & log' & st' & A' & R' & EX & AP & MK).
  rewrite A in A'. injection A' as <- <-. rewrite R in R'. injection R' as <-.
  destruct (H AP MK) as (fps & loops & ss & merged & r & Ls & D & F & _ & X). exists c, log, fps, loops, ss, (s_log st), merged, r, Ls. auto.
Qed.
Print Assumptions C71_region.

(** A bow tie and a rectangle that lies across it: edges cross inside, at corners and at the
    corner of the other polygon. *)
Definition across_tie : polygons := [(Subject, [(0, 0); (4, 4); (4, 0); (0, 4)]); (Clip, [(1, 1); (7, 1); (7, 3); (1, 3)])]%Z.
Lemma tie_plain : plain_input None across_tie.
Proof.
  cbn [plain_input across_tie]. repeat match goal with |- _ /\ _ => split | |- _ <> 1 => discriminate | |- ~ trailing_repeat _ => apply no_trailing; reflexivity | |- True => exact I end; intros p H; unfold first_is in H; cbn in H; injection H as <-; vm_compute; discriminate.
Qed.
Lemma tie_grid : meet_on_grid (map snd (all_edges across_tie)).
Proof. apply grid_ok. vm_compute. reflexivity. Qed.
Lemma tie_back : Forall (fun sp => no_going_back (norm (snd sp))) across_tie.
Proof. repeat constructor; apply back_ok; vm_compute; reflexivity. Qed.
Example tie_steps : all_steps across_tie = 40 /\ length (all_edges across_tie) = 8.
Proof. split; vm_compute; reflexivity. Qed.
Definition tie_fuel : nat := (40 - 8) * (8 * 40 + 2) + 4 * 40.
(** Twelve new points at seven places. *)
Example tie_splits : option_map (fun st => map c_data (skipn 8 (s_pts st))) (run_split tie_fuel (stored (rings 0 across_tie)) rand_seed) =
  Some [(2, 2); (2, 2); (1, 3); (1, 1); (3, 1); (3, 1); (3, 3); (3, 3); (4, 3); (4, 3); (4, 1); (4, 1)]%Z.
Proof. vm_compute. reflexivity. Qed.
Example tie_region : exists c log fps loops ss splits merged r Ls,
  add_all clip_new [] false across_tie = Done (c, log) /\
  do_op intersects run_place run_sort run_sort_new interior tie_fuel OpIntersection false (stored (cs_points c)) rand_seed = Some (fps, loops, ss, splits, merged, r) /\
  Forall2 (fun loc L => L <> [] /\ iterate_loop fps (fst loc) (snd loc) = Some L) loops Ls /\
  region_of OpIntersection across_tie (flat_map (loop_lines fps) Ls).
Proof.
  destruct run_sorts as (S1 & S2).
  apply (C71_region run_place run_sort run_sort_new interior tie_fuel OpIntersection false false rand_seed across_tie S1 S2 first_greater_finds run_places tie_plain tie_grid tie_back); apply Nat.leb_le; vm_compute; reflexivity.
Qed.
