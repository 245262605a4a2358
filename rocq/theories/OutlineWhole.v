(** Offsetting followed by an operation, when the outlines cross at points with whole
    coordinates: property C77. *)
From Coq Require Import ZArith QArith List Bool Arith Permutation Lia.
From Verif Require Import GeomModel GeomSpec BalanceModel EventsModel EventsSpec EventsProofs WindSpec OutModel ClipModel ClipSpec ClipProofs SweepProofs PointSinkModel PointSinkSpec JoinSpec ClipProps JudgeProps ArrangeSpec RegionProps
  SegSpec SegClean SegProps WholeProofs WholeRuns WholeCore WholeTotal WholeSpec WholeInput WholeProps TotalSpec TotalEnds TotalProps ExactProofs GeneralProofs GeneralExact GeneralProps DynSpec DynInput DynFinal DynProps RndSpec RndFinal RndProps DropProofs AccountProofs AccountProps
  OffsetModel OffsetSpec OffsetProps OutlineSpec OutlineProofs OutlineProps OutlineOrigin.
Import ListNotations.
Local Open Scope nat_scope.

(** The operation succeeds and its result encloses what is selected by how often the outlines
    wind around a point; no conditions on the run.
    Partial: outlines may cross anywhere; and as C77_outline_partial. *)
Theorem C77_grid_partial : forall moved rotated steps negative positive lone_steps lone_rotated place sort_events sort_new draws fuel op tree pt rand ss,
  sorts event_lt sort_events -> sorts (lt_new _ _ (fun e => e) event_lt) sort_new -> finds place -> places place -> no_thrice ss ->
  let ps := outlines moved rotated steps negative positive lone_steps lone_rotated ss in
  plain_input None ps -> meet_on_grid (map snd (all_edges ps)) -> Forall (fun sp => no_going_back (norm (snd sp))) ps ->
  let n := length (all_edges ps) in let t := all_steps ps in
  (t - n) * (8 * t + 2) + 4 * t <= fuel -> t * (2 + t) <= fuel ->
  exists c log fps loops ss' splits merged r Ls,
    offset_all moved rotated steps negative positive lone_steps lone_rotated clip_new [] pt ss = Done (c, log) /\
    do_op intersects place sort_events sort_new draws fuel op tree (stored (cs_points c)) rand = Some (fps, loops, ss', splits, merged, r) /\
    Forall2 (fun loc L => L <> [] /\ iterate_loop fps (fst loc) (snd loc) = Some L) loops Ls /\
    region_of op ps (flat_map (loop_lines fps) Ls).
Proof.
  intros mv ro sp ng po ls lr place se sn draws fuel op tree pt rand ss SE SN FI PLC T ps PI MG NB n t F1 F2.
  destruct (C71_region place se sn draws fuel op tree pt rand ps SE SN FI PLC PI MG NB F1 F2) as (c & log & fps & loops & s' & spl & merged & r & Ls & A & H).
  pose proof (C77_outline_partial mv ro sp ng po ls lr clip_new [] pt ss eq_refl eq_refl T) as S. fold ps in S. rewrite A in S.
  destruct (offset_all mv ro sp ng po ls lr clip_new [] pt ss) as [(c1, log1)|]; [|destruct S]. exists c1, log1, fps, loops, s', spl, merged, r, Ls. split; [reflexivity|]. rewrite S. exact H.
Qed.
Print Assumptions C77_grid_partial.

(** The two squares of C76, moved by 5. *)
Definition two_outlines : polygons := Eval vm_compute in outlines ex_moved ex_rotated ex_steps false true 8%Z (fun _ => (0,0)%Z) two_squares.
Example two_steps : all_steps two_outlines = 148 /\ length (all_edges two_outlines) = 16.
Proof. split; vm_compute; reflexivity. Qed.
Definition outline_fuel : nat := (148 - 16) * (8 * 148 + 2) + 4 * 148.
Lemma two_plain : plain_input None two_outlines.
Proof.
  cbn [plain_input two_outlines]. repeat match goal with |- _ /\ _ => split | |- _ <> 1 => discriminate | |- ~ trailing_repeat _ => apply no_trailing; reflexivity | |- True => exact I end; intros p H; unfold first_is in H; cbn in H; injection H as <-; vm_compute; discriminate.
Qed.
Lemma two_grid : meet_on_grid (map snd (all_edges two_outlines)).
Proof. apply grid_ok. vm_compute. reflexivity. Qed.
Lemma two_back : Forall (fun sp => no_going_back (norm (snd sp))) two_outlines.
Proof. repeat constructor; apply back_ok; vm_compute; reflexivity. Qed.
Example ex_C77_grid : exists c log fps loops ss splits merged r Ls,
  offset_all ex_moved ex_rotated ex_steps false true 8%Z (fun _ => (0,0)%Z) clip_new [] false two_squares = Done (c, log) /\
  do_op intersects run_place run_sort run_sort_new interior outline_fuel OpIntersection false (stored (cs_points c)) rand_seed = Some (fps, loops, ss, splits, merged, r) /\
  Forall2 (fun loc L => L <> [] /\ iterate_loop fps (fst loc) (snd loc) = Some L) loops Ls /\
  region_of OpIntersection two_outlines (flat_map (loop_lines fps) Ls).
Proof.
  destruct run_sorts as (S1 & S2).
  apply (C77_grid_partial ex_moved ex_rotated ex_steps false true 8%Z (fun _ => (0,0)%Z) run_place run_sort run_sort_new interior outline_fuel OpIntersection false false rand_seed two_squares S1 S2 first_greater_finds run_places).
  - intros cat l [E|[E|[]]]; discriminate.
  - exact two_plain.
  - exact two_grid.
  - exact two_back.
  - change (outlines _ _ _ _ _ _ _ _) with two_outlines. destruct two_steps as (-> & ->). apply le_n.
  - change (outlines _ _ _ _ _ _ _ _) with two_outlines. destruct two_steps as (-> & _). unfold outline_fuel. lia.
Qed.

(** The same with crossings anywhere, as long as no loop comes to go back along its own line
    during the sweep: the result encloses what is selected by how often the split outlines wind
    around a point.
    Partial: as C70_rounded_partial and C77_outline_partial. *)
Theorem C77_rounded_partial : forall moved rotated steps negative positive lone_steps lone_rotated place sort_events sort_new draws fuel op tree pt rand ss,
  sorts event_lt sort_events -> sorts (lt_new _ _ (fun e => e) event_lt) sort_new -> finds place -> places place -> no_thrice ss ->
  let ps := outlines moved rotated steps negative positive lone_steps lone_rotated ss in
  plain_input None ps -> never_goes_back (sweep_step intersects place sort_events sort_new draws) (stored (rings 0 ps)) rand ->
  let n := length (all_edges ps) in let t := all_steps ps in
  (t - n) * (8 * t + 2) + 4 * t <= fuel -> t * (2 + t) <= fuel ->
  exists c log st fps loops ss' merged r Ls,
    offset_all moved rotated steps negative positive lone_steps lone_rotated clip_new [] pt ss = Done (c, log) /\
    self_intersection intersects place sort_events sort_new draws fuel (stored (cs_points c)) rand = Some st /\
    do_op intersects place sort_events sort_new draws fuel op tree (stored (cs_points c)) rand = Some (fps, loops, ss', s_log st, merged, r) /\
    Forall2 (fun loc L => L <> [] /\ iterate_loop fps (fst loc) (snd loc) = Some L) loops Ls /\
    encloses op (s_pts st) (flat_map (loop_lines fps) Ls).
Proof.
  intros mv ro sp ng po ls lr place se sn draws fuel op tree pt rand ss SE SN FI PLC T ps PI NB n t F1 F2.
  destruct (C70_rounded_partial place se sn draws fuel op tree pt rand ps SE SN FI PLC PI NB F1 F2) as (c & log & st & fps & loops & s' & merged & r & Ls & A & H).
  pose proof (C77_outline_partial mv ro sp ng po ls lr clip_new [] pt ss eq_refl eq_refl T) as S. fold ps in S. rewrite A in S.
  destruct (offset_all mv ro sp ng po ls lr clip_new [] pt ss) as [(c1, log1)|]; [|destruct S]. exists c1, log1, st, fps, loops, s', merged, r, Ls. split; [reflexivity|]. rewrite S. exact H.
Qed.
Print Assumptions C77_rounded_partial.

(** Each corner of the outlines and each new point is at one place in one loop of the output, or
    was discarded, just once.
    Partial: as C75_account_partial and C77_outline_partial. *)
Theorem C75_offset_partial : forall moved rotated steps negative positive lone_steps lone_rotated isect place sort_events sort_new draws fuel op pt rand ss c log fps loops ss' log' merged r,
  sorts event_lt sort_events -> sorts (lt_new _ _ (fun e => e) event_lt) sort_new -> places place -> no_thrice ss ->
  plain_input None (outlines moved rotated steps negative positive lone_steps lone_rotated ss) -> (op = OpDifference -> Forall (fun sp => fst sp = Subject) (outlines moved rotated steps negative positive lone_steps lone_rotated ss)) ->
  offset_all moved rotated steps negative positive lone_steps lone_rotated clip_new [] pt ss = Done (c, log) ->
  do_op isect place sort_events sort_new draws fuel op false (stored (cs_points c)) rand = Some (fps, loops, ss', log', merged, r) ->
  exists Ls, Forall2 (fun loc L => iterate_loop fps (fst loc) (snd loc) = Some L /\ L <> []) loops Ls /\
    Permutation (map fst merged ++ concat Ls) (seq 0 (length (cs_points c) + length log')).
Proof.
  intros mv ro sp ng po ls lr isect place se sn draws fuel op pt rand ss c log fps loops ss' log' merged r SE SN PLC T PI OP A H.
  pose proof (C77_outline_partial mv ro sp ng po ls lr clip_new [] pt ss eq_refl eq_refl T) as S. rewrite A in S.
  destruct (add_all clip_new [] pt (outlines mv ro sp ng po ls lr ss)) as [(c2, log2)|] eqn:A2; [|destruct S]. rewrite S in *.
  destruct (C75_account_partial isect place se sn draws fuel op pt rand _ c2 log2 fps loops ss' log' merged r SE SN PLC PI OP A2 H) as (Ls & F & P & _). exists Ls. auto.
Qed.
Print Assumptions C75_offset_partial.

(** Two triangles, moved by 5; their outlines cross off the grid. *)
Definition askew : sequences := [(Subject, true, [(0,0); (17,6); (5,14)]); (Clip, true, [(13,-5); (30,2); (11,9)])]%Z.
Definition askew_outlines : polygons := Eval vm_compute in outlines ex_moved ex_rotated ex_steps false true 8%Z (fun _ => (0,0)%Z) askew.
Example askew_steps : all_steps askew_outlines = 208 /\ length (all_edges askew_outlines) = 12.
Proof. split; vm_compute; reflexivity. Qed.
Definition askew_fuel : nat := (208 - 12) * (8 * 208 + 2) + 4 * 208.
Lemma askew_plain : plain_input None askew_outlines.
Proof.
  cbn [plain_input askew_outlines]. repeat match goal with |- _ /\ _ => split | |- _ <> 1 => discriminate | |- ~ trailing_repeat _ => apply no_trailing; reflexivity | |- True => exact I end; intros p H; unfold first_is in H; cbn in H; injection H as <-; vm_compute; discriminate.
Qed.
Example askew_splits : option_map (fun st => map c_data (skipn 12 (s_pts st))) (run_split 4000 (stored (rings 0 askew_outlines)) rand_seed) = Some [(8, -4); (8, -4); (19, 12); (19, 12)]%Z.
Proof. vm_compute. reflexivity. Qed.
(** The first new point is not on the edge that it splits. *)
Example askew_rounded : triangle_winding (6, 4)%Z (8, -10)%Z (8, -4)%Z <> 0%Z.
Proof. discriminate. Qed.
Lemma askew_never : never_goes_back (sweep_step intersects run_place run_sort run_sort_new interior) (stored (rings 0 askew_outlines)) rand_seed.
Proof. apply (never_ok _ 400). vm_compute. reflexivity. Qed.
Example ex_C77_rounded : exists c log st fps loops ss' merged r Ls,
  offset_all ex_moved ex_rotated ex_steps false true 8%Z (fun _ => (0,0)%Z) clip_new [] false askew = Done (c, log) /\
  self_intersection intersects run_place run_sort run_sort_new interior askew_fuel (stored (cs_points c)) rand_seed = Some st /\
  do_op intersects run_place run_sort run_sort_new interior askew_fuel OpXor false (stored (cs_points c)) rand_seed = Some (fps, loops, ss', s_log st, merged, r) /\
  Forall2 (fun loc L => L <> [] /\ iterate_loop fps (fst loc) (snd loc) = Some L) loops Ls /\
  encloses OpXor (s_pts st) (flat_map (loop_lines fps) Ls) /\
  Permutation (map fst merged ++ concat Ls) (seq 0 (length (cs_points c) + length (s_log st))).
Proof.
  destruct run_sorts as (S1 & S2).
  assert (T : no_thrice askew) by (intros cat l [E|[E|[]]]; discriminate).
  destruct (C77_rounded_partial ex_moved ex_rotated ex_steps false true 8%Z (fun _ => (0,0)%Z) run_place run_sort run_sort_new interior askew_fuel OpXor false false rand_seed askew S1 S2 first_greater_finds run_places T askew_plain askew_never) as (c & log & st & fps & loops & ss' & merged & r & Ls & A & R & D & F & E); [change (outlines _ _ _ _ _ _ _ _) with askew_outlines; destruct askew_steps as (-> & ->); apply le_n|change (outlines _ _ _ _ _ _ _ _) with askew_outlines; destruct askew_steps as (-> & _); unfold askew_fuel; lia|].
  destruct (C75_offset_partial ex_moved ex_rotated ex_steps false true 8%Z (fun _ => (0,0)%Z) intersects run_place run_sort run_sort_new interior askew_fuel OpXor false rand_seed askew c log fps loops ss' (s_log st) merged r S1 S2 run_places T askew_plain) as (Ls' & F' & P); [discriminate|exact A|exact D|].
  exists c, log, st, fps, loops, ss', merged, r, Ls. repeat (split; [assumption|]).
  replace Ls with Ls'; [exact P|]. clear - F F'. revert Ls F. induction F' as [|loc L' ls Ls' (I & _) F' IH]; intros Ls F; inversion F as [|? L ? ? (_ & I2) F2]; subst; [reflexivity|]. rewrite I in I2. injection I2 as <-. f_equal. apply IH. exact F2.
Qed.

(** add_offset for a range of sequences adds the outlines of all of them.
    Partial: as C77_outline_partial. *)
Theorem C77_range_partial : forall moved rotated steps negative positive lone_steps lone_rotated c log cat pt closed ls,
  let ss := map (fun l => (cat, closed, l)) ls in
  cs_ran c = false -> (Z.of_nat (cs_next_orig c) < 2 ^ 64)%Z -> no_thrice ss ->
  match offset_loops moved rotated steps negative positive lone_steps lone_rotated c log cat pt closed ls,
        add_all c log pt (outlines moved rotated steps negative positive lone_steps lone_rotated ss) with
  | Done (c1, _), Done (c2, _) => cs_points c1 = cs_points c2
  | OutOfBounds, OutOfBounds => True
  | _, _ => False
  end.
Proof.
  intros mv ro sp ng po ls lr c log cat pt closed l ss R B T.
  assert (E : forall l c log, offset_loops mv ro sp ng po ls lr c log cat pt closed l = offset_all mv ro sp ng po ls lr c log pt (map (fun l => (cat, closed, l)) l)).
  { clear. induction l as [|x l IH]; intros c log; cbn [offset_loops offset_all map]; [reflexivity|]. destruct (offset_loop _ _ _ _ _ _ _ _ _ _ _ _ _) as [(c1, log1)|]; [apply IH|reflexivity]. }
  rewrite E. exact (C77_outline_partial mv ro sp ng po ls lr c log pt ss R B T).
Qed.
Print Assumptions C77_range_partial.
(** A square and a triangle inside it, with a repeated point. *)
Example ex_C77_range : no_thrice (map (fun l => (Subject, true, l)) [[(0,0); (90,0); (90,0); (90,90); (0,90)]; [(20,20); (40,60); (60,20)]]%Z) /\
  match offset_loops ex_moved ex_rotated ex_steps false true 8%Z (fun _ => (0,0)%Z) clip_new [] Subject true true [[(0,0); (90,0); (90,0); (90,90); (0,90)]; [(20,20); (40,60); (60,20)]]%Z with
  | Done (c, _) => length (cs_points c) | OutOfBounds => 0 end = 14.
Proof. split; [intros cat l [E|[E|[]]]; discriminate|vm_compute; reflexivity]. Qed.
