(** What offsetting adds to a clipper: property C77. *)
From Coq Require Import ZArith QArith List Bool Arith Lia.
From Verif Require Import GeomModel GeomSpec BalanceModel EventsModel EventsSpec EventsProofs WindSpec OutModel ClipModel ClipSpec ClipProofs SweepProofs PointSinkModel PointSinkSpec JoinSpec ClipProps JudgeProps ArrangeSpec RegionProps SegSpec SegClean SegProps WholeProofs WholeRuns WholeCore WholeTotal WholeSpec WholeInput WholeProps TotalSpec TotalEnds TotalProps ExactProofs GeneralProofs GeneralExact OffsetModel OffsetSpec OffsetProps GeneralProps OutlineSpec OutlineProofs.
Import ListNotations.
Local Open Scope nat_scope.

(** Offsetting sequences of points stores the same points, with the same links, sets and marks,
    as adding their outlines as polygons; whatever the positions of moved lines and the points
    of arcs are. It fails (reads outside the stored points) just when that does.
    Partial: the full statement is of all sequences. An open line that ends with a point three
    times is gone along twice, see below. *)
Theorem C77_outline_partial : forall moved rotated steps negative positive lone_steps lone_rotated c log pt ss,
  cs_ran c = false -> (Z.of_nat (cs_next_orig c) < 2 ^ 64)%Z -> no_thrice ss ->
  match offset_all moved rotated steps negative positive lone_steps lone_rotated c log pt ss,
        add_all c log pt (outlines moved rotated steps negative positive lone_steps lone_rotated ss) with
  | Done (c1, _), Done (c2, _) => cs_points c1 = cs_points c2
  | OutOfBounds, OutOfBounds => True
  | _, _ => False
  end.
Proof.
  intros mv ro st ng ps ls lr c log pt ss R B T. pose proof (all_same mv ro st ng ps ls lr pt ss c c log log eq_refl R R B T) as S. unfold same_result in S.
  destruct (offset_all mv ro st ng ps ls lr c log pt ss) as [(c1, l1)|], (add_all c log pt _) as [(c2, l2)|]; try exact S. apply S.
Qed.
Print Assumptions C77_outline_partial.

(** An operation on what was offset, for all sequences: splitting ends; if the split lines only
    meet at their ends and are marked there, the operation succeeds, and its result encloses
    what it selects from the split outlines, and from the outlines if the splits are exact.
    Partial: as C70_region_partial, which it is of, and as above. *)
Theorem C77_region_partial : forall moved rotated steps negative positive lone_steps lone_rotated place sort_events sort_new draws fuel op tree pt rand ss,
  sorts event_lt sort_events -> sorts (lt_new _ _ (fun e => e) event_lt) sort_new -> places place -> no_thrice ss ->
  let ps := outlines moved rotated steps negative positive lone_steps lone_rotated ss in
  plain_input None ps ->
  let n := length (all_edges ps) in let t := all_steps ps in
  (t - n) * (8 * t + 2) + 4 * t <= fuel -> t * (2 + t) <= fuel ->
  exists c log st,
    offset_all moved rotated steps negative positive lone_steps lone_rotated clip_new [] pt ss = Done (c, log) /\
    self_intersection intersects place sort_events sort_new draws fuel (stored (cs_points c)) rand = Some st /\
    (SegSpec.apart (s_pts st) -> marked (s_pts st) (s_pts st) ->
     exists fps loops ss' merged r Ls,
       do_op intersects place sort_events sort_new draws fuel op tree (stored (cs_points c)) rand = Some (fps, loops, ss', s_log st, merged, r) /\
       Forall2 (fun loc L => L <> [] /\ iterate_loop fps (fst loc) (snd loc) = Some L) loops Ls /\
       encloses op (s_pts st) (flat_map (loop_lines fps) Ls) /\
       (exact_splits n (s_pts st) (s_log st) -> region_of op ps (flat_map (loop_lines fps) Ls))).
Proof.
  intros mv ro sp ng po ls lr place se sn draws fuel op tree pt rand ss SE SN PLC T ps PI n t F1 F2.
  destruct (C70_region_partial place se sn draws fuel op tree pt rand ps SE SN PLC PI F1 F2) as (c & log & st & A & H).
  pose proof (C77_outline_partial mv ro sp ng po ls lr clip_new [] pt ss eq_refl eq_refl T) as S. fold ps in S. rewrite A in S.
  destruct (offset_all mv ro sp ng po ls lr clip_new [] pt ss) as [(c1, log1)|]; [|destruct S]. exists c1, log1, st. split; [reflexivity|]. rewrite S. exact H.
Qed.
Print Assumptions C77_region_partial.

(** A square and an open line, both moved by 5. *)
Definition seqs : sequences := [(Subject, true, sq); (Clip, false, [(40,40); (200,40); (200,40)])]%Z.
Definition ex_rotated (a b c : point) (n : nat) : point := (5 * Z.sgn (px b - px a), 5 * Z.sgn (py b - py a))%Z.
Definition ex_steps (a b c : point) : Z := if point_eqb a c then 2%Z else 1%Z.
Example ex_C77 : no_thrice seqs /\ plain_input None (outlines ex_moved ex_rotated ex_steps false true 8%Z (fun _ => (0,0)%Z) seqs) /\
  outlines ex_moved ex_rotated ex_steps false true 8%Z (fun _ => (0,0)%Z) seqs =
    [(Subject, [(0,-5); (90,-5); (95,0); (95,90); (90,95); (0,95); (-5,90); (-5,0)]);
     (Clip, [(40,35); (200,35); (205,40); (200,45); (40,45); (35,40)])]%Z.
Proof.
  split; [|split].
  - intros cat l [E|[E|[]]]; [discriminate|]. injection E as _ <-. intros (m & p & E). apply (f_equal (@rev point)) in E. rewrite rev_app_distr in E. cbn in E. injection E as <- E. discriminate.
  - cbn [plain_input outlines map seqs fst snd]. repeat match goal with |- _ /\ _ => split | |- _ <> 1 => vm_compute; discriminate | |- ~ trailing_repeat _ => apply no_trailing; reflexivity | |- True => exact I end; intros p H; unfold first_is in H; vm_compute in H; injection H as <-; vm_compute; discriminate.
  - vm_compute. reflexivity.
Qed.
(** The outline of an open line that ends with a point three times is stored twice over. *)
Definition thrice : list point := [(0,0); (9,0); (9,0); (9,0)]%Z.
Theorem C77_outline_refuted : exists moved rotated steps c1 log1 c2 log2,
  offset_all moved rotated steps false true 8 (fun _ => (0,0)%Z) clip_new [] true [(Subject, false, thrice)] = Done (c1, log1) /\
  add_all clip_new [] true (outlines moved rotated steps false true 8 (fun _ => (0,0)%Z) [(Subject, false, thrice)]) = Done (c2, log2) /\
  length (cs_points c1) = 2 * length (cs_points c2) /\ length (cs_points c2) <> 0.
Proof.
  exists ex_moved, ex_rotated, ex_steps. do 4 eexists. split; [vm_compute; reflexivity|]. split; [vm_compute; reflexivity|]. vm_compute. split; [reflexivity|discriminate].
Qed.
Print Assumptions C77_outline_refuted.
