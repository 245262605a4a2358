(** The hierarchy of the loops of an operation with rounded crossing points (C72), and operations
    that do not fail (C63). *)
From Coq Require Import ZArith QArith List Bool Arith Permutation Sorted Lia.
From Verif Require Import GeomModel GeomSpec BalanceModel EventsModel EventsSpec OutModel OutSpec PointSinkModel PointSinkSpec ClipModel ClipSpec ClipProofs SweepProofs ClipProps JudgeProps JoinSpec RegionProps
  SegSpec SegClean SegProps WholeSpec WholeInput WholeCore WholeProps TotalProps GeneralProofs GeneralProps DynSpec DynInput DynProps TreeSpec TreeCore TreeFailProps TreeProps RndSpec RndProps.
Import ListNotations.
Local Open Scope nat_scope.

(** C72 for operations whose crossing points are rounded: if no loop goes back along its own line
    while lines are split, and the loops of the result do not touch, the hierarchy is built, holds
    every loop once and puts each loop directly in the innermost loop around it.
    Partial: the full statement has no conditions; it is false, see C72_tree_refuted. *)
Theorem C72_rounded_partial : forall place sort_events sort_new draws fuel op pt rand ps,
  sorts event_lt sort_events -> sorts (lt_new _ _ (fun e => e) event_lt) sort_new -> finds place -> places place ->
  plain_input None ps ->
  never_goes_back (sweep_step intersects place sort_events sort_new draws) (stored (rings 0 ps)) rand ->
  let n := length (all_edges ps) in let t := all_steps ps in
  (t - n) * (8 * t + 2) + 4 * t <= fuel -> t * (2 + t) <= fuel ->
  exists c log fps loops ss splits merged r Ls,
    add_all clip_new [] pt ps = Done (c, log) /\
    do_op intersects place sort_events sort_new draws fuel op true (stored (cs_points c)) rand = Some (fps, loops, ss, splits, merged, r) /\
    Forall2 (fun loc L => L <> [] /\ iterate_loop fps (fst loc) (snd loc) = Some L) loops Ls /\
    (loops_apart fps Ls -> forall sort_samples,
     (forall l, Permutation (sort_samples l) l /\ Sorted (fun a b => (loop_of fps (fst a) <= loop_of fps (fst b))%Z) (sort_samples l)) ->
     exists top children, loop_hierarchy sort_samples fps (length loops) ss = Some (top, children) /\
       tree_right fps Ls (length loops) top children /\
       exists k l, walk_tree k children top = Some l /\ Permutation l (seq 0 (length loops))).
Proof.
  intros place se sn draws fuel op pt rand ps SE SN FI PLC PI NB n t F1 F2.
  destruct (C72_run_partial place se sn draws fuel op pt rand ps SE SN PLC PI F1 F2) as (c & log & st & A & R & H).
  destruct (add_rings ps clip_new [] pt None eq_refl) as (c' & log' & A' & P & _); [intros p (m & b & E & _); destruct m; discriminate|exact PI|]. cbn [clip_new cs_points app length] in P. rewrite A in A'. injection A' as <- <-.
  assert (X : SegSpec.apart (s_pts st) /\ marked (s_pts st) (s_pts st)).
  { rewrite P in R. eapply C44_rounded_partial; [exact SE|exact SN|exact FI|exact PLC|exact (poly_proper ps)|exact (poly_nonzero ps)|exact NB|exact R]. }
  destruct X as (AP & MK). destruct (H AP MK) as (fps & loops & ss & merged & r & Ls & D & F & _ & X). exists c, log, fps, loops, ss, (s_log st), merged, r, Ls. auto.
Qed.
Print Assumptions C72_rounded_partial.

(** C63: adding the polygons and executing the operation fails no assertion and reads nothing
    outside an array, if no polygon repeats its first point at its end (plain_input), and either
    edges cross at points with whole coordinates or no loop goes back along its own line while lines
    are split.
    Partial: the full statement has no conditions; it is false, see C63_no_failure_refuted. *)
Theorem C63_no_failure_partial : forall place sort_events sort_new draws fuel op tree pt rand ps,
  sorts event_lt sort_events -> sorts (lt_new _ _ (fun e => e) event_lt) sort_new -> finds place -> places place ->
  plain_input None ps ->
  (meet_on_grid (map snd (all_edges ps)) /\ Forall (fun sp => no_going_back (norm (snd sp))) ps) \/
  never_goes_back (sweep_step intersects place sort_events sort_new draws) (stored (rings 0 ps)) rand ->
  let n := length (all_edges ps) in let t := all_steps ps in
  (t - n) * (8 * t + 2) + 4 * t <= fuel -> t * (2 + t) <= fuel ->
  exists c log, add_all clip_new [] pt ps = Done (c, log) /\
    do_op intersects place sort_events sort_new draws fuel op tree (stored (cs_points c)) rand <> None.
Proof.
  intros place se sn draws fuel op tree pt rand ps SE SN FI PLC PI [(MG & NB)|NB] n t F1 F2.
  - destruct (C71_region place se sn draws fuel op tree pt rand ps SE SN FI PLC PI MG NB F1 F2) as (c & log & fps & loops & ss & splits & merged & r & Ls & A & D & _).
    exists c, log. split; [exact A|]. rewrite D. discriminate.
  - destruct (C70_rounded_partial place se sn draws fuel op tree pt rand ps SE SN FI PLC PI NB F1 F2) as (c & log & st & fps & loops & ss & merged & r & Ls & A & _ & D & _).
    exists c, log. split; [exact A|]. rewrite D. discriminate.
Qed.
Print Assumptions C63_no_failure_partial.

(** The two triangles of RndProps in a frame. *)
Definition framed_star : polygons := ((Subject, [(-3, -3); (9, -3); (9, 9); (-3, 9)]) :: (Subject, [(-2, -2); (-2, 8); (8, 8); (8, -2)]) :: star)%Z.
Lemma fstar_plain : plain_input None framed_star.
Proof.
  cbn [plain_input framed_star star]. repeat match goal with |- _ /\ _ => split | |- _ <> 1 => discriminate | |- ~ trailing_repeat _ => apply no_trailing; reflexivity | |- True => exact I end; intros p H; unfold first_is in H; cbn in H; injection H as <-; vm_compute; discriminate.
Qed.
Lemma fstar_never : never_goes_back (sweep_step intersects run_place run_sort run_sort_new interior) (stored (rings 0 framed_star)) rand_seed.
Proof. apply (never_ok _ 800). vm_compute. reflexivity. Qed.
Example fstar_steps : all_steps framed_star = 138 /\ length (all_edges framed_star) = 14.
Proof. split; vm_compute; reflexivity. Qed.
Definition fstar_fuel : nat := (138 - 14) * (8 * 138 + 2) + 4 * 138.
Definition fstar_out := Eval vm_compute in run_op fstar_fuel OpUnion true (stored (rings 0 framed_star)) rand_seed.
Lemma fstar_run : run_op fstar_fuel OpUnion true (stored (rings 0 framed_star)) rand_seed = fstar_out.
Proof. vm_cast_no_check (@eq_refl _ fstar_out). Qed.
(** The result has three loops that do not touch: the second is in the first and the outline of the
    triangles in the second. *)
Example fstar_tree : exists c log fps loops ss splits merged r Ls,
  add_all clip_new [] false framed_star = Done (c, log) /\
  run_op fstar_fuel OpUnion true (stored (cs_points c)) rand_seed = Some (fps, loops, ss, splits, merged, r) /\
  Forall2 (fun loc L => L <> [] /\ iterate_loop fps (fst loc) (snd loc) = Some L) loops Ls /\
  map (map (fpos fps)) Ls = [[(-3, -3); (9, -3); (9, 9); (-3, 9)]; [(-2, -2); (-2, 8); (8, 8); (8, -2)]; [(0, 0); (4, 2); (6, 0); (6, 2); (7, 3); (6, 4); (5, 6); (3, 6); (2, 6); (2, 5); (0, 5); (2, 4)]]%Z /\
  loops_apart fps Ls /\
  loop_hierarchy (sort_by fps) fps 3 ss = Some ([0], [[1]; [2]; []]) /\
  tree_right fps Ls 3 [0] [[1]; [2]; []].
Proof.
  destruct run_sorts as (S1 & S2).
  destruct (C72_rounded_partial run_place run_sort run_sort_new interior fstar_fuel OpUnion false rand_seed framed_star S1 S2 first_greater_finds run_places fstar_plain fstar_never) as (c & log & fps & loops & ss & splits & merged & r & Ls & A & D & F & H); [apply Nat.leb_le; vm_compute; reflexivity|apply Nat.leb_le; vm_compute; reflexivity|].
  exists c, log, fps, loops, ss, splits, merged, r, Ls. split; [exact A|]. split; [exact D|]. split; [exact F|].
  destruct (add_rings framed_star clip_new [] false None eq_refl) as (c' & log' & A' & P & _); [intros p (m & b & E & _); destruct m; discriminate|exact fstar_plain|]. cbn [clip_new cs_points app length] in P. rewrite A in A'. injection A' as <- <-.
  change (run_op fstar_fuel OpUnion true (stored (cs_points c)) rand_seed = Some (fps, loops, ss, splits, merged, r)) in D. rewrite P, fstar_run in D. unfold fstar_out in D. injection D as <- <- <- <- <- <-.
  inversion F as [|? L1 ? ? (_ & I1) F2]; subst. inversion F2 as [|? L2 ? ? (_ & I2) F3]; subst. inversion F3 as [|? L3 ? ? (_ & I3) F4]; subst. inversion F4; subst. vm_compute in I1, I2, I3. injection I1 as <-. injection I2 as <-. injection I3 as <-.
  split; [reflexivity|]. match goal with |- ?X /\ _ => assert (LA : X) by (apply apart_tested; vm_compute; reflexivity) end. split; [exact LA|].
  destruct (H LA _ (sort_by_ok _)) as (top & children & B & T & _). change (length _) with 3 in B, T.
  match goal with |- ?X /\ _ => assert (C : X) by (vm_compute; reflexivity) end. split; [exact C|]. rewrite C in B. injection B as <- <-. exact T.
Qed.
Example fstar_works : exists c log, add_all clip_new [] false framed_star = Done (c, log) /\ run_op fstar_fuel OpDifference false (stored (cs_points c)) rand_seed <> None.
Proof.
  destruct run_sorts as (S1 & S2).
  apply (C63_no_failure_partial run_place run_sort run_sort_new interior fstar_fuel OpDifference false false rand_seed framed_star S1 S2 first_greater_finds run_places fstar_plain (or_intror fstar_never)); apply Nat.leb_le; vm_compute; reflexivity.
Qed.
