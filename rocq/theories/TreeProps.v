(** The hierarchy of the loops of a whole operation: property C72, where it holds. *)
From Coq Require Import ZArith QArith List Bool Arith Permutation Sorted Lia.
From Verif Require Import GeomModel GeomSpec BalanceModel EventsModel EventsSpec OutModel OutSpec PointSinkModel PointSinkSpec ClipModel ClipSpec ClipProofs SweepProofs ClipProps JudgeProps JoinSpec RegionProps
  SegSpec SegClean SegProps WholeSpec WholeInput WholeCore WholeProps TotalProps GeneralProofs GeneralProps DynSpec DynInput DynProps TreeSpec TreeCore TreeFailProps.
Import ListNotations.
Local Open Scope nat_scope.

(** C72 for any run whose split loops only meet at their ends and are marked where they do
    (the conditions of C70): if the loops of the result do not touch, the hierarchy is
    built, it holds every loop once, and every loop is directly in the innermost loop around it.
    Partial: the full statement has no conditions on the run or on the result; it is false
    of results whose loops touch, see C72_tree_refuted. *)
Theorem C72_run_partial : forall place sort_events sort_new draws fuel op pt rand ps,
  sorts event_lt sort_events -> sorts (lt_new _ _ (fun e => e) event_lt) sort_new -> places place ->
  plain_input None ps ->
  let n := length (all_edges ps) in let t := all_steps ps in
  (t - n) * (8 * t + 2) + 4 * t <= fuel -> t * (2 + t) <= fuel ->
  exists c log st,
    add_all clip_new [] pt ps = Done (c, log) /\
    self_intersection intersects place sort_events sort_new draws fuel (stored (cs_points c)) rand = Some st /\
    (SegSpec.apart (s_pts st) -> marked (s_pts st) (s_pts st) ->
     exists fps loops ss merged r Ls,
       do_op intersects place sort_events sort_new draws fuel op true (stored (cs_points c)) rand = Some (fps, loops, ss, s_log st, merged, r) /\
       Forall2 (fun loc L => L <> [] /\ iterate_loop fps (fst loc) (snd loc) = Some L) loops Ls /\
       encloses op (s_pts st) (flat_map (loop_lines fps) Ls) /\
       (loops_apart fps Ls -> forall sort_samples,
        (forall l, Permutation (sort_samples l) l /\ Sorted (fun a b => (loop_of fps (fst a) <= loop_of fps (fst b))%Z) (sort_samples l)) ->
        exists top children, loop_hierarchy sort_samples fps (length loops) ss = Some (top, children) /\
          tree_right fps Ls (length loops) top children /\
          exists k l, walk_tree k children top = Some l /\ Permutation l (seq 0 (length loops)))).
Proof.
  intros place se sn draws fuel op pt rand ps SE SN PLC PI n t F1 F2.
  destruct (add_rings ps clip_new [] pt None eq_refl) as (c & log & A & P & _); [intros p (m & b & E & _); destruct m; discriminate|exact PI|]. cbn [clip_new cs_points app length] in P.
  destruct (C70_region_partial place se sn draws fuel op true pt rand ps SE SN PLC PI F1 F2) as (c' & log' & st & A' & R & H). rewrite A in A'. injection A' as <- <-.
  exists c, log, st. split; [exact A|]. split; [exact R|]. intros AP MK. destruct (H AP MK) as (fps & loops & ss & merged & r & Ls & D & F & E & _).
  exists fps, loops, ss, merged, r, Ls. split; [exact D|]. split; [exact F|]. split; [exact E|]. intros LA so SO. rewrite P in R, D.
  refine (whole_tree intersects place se sn draws SE SN PLC op (stored (rings 0 ps)) (poly_proper ps) (poly_unjudged ps) fuel rand st R _ AP MK _ fps loops ss _ merged r Ls so D F LA SO).
  - exact (run_nonzero place se sn draws SE SN PLC (stored (rings 0 ps)) (poly_proper ps) (poly_nonzero ps) fuel rand st R).
  - exact (run_judge place se sn draws SE SN (stored (rings 0 ps)) (poly_proper ps) (poly_judge ps) fuel rand st R).
Qed.
Print Assumptions C72_run_partial.

(** C72 for all polygons whose edges cross at points with whole coordinates (C71): no
    condition on the run is left.
    Partial: the full statement has no condition on the polygons or on the result. *)
Theorem C72_tree_partial : forall place sort_events sort_new draws fuel op pt rand ps,
  sorts event_lt sort_events -> sorts (lt_new _ _ (fun e => e) event_lt) sort_new -> finds place -> places place ->
  plain_input None ps -> meet_on_grid (map snd (all_edges ps)) -> Forall (fun sp => no_going_back (norm (snd sp))) ps ->
  let n := length (all_edges ps) in let t := all_steps ps in
  (t - n) * (8 * t + 2) + 4 * t <= fuel -> t * (2 + t) <= fuel ->
  exists c log fps loops ss splits merged r Ls,
    add_all clip_new [] pt ps = Done (c, log) /\
    do_op intersects place sort_events sort_new draws fuel op true (stored (cs_points c)) rand = Some (fps, loops, ss, splits, merged, r) /\
    Forall2 (fun loc L => L <> [] /\ iterate_loop fps (fst loc) (snd loc) = Some L) loops Ls /\
    (loops_apart fps Ls -> forall sort_samples,
     (forall l, Permutation (sort_samples l) l /\ Sorted (fun a b => (loop_of fps (fst a) <= loop_of fps (fst b))%Z) (sort_samples l)) ->
     exists top children, loop_hierarchy sort_samples fps (length loops) ss = Some (top, children) /\
       tree_right fps Ls (length loops) top children /\
       exists k l, walk_tree k children top = Some l /\ Permutation l (seq 0 (length loops))).
Proof.
  intros place se sn draws fuel op pt rand ps SE SN FI PLC PI MG NB n t F1 F2.
  destruct (C72_run_partial place se sn draws fuel op pt rand ps SE SN PLC PI F1 F2) as (c & log & st & A & R & H).
  destruct (C71_split place se sn draws fuel pt rand ps SE SN FI PLC PI MG NB F1) as (c' & log' & st' & A' & R' & EX & AP & MK).
  rewrite A in A'. injection A' as <- <-. rewrite R in R'. injection R' as <-.
  destruct (H AP MK) as (fps & loops & ss & merged & r & Ls & D & F & _ & X). exists c, log, fps, loops, ss, (s_log st), merged, r, Ls. auto.
Qed.
Print Assumptions C72_tree_partial.

(** A frame, and in it two squares that cross each other. *)
Definition framed : polygons := [(Subject, [(0, 0); (8, 0); (8, 8); (0, 8)]); (Subject, [(1, 1); (1, 7); (7, 7); (7, 1)]); (Subject, [(2, 2); (4, 2); (4, 4); (2, 4)]); (Clip, [(3, 3); (6, 3); (6, 6); (3, 6)])]%Z.
Lemma framed_plain : plain_input None framed.
Proof.
  cbn [plain_input framed]. repeat match goal with |- _ /\ _ => split | |- _ <> 1 => discriminate | |- ~ trailing_repeat _ => apply no_trailing; reflexivity | |- True => exact I end; intros p H; unfold first_is in H; cbn in H; injection H as <-; vm_compute; discriminate.
Qed.
Lemma framed_grid : meet_on_grid (map snd (all_edges framed)).
Proof. apply grid_ok. vm_compute. reflexivity. Qed.
Lemma framed_back : Forall (fun sp => no_going_back (norm (snd sp))) framed.
Proof. repeat constructor; apply back_ok; vm_compute; reflexivity. Qed.
Definition framed_fuel : nat := (76 - 16) * (8 * 76 + 2) + 4 * 76.
Definition apart_test (fps : list fpoint) (Ls : list (list nat)) : bool :=
  forallb (fun a => forallb (fun b => Nat.eqb a b || forallb (fun x => forallb (fun y => negb (point_eqb (fpos fps x) (fpos fps y))) (nth b Ls [])) (nth a Ls [])) (seq 0 (length Ls))) (seq 0 (length Ls)).
Lemma apart_tested fps Ls : apart_test fps Ls = true -> loops_apart fps Ls.
Proof.
  intros T a b La Lb x y NA NB D X Y E. unfold apart_test in T. rewrite forallb_forall in T.
  assert (A : a < length Ls) by (apply nth_error_Some; congruence). assert (B : b < length Ls) by (apply nth_error_Some; congruence).
  specialize (T a). rewrite forallb_forall in T. specialize (T ltac:(apply in_seq; lia) b ltac:(apply in_seq; lia)). apply orb_prop in T as [T|T]; [apply Nat.eqb_eq in T; contradiction|].
  rewrite (nth_error_nth _ _ _ NA), (nth_error_nth _ _ _ NB) in T. rewrite forallb_forall in T. specialize (T x X). rewrite forallb_forall in T. specialize (T y Y). rewrite E in T. unfold point_eqb in T. rewrite !Z.eqb_refl in T. discriminate.
Qed.
Definition framed_out := Eval vm_compute in run_op framed_fuel OpUnion true (stored (rings 0 framed)) rand_seed.
Lemma framed_run : run_op framed_fuel OpUnion true (stored (rings 0 framed)) rand_seed = framed_out.
Proof. vm_cast_no_check (@eq_refl _ framed_out). Qed.
(** The result has three loops that do not touch: the second is in the first and the third
    in the second. *)
Example framed_tree : exists c log fps loops ss splits merged r Ls,
  add_all clip_new [] false framed = Done (c, log) /\
  run_op framed_fuel OpUnion true (stored (cs_points c)) rand_seed = Some (fps, loops, ss, splits, merged, r) /\
  Forall2 (fun loc L => L <> [] /\ iterate_loop fps (fst loc) (snd loc) = Some L) loops Ls /\
  map (map (fpos fps)) Ls = [[(0, 0); (8, 0); (8, 8); (0, 8)]; [(1, 1); (1, 7); (7, 7); (7, 1)]; [(2, 2); (4, 2); (4, 3); (6, 3); (6, 6); (3, 6); (3, 4); (2, 4)]]%Z /\
  loops_apart fps Ls /\
  loop_hierarchy (sort_by fps) fps 3 ss = Some ([0], [[1]; [2]; []]) /\
  tree_right fps Ls 3 [0] [[1]; [2]; []].
Proof.
  destruct run_sorts as (S1 & S2).
  destruct (C72_tree_partial run_place run_sort run_sort_new interior framed_fuel OpUnion false rand_seed framed S1 S2 first_greater_finds run_places framed_plain framed_grid framed_back) as (c & log & fps & loops & ss & splits & merged & r & Ls & A & D & F & H); [apply Nat.leb_le; vm_compute; reflexivity|apply Nat.leb_le; vm_compute; reflexivity|].
  exists c, log, fps, loops, ss, splits, merged, r, Ls. split; [exact A|]. split; [exact D|]. split; [exact F|].
  destruct (add_rings framed clip_new [] false None eq_refl) as (c' & log' & A' & P & _); [intros p (m & b & E & _); destruct m; discriminate|exact framed_plain|]. cbn [clip_new cs_points app length] in P. rewrite A in A'. injection A' as <- <-.
  change (run_op framed_fuel OpUnion true (stored (cs_points c)) rand_seed = Some (fps, loops, ss, splits, merged, r)) in D. rewrite P, framed_run in D. unfold framed_out in D. injection D as <- <- <- <- <- <-.
  inversion F as [|? L1 ? ? (_ & I1) F2]; subst. inversion F2 as [|? L2 ? ? (_ & I2) F3]; subst. inversion F3 as [|? L3 ? ? (_ & I3) F4]; subst. inversion F4; subst. vm_compute in I1, I2, I3. injection I1 as <-. injection I2 as <-. injection I3 as <-.
  split; [reflexivity|]. match goal with |- ?X /\ _ => assert (LA : X) by (apply apart_tested; vm_compute; reflexivity) end. split; [exact LA|].
  destruct (H LA _ (sort_by_ok _)) as (top & children & B & T & _). change (length _) with 3 in B, T.
  match goal with |- ?X /\ _ => assert (C : X) by (vm_compute; reflexivity) end. split; [exact C|]. rewrite C in B. injection B as <- <-. exact T.
Qed.
