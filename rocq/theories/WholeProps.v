(** Boolean operations on polygons whose edges only meet at their ends. *)
From Coq Require Import ZArith QArith List Bool Arith Permutation Lia.
From Verif Require Import GeomModel GeomSpec BalanceModel EventsModel EventsSpec EventsProofs WindSpec OutModel ClipModel ClipSpec PointSinkModel PointSinkSpec JoinSpec ClipProps JudgeProps ArrangeSpec RegionProps
  SegSpec SegClean WholeProofs WholeRuns WholeCore WholeTotal WholeSpec WholeInput.
Import ListNotations.
Local Open Scope nat_scope.

(** C68: the operation gives a result, no point is added, and the polygons of the result wind
    once around the points that are selected and not around the others. *)
Theorem C68_region : forall place sort_events sort_new draws fuel op tree pt rand ps,
  sorts event_lt sort_events -> sorts (lt_new _ _ (fun e => e) event_lt) sort_new -> finds place -> places place ->
  plain_input None ps -> only_meet_at_ends (map snd (all_edges ps)) ->
  length (all_edges ps) * (2 + length (all_edges ps)) <= fuel ->
  exists c log fps loops ss merged r Ls,
    add_all clip_new [] pt ps = Done (c, log) /\
    do_op intersects place sort_events sort_new draws fuel op tree (stored (cs_points c)) rand = Some (fps, loops, ss, [], merged, r) /\
    Forall2 (fun loc L => L <> [] /\ iterate_loop fps (fst loc) (snd loc) = Some L) loops Ls /\
    region_of op ps (flat_map (loop_lines fps) Ls).
Proof.
  intros place se sn draws fuel op tree pt rand ps SE SN FI PLC PI ME F.
  destruct (add_rings ps clip_new [] pt None eq_refl) as (c & log & A & P & _); [intros p (m & b & E & _); destruct m; discriminate|exact PI|]. cbn [clip_new cs_points app length] in P.
  destruct (total_whole place se sn draws SE SN FI PLC (stored (rings 0 ps)) (poly_proper ps) (poly_unjudged ps) (poly_nonzero ps) (poly_judge ps) op tree fuel rand (poly_apart ps ME)) as (fps & loops & ss & merged & r & Ls & D & F2 & E).
  - rewrite pts_length, <- all_edges_length. exact F.
  - exists c, log, fps, loops, ss, merged, r, Ls. split; [exact A|]. rewrite P. split; [exact D|]. split; [exact F2|]. apply poly_region. exact E.
Qed.
Print Assumptions C68_region.

(** Two squares with a common side, and a clip triangle that touches one of them in a corner
    and has a side in common with it. *)
Definition tiles : polygons := [(Subject, [(0, 0); (4, 0); (4, 4); (0, 4)]); (Subject, [(4, 0); (8, 0); (8, 4); (4, 4); (4, 0)]); (Clip, [(8, 4); (4, 9); (4, 4)])]%Z.
Lemma no_trailing l : match rev l with p :: q :: _ => point_eqb p q | _ => false end = false -> ~ trailing_repeat l.
Proof.
  intros H (p & m & -> & _). rewrite rev_app_distr in H. cbn in H. unfold point_eqb in H. rewrite !Z.eqb_refl in H. discriminate.
Qed.
Lemma apart_poly ps : SegSpec.apart (stored (rings 0 ps)) -> only_meet_at_ends (map snd (all_edges ps)).
Proof.
  intros A i j e f E F D. rewrite nth_error_map in E, F. destruct (nth_error (all_edges ps) i) as [x|] eqn:X; [|discriminate]. destruct (nth_error (all_edges ps) j) as [y|] eqn:Y; [|discriminate].
  assert (L : forall i x, nth_error (all_edges ps) i = Some x -> edge_of (stored (rings 0 ps)) i (fst (snd x)) (snd (snd x))).
  { clear. intros i x X. destruct (nth_error (stored (rings 0 ps)) i) as [c|] eqn:N.
    - destruct (poly_edge ps i c N) as (q & NQ & E & _). rewrite X in E. injection E as ->. exists c, q. auto.
    - apply nth_error_None in N. rewrite pts_length, <- all_edges_length in N. assert (i < length (all_edges ps)) by (apply nth_error_Some; congruence). lia. }
  apply L in X, Y. injection E as <-. injection F as <-. destruct (A i j _ _ _ _ X Y D) as [S|S]; [left; rewrite <- !surjective_pairing in S; exact S|right].
  intros x0 y0 O1 O2. rewrite <- !surjective_pairing in S. exact (S _ _ O1 O2).
Qed.
Example tiles_input : plain_input None tiles /\ only_meet_at_ends (map snd (all_edges tiles)).
Proof.
  split.
  - cbn [plain_input tiles]. repeat match goal with |- _ /\ _ => split | |- _ <> 1 => discriminate | |- ~ trailing_repeat _ => apply no_trailing; reflexivity | |- True => exact I end; intros p H; unfold first_is in H; cbn in H; injection H as <-; vm_compute; discriminate.
  - apply apart_poly. assert (R : exists st, run_split 400 (stored (rings 0 tiles)) rand_seed = Some st /\ length (s_pts st) = length (stored (rings 0 tiles))) by (eexists; split; vm_compute; reflexivity).
    destruct R as (st & R & L). destruct run_sorts as (S1 & S2). rewrite SegProps.run_split_eq in R.
    exact (proj1 (SegProps.C44_clean_partial run_place run_sort run_sort_new interior 400 _ rand_seed st S1 S2 first_greater_finds (poly_proper tiles) (poly_nonzero tiles) R L)).
Qed.
Example tiles_region : exists c log fps loops ss merged r Ls,
  add_all clip_new [] false tiles = Done (c, log) /\
  do_op intersects run_place run_sort run_sort_new interior 200 OpUnion false (stored (cs_points c)) rand_seed = Some (fps, loops, ss, [], merged, r) /\
  Forall2 (fun loc L => L <> [] /\ iterate_loop fps (fst loc) (snd loc) = Some L) loops Ls /\
  region_of OpUnion tiles (flat_map (loop_lines fps) Ls).
Proof.
  destruct run_sorts as (S1 & S2). destruct tiles_input as (I1 & I2). apply C68_region; try assumption; [exact first_greater_finds|exact run_places|].
  apply Nat.leb_le. vm_compute. reflexivity.
Qed.
(** The union of the three is one polygon. *)
Example tiles_union : option_map (fun o => let '(fps, loops, _, _, _, _) := o in map (fun l => option_map (map (fpos fps)) (iterate_loop fps (fst l) (snd l))) loops)
  (run_op 200 OpUnion false (stored (rings 0 tiles)) rand_seed) = Some [Some [(0, 0); (4, 0); (8, 0); (8, 4); (4, 9); (4, 4); (0, 4)]]%Z.
Proof. vm_compute. reflexivity. Qed.
