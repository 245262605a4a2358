(** Boolean operations on any polygons. *)
From Coq Require Import ZArith QArith List Bool Arith Permutation Lia.
From Verif Require Import GeomModel GeomSpec BalanceModel EventsModel EventsSpec EventsProofs WindSpec OutModel ClipModel ClipSpec ClipProofs SweepProofs PointSinkModel PointSinkSpec JoinSpec ClipProps JudgeProps ArrangeSpec RegionProps
  SegSpec SegClean SegProps WholeProofs WholeRuns WholeCore WholeTotal WholeSpec WholeInput WholeProps TotalSpec TotalEnds TotalProps ExactProofs GeneralProofs GeneralExact.
Import ListNotations.
Local Open Scope nat_scope.

(** The horizontal and vertical steps along all edges. *)
Definition all_steps (ps : polygons) : nat := Z.to_nat (sumZ (map (fun e => steps (fst (snd e)) (snd (snd e))) (all_edges ps))).
Lemma around_steps ps : Z.to_nat (around (stored (rings 0 ps))) = all_steps ps.
Proof.
  unfold all_steps, around. f_equal. change sum with sumZ. f_equal. rewrite <- poly_lines, map_map. unfold lines. rewrite map_map. cbn [ln_e ln_set fst snd]. pose proof (poly_proper ps) as (H & _). set (pts := stored (rings 0 ps)) in *.
  assert (W : forall s l, (forall q, In q l -> exists r, nth_error pts (c_next q) = Some r) -> map (edge_steps pts) l = map (fun x : nat * cpoint => steps (c_data (snd x)) match nth_error pts (c_next (snd x)) with Some q => c_data q | None => c_data (snd x) end) (combine (seq s (length l)) l)).
  { intros s l. revert s. induction l as [|q l IH]; intros s IN; [reflexivity|]. cbn [length seq combine map snd]. f_equal; [|apply IH; intros; apply IN; right; assumption]. destruct (IN q (or_introl eq_refl)) as (r & N). unfold edge_steps. rewrite N. reflexivity. }
  apply W. intros q I. apply In_nth_error in I as (i & N). destruct (H i q N) as (r & _ & M & _). exists r. exact M.
Qed.

(** C70: whatever the polygons, the lines are split; if the lines that result only meet at
    their ends and are marked where they do, the operation succeeds and its result encloses what
    it selects from the split loops; if moreover every new point lies on the line it splits, it
    encloses what it selects from the polygons themselves.
    Partial: the full statement has no conditions on the run; a split that was rounded changes
    the loops, so that the second part then only holds of the split loops. *)
Theorem C70_region_partial : forall place sort_events sort_new draws fuel op tree pt rand ps,
  sorts event_lt sort_events -> sorts (lt_new _ _ (fun e => e) event_lt) sort_new -> places place ->
  plain_input None ps ->
  let n := length (all_edges ps) in let t := all_steps ps in
  (t - n) * (8 * t + 2) + 4 * t <= fuel -> t * (2 + t) <= fuel ->
  exists c log st,
    add_all clip_new [] pt ps = Done (c, log) /\
    self_intersection intersects place sort_events sort_new draws fuel (stored (cs_points c)) rand = Some st /\
    (SegSpec.apart (s_pts st) -> marked (s_pts st) (s_pts st) ->
     exists fps loops ss merged r Ls,
       do_op intersects place sort_events sort_new draws fuel op tree (stored (cs_points c)) rand = Some (fps, loops, ss, s_log st, merged, r) /\
       Forall2 (fun loc L => L <> [] /\ iterate_loop fps (fst loc) (snd loc) = Some L) loops Ls /\
       encloses op (s_pts st) (flat_map (loop_lines fps) Ls) /\
       (exact_splits n (s_pts st) (s_log st) -> region_of op ps (flat_map (loop_lines fps) Ls))).
Proof.
  intros place se sn draws fuel op tree pt rand ps SE SN PLC PI n t F1 F2.
  destruct (add_rings ps clip_new [] pt None eq_refl) as (c & log & A & P & _); [intros p (m & b & E & _); destruct m; discriminate|exact PI|]. cbn [clip_new cs_points app length] in P.
  assert (LP : length (stored (rings 0 ps)) = n) by (unfold n; rewrite pts_length, <- all_edges_length; reflexivity).
  destruct (C69_split place se sn draws fuel (stored (rings 0 ps)) rand SE SN PLC (poly_proper ps) (poly_nonzero ps)) as (st & R & _); [rewrite LP, around_steps; exact F1|].
  exists c, log, st. split; [exact A|]. rewrite P. split; [exact R|]. intros AP MK.
  destruct (general_whole place se sn draws SE SN PLC (stored (rings 0 ps)) (poly_proper ps) (poly_unjudged ps) (poly_nonzero ps) (poly_judge ps) fuel rand st R op tree AP MK) as (fps & loops & ss & merged & r & Ls & D & F & E); try (rewrite around_steps; fold t; lia).
  exists fps, loops, ss, merged, r, Ls. split; [exact D|]. split; [exact F|]. split; [exact E|]. intros EX.
  destruct (self_intersection_ok (stored (rings 0 ps)) intersects place se sn draws SE SN fuel rand st (poly_proper ps) R) as (s & all & u & O & _).
  apply poly_region. eapply exact_encloses; [apply poly_proper|exact (ok_loops _ _ _ _ _ O)|exact (ok_log _ _ _ _ _ O)|exact (ok_orig _ _ _ _ _ O)| |exact E]. rewrite LP. exact EX.
Qed.
Print Assumptions C70_region_partial.

(** Two squares that overlap in a corner. *)
Definition overlapping : polygons := [(Subject, [(0, 0); (4, 0); (4, 4); (0, 4)]); (Clip, [(2, 2); (6, 2); (6, 6); (2, 6)])]%Z.
Definition over_fuel : nat := (32 - 8) * (8 * 32 + 2) + 4 * 32.
Definition over_end : cstate := Eval vm_compute in match run_split over_fuel (stored (rings 0 overlapping)) rand_seed with Some st => st | None => mk_cs [] [] (q_empty _) [] 0 [] end.
Lemma over_run : self_intersection intersects run_place run_sort run_sort_new interior over_fuel (stored (rings 0 overlapping)) rand_seed = Some over_end.
Proof. vm_cast_no_check (@eq_refl (option cstate) (Some over_end)). Qed.
Lemma over_plain : plain_input None overlapping.
Proof.
  cbn [plain_input overlapping]. repeat match goal with |- _ /\ _ => split | |- _ <> 1 => discriminate | |- ~ trailing_repeat _ => apply no_trailing; reflexivity | |- True => exact I end; intros p H; unfold first_is in H; cbn in H; injection H as <-; vm_compute; discriminate.
Qed.
Lemma over_loops : proper_loops (s_pts over_end).
Proof.
  destruct run_sorts as (S1 & S2).
  destruct (self_intersection_ok (stored (rings 0 overlapping)) intersects run_place run_sort run_sort_new interior S1 S2 over_fuel rand_seed over_end (poly_proper overlapping) over_run) as (s & all & u & O & _). exact (ok_loops _ _ _ _ _ O).
Qed.
Definition over_again : cstate := Eval vm_compute in match run_split 400 (s_pts over_end) rand_seed with Some st => st | None => mk_cs [] [] (q_empty _) [] 0 [] end.
Lemma over_second : self_intersection intersects run_place run_sort run_sort_new interior 400 (s_pts over_end) rand_seed = Some over_again.
Proof. vm_cast_no_check (@eq_refl (option cstate) (Some over_again)). Qed.
Lemma over_apart : SegSpec.apart (s_pts over_end) /\ marked (s_pts over_end) (s_pts over_end).
Proof.
  destruct run_sorts as (S1 & S2).
  exact (C44_clean_partial run_place run_sort run_sort_new interior 400 (s_pts over_end) rand_seed over_again S1 S2 first_greater_finds over_loops (edges_check (s_pts over_end) eq_refl) over_second eq_refl).
Qed.
Lemma over_exact : exact_splits 8 (s_pts over_end) (s_log over_end).
Proof.
  intros k a b N. do 4 (destruct k as [|k]; [injection N as <- <-; exists (1 # 2)%Q; split; [split; vm_compute; discriminate|split; vm_compute; reflexivity]|]). destruct k; discriminate.
Qed.
Example over_region : exists c log fps loops ss merged r Ls,
  add_all clip_new [] false overlapping = Done (c, log) /\
  do_op intersects run_place run_sort run_sort_new interior over_fuel OpIntersection false (stored (cs_points c)) rand_seed = Some (fps, loops, ss, [(7, 4); (2, 3); (1, 2); (4, 5)], merged, r) /\
  Forall2 (fun loc L => L <> [] /\ iterate_loop fps (fst loc) (snd loc) = Some L) loops Ls /\
  region_of OpIntersection overlapping (flat_map (loop_lines fps) Ls).
Proof.
  destruct run_sorts as (S1 & S2).
  destruct (C70_region_partial run_place run_sort run_sort_new interior over_fuel OpIntersection false false rand_seed overlapping S1 S2 run_places over_plain) as (c & log & st & A & R & H); [apply Nat.leb_le; vm_compute; reflexivity|apply Nat.leb_le; vm_compute; reflexivity|].
  exists c, log. destruct (add_rings overlapping clip_new [] false None eq_refl) as (c' & log' & A' & P & _); [intros p (m & b & E & _); destruct m; discriminate|exact over_plain|]. cbn [clip_new cs_points app length] in P. rewrite A in A'. injection A' as <- <-. rewrite P, over_run in R. injection R as <-. destruct over_apart as (AP & MK). destruct (H AP MK) as (fps & loops & ss & merged & r & Ls & D & F & E & X).
  exists fps, loops, ss, merged, r, Ls. split; [exact A|]. replace [(7, 4); (2, 3); (1, 2); (4, 5)] with (s_log over_end) by reflexivity. split; [exact D|]. split; [exact F|]. apply X. exact over_exact.
Qed.
