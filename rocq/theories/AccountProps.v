(** Every point is in the output or was reported as discarded: property C75. *)
From Coq Require Import ZArith List Bool Arith Permutation Lia.
From Verif Require Import GeomModel GeomSpec EventsModel EventsSpec BalanceModel OutModel ClipModel ClipSpec ClipProofs SweepProofs PointSinkModel CycleProofs JoinSpec SegSpec WholeProofs WholeRuns WholeInput WholeSpec JudgeProps GeneralProofs ClipProps GeneralProps DropProofs AccountProofs SubjectProofs PointSinkSpec WholeProps.
Import ListNotations.
Local Open Scope nat_scope.

Lemma any_judge isect place se sn draws pts fuel rand st i : sorts event_lt se -> sorts (lt_new _ _ (fun e => e) event_lt) sn -> proper_loops pts -> (forall j, j < length pts -> after_judge pts j) ->
  self_intersection isect place se sn draws fuel pts rand = Some st -> i < length (s_pts st) -> after_judge (s_pts st) i.
Proof.
  intros SE SN PL AJ RUN L. destruct (self_intersection_ok pts isect place se sn draws SE SN fuel rand st PL RUN) as (s & all & u & O & _).
  apply back_after. apply (back_mono (to_judge pts)).
  - exact (self_kept (to_judge pts) isect place se sn draws fuel pts rand st RUN (fun i J => J)).
  - eapply back_grown; [exact (ok_log _ _ _ _ _ O)| |unfold links; rewrite map_length; exact L]. intros j LJ. unfold links in LJ. rewrite map_length in LJ. apply back_after, AJ, LJ.
Qed.

Lemma poly_subject ps : Forall (fun sp => fst sp = Subject) ps -> all_subject (stored (rings 0 ps)).
Proof.
  intros A. apply Forall_forall. intros c I. apply In_nth_error in I as (i & N). pose proof N as N0. apply poly_at in N as (a & cat & l & b & k & p & E & NK & ->).
  destruct (next_at ps a cat l b k p E NK) as (c' & k1 & q1 & A1 & X1 & K1 & Q1 & D1 & S1). rewrite A1 in N0. injection N0 as ->. rewrite S1. rewrite Forall_forall in A. apply (A (cat, l)). rewrite E. apply in_or_app. right. left. reflexivity.
Qed.
Lemma do_op_whole : forall isect place sort_events sort_new draws fuel op tree pt rand ps c log fps loops ss log' merged r,
  sorts event_lt sort_events -> sorts (lt_new _ _ (fun e => e) event_lt) sort_new -> places place ->
  plain_input None ps -> (op = OpDifference -> Forall (fun sp => fst sp = Subject) ps) ->
  add_all clip_new [] pt ps = Done (c, log) ->
  do_op isect place sort_events sort_new draws fuel op tree (stored (cs_points c)) rand = Some (fps, loops, ss, log', merged, r) ->
  let n := length (cs_points c) + length log' in
  n <= length fps /\ (tree = false -> length fps = n) /\
  exists Ls, Forall2 (fun loc L => iterate_loop fps (fst loc) (snd loc) = Some L /\ L <> []) loops Ls /\
    NoDup (map fst merged) /\ (forall f, In f (map fst merged) -> f < length fps) /\
    Permutation (filter (fun f => f <? n) (map fst merged) ++ concat Ls) (seq 0 n) /\
    exists st, self_intersection isect place sort_events sort_new draws fuel (stored (cs_points c)) rand = Some st /\
    (tree = false -> forall f t, In (f, t) merged -> nth_error (ClipSpec.links (s_pts st)) f = Some t /\ f <> t /\ t < n).
Proof.
  intros isect place se sn draws fuel op tree pt rand ps c log fps loops ss log' merged r SE SN PLC PI OP A H.
  destruct (add_rings ps clip_new [] pt None eq_refl) as (c' & log0 & A' & P & _); [intros p (m & b & E & _); destruct m; discriminate|exact PI|]. cbn [clip_new cs_points app length] in P.
  rewrite A in A'. injection A' as <- _. rewrite P in *. clear A P.
  assert (LP : length (stored (rings 0 ps)) = length (rings 0 ps)) by apply map_length.
  pose proof (poly_proper ps) as PL. pose proof (poly_unjudged ps) as UJ. pose proof (poly_judge ps) as AJ. pose proof (poly_subject ps) as SUB. set (pts := stored (rings 0 ps)) in *.
  unfold do_op in H. destruct (self_intersection isect place se sn draws fuel pts rand) as [st|] eqn:S; [|discriminate].
  destruct (calc_line_bal place se sn fuel op st) as [(cps, ss0)|] eqn:C; [|discriminate]. destruct (finish fuel tree (map to_out cps) ss0) as [[[[f1 l1] s1] m1]|] eqn:F; [|discriminate].
  injection H as <- <- _ <- <- _.
  destruct (self_intersection_ok pts isect place se sn draws SE SN fuel rand st PL S) as (s & all & u & O & _).
  destruct (C64_judged isect place place se sn draws fuel fuel pts rand st op SE SN PLC PL S) as (_ & JD). specialize (JD _ _ C).
  assert (UST : unjudged (s_pts st)) by exact (self_unjudged _ _ _ _ _ _ _ _ _ S UJ).
  pose proof (judged_out op (s_pts st) cps ss0 (ok_loops _ _ _ _ _ O) UST JD) as JP.
  pose proof (any_judge isect place se sn draws pts fuel rand st) as AJS. apply calc_origin in C as (OR & _).
  destruct JD as (LN & SAME & _ & INC & RES).
  assert (NOSELF : forall i p, nth_error (s_pts st) i = Some p -> c_next p <> i).
  { intros i p E. destruct (proj1 (ok_loops _ _ _ _ _ O) i p E) as (q & x & _ & _ & N & _). exact N. }
  apply finish_whole in F; [|exact JP| |].
  - destruct F as (pts1 & EX & TF & LF & Ls & F1 & F2 & F4 & F5 & F3). rewrite map_length, LN in F5. cbv zeta. rewrite <- LP. assert (G : length (s_pts st) = length pts + length (s_log st)).
    2:{ rewrite <- G. rewrite LF. split; [apply ext_old_new in EX as (EX & _); rewrite map_length, LN in EX; exact EX|]. split; [intros T; rewrite (TF T), map_length; exact LN|]. exists Ls. split; [exact F1|]. split; [exact F2|]. split; [exact F4|]. split; [exact F5|]. exists st. split; [reflexivity|]. intros TR f t I. rewrite (TF TR) in F3. destruct (F3 f t I) as (p & E & N). rewrite nth_error_map in E. destruct (nth_error cps f) as [x|] eqn:X; [|discriminate]. injection E as <-. cbn in N.
      destruct (nth_error (s_pts st) f) as [y|] eqn:Y; [|apply nth_error_None in Y; assert (f < length cps) by (apply nth_error_Some; congruence); lia]. destruct (SAME f y Y) as (x' & X' & _ & NX & _). assert (NT : c_next y = t) by congruence. split; [unfold ClipSpec.links; rewrite nth_error_map, Y; cbn; congruence|]. split.
      - intros FT. apply (NOSELF f y Y). congruence.
      - destruct JP as (PM & _). assert (IT : In t (map o_next (map to_out cps))) by (rewrite map_map; apply in_map_iff; exists x; split; [exact N|eapply nth_error_In; exact X]). apply (Permutation_in _ PM), in_seq in IT. rewrite map_length in IT. lia. }
    pose proof (ok_log _ _ _ _ _ O) as G. clear - G. assert (W : forall a l b, ClipSpec.grown a l b -> length b = length a + length l).
    { induction 1 as [l|l x y log0 l' N G0 IH]; [cbn; lia|]. rewrite IH, app_length, put_length. cbn. lia. }
    apply W in G. unfold ClipSpec.links in G. rewrite !map_length in G. exact G.
  - intros i (q & Q & T). rewrite nth_error_map in Q. destruct (nth_error cps i) as [x|] eqn:E; [|discriminate]. injection Q as <-. cbn in T.
    destruct (OR i x E) as (c0 & E0 & _ & [W|(_ & la & ls & R & LS)]).
    + apply (UST c0 LSdiscard_rev); [eapply nth_error_In; exact E0|congruence].
    + rewrite T in R. injection R as R. symmetry in R. apply discard_rev_only in R as (R & LC). pose proof (self_subject _ _ _ _ _ _ _ _ _ S (SUB (OP R))) as US. pose proof (set_get _ _ _ US E0) as C0. congruence.
  - intros Pr P1 P2 i L. rewrite map_length, LN in L. specialize (AJS i SE SN PL AJ S L). clear L. induction AJS as [i (p & E & CK)|i p _ IH E].
    + apply P1. assert (I : In i (map fst ss0)) by (apply INC; exists p; auto). apply in_map_iff in I as ((i', hits) & <- & I). destruct (RES _ _ I) as (la & ck & p' & _ & _ & _ & _ & E' & R & _).
      exists (line_result op la ck), (to_out p'). cbn [fst]. rewrite nth_error_map, E'. auto.
    + destruct (SAME i p E) as (p' & E' & _ & NX & _). rewrite <- NX. apply (P2 i (to_out p')); [exact IH|rewrite nth_error_map, E'; reflexivity].
Qed.
Lemma do_op_account : forall isect place sort_events sort_new draws fuel op pt rand ps c log fps loops ss log' merged r,
  sorts event_lt sort_events -> sorts (lt_new _ _ (fun e => e) event_lt) sort_new -> places place ->
  plain_input None ps -> (op = OpDifference -> Forall (fun sp => fst sp = Subject) ps) ->
  add_all clip_new [] pt ps = Done (c, log) ->
  do_op isect place sort_events sort_new draws fuel op false (stored (cs_points c)) rand = Some (fps, loops, ss, log', merged, r) ->
  exists Ls, Forall2 (fun loc L => iterate_loop fps (fst loc) (snd loc) = Some L /\ L <> []) loops Ls /\
    Permutation (map fst merged ++ concat Ls) (seq 0 (length (cs_points c) + length log')) /\
    exists st, self_intersection isect place sort_events sort_new draws fuel (stored (cs_points c)) rand = Some st /\
    forall f t, In (f, t) merged -> nth_error (ClipSpec.links (s_pts st)) f = Some t /\ f <> t /\ t < length (cs_points c) + length log'.
Proof.
  intros isect place se sn draws fuel op pt rand ps c log fps loops ss log' merged r SE SN PLC PI OP A H.
  destruct (do_op_whole isect place se sn draws fuel op false pt rand ps c log fps loops ss log' merged r SE SN PLC PI OP A H) as (_ & L & Ls & F & _ & LT & P & st & S & B). exists Ls. split; [exact F|]. rewrite (L eq_refl) in LT. rewrite (filter_all _ _ LT) in P. split; [exact P|]. exists st. split; [exact S|]. exact (B eq_refl).
Qed.
(** Each point, of the input or new, is at one place in one loop of the output, or was given to
    point_merge as the one discarded, just once; whatever the intersections and the random
    numbers are. It is merged into the point after it in the split loops. For polygons added
    one after the other.
    Partial: the full statement is of all operations. In a difference with polygons of the clip
    set a point can be both (C62).
    For trees see C75_tree_partial. *)
Theorem C75_account_partial : forall isect place sort_events sort_new draws fuel op pt rand ps c log fps loops ss log' merged r,
  sorts event_lt sort_events -> sorts (lt_new _ _ (fun e => e) event_lt) sort_new -> places place ->
  plain_input None ps -> (op = OpDifference -> Forall (fun sp => fst sp = Subject) ps) ->
  add_all clip_new [] pt ps = Done (c, log) ->
  do_op isect place sort_events sort_new draws fuel op false (stored (cs_points c)) rand = Some (fps, loops, ss, log', merged, r) ->
  exists Ls, Forall2 (fun loc L => iterate_loop fps (fst loc) (snd loc) = Some L /\ L <> []) loops Ls /\
    Permutation (map fst merged ++ concat Ls) (seq 0 (length (cs_points c) + length log')) /\
    exists st, self_intersection isect place sort_events sort_new draws fuel (stored (cs_points c)) rand = Some st /\
      forall from to, In (from, to) merged -> nth_error (ClipSpec.links (s_pts st)) from = Some to.
Proof.
  intros isect place se sn draws fuel op pt rand ps c log fps loops ss log' merged r SE SN PLC PI OP A H.
  destruct (do_op_account isect place se sn draws fuel op pt rand ps c log fps loops ss log' merged r SE SN PLC PI OP A H) as (Ls & F & P & st & S & B). exists Ls. split; [exact F|]. split; [exact P|]. exists st. split; [exact S|]. intros from to I. apply (B from to I).
Qed.
Print Assumptions C75_account_partial.

(** For a hierarchy there are further points, the anchors, after the points of the input and
    those of the splits. They are in no loop, but can be given to point_merge. The other points
    are accounted for just as before, and no point is discarded twice.
    Partial: as for flat output. *)
Theorem C75_tree_partial : forall isect place sort_events sort_new draws fuel op pt rand ps c log fps loops ss log' merged r,
  sorts event_lt sort_events -> sorts (lt_new _ _ (fun e => e) event_lt) sort_new -> places place ->
  plain_input None ps -> (op = OpDifference -> Forall (fun sp => fst sp = Subject) ps) ->
  add_all clip_new [] pt ps = Done (c, log) ->
  do_op isect place sort_events sort_new draws fuel op true (stored (cs_points c)) rand = Some (fps, loops, ss, log', merged, r) ->
  let n := length (cs_points c) + length log' in
  n <= length fps /\ NoDup (map fst merged) /\ (forall from, In from (map fst merged) -> from < length fps) /\
  exists Ls, Forall2 (fun loc L => iterate_loop fps (fst loc) (snd loc) = Some L /\ L <> []) loops Ls /\
    Permutation (filter (fun from => from <? n) (map fst merged) ++ concat Ls) (seq 0 n).
Proof.
  intros isect place se sn draws fuel op pt rand ps c log fps loops ss log' merged r SE SN PLC PI OP A H.
  destruct (do_op_whole isect place se sn draws fuel op true pt rand ps c log fps loops ss log' merged r SE SN PLC PI OP A H) as (N & _ & Ls & F & ND & LT & P & _). split; [exact N|]. split; [exact ND|]. split; [exact LT|]. exists Ls. auto.
Qed.
Print Assumptions C75_tree_partial.

Definition outcome (o : option (list fpoint * list loop_loc * list sample * list (nat * nat) * list (nat * nat) * Z)) : option (nat * list (nat * nat) * list (nat * nat) * list (option (list nat))) :=
  option_map (fun o => let '(fps, loops, _, log, merged, _) := o in (length fps, log, merged, map (fun l => iterate_loop fps (fst l) (snd l)) loops)) o.
Definition over_points : list cpoint := Eval vm_compute in stored (rings 0 overlapping).
Lemma over_added : exists c log, add_all clip_new [] true overlapping = Done (c, log) /\ stored (cs_points c) = over_points.
Proof. eexists _, _. split; [vm_compute; reflexivity|vm_compute; reflexivity]. Qed.
(** Two squares that overlap: of the twelve points eight are in the union and four discarded. *)
Example ex_C75 : plain_input None overlapping /\ places run_place /\
  outcome (do_op intersects run_place run_sort run_sort_new interior 400 OpUnion false over_points rand_seed) =
    Some (12, [(7, 4); (2, 3); (1, 2); (4, 5)], [(8, 4); (4, 11); (10, 2); (2, 9)], [Some [0; 1; 11; 5; 6; 7; 9; 3]]).
Proof. split; [exact over_plain|]. split; [exact run_places|]. vm_compute. reflexivity. Qed.

(** For the hierarchy of the same union: two of the seven anchors are reported too. *)
Example ex_C75_tree : plain_input None overlapping /\ places run_place /\
  outcome (do_op intersects run_place run_sort run_sort_new interior 400 OpUnion true over_points rand_seed) =
    Some (19, [(7, 4); (2, 3); (1, 2); (4, 5)], [(8, 17); (17, 4); (4, 11); (10, 18); (18, 2); (2, 9)], [Some [0; 1; 11; 5; 6; 7; 9; 3]]).
Proof. split; [exact over_plain|]. split; [exact run_places|]. vm_compute. reflexivity. Qed.

(** The difference of the same squares with both in the subject, and nothing in the clip set. *)
Definition over_alone : polygons := Eval vm_compute in map (fun sp => (Subject, snd sp)) overlapping.
Example ex_C75_difference : Forall (fun sp => fst sp = Subject) over_alone /\ plain_input None over_alone /\
  outcome (do_op intersects run_place run_sort run_sort_new interior 400 OpDifference false (stored (rings 0 over_alone)) rand_seed) =
    Some (12, [(7, 4); (2, 3); (1, 2); (4, 5)], [(8, 4); (4, 11); (10, 2); (2, 9)], [Some [0; 1; 11; 5; 6; 7; 9; 3]]).
Proof.
  split; [repeat constructor|]. split; [|vm_compute; reflexivity].
  cbn [plain_input over_alone]. repeat match goal with |- _ /\ _ => split | |- _ <> 1 => discriminate | |- ~ trailing_repeat _ => apply WholeProps.no_trailing; reflexivity | |- True => exact I end; intros p H; unfold first_is in H; cbn in H; injection H as <-; vm_compute; discriminate.
Qed.

(** In the difference of the same squares three points of the clip set are in no loop and are
    never reported, and one point is both in a loop and reported. *)
Theorem C75_account_refuted : exists fuel ps c log fps loops ss log' merged r,
  plain_input None ps /\ add_all clip_new [] true ps = Done (c, log) /\
  do_op intersects run_place run_sort run_sort_new interior fuel OpDifference false (stored (cs_points c)) rand_seed = Some (fps, loops, ss, log', merged, r) /\
  (exists i, i < length fps /\ ~ In i (map fst merged) /\ forall loc L, In loc loops -> iterate_loop fps (fst loc) (snd loc) = Some L -> ~ In i L) /\
  (exists i loc L, In i (map fst merged) /\ In loc loops /\ iterate_loop fps (fst loc) (snd loc) = Some L /\ In i L).
Proof.
  destruct over_added as (c & log & A & P).
  assert (H : outcome (do_op intersects run_place run_sort run_sort_new interior 400 OpDifference false over_points rand_seed) =
    Some (12, [(7, 4); (2, 3); (1, 2); (4, 5)], [(10, 2); (2, 9); (11, 5); (5, 6)], [Some [0; 1; 11; 4; 9; 3]])) by (vm_compute; reflexivity).
  destruct (do_op intersects run_place run_sort run_sort_new interior 400 OpDifference false over_points rand_seed) as [[[[[[fps loops] ss] log'] merged] r]|] eqn:D; [|discriminate H].
  cbn [outcome option_map] in H. injection H as H1 H2 H3 H4. exists 400, overlapping, c, log, fps, loops, ss, log', merged, r.
  split; [exact over_plain|]. split; [exact A|]. split; [rewrite P; exact D|]. destruct loops as [|loc [|loc' loops]]; try discriminate H4. cbn [map] in H4. injection H4 as H4. rewrite H1, H3. split.
  - exists 6. split; [lia|]. split; [cbn; lia|]. intros l L [<-|[]] E. rewrite H4 in E. injection E as <-. cbn. lia.
  - exists 11, loc, [0; 1; 11; 4; 9; 3]. split; [cbn; lia|]. split; [left; reflexivity|]. split; [exact H4|]. cbn. lia.
Qed.
Print Assumptions C75_account_refuted.
