(** Adding polygons to a clipper. *)
From Coq Require Import ZArith List Bool Arith Lia Sorted.
From Verif Require Import GeomModel PointSinkModel PointSinkSpec PointSinkProofs.
Import ListNotations.

(** C26.  Missing: single-point sequences (undefined behaviour, C28), polygons whose first
    point equals the last point stored for an earlier polygon (C27) and polygons that
    repeat the first point more than once at the end ([C26_trailing_repeat_refuted]). *)
Theorem C26_stored_cycle_partial : forall c log cat pt l,
  cs_ran c = false -> length l <> 1 ->
  (forall p, first_is l p -> ~ last_stored c p) ->
  ~ trailing_repeat l ->
  exists c' log', add_loop c log cat pt l = Done (c', log') /\
    cs_points c' = cs_points c ++ ring (length (cs_points c)) cat (norm l).
Proof. exact add_loop_norm. Qed.
Print Assumptions C26_stored_cycle_partial.

(** The polygon to be stored has no equal neighbours. *)
Theorem C26_no_equal_neighbours : forall l, no_equal_neighbours (norm l).
Proof. exact norm_neighbours. Qed.
Print Assumptions C26_no_equal_neighbours.

Example C26_example :
  add_loop clip_new [] Subject true [(0, 0); (4, 0); (4, 0); (0, 4); (0, 0)]%Z
  = Done (mk_clip (ring 0 Subject [(0, 0); (4, 0); (0, 4)]%Z) 5 false 1, [TAdded 0; TAdded 1; TAdded 3])
  /\ norm [(0, 0); (4, 0); (4, 0); (0, 4); (0, 0)]%Z = [(0, 0); (4, 0); (0, 4)]%Z.
Proof. split; reflexivity. Qed.

(** A repeated closing point is stored: the polygon then has a side of length zero. *)
Theorem C26_trailing_repeat_refuted : exists l c' log',
  add_loop clip_new [] Subject false l = Done (c', log') /\
  ~ no_equal_neighbours (map lp_data (cs_points c')) /\
  cs_points c' <> ring 0 Subject (norm l).
Proof.
  exists [(0, 0); (4, 0); (0, 4); (0, 0); (0, 0)]%Z. eexists. eexists. split; [reflexivity|].
  split; [|cbv; discriminate]. intros H. apply (H 3 (0, 0)%Z (0, 0)%Z); reflexivity.
Qed.
Print Assumptions C26_trailing_repeat_refuted.

(** C27.  Missing: the condition on the last point of the earlier polygons; it cannot be
    dropped. *)
Theorem C27_independent_partial : forall c log cat pt l c1 log1,
  cs_ran c = false -> length l <> 1 ->
  (forall p, first_is l p -> ~ last_stored c p) ->
  ~ trailing_repeat l ->
  add_loop clip_new [] cat pt l = Done (c1, log1) ->
  exists c' log', add_loop c log cat pt l = Done (c', log') /\
    map lp_data (cs_points c') = map lp_data (cs_points c) ++ map lp_data (cs_points c1).
Proof.
  intros c log cat pt l c1 log1 R L F T H1.
  destruct (add_loop_norm c log cat pt l R L F T) as (c' & log' & H & P).
  destruct (add_loop_norm clip_new [] cat pt l) as (c2 & log2 & H2 & P2); try assumption; [reflexivity| |].
  - intros p _ (m & b & E & _). destruct m; discriminate.
  - rewrite H1 in H2. injection H2 as <- <-. exists c', log'. split; [assumption|].
    rewrite P, P2. cbn [cs_points clip_new app length]. rewrite map_app, !ring_data. reflexivity.
Qed.
Print Assumptions C27_independent_partial.

Theorem C27_independent_refuted : exists l1 l2 c1 c2 c12 log1 log2 log12,
  add_loop clip_new [] Subject true l1 = Done (c1, log1) /\
  add_loop clip_new [] Subject true l2 = Done (c2, log2) /\
  add_loop c1 log1 Subject true l2 = Done (c12, log12) /\
  length (cs_points c2) = 3 /\ c12 = mk_clip (cs_points c1) 6 false 1.
Proof.
  exists [(0, 0); (4, 0); (4, 4)]%Z, [(4, 4); (8, 4); (8, 8)]%Z.
  do 6 eexists. split; [vm_compute; reflexivity|]. split; [vm_compute; reflexivity|].
  split; [vm_compute; reflexivity|]. split; reflexivity.
Qed.
Print Assumptions C27_independent_refuted.

(** C28.  A sequence is read outside the stored points exactly when it is not empty and all
    points but the last equal the last stored point of the earlier polygons. *)
Theorem C28_out_of_bounds_iff : forall c log cat pt l,
  cs_ran c = false ->
  (add_loop c log cat pt l = OutOfBounds <->
   exists m z, l = m ++ [z] /\ forall p, In p m -> last_stored c p).
Proof.
  intros c log cat pt l R. rewrite add_loop_oob. unfold opened. rewrite R.
  split; intros (m & z & E & H); exists m, z; (split; [exact E|]); intros p Hp; apply bdata_last_stored; auto.
Qed.
Print Assumptions C28_out_of_bounds_iff.

(** Missing from the full statement: the sequences described by [C28_out_of_bounds_iff]. *)
Theorem C28_no_undefined_partial : forall c log cat pt l,
  cs_ran c = false -> length l <> 1 -> (forall p, first_is l p -> ~ last_stored c p) ->
  exists r, add_loop c log cat pt l = Done r.
Proof.
  intros c log cat pt l R L F. destruct (add_loop c log cat pt l) eqn:E; [eauto|]. exfalso.
  apply C28_out_of_bounds_iff in E; [|assumption]. destruct E as (m & z & -> & H).
  destruct m as [|p m]; [cbn in L; lia|]. apply (F p); [reflexivity|]. apply H. left. reflexivity.
Qed.
Print Assumptions C28_no_undefined_partial.

Theorem C28_single_point_refuted : exists l, add_loop clip_new [] Subject true l = OutOfBounds.
Proof. exists [(1, 2)%Z]. reflexivity. Qed.
Print Assumptions C28_single_point_refuted.

Example C28_example :
  exists c log, add_loop clip_new [] Subject true [(0, 0); (4, 0); (4, 4)]%Z = Done (c, log) /\
  add_loop c log Subject true [(4, 4); (4, 4); (0, 9)]%Z = OutOfBounds /\
  (exists r, add_loop c log Subject true [(5, 5); (5, 5)]%Z = Done r).
Proof.
  do 2 eexists. split; [vm_compute; reflexivity|]. split; [vm_compute; reflexivity|]. eexists. vm_compute. reflexivity.
Qed.

(** C29, C30.  For any polygons added to a fresh clipper one after the other, the tracker
    is called exactly once for every stored point, in the order of storage, with the
    position of the point in the concatenation of all sequences. *)
Theorem C29_one_call_per_point : forall ls cat c' log',
  add_loops clip_new [] cat true ls = Done (c', log') ->
  exists idx, log' = map TAdded idx /\ calls_ok (cs_points c') idx (concat ls).
Proof.
  intros ls cat c' log' H.
  destruct (add_loops_calls ls clip_new [] cat true [] [] c' log') as (idx & K & G & _); try assumption; try reflexivity.
  - split; [reflexivity|]. split; [constructor|]. intros [|k] i p Hi; discriminate.
  - exists idx. split; assumption.
Qed.
Print Assumptions C29_one_call_per_point.

(** The number of calls made for one sequence is the number of points it adds. *)
Theorem C29_discarded_silent : forall c log cat l c' log',
  cs_ran c = false -> add_loop c log cat true l = Done (c', log') ->
  exists idx, log' = log ++ map TAdded idx /\ length idx = length (cs_points c') - length (cs_points c).
Proof.
  intros c log cat l c' log' R H. destruct (add_loop_calls _ _ _ _ _ _ _ R H) as (idx & pts & P & L & _ & _ & G & _).
  exists idx. split; [exact G|]. rewrite P, app_length, ring_length. lia.
Qed.
Print Assumptions C29_discarded_silent.

Theorem C30_original_index : forall c log cat pt l c' log',
  cs_ran c = false -> add_loop c log cat pt l = Done (c', log') ->
  cs_next_orig c' = cs_next_orig c + length l /\
  (pt = true -> forall i, In (TAdded i) (skipn (length log) log') ->
     exists p, nth_error l (i - cs_next_orig c) = Some p /\ cs_next_orig c <= i /\
       In p (map lp_data (skipn (length (cs_points c)) (cs_points c')))).
Proof.
  intros c log cat pt l c' log' R H. destruct (add_loop_calls _ _ _ _ _ _ _ R H) as (idx & pts & P & L & _ & A & G & N & _).
  split; [exact N|]. intros -> i Hi. rewrite G, skipn_app, skipn_all, Nat.sub_diag in Hi. cbn [app skipn] in Hi.
  apply in_map_iff in Hi. destruct Hi as (i' & E & Hi). injection E as ->.
  apply In_nth_error in Hi. destruct Hi as [k Hk].
  destruct (nth_error pts k) as [p|] eqn:Ep.
  - exists p. destruct (A _ _ _ Hk Ep) as [A1 A2]. split; [assumption|]. split; [assumption|].
    rewrite P, skipn_app, skipn_all, Nat.sub_diag. cbn [app skipn]. rewrite ring_data. eapply nth_error_In; eassumption.
  - apply nth_error_None in Ep. assert (k < length idx) by (apply nth_error_Some; congruence). lia.
Qed.
Print Assumptions C30_original_index.

Example C30_example : exists c,
  add_loops clip_new [] Subject true [[(0, 0); (1, 1)]; [(0, 0); (4, 0); (4, 0); (0, 4)]]%Z
  = Done (c, [TAdded 2; TAdded 3; TAdded 5]) /\ length (cs_points c) = 3.
Proof. eexists. split; [vm_compute; reflexivity|reflexivity]. Qed.

(** C31, adding.  Everything but the random number generator is as on a fresh clipper.
    Missing: the operation itself, whose rounding depends on the generator. *)
Theorem C31_reuse_partial : forall c log cat (pt : bool) l ls r,
  cs_ran c = true ->
  add_loops clip_new (if pt then log ++ [TReset] else log) cat pt (l :: ls) = Done r ->
  add_loops c log cat pt (l :: ls)
  = Done (mk_clip (cs_points (fst r)) (cs_next_orig (fst r)) false (cs_rand c), snd r).
Proof.
  intros c log cat pt l ls r R H. rewrite ran_head by assumption.
  apply (add_loops_reset _ clip_new _ _ _ r (cs_rand c) eq_refl) in H. destruct H as (H & _ & _). exact H.
Qed.
Print Assumptions C31_reuse_partial.

(** A crossing computed with the numbers drawn from generator state [s]
    (clip.hpp:511-512); also the state afterwards. *)
Definition draw_crossing (s : Z) (s1 s2 : cseg) : isect * Z :=
  let (rx, s) := rand_bool s in let (ry, s) := rand_bool s in (intersects rx ry s1 s2, s).

(** The generator is not reset: after an operation with one crossing, the same crossing
    is rounded differently. *)
Theorem C31_generator_refuted : exists s1 s2,
  let c := mk_clip [] 8 true (snd (draw_crossing (cs_rand clip_new) s1 s2)) in
  fst (draw_crossing (cs_rand (clip_reset c)) s1 s2) <> fst (draw_crossing (cs_rand clip_new) s1 s2).
Proof.
  exists (mk_cseg 0 1 (0, 0)%Z (5, 5)%Z), (mk_cseg 4 5 (0, 5)%Z (5, 0)%Z). vm_compute. discriminate.
Qed.
Print Assumptions C31_generator_refuted.
