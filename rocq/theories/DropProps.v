(** Points that the tracker was told are discarded: property C62. *)
From Coq Require Import List Bool Arith ZArith Lia.
From Verif Require Import GeomModel EventsModel OutModel ClipModel PointSinkModel ClipProps DropProofs.
Import ListNotations.
Local Open Scope nat_scope.

(** A point that was given to point_merge as the one discarded is in no loop of the output,
    for all operations but the difference; whatever the intersections, the order of lines, the
    sorts and the random numbers are. The points of the input carry no judgement. *)
Theorem C62_discarded_partial : forall isect place sort_events sort_new draws fuel op tree pts rand fps loops ss log merged r,
  (forall p s, In p pts -> c_state p <> Res s) -> op <> OpDifference ->
  do_op isect place sort_events sort_new draws fuel op tree pts rand = Some (fps, loops, ss, log, merged, r) ->
  forall from to loc C, In (from, to) merged -> In loc loops -> iterate_loop fps (fst loc) (snd loc) = Some C -> ~ In from C.
Proof.
  intros isect place se sn draws fuel op tree pts rand fps loops ss log merged r U N H from to loc C I L IT X.
  destruct (do_op_used _ _ _ _ _ _ _ _ _ _ _ _ _ _ _ _ _ _ _ _ U H I L IT X) as (D & _). exact (N D).
Qed.
Print Assumptions C62_discarded_partial.

(** In a difference it can only be a point of the clip set where two lines meet or a loop
    starts. *)
Theorem C62_difference_partial : forall isect place sort_events sort_new draws fuel op tree pts rand fps loops ss log merged r,
  (forall p s, In p pts -> c_state p <> Res s) ->
  do_op isect place sort_events sort_new draws fuel op tree pts rand = Some (fps, loops, ss, log, merged, r) ->
  forall from to loc C, In (from, to) merged -> In loc loops -> iterate_loop fps (fst loc) (snd loc) = Some C -> In from C ->
  exists st q, self_intersection isect place sort_events sort_new draws fuel pts rand = Some st /\ nth_error (s_pts st) from = Some q /\ c_state q = Check /\ c_set q = Clip.
Proof.
  intros isect place se sn draws fuel op tree pts rand fps loops ss log merged r U H from to loc C I L IT X.
  destruct (do_op_used _ _ _ _ _ _ _ _ _ _ _ _ _ _ _ _ _ _ _ _ U H I L IT X) as (_ & D). exact D.
Qed.
Print Assumptions C62_difference_partial.

(** Two squares that overlap: the union drops points, the difference uses one of them again. *)
Definition two_squares : list cpoint := input2 [[(0, 0); (8, 0); (8, 8); (0, 8)]]%Z [[(4, 4); (12, 4); (12, 12); (4, 12)]]%Z.
Example ex_C62_union : (forall p s, In p two_squares -> c_state p <> Res s) /\
  option_map (fun o => let '(fps, loops, _, _, merged, _) := o in (merged, map (fun l => iterate_loop fps (fst l) (snd l)) loops)) (run_op 400 OpUnion false two_squares rand_seed)
  = Some ([(8, 4); (4, 11); (10, 2); (2, 9)], [Some [0; 1; 11; 5; 6; 7; 9; 3]]).
Proof.
  split; [|vm_compute; reflexivity]. assert (H : forallb (fun p => match c_state p with Res _ => false | _ => true end) two_squares = true) by (vm_compute; reflexivity).
  intros p s I. rewrite forallb_forall in H. specialize (H p I). clear I. destruct (c_state p); [intros W; discriminate W|intros W; discriminate W|discriminate H].
Qed.
Example ex_C62_difference :
  option_map (fun o => let '(fps, loops, _, _, merged, _) := o in (merged, map (fun l => iterate_loop fps (fst l) (snd l)) loops)) (run_op 400 OpDifference false two_squares rand_seed)
  = Some ([(10, 2); (2, 9); (11, 5); (5, 6)], [Some [0; 1; 11; 4; 9; 3]]).
Proof. vm_compute. reflexivity. Qed.
