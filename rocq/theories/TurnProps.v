(** The line that is followed where several lines of the result start: property C74. *)
From Coq Require Import List Bool Arith ZArith QArith Lia.
From Verif Require Import GeomModel BalanceModel EventsModel OutModel OutSpec ClipModel ClipSpec PointSinkModel PointSinkSpec JoinSpec ClipProps WholeSpec WholeInput TurnSpec TurnProofs.
Import ListNotations.
Local Open Scope nat_scope.

(** For each end e, in the order in which they are joined: the line that is followed is one of
    the lines that start there and are not used yet, and none of these turns more clockwise.
    Assumed: none of them has no length, and there is not one that goes straight back
    together with one that goes straight on. Partial: the full statement has no such
    assumption about directions. *)
Theorem C74_turn_partial : forall pts starts E1 e E2 pts' starts', NoDup (E1 ++ e :: E2) -> join_ends pts starts (E1 ++ e :: E2) = Some (pts', starts') ->
  exists pts1 starts1 pe p s pe', join_ends pts starts E1 = Some (pts1, starts1) /\ nth_error pts1 e = Some pe /\ end_point pts1 e = Some p /\
    nth_error pts' e = Some pe' /\ o_next pe' = s /\ In s (pm_get starts1 p) /\
    ((forall c q, In c (pm_get starts1 p) -> non_anchor_end_point pts1 c = Some q -> q <> p) ->
     (forall c c' q q', In c (pm_get starts1 p) -> In c' (pm_get starts1 p) -> non_anchor_end_point pts1 c = Some q -> non_anchor_end_point pts1 c' = Some q' ->
        ~ (straight_back (o_data pe) p q /\ straight_on (o_data pe) p q')) ->
     forall c q q', In c (pm_get starts1 p) -> non_anchor_end_point pts1 s = Some q -> non_anchor_end_point pts1 c = Some q' -> (turn (o_data pe) p q' <= turn (o_data pe) p q)%Q).
Proof. exact join_best. Qed.
Print Assumptions C74_turn_partial.

(** Two triangles and a line that is run through forth and back, symmetric difference. *)
Definition spiked : polygons := [(Clip, [(2, 1); (2, 0); (1, 1)]); (Subject, [(1, 2); (0, 0); (1, 1)]); (Clip, [(2, 2); (1, 1); (0, 0)])]%Z.
(** False in general: the first end that is joined, (1, 1) coming from (0, 0), has three lines to
    go on with. The one to (1, 2) is a clockwise turn and is given up for the one back to
    (0, 0), which is given up for the one straight on to (2, 2). *)
Theorem C74_turn_refuted : exists ps st cps ss pts1 br merged ss1 pts2 starts e ends pe p b s c q q',
  self_intersection intersects run_place run_sort run_sort_new interior 400 (stored (rings 0 ps)) rand_seed = Some st /\
  calc_line_bal run_place run_sort run_sort_new 400 OpXor st = Some (cps, ss) /\
  follow_all 400 false (map to_out cps) no_breaks [] ss = Some (pts1, br, merged, ss1) /\
  match_orphans pts1 (b_starts br) (b_ends br) (b_virt br) (b_orphans br) = Some (pts2, starts, e :: ends) /\
  nth_error pts2 e = Some pe /\ end_point pts2 e = Some p /\
  choose_start pts2 (o_data pe) p (pm_get starts p) = Some b /\ nth_error (pm_get starts p) b = Some s /\ In c (pm_get starts p) /\
  non_anchor_end_point pts2 s = Some q /\ non_anchor_end_point pts2 c = Some q' /\ q <> p /\ q' <> p /\
  ~ straight_back (o_data pe) p q' /\ (turn (o_data pe) p q < turn (o_data pe) p q')%Q.
Proof.
  exists spiked. do 12 eexists. exists (1, 1)%Z, 2, 9, 5, (2, 2)%Z, (1, 2)%Z.
  split; [vm_compute; reflexivity|]. split; [vm_compute; reflexivity|]. split; [vm_compute; reflexivity|]. split; [vm_compute; reflexivity|].
  split; [vm_compute; reflexivity|]. split; [vm_compute; reflexivity|]. split; [vm_compute; reflexivity|]. split; [vm_compute; reflexivity|]. split; [vm_compute; auto|].
  split; [vm_compute; reflexivity|]. split; [vm_compute; reflexivity|]. split; [discriminate|]. split; [discriminate|]. split; [intros (H & _); vm_compute in H; discriminate|]. vm_compute. reflexivity.
Qed.
Print Assumptions C74_turn_refuted.
(** The result then is one loop that comes through (1, 1) three times. *)
Example spiked_result : option_map (fun o => let '(fps, loops, _, _, _, _) := o in map (fun l => option_map (map (fpos fps)) (iterate_loop fps (fst l) (snd l))) loops)
  (run_op 400 OpXor false (stored (rings 0 spiked)) rand_seed) = Some [Some [(1, 2); (0, 0); (1, 1); (0, 0); (1, 1); (2, 2); (1, 1)]]%Z.
Proof. vm_compute. reflexivity. Qed.

(** A line from (2, 4) ends in (4, 4), where three lines start: to (6, 3), to (4, 6) and to (3, 2). *)
Definition corner : list opoint :=
  [mk_op (2, 4)%Z 1 (Res LSkeep) false; mk_op (4, 4)%Z 2 (Res LSkeep) false; mk_op (6, 3)%Z 0 (Res LSkeep) false;
   mk_op (4, 4)%Z 4 (Res LSkeep) false; mk_op (4, 6)%Z 0 (Res LSkeep) false; mk_op (4, 4)%Z 6 (Res LSkeep) false; mk_op (3, 2)%Z 0 (Res LSkeep) false].
Example corner_choice : exists pts' starts', join_ends corner [((4, 4)%Z, [1; 3; 5])] [0] = Some (pts', starts') /\ option_map o_next (nth_error pts' 0) = Some 3 /\
  (forall c c' q q', In c [1; 3; 5] -> In c' [1; 3; 5] -> non_anchor_end_point corner c = Some q -> non_anchor_end_point corner c' = Some q' -> q <> (4, 4)%Z /\ ~ (straight_back (2, 4)%Z (4, 4)%Z q /\ straight_on (2, 4)%Z (4, 4)%Z q')) /\
  (turn (2, 4)%Z (4, 4)%Z (4, 6)%Z == 1)%Q /\ (turn (2, 4)%Z (4, 4)%Z (6, 3)%Z < 0)%Q.
Proof.
  do 2 eexists. split; [vm_compute; reflexivity|]. split; [reflexivity|]. split; [|split; vm_compute; reflexivity].
  intros c c' q q' I J E F. cbn in I, J. destruct I as [<-|[<-|[<-|[]]]]; vm_compute in E; injection E as <-; (split; [discriminate|]); intros ((B & L) & _); vm_compute in B, L; discriminate.
Qed.
