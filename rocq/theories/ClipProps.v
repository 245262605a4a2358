(** Splitting lines, and whole operations: properties C45, C31 and C61 to C63. *)
From Coq Require Import ZArith List Bool Arith Permutation Sorted Lia ZifyBool ZifyNat.
From Verif Require Import GeomModel BalanceModel EventsModel EventsSpec EventsProps OutModel PointSinkModel ClipModel ClipSpec ClipProofs SweepProofs TrackProofs CycleProofs.
Import ListNotations.

(** C45: whatever the points computed for intersections and wherever lines are put in the
    sweep-line set, if finding the intersections ends without a failed assertion, then each
    call to the tracker put one new point between two linked points. No point of the input
    was moved or changed sets, all loops are still closed and in one set, every line of the
    input is a path over new points, and every new point is on exactly one of these
    paths, once. *)
Theorem C45_split : forall isect place sort_events sort_new draws fuel pts rand st,
  sorts event_lt sort_events -> sorts (lt_new _ _ (fun e => e) event_lt) sort_new -> proper_loops pts ->
  self_intersection isect place sort_events sort_new draws fuel pts rand = Some st ->
  grown (links pts) (s_log st) (links (s_pts st)) /\
  length (s_pts st) = length pts + length (s_log st) /\
  (forall i p0, nth_error pts i = Some p0 -> exists p, nth_error (s_pts st) i = Some p /\ c_data p = c_data p0 /\ c_set p = c_set p0) /\
  proper_loops (s_pts st) /\
  exists new, (forall i p, nth_error pts i = Some p -> chain (links (s_pts st)) (i :: new i) (c_next p)) /\
    Permutation (flat_map new (seq 0 (length pts))) (seq (length pts) (length (s_log st))).
Proof.
  intros isect place se sn draws fuel pts rand st SE SN PL H.
  destruct (self_intersection_ok pts isect place se sn draws SE SN fuel rand st PL H) as (s & all & u & O & _).
  pose proof (ok_log _ _ _ _ _ O) as G. split; [exact G|]. split.
  { pose proof (grown_length _ _ _ G) as L. unfold links in L. rewrite !map_length in L. exact L. }
  split; [exact (ok_orig _ _ _ _ _ O)|]. split; [exact (ok_loops _ _ _ _ _ O)|].
  destruct (grown_paths _ _ _ G) as (new & C & P). unfold links in P. rewrite map_length in P. exists new. split; [|exact P].
  intros i p N. apply C. unfold links. rewrite nth_error_map, N. reflexivity.
Qed.
Print Assumptions C45_split.

(** The sorts and the search of a concrete run. *)
Definition run_sort := isort event_lt.
Definition run_sort_new := isort (lt_new _ _ (fun e : EventsModel.event => e) event_lt).
Definition run_place := first_greater sweep_cmp.
Example run_sorts : sorts event_lt run_sort /\ sorts (lt_new _ _ (fun e => e) event_lt) run_sort_new.
Proof.
  split; apply ins_sorts; [exact event_lt_swo|]. destruct event_lt_swo as [A B]. unfold lt_new, lt_ev. split; intros x y; [|intros z].
  - destruct (Nat.eqb_spec (snd x) (snd y)), (Nat.eqb_spec (snd y) (snd x)); cbn [negb]; try lia. apply A.
  - destruct (Nat.eqb_spec (snd x) (snd y)), (Nat.eqb_spec (snd y) (snd z)), (Nat.eqb_spec (snd x) (snd z)); cbn [negb]; try lia. apply B.
Qed.
Definition run_split := self_intersection intersects run_place run_sort run_sort_new interior.
Definition input (l : list (list point)) : list cpoint :=
  match add_loops clip_new [] Subject false l with Done (c, _) => stored (cs_points c) | _ => [] end.
(** Two crossing triangles and a bow tie. *)
Definition ex_pts := input [[(0, 0); (8, 2); (0, 4)]; [(2, -2); (4, 7); (6, -2)]; [(20, 0); (24, 4); (24, 0); (20, 4)]]%Z.
Lemma proper_check pts :
  forallb (fun i => match nth_error pts i with
    | Some p => match nth_error pts (c_next p) with
                | Some q => match nth_error pts (c_next q) with Some _ => negb (c_next p =? i) && negb (c_next q =? i) && bset_eqb (c_set q) (c_set p) | None => false end
                | None => false end
    | None => false end) (seq 0 (length pts)) = true ->
  NoDup (map c_next pts) -> proper_loops pts.
Proof.
  intros F ND. rewrite forallb_forall in F. split.
  - intros i p N. assert (I : In i (seq 0 (length pts))) by (apply in_seq; split; [lia|]; apply nth_error_Some; congruence).
    specialize (F i I). rewrite N in F. destruct (nth_error pts (c_next p)) as [q|]; [|discriminate]. destruct (nth_error pts (c_next q)) as [r|] eqn:R; [|discriminate].
    apply andb_prop in F as (F & F3). apply andb_prop in F as (F1 & F2). apply negb_true_iff, Nat.eqb_neq in F1, F2.
    exists q, r. split; [reflexivity|]. split; [exact R|]. split; [exact F1|]. split; [exact F2|]. destruct (c_set q), (c_set p); cbn in F3; congruence.
  - intros i j p q N M E. assert (I : i < length (map c_next pts)) by (rewrite map_length; apply nth_error_Some; congruence).
    apply (proj1 (NoDup_nth_error _) ND i j I). rewrite !nth_error_map, N, M. cbn. congruence.
Qed.
Example ex_proper : proper_loops ex_pts.
Proof.
  apply proper_check; [vm_compute; reflexivity|]. vm_compute. repeat constructor; cbn; intuition discriminate.
Qed.
Example ex_split : exists st, run_split 400 ex_pts rand_seed = Some st /\ length (s_log st) = 10 /\ s_rand st <> rand_seed.
Proof.
  assert (H : match run_split 400 ex_pts rand_seed with Some st => (length (s_log st) =? 10) && negb (s_rand st =? rand_seed)%Z | None => false end = true) by (vm_compute; reflexivity).
  destruct (run_split 400 ex_pts rand_seed) as [st|]; [|discriminate]. exists st. split; [reflexivity|]. lia.
Qed.

(** C31: a whole operation on a clipper that was used before (which keeps the state of the
    generator) gives other points than on a fresh one. *)
Definition run_op := do_op intersects run_place run_sort run_sort_new interior.
Theorem C31_reuse_refuted : exists pts r1 r2,
  proper_loops pts /\
  run_op 400 OpUnion false pts rand_seed = Some r1 /\
  run_op 400 OpUnion false pts (snd r1) = Some r2 /\
  map f_data (fst (fst (fst (fst (fst r1))))) <> map f_data (fst (fst (fst (fst (fst r2))))).
Proof.
  exists (input [[(0, 0); (5, 5); (5, 0); (0, 5)]]%Z). do 2 eexists. split; [|split; [vm_compute; reflexivity|split; [vm_compute; reflexivity|vm_compute; discriminate]]].
  apply proper_check; [vm_compute; reflexivity|]. vm_compute. repeat constructor; cbn; intuition discriminate.
Qed.
Print Assumptions C31_reuse_refuted.

(** C63: a loop whose first point is repeated twice at the end makes joining the lines
    fail: a line without length is kept (the stored loop has equal neighbours, C26). All
    steps before it end, so this is a failed assertion and not a lack of fuel. *)
Theorem C63_no_failure_refuted : exists loop c log st pts ss pts1 br merged ss1 pts2 starts ends,
  add_loop clip_new [] Subject false loop = Done (c, log) /\
  run_split 100 (stored (cs_points c)) rand_seed = Some st /\
  calc_line_bal run_place run_sort run_sort_new 100 OpUnion st = Some (pts, ss) /\
  follow_all 100 false (map to_out pts) no_breaks [] ss = Some (pts1, br, merged, ss1) /\
  match_orphans pts1 (b_starts br) (b_ends br) (b_virt br) (b_orphans br) = Some (pts2, starts, ends) /\
  join_ends pts2 starts ends = None.
Proof.
  exists [(0, 2); (3, 2); (0, 2); (0, 2)]%Z. do 12 eexists.
  split; [vm_compute; reflexivity|]. split; [vm_compute; reflexivity|]. split; [vm_compute; reflexivity|].
  split; [vm_compute; reflexivity|]. split; [vm_compute; reflexivity|]. vm_compute. reflexivity.
Qed.
Print Assumptions C63_no_failure_refuted.

(** C61: the indices the tracker gets are those of points it was told about: the first
    ones are those of the input, and each call for a split adds one. Partial: not with
    hierarchical output. *)
Theorem C61_tracker_indices_partial : forall isect place sort_events sort_new draws fuel op pts rand fps loops ss log merged r,
  sorts event_lt sort_events -> sorts (lt_new _ _ (fun e => e) event_lt) sort_new -> proper_loops pts ->
  do_op isect place sort_events sort_new draws fuel op false pts rand = Some (fps, loops, ss, log, merged, r) ->
  (forall k a b, nth_error log k = Some (a, b) -> a < length pts + k /\ b < length pts + k) /\
  (forall a b, In (a, b) merged -> a < length pts + length log /\ b < length pts + length log).
Proof.
  intros isect place se sn draws fuel op pts rand fps loops ss log merged r SE SN PL H.
  apply do_op_below in H as (st & S & -> & B). destruct (C45_split _ _ _ _ _ _ _ _ _ SE SN PL S) as (G & L & _ & _ & _). split; [|rewrite <- L; exact B].
  assert (R : forall i b, nth_error (links pts) i = Some b -> b < length (links pts)).
  { intros i b N. unfold links in *. rewrite nth_error_map in N. destruct (nth_error pts i) as [p|] eqn:E; [|discriminate]. injection N as <-.
    destruct PL as (P1 & _). destruct (P1 i p E) as (q & _ & Q & _). rewrite map_length. apply nth_error_Some. congruence. }
  replace (length pts) with (length (links pts)) by apply map_length. clear -G R. induction G as [l|l a b log l' N G IH]; intros k x y K; [destruct k; discriminate|].
  destruct k as [|k]; cbn in K.
  - injection K as <- <-. rewrite Nat.add_0_r. split; [apply nth_error_Some; congruence|eapply R; exact N].
  - edestruct IH as (A & B); [|exact K|].
    + intros i c M. rewrite app_length, put_length. cbn. apply nth_snoc in M as [M|(_ & ->)]; [|pose proof (R _ _ N); lia].
      destruct (Nat.eq_dec a i) as [<-|D]; [rewrite (put_same' _ _ _ _ N) in M; injection M as <-; lia|]. rewrite put_other in M by exact D. pose proof (R _ _ M). lia.
    + rewrite app_length, put_length in A, B. cbn in A, B. lia.
Qed.
Print Assumptions C61_tracker_indices_partial.
(** With hierarchical output the tracker gets the index of an anchor point, which it was
    never told about: two nested squares. *)
Theorem C61_tracker_indices_refuted : exists pts fps loops ss log merged r a b,
  proper_loops pts /\ run_op 400 OpUnion true pts rand_seed = Some (fps, loops, ss, log, merged, r) /\
  In (a, b) merged /\ a >= length pts + length log.
Proof.
  exists (input [[(0, 0); (8, 0); (8, 8); (0, 8)]; [(2, 2); (6, 2); (6, 6); (2, 6)]]%Z). do 6 eexists. exists 10, 4.
  split; [apply proper_check; [vm_compute; reflexivity|]; vm_compute; repeat constructor; cbn; intuition discriminate|].
  split; [vm_compute; reflexivity|]. split; [right; left; reflexivity|]. vm_compute. lia.
Qed.
Print Assumptions C61_tracker_indices_refuted.

(** C62: a point that the tracker was told is discarded is in the output after all:
    one square minus another. *)
Definition input2 (l1 l2 : list (list point)) : list cpoint :=
  match add_loops clip_new [] Subject false l1 with
  | Done (c, _) => match add_loops c [] Clip false l2 with Done (c, _) => stored (cs_points c) | _ => [] end
  | _ => [] end.
Theorem C62_discarded_refuted : exists pts fps loops ss log merged r from to p,
  proper_loops pts /\ run_op 400 OpDifference false pts rand_seed = Some (fps, loops, ss, log, merged, r) /\
  In (from, to) merged /\ nth_error fps from = Some p /\ (f_index p >= 0)%Z.
Proof.
  exists (input2 [[(0, 0); (8, 0); (8, 8); (0, 8)]]%Z [[(4, 4); (12, 4); (12, 12); (4, 12)]]%Z). do 6 eexists. exists 11, 5. eexists.
  split; [apply proper_check; [vm_compute; reflexivity|]; vm_compute; repeat constructor; cbn; intuition discriminate|].
  split; [vm_compute; reflexivity|]. split; [right; right; left; reflexivity|]. split; [reflexivity|]. cbn. lia.
Qed.
Print Assumptions C62_discarded_refuted.
