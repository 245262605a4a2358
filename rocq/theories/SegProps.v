(** C44: lines that the sweep does not split do not cross. *)
From Coq Require Import ZArith QArith List Bool Arith Lia.
From Verif Require Import GeomModel GeomSpec BalanceModel EventsModel EventsSpec EventsProofs OutModel PointSinkModel ClipModel ClipSpec ClipProofs SweepProofs ClipProps
  ArrangeSpec SegSpec SegRun SegClean SegFinal.
Import ListNotations.
Local Open Scope Z_scope.

(** C44: any two edges of the loops given to a sweep that adds no point have the same ends
    or only meet where both end, and where edges end that are not across from each other the
    points are marked to be judged. The intersection test, the comparison of lines, the
    order of events and the marks are those of the code; the search of the tree only has to
    end between a line that comes before and one that comes after (RBProps).
    Partial: C44 also speaks of runs that do split lines. For those the theorem says that
    another sweep over the result that adds no point shows that nothing crosses (below). *)
Theorem C44_clean_partial : forall place sort_events sort_new draws fuel pts rand st,
  sorts event_lt sort_events -> sorts (lt_new _ _ (fun e => e) event_lt) sort_new -> finds place ->
  proper_loops pts -> (forall i P Q, edge_of pts i P Q -> P <> Q) ->
  self_intersection intersects place sort_events sort_new draws fuel pts rand = Some st ->
  length (s_pts st) = length pts ->
  apart pts /\ marked pts (s_pts st).
Proof. intros place se sn draws fuel pts rand st SE SN FI PL PP. apply clean_final; assumption. Qed.
Print Assumptions C44_clean_partial.

(** The same for the result of any run, checked by a second one. *)
Theorem C44_again_partial : forall place sort_events sort_new draws draws' fuel fuel' pts rand rand' st st',
  sorts event_lt sort_events -> sorts (lt_new _ _ (fun e => e) event_lt) sort_new -> finds place ->
  proper_loops pts ->
  self_intersection intersects place sort_events sort_new draws fuel pts rand = Some st ->
  (forall i P Q, edge_of (s_pts st) i P Q -> P <> Q) ->
  self_intersection intersects place sort_events sort_new draws' fuel' (s_pts st) rand' = Some st' ->
  length (s_pts st') = length (s_pts st) ->
  apart (s_pts st).
Proof.
  intros place se sn draws draws' fuel fuel' pts rand rand' st st' SE SN FI PL H PP H' L.
  apply (C44_clean_partial place se sn draws' fuel' (s_pts st) rand' st'); try assumption.
  destruct (self_intersection_ok pts intersects place se sn draws SE SN fuel rand st PL H) as (s & all & u & O & _). exact (ok_loops _ _ _ _ _ O).
Qed.
Print Assumptions C44_again_partial.

(** Two squares with a common side and a triangle that touches one of them in a corner: no
    point is added, the edges are apart, and where they touch the points are marked. *)
Definition touching := input [[(0, 0); (4, 0); (4, 4); (0, 4)]; [(4, 0); (8, 0); (8, 4); (4, 4)]; [(8, 4); (12, 2); (12, 6)]].
Lemma edges_check pts :
  forallb (fun p => match nth_error pts (c_next p) with Some q => negb (point_eqb (c_data p) (c_data q)) | None => true end) pts = true -> forall i P Q, edge_of pts i P Q -> P <> Q.
Proof.
  intros F i P Q (p & q & NP & NQ & <- & <-) E. rewrite forallb_forall in F. specialize (F p (nth_error_In _ _ NP)). rewrite NQ, E in F. unfold point_eqb in F. rewrite !Z.eqb_refl in F. discriminate.
Qed.
Example touching_proper : proper_loops touching /\ forall i P Q, edge_of touching i P Q -> P <> Q.
Proof.
  split; [apply proper_check; [vm_compute; reflexivity|]; vm_compute; repeat constructor; cbn; intuition discriminate|apply edges_check; vm_compute; reflexivity].
Qed.
Example touching_run : exists st, run_split 400 touching rand_seed = Some st /\ length (s_pts st) = length touching /\
  map (fun p => match c_state p with Check => true | _ => false end) (s_pts st) = [false; true; true; true; true; false; true; true; true; false; true].
Proof. eexists. split; [vm_compute; reflexivity|]. split; vm_compute; reflexivity. Qed.
Lemma run_split_eq : run_split = self_intersection intersects run_place run_sort run_sort_new interior.
Proof. reflexivity. Qed.
Example touching_apart : exists st, run_split 400 touching rand_seed = Some st /\ apart touching /\ marked touching (s_pts st).
Proof.
  destruct touching_run as (st & R & L & _). exists st. split; [exact R|]. destruct touching_proper as (PL & PP). destruct run_sorts as (S1 & S2).
  rewrite run_split_eq in R. exact (C44_clean_partial run_place run_sort run_sort_new interior 400%nat touching rand_seed st S1 S2 first_greater_finds PL PP R L).
Qed.
