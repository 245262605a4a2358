(** C69: splitting the lines at their intersections always comes to an end, and so does judging
    them. *)
From Coq Require Import ZArith QArith List Bool Arith Permutation Sorted Lia.
From Verif Require Import GeomModel GeomSpec BalanceModel EventsModel EventsSpec EventsProofs OutModel PointSinkModel CycleProofs ClipModel ClipSpec ClipProofs SweepProofs ClipProps JudgeProps
  SegOrder SegClean SegFinal SegTotal SegSpec SegProps TotalSpec TotalSplit TotalRun TotalEnds.
Import ListNotations.
Local Open Scope nat_scope.

(** Each edge of the input has at least one step; [around] counts them all. *)
Theorem C69_split : forall place sort_events sort_new draws fuel pts rand,
  sorts event_lt sort_events -> sorts (lt_new _ _ (fun e => e) event_lt) sort_new -> places place ->
  proper_loops pts -> (forall i P Q, edge_of pts i P Q -> P <> Q) ->
  let t := Z.to_nat (around pts) in (t - length pts) * (8 * t + 2) + 4 * t <= fuel ->
  exists st, self_intersection intersects place sort_events sort_new draws fuel pts rand = Some st /\ length (s_pts st) <= t /\ length (q_events _ (s_events st)) <= 4 * t.
Proof.
  intros place se sn draws fuel pts rand SE SN PLC PL NZ t F. unfold self_intersection.
  destruct (add_lines_run (length pts) (mk_cs pts [] (q_empty ev) [] rand []) 0 PL eq_refl) as (st1 & A & LE). rewrite A.
  destruct (total_start draws pts rand st1 PL NZ A) as (SP & QC & all & O & FC & NU).
  destruct (loop_total place se sn draws SE SN PLC pts (around pts) fuel st1 [] all false O FC NU) as (st & E & L).
  { left. split; [exact QC|]. rewrite SP. fold t. cbn [length]. rewrite Nat.sub_0_r. exact F. }
  exists st. split; [exact E|]. split; [unfold t; lia|].
  destruct (loop_end place se sn draws SE SN PLC pts (around pts) fuel st1 [] all false st O FC NU E) as (s' & all' & u' & O' & F' & N'). destruct (events_le pts (around pts) st s' all' u' O' F' N') as ((_ & X) & _).
  destruct (EI_count _ _ _ _ (ok_q _ _ _ _ _ O')) as (<- & _). exact X.
Qed.
Print Assumptions C69_split.

Theorem C69_judged : forall place place' sort_events sort_new draws fuel fuel' pts rand op,
  sorts event_lt sort_events -> sorts (lt_new _ _ (fun e => e) event_lt) sort_new -> places place ->
  proper_loops pts -> (forall i P Q, edge_of pts i P Q -> P <> Q) ->
  let t := Z.to_nat (around pts) in (t - length pts) * (8 * t + 2) + 4 * t <= fuel -> 4 * t <= fuel' ->
  exists st pts' ss, self_intersection intersects place sort_events sort_new draws fuel pts rand = Some st /\
    calc_line_bal place' sort_events sort_new fuel' op st = Some (pts', ss) /\ judged op (s_pts st) pts' ss.
Proof.
  intros place place' se sn draws fuel fuel' pts rand op SE SN PLC PL NZ t F F'. destruct (C69_split place se sn draws fuel pts rand SE SN PLC PL NZ F) as (st & R & _ & L).
  destruct (C64_judged intersects place place' se sn draws fuel fuel' pts rand st op SE SN PLC PL R) as (X & J). destruct X as ((pts' & ss) & C); [fold t in L; lia|]. exists st, pts', ss. auto.
Qed.
Print Assumptions C69_judged.

(** Two crossing triangles and a bow tie. *)
Example ex_around : around ex_pts = 74%Z.
Proof. vm_compute. reflexivity. Qed.
Example ex_splits : exists st, run_split 400 ex_pts rand_seed = Some st /\ length ex_pts = 10 /\ length (s_pts st) = 20.
Proof. eexists. split; [vm_compute; reflexivity|]. vm_compute. auto. Qed.
Example ex_total : exists st, run_split ((74 - 10) * (8 * 74 + 2) + 4 * 74) ex_pts rand_seed = Some st /\ length (s_pts st) <= 74.
Proof.
  destruct run_sorts as (S1 & S2). destruct (C69_split run_place run_sort run_sort_new interior ((74 - 10) * (8 * 74 + 2) + 4 * 74) ex_pts rand_seed S1 S2) as (st & E & L & _).
  - exact run_places.
  - exact ex_proper.
  - apply edges_check. vm_compute. reflexivity.
  - rewrite ex_around. change (length ex_pts) with 10. change (Z.to_nat 74) with 74. apply Nat.le_refl.
  - exists st. split; [exact E|]. rewrite ex_around in L. exact L.
Qed.
