(** The sweep as a whole: what holds when it begins and when it has ended. *)
From Coq Require Import ZArith QArith List Bool Arith Permutation Sorted Lia.
From Verif Require Import GeomModel GeomSpec BalanceModel EventsModel EventsSpec EventsProofs OutModel PointSinkModel CycleProofs ClipModel ClipSpec ClipProofs SweepProofs
  SegOrder SegClean SegFinal SegTotal SegSpec TotalSpec TotalSplit TotalRun.
Import ListNotations.
Local Open Scope nat_scope.

Lemma add_lines_nodes k : forall st i st', add_lines st k i = Some st' -> length (s_nodes st') = k + length (s_nodes st).
Proof.
  induction k as [|k IH]; intros st i st' H; cbn [add_lines] in H; [injection H as <-; reflexivity|].
  destruct (nth_error (s_pts st) i) as [p|]; [|discriminate]. destruct (nth_error (s_pts st) (c_next p)) as [q|]; [|discriminate].
  assert (A : forall a b st1, add_fb_events st a b = Some st1 -> length (s_nodes st1) = S (length (s_nodes st))).
  { clear. intros a b st1 H. unfold add_fb_events in H. destruct (nth_error _ _); [|discriminate]. destruct (nth_error _ _); [|discriminate]. destruct (_ && _); [discriminate|]. injection H as <-. cbn [s_nodes]. rewrite app_length. cbn. lia. }
  match type of H with match ?f with _ => _ end = _ => destruct f as [st1|] eqn:E; [|discriminate] end. apply IH in H. rewrite H. destruct (_ <? _)%Z; apply A in E; lia.
Qed.

(** What holds when the sweep begins. *)
Lemma total_start (draws : cseg -> cseg -> bool) pts rand st1 : proper_loops pts -> (forall i P Q, edge_of pts i P Q -> P <> Q) -> add_lines (mk_cs pts [] (q_empty ev) [] rand []) (length pts) 0 = Some st1 ->
  s_pts st1 = pts /\ calm (s_events st1) /\ exists all, ok pts st1 [] all false /\ fc st1 [] all /\ num pts (around pts) st1.
Proof.
  intros PL NZ A. destruct (add_lines_run (length pts) (mk_cs pts [] (q_empty ev) [] rand []) 0 PL eq_refl) as (st2 & A2 & LE). rewrite A in A2. injection A2 as <-. cbn [s_events q_empty q_events length] in LE. rewrite Nat.add_0_r in LE.
  destruct (start draws pts PL NZ rand st1 A) as (SP & all0 & _ & _ & _ & _ & GOODS & _ & _ & [QN QC QE QT] & _).
  destruct (add_lines_ok pts intersects draws (length pts) (mk_cs pts [] (q_empty ev) [] rand []) 0 [] st1) as (all & O & FC); try reflexivity; [| | | |exact A|].
  { constructor; cbn [s_pts s_nodes s_events s_sweep s_log].
    + exact PL.
    + constructor.
    + intros i p0 N. exists p0. auto.
    + apply (inv_normal _ _ _ _ _ _ _ [] [] 0); try reflexivity. constructor.
    + constructor.
    + intros e [].
    + intros [|n] g X; discriminate.
    + intros [|n] m g h X; discriminate.
    + intros e [].
    + intros e [].
    + intros n []. }
  { intros [|j] g X; discriminate. }
  { constructor; cbn [s_pts s_nodes s_sweep]; try (intros [|j] g; discriminate); try (intros [|j] g d; discriminate). intros n []. }
  { intros j L. destruct (Nat.nlt_0_r _ L). }
  pose proof (add_lines_nodes _ _ _ _ A) as LN. cbn [s_nodes length] in LN. rewrite Nat.add_0_r in LN.
  assert (NU : num pts (around pts) st1).
  { constructor.
    - intros n g NG. apply v_nth in NG as (-> & L). apply GOODS. exact L.
    - pose proof (add_lines_fresh (length pts) _ 0 st1 A) as (_ & -> & _); [split; [reflexivity|right; reflexivity]|reflexivity|intros e []|constructor].
    - rewrite SP. reflexivity.
    - rewrite SP. lia.
    - lia. }
  split; [exact SP|]. split; [exact QC|]. exists all. auto.
Qed.
(** What holds when it has ended. *)
Lemma total_end place sort_events sort_new draws fuel pts rand st :
  sorts event_lt sort_events -> sorts (lt_new _ _ (fun e : ev => e) event_lt) sort_new -> places place -> proper_loops pts -> (forall i P Q, edge_of pts i P Q -> P <> Q) ->
  self_intersection intersects place sort_events sort_new draws fuel pts rand = Some st ->
  exists s all u, ok pts st s all u /\ fc st s all /\ num pts (around pts) st /\ more _ (s_events st) = false.
Proof.
  intros SE SN PLC PL NZ H. unfold self_intersection in H. destruct (add_lines _ _ _) as [st1|] eqn:A; [|discriminate]. destruct (total_start draws pts rand st1 PL NZ A) as (_ & _ & all & O & F & N).
  destruct (loop_end place sort_events sort_new draws SE SN PLC pts (around pts) fuel st1 [] all false st O F N H) as (s' & all' & u' & O' & F' & N'). exists s', all', u'. split; [exact O'|]. split; [exact F'|]. split; [exact N'|].
  revert H. clear. revert st1. induction fuel as [|f IH]; intros st1 H; cbn [sweep_loop] in H; destruct (more ev (s_events st1)) eqn:M; try discriminate; try (injection H as <-; exact M). destruct (sweep_step _ _ _ _ _ st1) as [st2|]; [|discriminate]. exact (IH _ H).
Qed.
