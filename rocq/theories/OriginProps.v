(** The input points that the origin tracker records for a point of the output: property C76. *)
From Coq Require Import ZArith List Bool Arith Permutation Sorted Lia.
From Verif Require Import GeomModel EventsModel EventsSpec BalanceModel FlatSetModel OutModel ClipModel ClipSpec PointSinkModel PointSinkSpec PointSinkProofs PointSinkProps CycleProofs WholeInput WholeSpec WholeProps ClipProps GeneralProps AccountProps OriginModel OriginSpec OriginProofs.
Import ListNotations.
Local Open Scope nat_scope.

(** The numbers given to point_added, for each stored point: positions in all the points of the
    input, one polygon after the other. *)
Definition originals (ps : polygons) (pts : list lpoint) (idx : list nat) : Prop :=
  length idx = length pts /\ NoDup idx /\
  forall k x q, nth_error idx k = Some x -> nth_error pts k = Some q -> nth_error (concat (map snd ps)) x = Some (lp_data q).
Lemma sorted_nodup l : StronglySorted lt l -> NoDup l.
Proof. induction 1 as [|a l S IH F]; constructor; [|exact IH]. intros I. rewrite Forall_forall in F. specialize (F a I). lia. Qed.
Lemma all_calls ps : forall c log c' log', cs_ran c = false -> add_all c log true ps = Done (c', log') ->
  exists idx new, log' = log ++ map TAdded idx /\ cs_points c' = cs_points c ++ new /\ length idx = length new /\ NoDup idx /\
  forall k x, nth_error idx k = Some x -> cs_next_orig c <= x /\ exists q, nth_error new k = Some q /\ nth_error (concat (map snd ps)) (x - cs_next_orig c) = Some (lp_data q).
Proof.
  induction ps as [|(cat, l) ps IH]; intros c log c' log' R H; cbn [add_all] in H.
  - injection H as <- <-. exists [], []. rewrite !app_nil_r. split; [reflexivity|]. split; [reflexivity|]. split; [reflexivity|]. split; [constructor|]. intros k x E. destruct k; discriminate.
  - destruct (add_loop c log cat true l) as [(c1, log1)|] eqn:E; [|discriminate]. apply add_loop_calls in E as (idx & pts & P & LI & SI & AT & G & NO & R1 & _); [|exact R].
    destruct (IH c1 log1 c' log' R1 H) as (idx1 & new1 & -> & P1 & L1 & N1 & A1). exists (idx ++ idx1), (ring (length (cs_points c)) cat pts ++ new1).
    assert (BND : forall k x, nth_error idx k = Some x -> exists p, nth_error pts k = Some p /\ cs_next_orig c <= x /\ nth_error l (x - cs_next_orig c) = Some p).
    { intros k x K. destruct (nth_error pts k) as [p|] eqn:PK; [|apply nth_error_None in PK; apply nth_lt in K; lia]. exists p. split; [reflexivity|]. exact (AT k x p K PK). }
    split; [rewrite G, map_app, app_assoc; reflexivity|]. split; [rewrite P1, P, app_assoc; reflexivity|]. split; [rewrite !app_length, ring_length; lia|]. split.
    + apply NoDup_app'; [apply sorted_nodup; exact SI|exact N1|]. intros x X Y. apply In_nth_error in X as (k & X). apply In_nth_error in Y as (m & Y). destruct (BND k x X) as (p & _ & B1 & B2). destruct (A1 m x Y) as (B3 & _). apply nth_lt in B2. lia.
    + intros k x K. cbn [map snd concat]. destruct (Nat.lt_ge_cases k (length idx)) as [Q|Q].
      * rewrite nth_error_app1 in K by exact Q. destruct (BND k x K) as (p & B0 & B1 & B2). split; [exact B1|]. eexists. rewrite nth_error_app1 by (rewrite ring_length; lia). rewrite ring_nth, B0. split; [reflexivity|]. cbn [lp_data]. rewrite nth_error_app1; [exact B2|apply nth_lt in B2; exact B2].
      * rewrite nth_error_app2 in K by exact Q. destruct (A1 _ x K) as (B3 & q & Q1 & Q2). rewrite NO in B3, Q2. split; [lia|]. exists q. rewrite nth_error_app2 by (rewrite ring_length; lia). rewrite ring_length, <- LI. split; [exact Q1|]. rewrite nth_error_app2 by lia. rewrite <- Q2. f_equal. lia.
Qed.

(** The tracker makes no error, and records for a point of the output exactly the input points
    that land there when the points are merged in the order of the calls: these are discarded
    points from which the calls of point_merge lead to this point, and the point itself.
    Partial: the full statement is that every input point from which the calls lead to a point
    of the output is recorded with it, for all operations; this is so when no point is merged
    into one that was discarded before (second part). *)
Theorem C76_origins_partial : forall isect place sort_events sort_new draws fuel op rand ps c log fps loops ss log' merged r,
  sorts event_lt sort_events -> sorts (lt_new _ _ (fun e => e) event_lt) sort_new -> places place ->
  plain_input None ps -> (op = OpDifference -> Forall (fun sp => fst sp = Subject) ps) ->
  add_all clip_new [] true ps = Done (c, log) ->
  do_op isect place sort_events sort_new draws fuel op false (ClipModel.stored (cs_points c)) rand = Some (fps, loops, ss, log', merged, r) ->
  exists idx t, log = map TAdded idx /\ originals ps (cs_points c) idx /\ track log log' merged = Some t /\
    forall loc L k, In loc loops -> iterate_loop fps (fst loc) (snd loc) = Some L -> In k L ->
    exists S, get_value t k = Some S /\ StronglySorted lt S /\
      (forall x, In x S <-> exists j, nth_error idx j = Some x /\ lands merged j = k) /\
      (forall j x, nth_error idx j = Some x -> In x S -> leads merged j k) /\
      (forall x, nth_error idx k = Some x -> In x S) /\
      (in_order merged -> forall j x, nth_error idx j = Some x -> leads merged j k -> In x S).
Proof.
  intros isect place se sn draws fuel op rand ps c log fps loops ss log' merged r SE SN PLC PI OP A H.
  destruct (do_op_account isect place se sn draws fuel op true rand ps c log fps loops ss log' merged r SE SN PLC PI OP A H) as (Ls & F & P & st & _ & B).
  destruct (all_calls ps clip_new [] c log eq_refl A) as (idx & new & EL & EN & LI & ND & AT). cbn [clip_new cs_points cs_next_orig app] in EL, EN, AT. subst new.
  assert (NM : NoDup (map fst merged ++ concat Ls)) by (eapply Permutation_NoDup; [apply Permutation_sym; exact P|apply seq_NoDup]).
  assert (NF : NoDup (map fst merged)) by (clear - NM; induction (map fst merged) as [|a l IH]; [constructor|]; cbn in NM; inversion NM as [|? ? N M]; subst; constructor; [intros I; apply N, in_or_app; left; exact I|apply IH; exact M]).
  assert (RNG : forall f, In f (map fst merged) -> f < length idx + length log') by (intros f I; assert (J : In f (map fst merged ++ concat Ls)) by (apply in_or_app; left; exact I); apply (Permutation_in _ P), in_seq in J; lia).
  destruct (track_right idx log' merged NF) as (t & T & LT & V).
  { intros f g I. destruct (B f g I) as (_ & B1 & B2). split; [exact B1|]. split; [apply RNG; apply (in_map fst) in I; exact I|lia]. }
  exists idx, t. split; [exact EL|]. split; [split; [exact LI|]; split; [exact ND|]|split; [rewrite EL; exact T|]].
  { intros k x q K Q. destruct (AT k x K) as (_ & q' & Q' & N). rewrite Nat.sub_0_r in N. congruence. }
  intros loc L k IL IT IK. assert (IC : In k (concat Ls)).
  { clear - F IL IT IK. induction F as [|l L' ls Ls (E & _) F IH]; [destruct IL|]. cbn [concat]. apply in_or_app. destruct IL as [->|IL]; [left; congruence|right; apply IH; exact IL]. }
  assert (NK : ~ In k (map fst merged)).
  { intros X. clear - NM X IC. induction (map fst merged) as [|a l IH]; [destruct X|]. cbn in NM. inversion NM as [|? ? N M]; subst. destruct X as [<-|X]; [apply N, in_or_app; right; exact IC|apply IH; assumption]. }
  assert (LK : k < length idx + length log') by (assert (J : In k (map fst merged ++ concat Ls)) by (apply in_or_app; right; exact IC); apply (Permutation_in _ P), in_seq in J; lia).
  destruct (V k LK NK) as (S & G & SS & W). exists S. split; [exact G|]. split; [exact SS|]. split; [exact W|]. split; [|split].
  - intros j x J X. apply W in X as (j' & J' & LJ). assert (j = j') by (eapply NoDup_nth_error; [exact ND|apply nth_lt in J; exact J|congruence]). subst j'. rewrite <- LJ. apply lands_leads. rewrite LJ. exact NK.
  - intros x X. apply W. exists k. split; [exact X|]. apply lands_kept. exact NK.
  - intros O j x J LD. apply W. exists j. split; [exact J|]. destruct (lands_in_order merged j O) as (_ & Q); [intros f g I; apply (B f g I)|]. exact (leads_one merged j _ _ NF Q LD).
Qed.
Print Assumptions C76_origins_partial.

(** The union of a square, a bar that sticks out of it to the left, and a third rectangle inside
    the square across the bar: the right end of the bar is discarded, and the calls lead from it
    to point 13 where the bar leaves the square, but it is recorded with no point of the output,
    as point 17 on the way is merged before the points are merged into it. *)
Definition square_and_bars : polygons :=
  [(Subject, [(0, 0); (10, 0); (10, 10); (0, 10)]); (Subject, [(-5, 4); (8, 4); (8, 6); (-5, 6)]); (Clip, [(4, 2); (6, 2); (6, 8); (4, 8)])]%Z.
Definition bars_points : list cpoint := Eval vm_compute in ClipModel.stored (rings 0 square_and_bars).
Definition bars_outcome := Eval vm_compute in do_op intersects run_place run_sort run_sort_new interior 800 OpUnion false bars_points rand_seed.
Definition bars_merged : list (nat * nat) := Eval vm_compute in match bars_outcome with Some (_, _, _, _, m, _) => m | None => [] end.
Definition recorded (n : nat) (o : option (list fpoint * list loop_loc * list sample * list (nat * nat) * list (nat * nat) * Z)) : option (list (list (nat * option (list nat)))) :=
  match o with
  | None => None
  | Some (fps, loops, _, log', merged, _) =>
      option_map (fun t => map (fun l => match iterate_loop fps (fst l) (snd l) with Some L => map (fun k => (k, get_value t k)) L | None => [] end) loops) (track (map TAdded (seq 0 n)) log' merged)
  end.
Example bars_recorded : recorded 12 bars_outcome = Some [[(0, Some [0]); (1, Some [1]); (2, Some [2]); (3, Some [3]); (13, Some []); (7, Some [7]); (4, Some [4]); (14, Some [])]].
Proof. vm_compute. reflexivity. Qed.
Lemma bars_plain : plain_input None square_and_bars.
Proof.
  cbn [plain_input square_and_bars]. repeat match goal with |- _ /\ _ => split | |- _ <> 1 => discriminate | |- ~ trailing_repeat _ => apply no_trailing; reflexivity | |- True => exact I end; intros p H; unfold first_is in H; cbn in H; injection H as <-; vm_compute; discriminate.
Qed.
Lemma bars_added : exists c, add_all clip_new [] true square_and_bars = Done (c, map TAdded (seq 0 12)) /\ ClipModel.stored (cs_points c) = bars_points.
Proof. eexists. split; vm_compute; reflexivity. Qed.
Theorem C76_origins_refuted : exists fuel ps c log fps loops ss log' merged r t,
  plain_input None ps /\ add_all clip_new [] true ps = Done (c, log) /\
  do_op intersects run_place run_sort run_sort_new interior fuel OpUnion false (ClipModel.stored (cs_points c)) rand_seed = Some (fps, loops, ss, log', merged, r) /\
  track log log' merged = Some t /\
  exists j x loc L k, nth_error log j = Some (TAdded x) /\ In loc loops /\ iterate_loop fps (fst loc) (snd loc) = Some L /\ In k L /\ leads merged j k /\
    forall loc' L' k' S, In loc' loops -> iterate_loop fps (fst loc') (snd loc') = Some L' -> In k' L' -> get_value t k' = Some S -> ~ In x S.
Proof.
  destruct bars_added as (c & A & P). pose proof bars_recorded as R.
  assert (D : do_op intersects run_place run_sort run_sort_new interior 800 OpUnion false bars_points rand_seed = bars_outcome) by (vm_compute; reflexivity).
  assert (LP : match bars_outcome with Some (fps, loops, _, _, m, _) => m = bars_merged /\ exists a, loops = [a] /\ iterate_loop fps (fst a) (snd a) = Some [0; 1; 2; 3; 13; 7; 4; 14] | None => False end) by (vm_compute; split; [reflexivity|eexists; split; reflexivity]).
  destruct bars_outcome as [[[[[[fps loops] ss] log'] merged] r]|]; [|contradiction]. destruct LP as (-> & a & -> & IT). cbn [recorded map] in R. rewrite IT in R.
  destruct (track (map TAdded (seq 0 12)) log' bars_merged) as [t|] eqn:T; [|discriminate R]. cbn [option_map map] in R. injection R as R1 R2 R3 R4 R5 R6 R7 R8.
  exists 800, square_and_bars, c, (map TAdded (seq 0 12)), fps, [a], ss, log', bars_merged, r, t. split; [exact bars_plain|]. split; [exact A|]. split; [rewrite P; exact D|]. split; [exact T|].
  exists 6, 6, a, [0; 1; 2; 3; 13; 7; 4; 14], 13. split; [reflexivity|]. split; [left; reflexivity|]. split; [exact IT|]. split; [cbn; lia|]. split.
  - assert (K : forall i j, In (i, j) bars_merged <-> existsb (fun p => Nat.eqb (fst p) i && Nat.eqb (snd p) j) bars_merged = true).
    { intros i j. rewrite existsb_exists. split; [intros I; exists (i, j); rewrite !Nat.eqb_refl; auto|]. intros ((f, g) & I & E). apply andb_prop in E as (E1 & E2). apply Nat.eqb_eq in E1, E2. cbn in E1, E2. subst. exact I. }
    apply leads_on with 23; [apply K; reflexivity|]. apply leads_on with 17; [apply K; reflexivity|]. apply leads_on with 13; [apply K; reflexivity|]. apply leads_here.
    intros I. assert (X : existsb (Nat.eqb 13) (map fst bars_merged) = true) by (apply existsb_exists; exists 13; auto). discriminate X.
  - intros loc' L' k' S [<-|[]] E I G. rewrite IT in E. injection E as <-. cbn [In] in I. destruct I as [<-|[<-|[<-|[<-|[<-|[<-|[<-|[<-|[]]]]]]]]]; [rewrite R1 in G|rewrite R2 in G|rewrite R3 in G|rewrite R4 in G|rewrite R5 in G|rewrite R6 in G|rewrite R7 in G|rewrite R8 in G].
    all: injection G as <-; cbn; lia.
Qed.
Print Assumptions C76_origins_refuted.
(** The union of two overlapping squares: merges come in order, and all corners are recorded. *)
Definition over_outcome := Eval vm_compute in do_op intersects run_place run_sort run_sort_new interior 400 OpUnion false over_points rand_seed.
Example over_recorded : plain_input None overlapping /\ over_outcome = do_op intersects run_place run_sort run_sort_new interior 400 OpUnion false over_points rand_seed /\
  option_map (fun o => snd (fst o)) over_outcome = Some [(8, 4); (4, 11); (10, 2); (2, 9)] /\ in_order [(8, 4); (4, 11); (10, 2); (2, 9)] /\
  recorded 8 over_outcome = Some [[(0, Some [0]); (1, Some [1]); (11, Some [4]); (5, Some [5]); (6, Some [6]); (7, Some [7]); (9, Some [2]); (3, Some [3])]].
Proof.
  split; [exact over_plain|]. split; [vm_compute; reflexivity|]. split; [vm_compute; reflexivity|]. split; [|vm_compute; reflexivity].
  intros a f t b E. destruct a as [|x [|y [|z [|w a]]]]; cbn [app] in E; [| | | |destruct a; discriminate E]; injection E; intros; subst; cbn; lia.
Qed.

(** With hierarchical output the tracker is told to merge points that it has no set for: the
    anchors (C61). This happens in the union of two overlapping squares. *)
Theorem C76_tree_refuted : exists fuel ps c log fps loops ss log' merged r from to,
  plain_input None ps /\ add_all clip_new [] true ps = Done (c, log) /\
  do_op intersects run_place run_sort run_sort_new interior fuel OpUnion true (ClipModel.stored (cs_points c)) rand_seed = Some (fps, loops, ss, log', merged, r) /\
  In (from, to) merged /\ length log + length log' <= to /\ track log log' merged = None.
Proof.
  destruct over_added as (c & log & A & P). assert (L : log = map TAdded (seq 0 8)) by (vm_compute in A; injection A as _ <-; reflexivity).
  assert (D : match do_op intersects run_place run_sort run_sort_new interior 400 OpUnion true over_points rand_seed with
    | Some (_, _, _, log', merged, _) => hd (0, 0) merged = (8, 17) /\ merged <> [] /\ length log' = 4 /\ track (map TAdded (seq 0 8)) log' merged = None | None => False end) by (vm_compute; repeat split; discriminate).
  destruct (do_op intersects run_place run_sort run_sort_new interior 400 OpUnion true over_points rand_seed) as [[[[[[fps loops] ss] log'] merged] r]|] eqn:E; [|contradiction].
  destruct D as (D1 & D2 & D3 & D4). exists 400, overlapping, c, log, fps, loops, ss, log', merged, r, 8, 17. split; [exact over_plain|]. split; [exact A|]. split; [rewrite P; exact E|].
  split; [destruct merged; [contradiction|left; exact D1]|]. rewrite L, D3, map_length, seq_length. split; [lia|exact D4].
Qed.
Print Assumptions C76_tree_refuted.
