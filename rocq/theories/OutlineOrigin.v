(** The input points that the origin tracker records after offsetting: property C76. *)
From Coq Require Import ZArith List Bool Arith Permutation Sorted Lia.
From Verif Require Import GeomModel EventsModel EventsSpec BalanceModel FlatSetModel OutModel ClipModel ClipSpec PointSinkModel PointSinkSpec PointSinkProofs OffsetModel OffsetSpec OffsetProofs OffsetSink OffsetProps
  CycleProofs WholeInput WholeSpec WholeProps ClipProps GeneralProps AccountProps OriginModel OriginSpec OriginProofs OriginProps OutlineSpec OutlineProofs OutlineProps.
Import ListNotations.
Local Open Scope nat_scope.

(** q is p moved along one of its lines, or around p. *)
Definition moved_from (moved : point -> point -> point) (rotated : point -> point -> point -> nat -> point) (p q : point) : Prop :=
  (exists a b, (p = a \/ p = b) /\ q = shifted p (moved a b)) \/ (exists a b n, q = shifted p (rotated a p b n)).
(** Closed sequences of at least two points, no point equal to the one before it. *)
Definition plain_sequences (ss : sequences) : Prop := forall cat closed l, In (cat, closed, l) ss -> closed = true /\ 2 <= length l /\ no_repeat l.
(** The numbers given to point_added are positions in all the points of the sequences. *)
Definition sources (moved : point -> point -> point) (rotated : point -> point -> point -> nat -> point) (ss : sequences) (pts : list lpoint) (idx : list nat) : Prop :=
  length idx = length pts /\
  (plain_sequences ss -> (Z.of_nat (length (concat (map snd ss))) < 2 ^ 64)%Z ->
   forall k x q, nth_error idx k = Some x -> nth_error pts k = Some q -> exists p, nth_error (concat (map snd ss)) x = Some p /\ moved_from moved rotated p (lp_data q)).

Section Offset.
Variable moved : point -> point -> point.
Variable rotated : point -> point -> point -> nat -> point.
Variable steps : point -> point -> point -> Z.
Variable negative positive : bool.
Variable lone_steps : Z.
Variable lone_rotated : nat -> point.
Notation offset_all := (offset_all moved rotated steps negative positive lone_steps lone_rotated).

Lemma loop_ran c log cat pt closed l c' log' : cs_ran c = false -> offset_loop moved rotated steps negative positive lone_steps lone_rotated c log cat pt closed l = Done (c', log') -> cs_ran c' = false.
Proof.
  intros R. unfold offset_loop, sink_open. rewrite R. cbn [andb ss_clip]. destruct (if closed then _ else _) as [(ws, e)|]; [|intros H; injection H as <- _; exact R].
  destruct (sink_close _) as [(c1, l1)|] eqn:CL; [|discriminate]. intros H. injection H as <- _. cbn. apply ran_close in CL. rewrite CL, ran_puts. exact R.
Qed.
Lemma loop_calls c log cat (closed : bool) l c' log' : cs_ran c = false -> offset_loop moved rotated steps negative positive lone_steps lone_rotated c log cat true closed l = Done (c', log') ->
  exists stored, map lp_data (cs_points c') = map lp_data (cs_points c) ++ map fst stored /\ log' = log ++ map TAdded (map snd stored).
Proof.
  intros R H. destruct (if closed then plan_closed positive (Z.of_nat (cs_next_orig c)) l else plan_open positive (Z.of_nat (cs_next_orig c)) l) as [(ws, e)|] eqn:PL.
  - destruct (offset_loop_calls _ _ _ _ _ _ _ _ _ _ _ closed _ _ _ _ _ R PL H) as (_ & st & A & _ & _ & B & _). exists st. rewrite map_map. auto.
  - unfold offset_loop, sink_open in H. rewrite R in H. cbn [andb ss_clip] in H. rewrite PL in H. injection H as <- <-. exists []. rewrite !app_nil_r. auto.
Qed.
Lemma offset_calls ss : forall c log c' log', cs_ran c = false -> offset_all c log true ss = Done (c', log') ->
  exists stored, map lp_data (cs_points c') = map lp_data (cs_points c) ++ map fst stored /\ log' = log ++ map TAdded (map snd stored) /\
    (plain_sequences ss -> (Z.of_nat (cs_next_orig c + length (concat (map snd ss))) < 2 ^ 64)%Z ->
     forall q x, In (q, x) stored -> cs_next_orig c <= x /\ exists p, nth_error (concat (map snd ss)) (x - cs_next_orig c) = Some p /\ moved_from moved rotated p q).
Proof.
  induction ss as [|((cat, closed), l) ss IH]; intros c log c' log' R H; cbn [OutlineSpec.offset_all] in H.
  - injection H as <- <-. exists []. rewrite !app_nil_r. split; [reflexivity|]. split; [reflexivity|]. intros _ _ q x [].
  - destruct (offset_loop _ _ _ _ _ _ _ c log cat true closed l) as [(c1, log1)|] eqn:E; [|discriminate]. pose proof (loop_ran _ _ _ _ _ _ _ _ R E) as R1.
    destruct (IH c1 log1 c' log' R1 H) as (s2 & A2 & G2 & M2). destruct (loop_calls _ _ _ _ _ _ _ R E) as (s1 & A1 & G1). exists (s1 ++ s2). split; [rewrite A2, A1, map_app, <- app_assoc; reflexivity|]. split; [rewrite G2, G1, !map_app, <- app_assoc; reflexivity|]. intros PS B. destruct (PS cat closed l (or_introl eq_refl)) as (-> & L2 & NR). cbn [map snd concat] in B |- *. rewrite app_length in B.
    destruct l as [|a [|b l]]; [cbn in L2; lia|cbn in L2; lia|]. assert (AB : a <> b) by exact (NR 0 a b eq_refl eq_refl).
    assert (B1 : (Z.of_nat (cs_next_orig c + length (a :: b :: l)) < 2 ^ 64)%Z) by lia.
    pose proof (C54_closed_next _ _ _ _ _ _ _ _ _ _ _ _ _ _ _ _ R AB B1 E) as NX.
    destruct (C54_reported_partial _ _ _ _ _ _ _ _ _ _ _ _ _ _ _ R L2 NR B1 E) as (s3 & A3 & _ & _ & G3 & M3).
    assert (S13 : s1 = s3).
    { rewrite A1 in A3. apply app_inv_head in A3. rewrite G1 in G3. apply app_inv_head in G3. rewrite map_map in G3. clear - A3 G3. revert s3 A3 G3. induction s1 as [|(p, i) s1 IH]; intros [|(q, j) s3] A G; try discriminate; [reflexivity|]. cbn in A, G. injection A as -> A. injection G as -> G. f_equal. apply IH; assumption. }
    subst s3. intros q x I. apply in_app_or in I as [I|I].
    + destruct (M3 q x I) as (k & p & -> & K & W). split; [lia|]. exists p. replace (cs_next_orig c + k - cs_next_orig c) with k by lia. rewrite nth_error_app1 by (apply nth_lt in K; exact K). split; [exact K|exact W].
    + destruct (M2 (fun k d m J => PS k d m (or_intror J)) ltac:(rewrite NX; lia) q x I) as (G & p & K & W). rewrite NX in G, K. split; [lia|]. exists p. split; [|exact W]. rewrite nth_error_app2 by lia. rewrite <- K. f_equal. lia.
Qed.
End Offset.

(** After offsetting, the tracker records for a point of the output exactly the numbers of the
    outline points that land there when the points are merged in the order of the calls; of
    closed sequences without repeated points these are the positions of the input points from
    which the outline points were moved.
    Partial: as C76_origins_partial and C77_outline_partial; with open sequences and repeated
    points the numbers are those that were given to the sink, which C54 refutes to be right. *)
Theorem C76_offset_partial : forall moved rotated steps negative positive lone_steps lone_rotated isect place sort_events sort_new draws fuel op rand ss c log fps loops ss' log' merged r,
  sorts event_lt sort_events -> sorts (lt_new _ _ (fun e => e) event_lt) sort_new -> places place ->
  no_thrice ss -> plain_input None (outlines moved rotated steps negative positive lone_steps lone_rotated ss) -> (op = OpDifference -> Forall (fun sp => fst sp = Subject) (outlines moved rotated steps negative positive lone_steps lone_rotated ss)) ->
  offset_all moved rotated steps negative positive lone_steps lone_rotated clip_new [] true ss = Done (c, log) ->
  do_op isect place sort_events sort_new draws fuel op false (ClipModel.stored (cs_points c)) rand = Some (fps, loops, ss', log', merged, r) ->
  exists idx t, log = map TAdded idx /\ sources moved rotated ss (cs_points c) idx /\ track log log' merged = Some t /\
    forall loc L k, In loc loops -> iterate_loop fps (fst loc) (snd loc) = Some L -> In k L ->
    exists S, get_value t k = Some S /\ StronglySorted lt S /\
      (forall x, In x S <-> exists j, nth_error idx j = Some x /\ lands merged j = k) /\
      (forall x, In x S -> exists j, nth_error idx j = Some x /\ leads merged j k) /\
      (forall x, nth_error idx k = Some x -> In x S) /\
      (in_order merged -> forall j x, nth_error idx j = Some x -> leads merged j k -> In x S).
Proof.
  intros mv ro sp ng po ls lr isect place se sn draws fuel op rand ss c log fps loops ss' log' merged r SE SN PLC NT PI OP A H.
  pose proof (C77_outline_partial mv ro sp ng po ls lr clip_new [] true ss eq_refl eq_refl NT) as EQ. rewrite A in EQ. destruct (add_all clip_new [] true _) as [(c2, log2)|] eqn:A2; [|destruct EQ].
  pose proof H as H2. rewrite EQ in H2.
  destruct (do_op_account isect place se sn draws fuel op true rand _ c2 log2 fps loops ss' log' merged r SE SN PLC PI OP A2 H2) as (Ls & F & P & st & _ & B). rewrite <- EQ in P, B. clear EQ A2 H2 c2 log2.
  destruct (offset_calls mv ro sp ng po ls lr ss clip_new [] c log eq_refl A) as (stored & A1 & EL & AT). cbn [clip_new cs_points cs_next_orig app map] in A1, EL, AT. set (idx := map snd stored) in *.
  assert (LI : length idx = length (cs_points c)) by (unfold idx; rewrite map_length; apply (f_equal (@length point)) in A1; rewrite !map_length in A1; congruence).
  assert (NM : NoDup (map fst merged ++ concat Ls)) by (eapply Permutation_NoDup; [apply Permutation_sym; exact P|apply seq_NoDup]).
  assert (NF : NoDup (map fst merged)) by (clear - NM; induction (map fst merged) as [|a l IH]; [constructor|]; cbn in NM; inversion NM as [|? ? N M]; subst; constructor; [intros I; apply N, in_or_app; left; exact I|apply IH; exact M]).
  assert (RNG : forall f, In f (map fst merged) -> f < length idx + length log') by (intros f I; assert (J : In f (map fst merged ++ concat Ls)) by (apply in_or_app; left; exact I); apply (Permutation_in _ P), in_seq in J; lia).
  destruct (track_right idx log' merged NF) as (t & T & LT & V).
  { intros f g I. destruct (B f g I) as (_ & B1 & B2). split; [exact B1|]. split; [apply RNG; apply (in_map fst) in I; exact I|lia]. }
  exists idx, t. split; [exact EL|]. split; [split; [exact LI|]|split; [rewrite EL; exact T|]].
  { intros PS BD k x q K Q. specialize (AT PS BD). unfold idx in K. rewrite nth_error_map in K. destruct (nth_error stored k) as [(q', x')|] eqn:S; [|discriminate]. injection K as <-.
    apply (f_equal (fun l => nth_error l k)) in A1. rewrite !nth_error_map, Q, S in A1. cbn in A1. injection A1 as ->. apply nth_error_In in S. destruct (AT _ _ S) as (_ & p & N & W). rewrite Nat.sub_0_r in N. exists p. auto. }
  intros loc L k IL IT IK. assert (IC : In k (concat Ls)).
  { clear - F IL IT IK. induction F as [|l L' ls Ls (E & _) F IH]; [destruct IL|]. cbn [concat]. apply in_or_app. destruct IL as [->|IL]; [left; congruence|right; apply IH; exact IL]. }
  assert (NK : ~ In k (map fst merged)).
  { intros X. clear - NM X IC. induction (map fst merged) as [|a l IH]; [destruct X|]. cbn in NM. inversion NM as [|? ? N M]; subst. destruct X as [<-|X]; [apply N, in_or_app; right; exact IC|apply IH; assumption]. }
  assert (LK : k < length idx + length log') by (assert (J : In k (map fst merged ++ concat Ls)) by (apply in_or_app; right; exact IC); apply (Permutation_in _ P), in_seq in J; lia).
  destruct (V k LK NK) as (S & G & SS & W). exists S. split; [exact G|]. split; [exact SS|]. split; [exact W|]. split; [|split].
  - intros x X. apply W in X as (j & J & LJ). exists j. split; [exact J|]. rewrite <- LJ. apply lands_leads. rewrite LJ. exact NK.
  - intros x X. apply W. exists k. split; [exact X|]. apply lands_kept. exact NK.
  - intros O j x J LD. apply W. exists j. split; [exact J|]. destruct (lands_in_order merged j O) as (_ & Q); [intros f g I; apply (B f g I)|]. exact (leads_one merged j _ _ NF Q LD).
Qed.
Print Assumptions C76_offset_partial.

(** Two squares, moved outwards by 5 so that they overlap: point 16, where the outlines cross,
    comes from the corners 1 and 2 of the first square, point 17 from the corners of the second
    that have the numbers 7 and 4. *)
Definition two_squares : sequences := [(Subject, true, [(0,0); (8,0); (8,8); (0,8)]); (Clip, true, [(14,4); (24,4); (24,12); (14,12)])]%Z.
Definition two_points : list cpoint := Eval vm_compute in match offset_all ex_moved ex_rotated ex_steps false true 8%Z (fun _ => (0,0)%Z) clip_new [] true two_squares with Done (c, _) => ClipModel.stored (cs_points c) | OutOfBounds => [] end.
Definition two_idx : list nat := [0; 1; 1; 2; 2; 3; 3; 0; 4; 5; 5; 6; 6; 7; 7; 4].
Example ex_C76_offset :
  no_thrice two_squares /\ plain_sequences two_squares /\ plain_input None (outlines ex_moved ex_rotated ex_steps false true 8%Z (fun _ => (0,0)%Z) two_squares) /\
  (exists c, offset_all ex_moved ex_rotated ex_steps false true 8%Z (fun _ => (0,0)%Z) clip_new [] true two_squares = Done (c, map TAdded two_idx) /\ ClipModel.stored (cs_points c) = two_points) /\
  outcome (do_op intersects run_place run_sort run_sort_new interior 400 OpUnion false two_points rand_seed) =
    Some (18, [(3, 4); (15, 8)], [(14, 15); (15, 17); (2, 3); (3, 16)], [Some [0; 1; 17; 8; 9; 10; 11; 12; 13; 16; 4; 5; 6; 7]]) /\
  option_map (fun t => map (get_value t) [16; 17; 0; 4]) (track (map TAdded two_idx) [(3, 4); (15, 8)] [(14, 15); (15, 17); (2, 3); (3, 16)]) = Some [Some [1; 2]; Some [4; 7]; Some [0]; Some [2]].
Proof.
  split; [intros cat l [E|[E|[]]]; discriminate|]. split.
  { intros cat closed l [E|[E|[]]]; injection E as _ <- <-; (split; [reflexivity|]; split; [cbn; lia|]); intros [|[|[|[|k]]]] p q A B; cbn in A, B; try discriminate; injection A as <-; injection B as <-; discriminate. }
  split; [|split; [|split]].
  - cbn [plain_input outlines map two_squares fst snd]. repeat match goal with |- _ /\ _ => split | |- _ <> 1 => vm_compute; discriminate | |- ~ trailing_repeat _ => apply no_trailing; reflexivity | |- True => exact I end; intros p H; unfold first_is in H; vm_compute in H; injection H as <-; vm_compute; discriminate.
  - eexists. split; vm_compute; reflexivity.
  - vm_compute. reflexivity.
  - vm_compute. reflexivity.
Qed.
