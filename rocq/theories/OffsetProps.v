(** Properties of offsetting. *)
From Coq Require Import ZArith List Bool Arith Lia SpecFloat.
From Verif Require Import GeomModel PointSinkModel PointSinkSpec FloatModel OffsetModel OffsetSpec OffsetProofs OffsetSink.
Import ListNotations.
Local Open Scope Z_scope.

(** * C54: generated points are attributed to their source vertices
    Proved for sequences without equal neighbours: every stored point is reported with the
    index of an input point and is that point moved along one of its lines or around it.
    Missing: with repeated points the index of the start of a line is wrong, leading repeats
    shift all indices, and after an open line the numbering does not continue; all three are
    refuted below. *)
Theorem C54_reported_partial : forall moved rotated steps negative positive lone_steps lone_rotated c log cat (pt closed : bool) l c' log',
  cs_ran c = false -> (2 <= length l)%nat -> no_repeat l -> Z.of_nat (cs_next_orig c + length l) < 2 ^ 64 ->
  offset_loop moved rotated steps negative positive lone_steps lone_rotated c log cat pt closed l = Done (c', log') ->
  exists stored, map lp_data (cs_points c') = map lp_data (cs_points c) ++ map fst stored /\ firstn (length (cs_points c)) (cs_points c') = cs_points c /\
    (stored = [] \/ 3 <= length stored)%nat /\
    log' = log ++ (if pt then map (fun s => TAdded (snd s)) stored else []) /\
    forall q i, In (q, i) stored -> exists k p, i = (cs_next_orig c + k)%nat /\ nth_error l k = Some p /\
      ((exists a b, (p = a \/ p = b) /\ q = padd p (moved a b)) \/ (exists a b n, q = padd p (rotated a p b n))).
Proof.
  intros mv ro st ng ps ln lr c log cat pt closed l c' log' R L NR B E.
  set (plan := if closed then plan_closed ps (Z.of_nat (cs_next_orig c)) l else plan_open ps (Z.of_nat (cs_next_orig c)) l).
  destruct plan as [(ws, e)|] eqn:PL; [|exfalso; unfold plan in PL; destruct l; [cbn in L; lia|destruct closed; discriminate]].
  destruct (offset_loop_calls _ _ _ _ _ _ _ _ _ _ _ _ _ _ _ _ _ R PL E) as (_ & stored & A & B' & C & D & F). exists stored. do 4 (split; [assumption|]).
  intros q i I. destruct (F q i I) as (w & z & IW & IE & ->).
  assert (X : exists i1 i2 p1 p2 p3, w = Corner i1 i2 p1 p2 p3 /\ index_of (Z.of_nat (cs_next_orig c)) l i1 p1 /\ index_of (Z.of_nat (cs_next_orig c)) l i2 p2).
  { unfold plan in PL. destruct closed.
    - destruct l as [|a [|b l]]; cbn [length] in L; try lia. assert (N : a <> b) by exact (NR O a b eq_refl eq_refl).
      destruct (closed_index _ _ _ _ _ _ _ PL N) as (_ & H); [lia|lia|]. destruct (H w IW) as (i1 & i2 & p1 & p2 & p3 & G1 & G2 & G3). exists i1, i2, p1, p2, p3. auto.
    - destruct (open_index _ _ _ _ _ PL L NR) as (_ & H); [lia|lia|]. exact (H w IW). }
  destruct X as (i1 & i2 & p1 & p2 & p3 & -> & (k1 & K1 & N1) & (k2 & K2 & N2)). apply emit_corner in IE as [(-> & ->)|[(-> & ->)|(-> & n & ->)]].
  - exists k1, p1. split; [lia|]. split; [exact N1|]. left. exists p1, p2. auto.
  - exists k2, p2. split; [lia|]. split; [exact N2|]. left. exists p1, p2. auto.
  - exists k2, p2. split; [lia|]. split; [exact N2|]. right. exists p1, p3, n. reflexivity.
Qed.
Print Assumptions C54_reported_partial.

(** After a closed sequence that does not start with a repeated point the numbering
    continues, and the end of every line and its arc are attributed to their point, whatever
    else is repeated. *)
Theorem C54_closed_next : forall moved rotated steps negative positive lone_steps lone_rotated c log cat pt a b l c' log',
  cs_ran c = false -> a <> b -> Z.of_nat (cs_next_orig c + length (a :: b :: l)) < 2 ^ 64 ->
  offset_loop moved rotated steps negative positive lone_steps lone_rotated c log cat pt true (a :: b :: l) = Done (c', log') ->
  cs_next_orig c' = (cs_next_orig c + length (a :: b :: l))%nat.
Proof.
  intros mv ro st ng ps ln lr c log cat pt a b l c' log' R N B E. destruct (plan_closed ps (Z.of_nat (cs_next_orig c)) (a :: b :: l)) as [(ws, e)|] eqn:PL; [|discriminate].
  destruct (offset_loop_calls _ _ _ _ _ _ _ _ _ _ _ true _ _ _ _ _ R PL E) as (A & _). destruct (closed_index _ _ _ _ _ _ _ PL N) as (C & _); [lia|lia|]. rewrite A, C. lia.
Qed.
Print Assumptions C54_closed_next.
Theorem C54_closed_ends : forall positive base a b l ws e, a <> b -> 0 <= base -> base + Z.of_nat (length (a :: b :: l)) < 2 ^ 64 ->
  plan_closed positive base (a :: b :: l) = Some (ws, e) ->
  forall w, In w ws -> exists i1 i2 p1 p2 p3, w = Corner i1 i2 p1 p2 p3 /\ index_of base (a :: b :: l) i2 p2.
Proof. intros ps base a b l ws e N B0 B1 E w I. destruct (closed_index _ _ _ _ _ _ _ E N B0 B1) as (_ & H). destruct (H w I) as (i1 & i2 & p1 & p2 & p3 & G1 & G2 & _). exists i1, i2, p1, p2, p3. auto. Qed.
Print Assumptions C54_closed_ends.

(** A repeated point: the start of the line is reported with the wrong index. *)
Theorem C54_repeat_refuted : exists l ws e i1 i2 p1 p2 p3, plan_closed true 0 l = Some (ws, e) /\ In (Corner i1 i2 p1 p2 p3) ws /\ ~ index_of 0 l i1 p1.
Proof.
  exists [(0,0); (9,0); (9,0); (9,9)]. do 2 eexists. exists 1, 2, (0,0), (9,0), (9,9). split; [vm_compute; reflexivity|]. split; [left; reflexivity|].
  intros (k & K & N). replace k with 1%nat in N by lia. discriminate.
Qed.
Print Assumptions C54_repeat_refuted.
(** Leading repeats: later sequences are numbered too low, and the ends of lines are wrong. *)
Theorem C54_leading_repeat_refuted : exists l ws e i1 i2 p1 p2 p3, plan_closed true 0 l = Some (ws, e) /\ e < Z.of_nat (length l) /\ In (Corner i1 i2 p1 p2 p3) ws /\ ~ index_of 0 l i2 p2.
Proof.
  exists [(0,0); (0,0); (9,0); (9,9)]. do 2 eexists. exists 0, 1, (0,0), (9,0), (9,9). split; [vm_compute; reflexivity|]. split; [reflexivity|]. split; [left; reflexivity|].
  intros (k & K & N). replace k with 1%nat in N by lia. discriminate.
Qed.
Print Assumptions C54_leading_repeat_refuted.
(** An open line with a leading repeat: an index wraps around to 2^64-1. *)
Theorem C54_open_wrap_refuted : exists l ws e p1 p2 p3, plan_open true 0 l = Some (ws, e) /\ In (Corner 0 (2 ^ 64 - 1) p1 p2 p3) ws.
Proof. exists [(0,0); (0,0); (9,0)]. do 2 eexists. exists (9,0), (0,0), (9,0). split; [vm_compute; reflexivity|]. vm_compute. auto. Qed.
Print Assumptions C54_open_wrap_refuted.
(** After any open line without repeats the numbering continues one too low. *)
Theorem C54_open_next_refuted : forall positive base l ws e, (2 <= length l)%nat -> no_repeat l -> 0 <= base -> base + Z.of_nat (length l) < 2 ^ 64 ->
  plan_open positive base l = Some (ws, e) -> e = base + Z.of_nat (length l) - 1.
Proof. intros ps base l ws e L N B0 B1 E. destruct (open_index _ _ _ _ _ E L N B0 B1) as (A & _). exact A. Qed.
Print Assumptions C54_open_next_refuted.
(** The same for equal points: the numbering continues after the first of them, or before it. *)
Theorem C54_lone_next_refuted : exists l ws e ws' e', plan_closed true 0 l = Some (ws, e) /\ plan_closed false 0 l = Some (ws', e') /\ length l = 2%nat /\ e = 1 /\ e' = 0.
Proof. exists [(3,3); (3,3)]. do 4 eexists. split; [vm_compute; reflexivity|]. split; [vm_compute; reflexivity|]. auto. Qed.
Print Assumptions C54_lone_next_refuted.

Definition sq : list point := [(0,0); (90,0); (90,90); (0,90)].
Lemma sq_no_repeat : no_repeat sq.
Proof. intros [|[|[|[|k]]]] p q A B; cbn in A, B; try discriminate; injection A as <-; injection B as <-; discriminate. Qed.
(** A stand-in for the rounded perpendicular vectors: 5 to the left of the line. *)
Definition ex_moved (a b : point) : point := (5 * Z.sgn (py b - py a), - 5 * Z.sgn (px b - px a)).
Example ex_C54 : no_repeat sq /\ exists c' log', offset_loop ex_moved (fun _ _ _ _ => (0,0)) (fun _ _ _ => 1) false true 8 (fun _ => (0,0)) clip_new [] Subject true true sq = Done (c', log') /\
  cs_next_orig c' = 4%nat /\ log' = map TAdded [0; 1; 1; 2; 2; 3; 3; 0]%nat /\
  map lp_data (cs_points c') = [(0,-5); (90,-5); (95,0); (95,90); (90,95); (0,95); (-5,90); (-5,0)].
Proof. split; [exact sq_no_repeat|]. do 2 eexists. split; [vm_compute; reflexivity|]. vm_compute. auto. Qed.

(** * C55: a lone point gives a polygon
    False if the circle has three steps or fewer: two points are put, and the polygon is
    discarded. The witness are the magnitude 10 and the step size 20. *)
Theorem C55_few_steps_refuted : exists magnitude arc_step n, circle_steps magnitude arc_step = Some n /\ n <= 3 /\
  forall moved rotated steps lone_rotated (closed : bool) p, exists log',
    offset_loop moved rotated steps false true n lone_rotated clip_new [] Subject true closed [p] = Done (mk_clip [] 1 false 1, log').
Proof.
  exists (of_int 10), 20, 3. split; [vm_compute; reflexivity|]. split; [lia|]. intros mv ro st lr closed p. eexists. unfold offset_loop.
  assert (PL : (if closed then plan_closed true (Z.of_nat (cs_next_orig (ss_clip (sink_open clip_new [] Subject true)))) [p] else plan_open true (Z.of_nat (cs_next_orig (ss_clip (sink_open clip_new [] Subject true)))) [p]) = Some ([Lone 0 p], 1)) by (destruct closed; reflexivity).
  rewrite PL. cbn [flat_map emit app]. change (Z.to_nat (Z.max 3 3) - 1)%nat with 2%nat. cbn [seq map app fold_left fst snd].
  generalize (padd p (lr 1%nat)) (padd p (lr 2%nat)). intros q1 q2. cbv -[point_eqb]. destruct (point_eqb q2 q1) eqn:Q; cbv -[point_eqb]; reflexivity.
Qed.
Print Assumptions C55_few_steps_refuted.
(** Otherwise one point fewer than there are steps is put; at least three from four steps on. *)
Theorem C55_points_partial : forall moved rotated steps negative lone_steps lone_rotated i p,
  let calls := emit moved rotated steps negative true lone_steps lone_rotated (Lone i p) in
  length calls = (Z.to_nat (Z.max lone_steps 3) - 1)%nat /\ (4 <= lone_steps -> (3 <= length calls)%nat) /\
  forall q j, In (q, j) calls -> j = i /\ exists k, q = padd p (lone_rotated k).
Proof.
  intros mv ro st ng ls lr i p. cbv zeta. rewrite lone_calls by reflexivity. split; [reflexivity|]. split; [lia|]. intros q j I. cbn in I. apply in_map_iff in I as (k & E & _). injection E as <- <-. eauto.
Qed.
Print Assumptions C55_points_partial.
(** With a large step size there are no steps at all, and the angle of a step is infinite. *)
Theorem C55_no_steps_refuted : exists magnitude arc_step, circle_steps magnitude arc_step = Some 0 /\ fdiv (fmul dbl_pi (of_int 2)) (of_int 0) = S754_infinity false.
Proof. exists (of_int 1), 7. vm_compute. auto. Qed.
Print Assumptions C55_no_steps_refuted.
Example ex_C55 : circle_steps (of_int 10) 3 = Some 20.
Proof. vm_compute. reflexivity. Qed.

(** * C56: repeated points *)
(** No corner is ever built from two equal consecutive points; equal points alone make the
    circle. *)
Theorem C56_corners : forall positive base l ws e w, 0 <= base < 2 ^ 64 ->
  plan_closed positive base l = Some (ws, e) \/ plan_open positive base l = Some (ws, e) -> In w ws ->
  match w with Corner _ _ p1 p2 p3 => p1 <> p2 /\ p2 <> p3 | Lone _ _ => all_equal l end.
Proof. intros ps base l ws e w B [E|E] I; [exact (closed_corners _ _ _ _ _ _ E (wrap_small _ B) I)|exact (open_corners _ _ _ _ _ _ E (wrap_small _ B) I)]. Qed.
Print Assumptions C56_corners.
(** A closed sequence gives the corners of the polygon without the repeats. *)
Theorem C56_closed_shape : forall positive base l ws e, 0 <= base < 2 ^ 64 -> ~ all_equal l ->
  plan_closed positive base l = Some (ws, e) -> shape ws = corners (open_end (uniq l)).
Proof. intros ps base l ws e B N E. exact (closed_shape _ _ _ _ _ E (wrap_small _ B) N). Qed.
Print Assumptions C56_closed_shape.
(** An open one gives the corners of the way along the line and back, unless the last point
    stands there three times. *)
Theorem C56_open_shape_partial : forall positive base l ws e, 0 <= base < 2 ^ 64 -> ~ all_equal l -> ~ ends_thrice l ->
  plan_open positive base l = Some (ws, e) -> shape ws = corners (there_and_back (uniq l)).
Proof. intros ps base l ws e B N T E. exact (open_shape _ _ _ _ _ E (wrap_small _ B) N T). Qed.
Print Assumptions C56_open_shape_partial.
Theorem C56_open_thrice_refuted : exists l ws e, plan_open true 0 l = Some (ws, e) /\ ~ all_equal l /\
  shape ws = corners (there_and_back (uniq l)) ++ corners (there_and_back (uniq l)).
Proof.
  exists [(0,0); (9,0); (9,0); (9,0)]. do 2 eexists. split; [vm_compute; reflexivity|]. split; [|vm_compute; reflexivity]. intros A. discriminate (A (0,0) (9,0)); cbn; auto.
Qed.
Print Assumptions C56_open_thrice_refuted.
Example ex_C56 : let l := [(0,0); (0,0); (9,0); (9,9); (9,9); (0,0)] in ~ all_equal l /\ ~ ends_thrice l /\
  (exists ws e, plan_closed true 0 l = Some (ws, e) /\ shape ws = [((0,0),(9,0),(9,9)); ((9,0),(9,9),(0,0)); ((9,9),(0,0),(9,0))]) /\
  (exists ws e, plan_open true 0 l = Some (ws, e) /\ length (shape ws) = 6%nat).
Proof.
  cbv zeta. split; [intros A; discriminate (A (0,0) (9,0)); cbn; auto|]. split.
  - intros (m & p & E). apply (f_equal (@rev point)) in E. rewrite rev_app_distr in E. cbn in E. injection E as <- E _. discriminate.
  - split; do 2 eexists; (split; [vm_compute; reflexivity|reflexivity]).
Qed.
