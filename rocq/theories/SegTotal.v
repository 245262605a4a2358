(** A sweep over loops whose edges only meet at their ends. *)
From Coq Require Import ZArith QArith List Bool Arith Permutation Sorted Lia.
From Verif Require Import GeomModel GeomSpec GeomProofs BalanceModel EventsModel EventsSpec EventsProofs OutModel PointSinkModel CycleProofs ClipModel ClipSpec ClipProofs SweepProofs
  SegOrder SegPair SegTrace SegCheck SegStep SegRun SegClean SegFinal SegMeet SegProgress ArrangeSpec ArrangeProofs SegSpec.
Import ListNotations.
Local Open Scope Z_scope.

Lemma add_lines_run k : forall st i, proper_loops (s_pts st) -> (i + k = length (s_pts st))%nat ->
  exists st', add_lines st k i = Some st' /\ length (q_events _ (s_events st')) = (2 * k + length (q_events _ (s_events st)))%nat.
Proof.
  induction k as [|k IH]; intros st i PL L; cbn [add_lines]; [eexists; split; [reflexivity|reflexivity]|].
  destruct (nth_error (s_pts st) i) as [p|] eqn:NP; [|apply nth_error_None in NP; lia]. destruct (proj1 PL i p NP) as (q & r & Q2 & _ & _). rewrite Q2.
  assert (A : exists st1, (if px (c_data q) <? px (c_data p) then add_fb_events st (c_next p) i else add_fb_events st i (c_next p)) = Some st1 /\ s_pts st1 = s_pts st /\ length (q_events _ (s_events st1)) = (2 + length (q_events _ (s_events st)))%nat).
  { unfold add_fb_events. rewrite NP, Q2. destruct (Z.ltb_spec (px (c_data q)) (px (c_data p))) as [H|H].
    - destruct (Z.eqb_spec (px (c_data q)) (px (c_data p))) as [E|E]; [lia|]. cbn [andb]. eexists. split; [reflexivity|]. split; [reflexivity|]. cbn [s_events add_event q_events]. rewrite !app_length. cbn [length]. lia.
    - rewrite Nat.eqb_refl, andb_false_r. eexists. split; [reflexivity|]. split; [reflexivity|]. cbn [s_events add_event q_events]. rewrite !app_length. cbn [length]. lia. }
  destruct A as (st1 & -> & P1 & L1). destruct (IH st1 (S i)) as (st' & E & L'); [rewrite P1; exact PL|rewrite P1; lia|]. exists st'. split; [exact E|]. lia.
Qed.

Section Total.
Variables place : list cseg -> cseg -> nat.
Variable sort_events : list EventsModel.event -> list EventsModel.event.
Variable sort_new : list (EventsModel.event * nat) -> list (EventsModel.event * nat).
Variable draws : cseg -> cseg -> bool.
Hypothesis SE : sorts event_lt sort_events.
Hypothesis SN : sorts (lt_new _ _ (fun e : ev => e) event_lt) sort_new.
Hypothesis FI : finds place.
Hypothesis PLC : places place.
Variable pts : list cpoint.
Hypothesis PL : proper_loops pts.
Hypothesis PP : forall i P Q, edge_of pts i P Q -> P <> Q.
Hypothesis AP : apart pts.

Lemma total_run fuel rand : (2 * length pts <= fuel)%nat ->
  exists st, self_intersection intersects place sort_events sort_new draws fuel pts rand = Some st /\ length (s_pts st) = length pts /\ length (q_events _ (s_events st)) = (2 * length pts)%nat.
Proof.
  intros F. unfold self_intersection. destruct (add_lines_run (length pts) (mk_cs pts [] (q_empty ev) [] rand []) 0 PL eq_refl) as (st1 & A & LE). rewrite A. cbn [s_events q_empty q_events length] in LE. rewrite Nat.add_0_r in LE.
  destruct (start draws pts PL PP rand st1 A) as (SP & all & DEL & EVS & BOTH & PTS & GOODS & AGREES & KEYS & Q0 & CV & PAIR & ON & EP). set (N := s_nodes st1) in *.
  assert (LA : length all = (2 * length pts)%nat) by (apply Permutation_length in EP; lia).
  assert (MEET : forall n m, (n < length N)%nat -> (m < length N)%nat -> n <> m -> meet_ends (v N n) (v N m)).
  { assert (ED : forall n, (n < length N)%nat -> exists i p P Q, edge_of pts i P Q /\ nth_error pts i = Some p /\ same_pair (sg_a (v N n)) (sg_b (v N n)) i (c_next p) /\
      (sg_pa (v N n) = P /\ sg_pb (v N n) = Q \/ sg_pa (v N n) = Q /\ sg_pb (v N n) = P)).
    { intros n L. destruct (ON n L) as (i & p & NP & S). destruct (PTS n L) as (_ & pa & pb & A1 & A2 & A3 & A4). destruct (proj1 PL i p NP) as (q & _ & NQ & _ & _).
      exists i, p, (c_data p), (c_data q). split; [exists p, q; auto|]. split; [exact NP|]. split; [exact S|].
      destruct S as [(S1 & S2)|(S1 & S2)]; rewrite S1 in A1; rewrite S2 in A3; [left|right]; split; congruence. }
    intros n m Ln Lm D. destruct (ED n Ln) as (i & p & P & Q & E1 & NP & S1 & K1). destruct (ED m Lm) as (j & p' & P' & Q' & E2 & NP' & S2 & K2).
    assert (IJ : i <> j). { intros <-. apply (PAIR n m Ln Lm D). rewrite NP in NP'. injection NP' as <-. clear -S1 S2. unfold same_pair in *. destruct S1 as [(-> & ->)|(-> & ->)], S2 as [(-> & ->)|(-> & ->)]; auto. }
    unfold meet_ends. destruct (AP i j P Q P' Q' E1 E2 IJ) as [X|X].
    - left. clear -X K1 K2. unfold same_ends in *. cbn [fst snd] in *. destruct X as [X|X]; injection X as -> ->; destruct K1 as [(-> & ->)|(-> & ->)], K2 as [(-> & ->)|(-> & ->)]; auto.
    - right. intros X1 Y1 O1 O2.
      assert (T : forall g R S, (sg_pa g = R /\ sg_pb g = S \/ sg_pa g = S /\ sg_pb g = R) -> on_seg (sg_pa g) (sg_pb g) X1 Y1 -> on_seg R S X1 Y1) by (intros g R S [(-> & ->)|(-> & ->)] O; [exact O|apply on_seg_sym; exact O]).
      destruct (X _ _ (T _ _ _ K1 O1) (T _ _ _ K2 O2)) as (Z1 & Z2).
      assert (U : forall g R S, (sg_pa g = R /\ sg_pb g = S \/ sg_pa g = S /\ sg_pb g = R) -> end_of (R, S) X1 Y1 -> end_of (sg_pa g, sg_pb g) X1 Y1) by (intros g R S [(-> & ->)|(-> & ->)] O; [exact O|unfold end_of in *; cbn [fst snd] in *; tauto]).
      split; [exact (U _ _ _ K1 Z1)|exact (U _ _ _ K2 Z2)]. }
  assert (DIFF : forall n m, (n < length N)%nat -> (m < length N)%nat -> n <> m -> (sg_a (v N n), sg_b (v N n)) <> (sg_a (v N m), sg_b (v N m))).
  { intros n m Ln Lm D Q. injection Q as Q1 Q2. apply (PAIR n m Ln Lm D). left. auto. }
  assert (IDX : forall n, (n < length N)%nat -> (sg_a (v N n) < length pts)%nat /\ (sg_b (v N n) < length pts)%nat).
  { intros n L. destruct (PTS n L) as (_ & pa & pb & A1 & _ & A3 & _). split; apply nth_error_Some; congruence. }
  destruct (loop_run place sort_events sort_new draws SE SN FI PLC N all EVS BOTH GOODS AGREES KEYS DIFF MEET (length pts) IDX fuel st1 [] Q0) as (st & R & L); [rewrite SP; reflexivity|cbn [length]; lia|].
  exists st. split; [exact R|]. split; [exact L|]. destruct (quiet_loop place sort_events sort_new draws SE SN FI N all EVS BOTH GOODS AGREES KEYS fuel st1 [] st Q0 R) as (s & [QN QC QE QT] & _); [rewrite SP; exact L|].
  apply EI_perm in QE. apply Permutation_length in QE. lia.
Qed.
End Total.
