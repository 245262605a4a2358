(** The sweep comes to its end, whatever the lines are. *)
From Coq Require Import ZArith QArith List Bool Arith Permutation Sorted Lia Lqa.
From Verif Require Import GeomModel GeomSpec GeomProofs IsectProofs GeomFinal BalanceModel EventsModel EventsSpec EventsProofs OutModel PointSinkModel CycleProofs ClipModel ClipSpec ClipProofs SweepProofs
  SegOrder SegCheck SegClean SegMeet SegProgress ArrangeSpec SegSpec TotalSpec TotalSplit.
Import ListNotations.
Local Open Scope nat_scope.

Lemma isect_fits rx ry g h c e1 e2 : good g -> good h -> intersects rx ry g h = Some (c, e1, e2) ->
  (e1 = AEboth /\ e2 = AEboth) \/ (e1 <> AEboth /\ e2 <> AEboth /\ fits g c e1 /\ fits h c e2).
Proof.
  intros G H E. destruct (Z.eq_dec (dir_cross (sg_pa g) (sg_pb g) (sg_pa h) (sg_pb h)) 0) as [D|D].
  - destruct (parallel_final rx ry g h (proj2 G) (proj2 H) D) as (_ & PT & NO). destruct c as [p|]; [right|left; destruct (NO _ _ E) as (A & B & _); auto].
    destruct (PT _ _ _ E) as (O1 & O2 & K1 & K2 & _).
    assert (F : forall k e, on_seg (sg_pa k) (sg_pb k) (injX p) (injY p) -> edge_ok e (sg_pa k) (sg_pb k) p -> e <> AEboth /\ fits k (Some p) e).
    { intros k e O K. destruct e; cbn in K |- *; try (split; [discriminate|exact I]); [|contradiction]. split; [discriminate|]. exists p. split; [reflexivity|]. split; [|exact K].
      destruct (on_seg_bounds _ _ _ _ O) as (BX & BY). split; eapply near_in_box; try eassumption; unfold injX, injY; split; lra. }
    destruct (F g e1 O1 K1), (F h e2 O2 K2). auto.
  - assert (NS : no_shared g h).
    { unfold no_shared. unfold intersects in E. replace ((px (sg_pa g) - px (sg_pb g)) * (py (sg_pa h) - py (sg_pb h)) - (py (sg_pa g) - py (sg_pb g)) * (px (sg_pa h) - px (sg_pb h)))%Z with (dir_cross (sg_pa g) (sg_pb g) (sg_pa h) (sg_pb h)) in E by (unfold dir_cross; ring).
      apply Z.eqb_neq in D. rewrite D in E. destruct (_ || _) eqn:S in E; [discriminate|]. rewrite ?orb_false_iff, ?Nat.eqb_neq in S. tauto. }
    destruct (intersects_point _ _ _ _ _ NS D E) as (p & e1' & e2' & X & Y & Q & _ & _ & _ & _ & _ & _ & B1 & B2 & K1 & K2). injection Q as -> <- <-. right.
    assert (F : forall k e, in_bbox (sg_pa k) (sg_pb k) p -> edge_ok e (sg_pa k) (sg_pb k) p -> e <> AEboth /\ fits k (Some p) e).
    { intros k e O K. destruct e; cbn in K |- *; try (split; [discriminate|exact I]); [|contradiction]. split; [discriminate|]. exists p. auto. }
    destruct (F g e1 B1 K1), (F h e2 B2 K2). auto.
Qed.

Lemma EI_count q s all u : EI q s all u -> length all = length (q_events ev q) /\
  (if u then q_new ev q <> [] /\ q_cur ev q = Z.of_nat (length s) else q_new ev q = [] /\ q_cur ev q = (Z.of_nat (length s) - 1)%Z).
Proof.
  intros I. inversion I as [L J c E1 E2 S E3 E4 B E5 P|L J e p l c E1 E2 S E3 G LJ E4 B PC E5 P]; subst; rewrite map_id in *.
  - split; [apply Permutation_length in P; rewrite P, E1; reflexivity|]. split; [exact E3|]. rewrite rev_length, firstn_length_le by exact B. exact E4.
  - split; [apply Permutation_length in P; rewrite P, E1, !app_length; cbn [length]; rewrite map_length; lia|]. split; [rewrite E3; cbn [renumber]; intros X; discriminate X|]. rewrite rev_length, firstn_length_le by lia. exact E4.
Qed.
Lemma next_calm se sn q e q' s all u : sorts (lt_new ev ev (fun e => e) event_lt) sn -> EI q s all u -> EventsModel.next ev event_lt se sn q = Some (e, true, q') -> calm q'.
Proof.
  intros SN EQ H. assert (LL : q_last ev q <= length (q_events ev q)) by (inversion EQ as [L J c E1 E2|L J e0 p l c E1 E2]; rewrite E1, E2, app_length; lia).
  unfold EventsModel.next in H. destruct (_ <=? _)%Z; [discriminate|].
  assert (D : forall q0, calm q0 -> deliver ev q0 = Some (e, true, q') -> calm q').
  { clear. intros q0 (N0 & L0) D. unfold deliver in D. destruct (at_cur _ _); [|discriminate]. injection D as _ <-. split; assumption. }
  assert (IC : forall q0 q1, incorporate_new ev q0 = Some q1 -> calm q1).
  { clear. intros q0 q1 I. unfold incorporate_new in I. cbv zeta in I. destruct (Nat.ltb _ _); [discriminate|]. destruct (incorporate_loop _ _ _ _); [|discriminate]. injection I as <-. split; [reflexivity|left; reflexivity]. }
  assert (UN : forall q0, undo ev q0 = Some (e, true, q') -> False) by (clear; intros q0 U; unfold undo in U; destruct (at_cur _ _); discriminate).
  destruct (q_new ev q) as [|(e0, p0) l] eqn:N.
  - destruct (Nat.ltb_spec (q_last ev q) (length (q_events ev q))) as [L|L].
    + destruct (Nat.eqb_spec (q_last ev q) 0) as [Z|Z]; [eapply D; [|exact H]; split; [reflexivity|left; reflexivity]|].
      cbn zeta in H. cbn [q_new q_events q_cur q_last] in H. destruct (renumber ev 0 _) as [|(e1, p1) l1] eqn:N1.
      * exfalso. set (found := map _ _) in N1. assert (X : length (sn found) = 0) by (destruct (sn found) as [|(? & ?) ?]; [reflexivity|discriminate]).
        destruct (SN found) as (P & _). apply Permutation_length in P. assert (Y : length found = length (q_events ev q) - q_last ev q) by (unfold found; rewrite map_length, skipn_length; reflexivity). lia.
      * destruct (_ <=? _)%Z; [exfalso; exact (UN _ H)|]. destruct (incorporate_new ev _) eqn:I; [|discriminate]. eapply D; [eapply IC; exact I|exact H].
    + eapply D; [|exact H]. split; [exact N|left]. lia.
  - destruct (_ <=? _)%Z; [exfalso; exact (UN _ H)|]. destruct (incorporate_new ev _) eqn:I; [|discriminate]. eapply D; [eapply IC; exact I|exact H].
Qed.

Section Run.
Variables place : list cseg -> cseg -> nat.
Variable sort_events : list EventsModel.event -> list EventsModel.event.
Variable sort_new : list (EventsModel.event * nat) -> list (EventsModel.event * nat).
Variable draws : cseg -> cseg -> bool.
Hypothesis SE : sorts event_lt sort_events.
Hypothesis SN : sorts (lt_new _ _ (fun e : ev => e) event_lt) sort_new.
Hypothesis PLC : places place.
Variable pts0 : list cpoint.
Variable T : Z.
Notation ok := (ok pts0).
Notation num := (num pts0 T).
Notation check := (check_intersection intersects draws).
Notation step := (sweep_step intersects place sort_events sort_new draws).
Notation loop := (sweep_loop intersects place sort_events sort_new draws).

Lemma num_skel st pts : same_skel (s_pts st) pts -> num st -> num (with_pts st pts).
Proof.
  intros S [U1 U2 U3 U4 U5]. assert (L : length pts = length (s_pts st)) by (apply skel_links, (f_equal (@length _)) in S; unfold links in S; rewrite !map_length in S; congruence).
  constructor; cbn [with_pts s_pts s_nodes s_events s_sweep]; try assumption; [rewrite <- (around_skel _ _ S); exact U3|lia].
Qed.
Lemma num_rand st r : num st -> num (with_rand st r).
Proof. intros [U1 U2 U3 U4 U5]. constructor; assumption. Qed.
Lemma mark_num st i : i < length (s_pts st) -> num st -> exists pts, mark st i = Some (with_pts st pts) /\ length pts = length (s_pts st) /\ num (with_pts st pts).
Proof.
  intros L NU. destruct (mark_ok st i L) as (pts & M & LP). exists pts. split; [exact M|]. split; [exact LP|]. destruct (mark_skel _ _ _ M) as (pts' & Q & S). injection Q as <-. apply num_skel; assumption.
Qed.
Lemma check_total st n m s all : ok st s all false -> fc st s all -> num st -> In n (s_sweep st) -> In m (s_sweep st) -> n <> m ->
  exists st' b, check st n m = Some (st', b) /\ num st' /\ grows st st' /\
    (if b then length (s_pts st) < length (s_pts st') else s_sweep st' = s_sweep st /\ s_events st' = s_events st /\ s_nodes st' = s_nodes st /\ length (s_pts st') = length (s_pts st)).
Proof.
  intros O F NU IN IM D. unfold check_intersection.
  destruct (ok_sw _ _ _ _ _ O n IN) as (g & _ & NG & _). destruct (ok_sw _ _ _ _ _ O m IM) as (h & _ & NH & _). rewrite NG, NH.
  destruct (rand_bool (s_rand st)) as (rx, r1). destruct (rand_bool r1) as (ry, r2). set (st1 := if draws g h then with_rand st r2 else st).
  assert (G1 : ok st1 s all false /\ fc st1 s all /\ num st1 /\ s_pts st1 = s_pts st /\ s_nodes st1 = s_nodes st /\ s_events st1 = s_events st /\ s_sweep st1 = s_sweep st).
  { unfold st1. destruct (draws g h); [|auto 10]. split; [apply ok_rand; exact O|]. split; [apply fc_rand; exact F|]. split; [apply num_rand; exact NU|]. auto. }
  destruct G1 as (O1 & F1 & U1 & E1 & E2 & E3 & E4). clearbody st1.
  assert (GR : forall st', grows st1 st' -> grows st st') by (intros st' (A1 & A2 & A3 & A4); rewrite E1, E2, E3 in *; split; [exact A1|auto]).
  destruct (ok_nodes _ _ _ _ _ O1 n g) as (_ & pa & pb & A1 & _ & B1 & _); [congruence|]. destruct (ok_nodes _ _ _ _ _ O1 m h) as (_ & pa' & pb' & A2 & _ & B2 & _); [congruence|].
  assert (LG : sg_a g < length (s_pts st1) /\ sg_b g < length (s_pts st1)) by (split; apply nth_error_Some; congruence).
  assert (LH : sg_a h < length (s_pts st1) /\ sg_b h < length (s_pts st1)) by (split; apply nth_error_Some; congruence).
  destruct (intersects rx ry g h) as [((c, e1), e2)|] eqn:I; [|exists st1, false; split; [reflexivity|]; split; [exact U1|]; split; [apply GR, grows_refl|]; repeat split; congruence].
  assert (MARK : forall st2 i j, i < length (s_pts st2) -> j < length (s_pts st2) -> num st2 -> exists pts, (do st <- mark st2 i; do st <- mark st j; Some st) = Some (with_pts st2 pts) /\ length pts = length (s_pts st2) /\ num (with_pts st2 pts)).
  { intros st2 i j Li Lj U2. destruct (mark_num st2 i Li U2) as (p1 & -> & L1 & U3). destruct (mark_num (with_pts st2 p1) j) as (p2 & -> & L2 & U4); [cbn [with_pts s_pts]; lia|exact U3|].
    exists p2. split; [reflexivity|]. split; [cbn [with_pts s_pts] in L2; lia|exact U4]. }
  destruct (isect_fits _ _ _ _ _ _ _ (n_good _ _ _ NU n g NG) (n_good _ _ _ NU m h NH) I) as [(-> & ->)|(NB1 & NB2 & F2 & F3)].
  - cbn [at_edge_eqb Bool.eqb negb orb]. destruct (MARK st1 (sg_a g) (sg_b g)) as (p1 & M1 & L1 & U2); [apply LG|apply LG|exact U1|].
    destruct (mark st1 (sg_a g)) as [s1|]; [|discriminate]. destruct (mark s1 (sg_b g)) as [s2|]; [|discriminate]. injection M1 as ->.
    destruct (MARK (with_pts st1 p1) (sg_a h) (sg_b h)) as (p2 & M2 & L2 & U3); [cbn [with_pts s_pts]; lia..|exact U2|].
    destruct (mark (with_pts st1 p1) (sg_a h)) as [s3|]; [|discriminate]. destruct (mark s3 (sg_b h)) as [s4|]; [|discriminate]. injection M2 as ->. cbn [with_pts s_pts] in L2.
    exists (with_pts (with_pts st1 p1) p2), false. split; [reflexivity|]. split; [exact U3|]. split; [apply GR; split; [auto|]; cbn [with_pts s_pts s_events]; split; [lia|auto]|]. cbn [with_pts s_pts s_events s_nodes s_sweep]. repeat split; congruence.
  - assert (X1 : at_edge_eqb e1 AEboth = false) by (destruct e1; try reflexivity; contradiction). assert (X2 : at_edge_eqb e2 AEboth = false) by (destruct e2; try reflexivity; contradiction).
    rewrite X1, X2. cbn [Bool.eqb negb]. destruct (at_edge_eqb e1 AEno || at_edge_eqb e2 AEno) eqn:NO.
    + destruct (split_total pts0 T st1 n c e1 s all g O1 F1 U1) as (st2 & i1 & SP1 & U2 & GR1 & LI1 & LT1 & SW1); [congruence|congruence|exact F2|]. rewrite SP1.
      destruct (ok_split _ _ _ _ _ _ _ _ _ O1 SP1) as (s2 & all2 & O2 & C2). specialize (C2 F1).
      destruct (split_total pts0 T st2 m c e2 s2 all2 h O2 C2 U2) as (st3 & i2 & SP2 & U3 & GR2 & LI2 & LT2 & SW2); [apply GR1; congruence|apply SW1; [congruence|auto]|exact F3|]. rewrite SP2.
      destruct (MARK st3 i1 i2) as (p & M & L & U4); [pose proof (proj1 (proj2 GR2)); lia|exact LI2|exact U3|].
      destruct (mark st3 i1) as [s3|]; [|discriminate]. destruct (mark s3 i2) as [s4|]; [|discriminate]. injection M as ->. exists (with_pts st3 p), true. split; [reflexivity|]. split; [exact U4|].
      pose proof (grows_trans _ _ _ GR1 GR2) as (Y1 & Y2 & Y3 & Y4). split; [apply GR; split; [exact Y1|]; cbn [with_pts s_pts s_events]; split; [lia|auto]|]. cbn [with_pts s_pts]. rewrite L, <- E1.
      pose proof (proj1 (proj2 GR1)). pose proof (proj1 (proj2 GR2)). apply orb_prop in NO as [NO|NO].
      * assert (e1 = AEno) by (destruct e1; try discriminate; reflexivity). specialize (LT1 H1). lia.
      * assert (e2 = AEno) by (destruct e2; try discriminate; reflexivity). specialize (LT2 H1). lia.
    + destruct (MARK st1 (if at_edge_eqb e1 AEstart then sg_a g else sg_b g) (if at_edge_eqb e2 AEstart then sg_a h else sg_b h)) as (p & M & L & U2); [destruct (at_edge_eqb e1 AEstart); apply LG|destruct (at_edge_eqb e2 AEstart); apply LH|exact U1|].
      destruct (mark st1 (if at_edge_eqb e1 AEstart then sg_a g else sg_b g)) as [s3|]; [|discriminate]. destruct (mark s3 _) as [s4|]; [|discriminate]. injection M as ->. exists (with_pts st1 p), false. split; [reflexivity|]. split; [exact U2|].
      split; [apply GR; split; [auto|]; cbn [with_pts s_pts s_events]; split; [lia|auto]|]. cbn [with_pts s_pts s_events s_nodes s_sweep]. repeat split; congruence.
Qed.

Lemma num_sweep st l : num st -> NoDup l -> num (with_sweep st l).
Proof. intros [U1 U2 U3 U4 U5] N. constructor; assumption. Qed.
Lemma around_in n : forall l prev b a, NoDup l -> (forall p, prev = Some p -> ~ In p l) -> around_node prev l n = (Some b, Some a) -> (prev = Some b \/ In b l) /\ In a l /\ b <> a /\ a <> n /\ (In b l -> b <> n).
Proof.
  induction l as [|x l IH]; intros prev b a ND PV H; cbn [around_node] in H; [discriminate|]. inversion ND as [|? ? NX ND']; subst. destruct (Nat.eqb_spec x n) as [->|D].
  - destruct l as [|y l]; [discriminate|]. injection H as -> ->. split; [auto|]. split; [right; left; reflexivity|]. split; [intros ->; apply (PV a eq_refl); right; left; reflexivity|].
    split; [intros ->; apply NX; left; reflexivity|]. intros I. exfalso. exact (PV b eq_refl I).
  - destruct (IH (Some x) b a ND') as (A & B & C & E & F); [intros p Q; injection Q as <-; exact NX|exact H|]. split; [right; destruct A as [A|A]; [injection A as ->; left; reflexivity|right; exact A]|].
    split; [right; exact B|]. split; [exact C|]. split; [exact E|]. intros I. destruct A as [A|A]; [injection A as ->; exact D|auto].
Qed.
Lemma insert_form st n sweep before after : insert_node place sweep_cmp st n = Some (sweep, Some (before, after)) -> ~ In n (s_sweep st) -> NoDup (s_sweep st) ->
  NoDup sweep /\ (forall b, before = Some b -> In b (s_sweep st)) /\ (forall a, after = Some a -> In a (s_sweep st)) /\ (forall m, In m sweep <-> m = n \/ In m (s_sweep st)).
Proof.
  intros IN NI ND. destruct (insert_spec intersects place draws _ _ _ _ _ IN) as [(? & _)|(_ & SW)]; [discriminate|]. unfold insert_node in IN. destruct (nth_error (s_nodes st) n) as [g|]; [|discriminate]. destruct (node_values st (s_sweep st)) as [gs|]; [|discriminate].
  cbv zeta in IN. set (k := Nat.min _ _) in IN. match type of IN with (if ?c then _ else _) = _ => destruct c; [|discriminate] end. injection IN as <- <- <-.
  split; [eapply Permutation_NoDup; [apply Permutation_middle|]; rewrite firstn_skipn; constructor; assumption|]. split; [|split; [intros a; apply nth_error_In|exact SW]].
  intros b. destruct (k =? 0); [discriminate|apply nth_error_In].
Qed.
(** A step never fails. It takes back one event; or it handles one more, and then either no line
    is split and no events are waiting, or there are more points. *)
Lemma step_total st s all u : ok st s all u -> fc st s all -> num st -> more _ (s_events st) = true ->
  exists st', step st = Some st' /\ num st' /\
    ((s <> [] /\ ~ calm (s_events st) /\ EI (s_events st') (tl s) all true /\ length (s_pts st') = length (s_pts st)) \/
     (q_new ev (s_events st') = [] /\ q_cur ev (s_events st') = Z.of_nat (length s) /\
      ((calm (s_events st') /\ length (s_pts st') = length (s_pts st)) \/ length (s_pts st) < length (s_pts st')))).
Proof.
  intros O F NU M. unfold sweep_step.
  destruct (next_inv ev ev (fun e => e) event_lt event_lt_swo sort_events sort_new SE SN _ _ _ _ (ok_q _ _ _ _ _ O) M) as (e & fwd & q & NX & R).
  change (EventsModel.next ev event_lt sort_events sort_new (s_events st) = Some (e, fwd, q)) in NX. rewrite NX. set (st1 := with_events st q).
  destruct fwd.
  - destruct R as (R & rest & SO & PR). pose proof (next_calm _ _ _ _ _ _ _ _ SN (ok_q _ _ _ _ _ O) NX) as CA.
    destruct (EI_count _ _ _ _ R) as (LA & QN & QC). replace (Z.of_nat (length (e :: s)) - 1)%Z with (Z.of_nat (length s)) in QC by (cbn [length]; lia).
    destruct (EI_count _ _ _ _ (ok_q _ _ _ _ _ O)) as (LA0 & _).
    assert (U1 : num st1) by (destruct NU as [U1 U2 U3 U4 U5]; constructor; cbn [st1 with_events s_pts s_nodes s_events s_sweep]; try assumption; congruence).
    assert (IE : In e all) by (eapply EI_in; [exact R|left; reflexivity]).
    assert (NIN : ~ In e s). { pose proof (EI_NoDup _ _ _ _ R (ok_keys _ _ _ _ _ O)) as ND. inversion ND; subst; assumption. }
    assert (DONE : forall st', grows st1 st' -> (if length (s_pts st) <? length (s_pts st') then True else s_events st' = s_events st1) ->
      q_new ev (s_events st') = [] /\ q_cur ev (s_events st') = Z.of_nat (length s) /\ ((calm (s_events st') /\ length (s_pts st') = length (s_pts st)) \/ length (s_pts st) < length (s_pts st'))).
    { intros st' (_ & G2 & G3 & G4) H. cbn [st1 with_events s_events s_pts] in *. split; [congruence|]. split; [congruence|]. destruct (Nat.ltb_spec (length (s_pts st)) (length (s_pts st'))) as [L|L]; [right; exact L|]. left. split; [congruence|lia]. }
    destruct (e_deleted e) eqn:D.
    { exists st1. split; [reflexivity|]. split; [exact U1|]. right. apply DONE; [apply grows_refl|]. cbn [st1 with_events s_pts]. rewrite Nat.ltb_irrefl. reflexivity. }
    assert (CHK : forall st2 n m s2 all2, ok st2 s2 all2 false -> fc st2 s2 all2 -> num st2 -> In n (s_sweep st2) -> In m (s_sweep st2) -> n <> m -> grows st1 st2 -> s_events st2 = s_events st1 -> length (s_pts st2) = length (s_pts st1) ->
      exists st' b, check st2 n m = Some (st', b) /\ num st' /\ grows st1 st' /\ (if length (s_pts st) <? length (s_pts st') then True else s_events st' = s_events st1) /\
        (b = false -> s_sweep st' = s_sweep st2 /\ s_events st' = s_events st1 /\ length (s_pts st') = length (s_pts st1))).
    { intros st2 n m s2 all2 O2 F2 U2 I1 I2 DD G2 EV LP. destruct (check_total _ _ _ _ _ O2 F2 U2 I1 I2 DD) as (st' & b & C & U3 & G3 & B). exists st', b. split; [exact C|]. split; [exact U3|]. split; [eapply grows_trans; eassumption|].
      destruct b.
      - split; [|discriminate]. rewrite LP in B. cbn [st1 with_events s_pts] in B. apply Nat.ltb_lt in B. rewrite B. exact I.
      - destruct B as (B1 & B2 & B3 & B4). split; [|intros _; split; [exact B1|]; split; congruence]. destruct (_ <? _); [exact I|congruence]. }
    destruct (is_f e) eqn:FE.
    + assert (OF : ok st1 (e :: s) all false) by (eapply ok_events; [exact O|exact R|]; intros x [<-|I] DX FX; [congruence|apply (ok_bwd _ _ _ _ _ O); assumption]).
      destruct (ok_fev _ _ _ _ _ _ OF IE FE) as (g & NG & EE). rewrite D in EE. set (n := e_node e) in *.
      assert (NSW : ~ In n (s_sweep st1)).
      { intros I. destruct F as (F & _). destruct (f_swf _ _ _ F n I) as (g' & G' & I'). cbn [st1 with_events s_nodes] in NG. assert (g' = g) by congruence. subst g'. apply NIN. rewrite EE. exact I'. }
      assert (H' : exists st', (do (sweep, r) <- insert_node place sweep_cmp st1 n;
          do (before, after) <- r;
          let st := with_sweep st1 sweep in
          do (st, split) <- match before with None => Some (st, false) | Some b => check st n b end;
          if split then Some st
          else match after with
               | None => Some st
               | Some a => do (st, _) <- check st n a; Some st
               end) = Some st' /\ num st' /\ grows st1 st' /\ (if length (s_pts st) <? length (s_pts st') then True else s_events st' = s_events st1)).
      2: { destruct H' as (st' & H1 & H2 & H3 & H4). exists st'. split; [unfold is_f in FE; destruct (e_type e); try discriminate; exact H1|]. split; [exact H2|]. right. apply DONE; assumption. }
      destruct (insert_node place sweep_cmp st1 n) as [(sweep, r)|] eqn:IN.
      2: { exfalso. unfold insert_node in IN. rewrite NG in IN. destruct (values_ok st1 (s_sweep st1)) as (gs & NV); [intros k I; destruct (ok_sw _ _ _ _ _ OF k I) as (h & _ & H & _); apply nth_error_Some; congruence|]. rewrite NV in IN. cbv zeta in IN. destruct (if _ : bool then true else _) in IN; discriminate. }
      destruct r as [(before, after)|]; [|exfalso; exact (insert_places pts0 place _ _ _ _ _ _ _ PLC OF NSW IN eq_refl)].
      destruct (insert_form _ _ _ _ _ IN NSW (n_sweep _ _ _ U1)) as (NDS & BIN & AIN & SW).
      assert (BEF : forall x, In x s -> event_lt e x = false).
      { intros x I. unfold in_order in SO. cbn [rev] in SO. rewrite <- app_assoc in SO. apply (srt_app ev event_lt) in SO as (_ & _ & C). apply (C x e); [rewrite <- in_rev; exact I|left; reflexivity]. }
      assert (O2 : ok (with_sweep st1 sweep) (e :: s) all false).
      { apply ok_sweep; [exact OF| |].
        - intros m I. apply SW in I as [->|I]; [apply (ok_fwd _ _ _ _ _ OF); assumption|apply (ok_sw _ _ _ _ _ OF); exact I].
        - intros x I DX FX Z. destruct I as [<-|I]; [congruence|]. apply SW in Z as [Z|Z]; [|exact (proj2 (ok_bwd _ _ _ _ _ O x I DX FX) Z)].
          destruct (ok_bev _ _ _ _ _ _ OF (ok_s_all _ _ _ _ _ _ O I) FX) as (g' & G' & E'). rewrite Z in *. assert (g' = g) by congruence. subst g'.
          pose proof (BEF x I) as B. rewrite EE, E' in B. rewrite fev_bev in B; [discriminate|]. eapply (ok_nodes _ _ _ _ _ OF); exact NG. }
      assert (F2 : fc (with_sweep st1 sweep) (e :: s) all).
      { destruct F as (FL & CV). split; [|exact CV]. destruct (full_insert _ _ _ _ _ _ _ sweep O FL SO PR D FE IE SW). constructor; assumption. }
      pose proof (num_sweep _ _ U1 NDS) as U2. assert (INN : In n (s_sweep (with_sweep st1 sweep))) by (apply SW; auto).
      cbv zeta. set (st2 := with_sweep st1 sweep) in *. assert (G2 : grows st1 st2) by (split; [auto|]; split; [apply le_n|auto]).
      assert (E2 : s_events st2 = s_events st1) by reflexivity. assert (L2 : length (s_pts st2) = length (s_pts st1)) by reflexivity. assert (SS : forall m, In m (s_sweep st1) -> In m (s_sweep st2)) by (intros m I; apply SW; auto). clearbody st2.
      assert (OTH : forall m, In m (s_sweep st1) -> n <> m) by (intros m I Q; subst m; contradiction).
      destruct before as [b|].
      * destruct (CHK st2 n b _ _ O2 F2 U2 INN (SS b (BIN b eq_refl)) (OTH b (BIN b eq_refl)) G2 E2 L2) as (st3 & sp & C & U3 & G3 & H3 & SP). rewrite C. destruct sp; [eauto 6|]. destruct (SP eq_refl) as (W1 & W2 & W3).
        destruct after as [a|]; [|eauto 6]. destruct (ok_check _ _ _ _ _ _ _ _ _ _ O2 C) as (s3 & all3 & O3 & C3).
        destruct (CHK st3 n a s3 all3 O3 (C3 F2) U3) as (st4 & sp & C' & U4 & G4 & H4 & _); [rewrite W1; exact INN|rewrite W1; apply SS, AIN; reflexivity|apply OTH, AIN; reflexivity|exact G3|exact W2|exact W3|]. rewrite C'. eauto 6.
      * destruct after as [a|]; [|exists st2; split; [reflexivity|]; split; [exact U2|]; split; [exact G2|]; destruct (Nat.ltb _ _); auto].
        destruct (CHK st2 n a _ _ O2 F2 U2 INN (SS a (AIN a eq_refl)) (OTH a (AIN a eq_refl)) G2 E2 L2) as (st4 & sp & C' & U4 & G4 & H4 & _). rewrite C'. eauto 6.
    + set (n := e_node e) in *.
      assert (H' : exists st', (if in_dec Nat.eq_dec n (s_sweep st1) then
            let '(before, after) := around_node None (s_sweep st1) n in
            do sweep <- erase_node (s_sweep st1) n;
            let st := with_sweep st1 sweep in
            match before, after with
            | Some b, Some a => do (st, _) <- check st b a; Some st
            | _, _ => Some st
            end
          else
            do q <- update_at _ (fun e => EventsModel.mk_event (e_x e) (e_a e) (e_b e) (e_node e) (e_type e) true) (Z.to_nat (q_cur _ q)) q;
            Some (with_events st1 q)) = Some st' /\ num st' /\ q_new ev (s_events st') = [] /\ q_cur ev (s_events st') = Z.of_nat (length s) /\ ((calm (s_events st') /\ length (s_pts st') = length (s_pts st)) \/ length (s_pts st) < length (s_pts st'))).
      2: { destruct H' as (st' & H1 & H2 & H3). exists st'. split; [unfold is_f in FE; destruct (e_type e); try discriminate; exact H1|]. split; [exact H2|]. right. exact H3. }
      destruct (in_dec Nat.eq_dec n (s_sweep st1)) as [I|I].
      * assert (X : exists st', (let '(before, after) := around_node None (s_sweep st1) n in
            do sweep <- erase_node (s_sweep st1) n;
            let st := with_sweep st1 sweep in
            match before, after with
            | Some b, Some a => do (st, _) <- check st b a; Some st
            | _, _ => Some st
            end) = Some st' /\ num st' /\ grows st1 st' /\ (if length (s_pts st) <? length (s_pts st') then True else s_events st' = s_events st1)).
        2: { destruct X as (st' & H1 & H2 & H3 & H4). exists st'. split; [exact H1|]. split; [exact H2|]. apply DONE; assumption. }
        destruct (around_node None (s_sweep st1) n) as (before, after) eqn:AR. destruct (erase_node (s_sweep st1) n) as [sweep|] eqn:ER; [|unfold erase_node in ER; destruct (in_dec _ _ _); [discriminate|contradiction]].
        destruct (erase_spec _ _ _ ER) as (_ & SW). assert (NDS : NoDup sweep) by (unfold erase_node in ER; destruct (in_dec _ _ _); [|discriminate]; injection ER as <-; apply NoDup_remove_nat; exact (n_sweep _ _ _ U1)).
        assert (O2 : ok (with_sweep st1 sweep) (e :: s) all false).
        { assert (O1 : ok (with_sweep st sweep) s all u).
          { apply ok_sweep; [exact O| |].
            - intros m J. apply SW in J as (J & _). apply (ok_sw _ _ _ _ _ O). exact J.
            - intros x J DX FX Z. apply SW in Z as (Z & _). exact (proj2 (ok_bwd _ _ _ _ _ O x J DX FX) Z). }
          change (with_sweep st1 sweep) with (with_events (with_sweep st sweep) q). eapply ok_events; [exact O1|exact R|]. cbn [with_sweep s_pts s_nodes s_sweep].
          intros x [<-|J] DX FX; [|apply (ok_bwd _ _ _ _ _ O1); assumption]. split; [apply (ok_sw _ _ _ _ _ O); exact I|]. intros Z. apply SW in Z as (_ & Z). unfold n in Z. congruence. }
        assert (F2 : fc (with_sweep st1 sweep) (e :: s) all).
        { destruct F as (FL & CV). split; [|exact CV]. destruct (full_erase _ _ _ _ _ _ _ sweep O FL SO PR FE IE SW). constructor; assumption. }
        pose proof (num_sweep _ _ U1 NDS) as U2. cbv zeta. pose proof (n_sweep _ _ _ U1) as ND1. set (st2 := with_sweep st1 sweep) in *. assert (G2 : grows st1 st2) by (split; [auto|]; split; [apply le_n|auto]).
        assert (E2 : s_events st2 = s_events st1) by reflexivity. assert (L2 : length (s_pts st2) = length (s_pts st1)) by reflexivity. assert (SS : forall m, In m (s_sweep st1) -> m <> n -> In m (s_sweep st2)) by (intros m J K; apply SW; auto). clearbody st2.
        destruct before as [b|]; [destruct after as [a|]|].
        -- destruct (around_in n _ None b a ND1) as (A & B & C & E & G); [discriminate|exact AR|]. destruct A as [A|A]; [discriminate|].
           destruct (CHK st2 b a _ _ O2 F2 U2 (SS b A (G A)) (SS a B E) C G2 E2 L2) as (st4 & sp & C' & U4 & G4 & H4 & _). rewrite C'. eauto 6.
        -- exists st2. split; [reflexivity|]. split; [exact U2|]. split; [exact G2|]. destruct (Nat.ltb _ _); auto.
        -- exists st2. split; [reflexivity|]. split; [exact U2|]. split; [exact G2|]. destruct (Nat.ltb _ _); auto.
      * pose proof (EI_current _ _ _ _ R) as CU. destruct (update_ok (fun e0 : ev => EventsModel.mk_event (e_x e0) (e_a e0) (e_b e0) (e_node e0) (e_type e0) true) _ _ _ CU) as (ev1 & UP & L1). rewrite UP.
        eexists. split; [reflexivity|]. cbn [with_events st1 s_events s_pts q_new q_cur]. split.
        -- destruct U1 as [X1 X2 X3 X4 X5]. constructor; cbn [with_events st1 s_events s_pts s_nodes s_sweep q_events] in *; try assumption. congruence.
        -- split; [exact QN|]. split; [exact QC|]. left. split; [|reflexivity]. destruct CA as (C1 & C2). split; cbn [q_new q_last q_events]; [exact C1|]. rewrite L1. exact C2.
  - destruct R as (SQ & R & _). assert (IE : In e s) by (rewrite SQ; left; reflexivity).
    assert (OE : ok st1 (tl s) all true) by (eapply ok_events; [exact O|exact R|]; intros x I DX FX; apply (ok_bwd _ _ _ _ _ O); auto; rewrite SQ; right; exact I).
    destruct (EI_count _ _ _ _ R) as (LA & _). destruct (EI_count _ _ _ _ (ok_q _ _ _ _ _ O)) as (LA0 & _).
    assert (U1 : num st1) by (destruct NU as [U1 U2 U3 U4 U5]; constructor; cbn [st1 with_events s_pts s_nodes s_events s_sweep]; try assumption; congruence).
    assert (NE : s <> []) by (rewrite SQ; discriminate). assert (NCA : ~ calm (s_events st)) by (intros X; destruct (calm_next _ _ _ _ _ _ X NX); discriminate).
    assert (DONE : forall sweep, NoDup sweep -> exists st', Some (with_sweep st1 sweep) = Some st' /\ num st' /\ ((s <> [] /\ ~ calm (s_events st) /\ EI (s_events st') (tl s) all true /\ length (s_pts st') = length (s_pts st)) \/
       (q_new ev (s_events st') = [] /\ q_cur ev (s_events st') = Z.of_nat (length s) /\ ((calm (s_events st') /\ length (s_pts st') = length (s_pts st)) \/ length (s_pts st) < length (s_pts st'))))).
    { intros sweep N. exists (with_sweep st1 sweep). split; [reflexivity|]. split; [apply num_sweep; assumption|]. left. split; [exact NE|]. split; [exact NCA|]. split; [exact R|reflexivity]. }
    destruct (e_deleted e) eqn:D.
    { exists st1. split; [reflexivity|]. split; [exact U1|]. left. split; [exact NE|]. split; [exact NCA|]. split; [exact R|reflexivity]. }
    destruct F as (FL & CV). set (n := e_node e) in *. destruct (is_f e) eqn:FE.
    + destruct (ok_fev _ _ _ _ _ _ OE (EI_in _ _ _ _ _ (ok_q _ _ _ _ _ O) IE) FE) as (g & NG & EE). rewrite D in EE. fold n in NG, EE.
      assert (IN : In n (s_sweep st1)).
      { apply (f_sw _ _ _ FL n g NG); [rewrite <- EE; exact IE|]. intros d I. pose proof (EI_sorted _ _ _ _ (ok_q _ _ _ _ _ O)) as SO. rewrite SQ in SO, I. destruct I as [Q|I]; [rewrite Q, is_f_bev in FE; discriminate|].
        cbn [rev] in SO. apply (srt_app ev event_lt) in SO as (_ & _ & C). specialize (C _ e (proj1 (in_rev _ _) I) (or_introl eq_refl)). unfold not_after in C. rewrite EE, fev_bev in C; [discriminate|]. eapply (ok_nodes _ _ _ _ _ OE); exact NG. }
      destruct (erase_node (s_sweep st1) n) as [sweep|] eqn:ER; [|unfold erase_node in ER; destruct (in_dec _ _ _); [discriminate|contradiction]].
      destruct (DONE sweep) as (st' & Q & X); [unfold erase_node in ER; destruct (in_dec _ _ _); [|discriminate]; injection ER as <-; apply NoDup_remove_nat; exact (n_sweep _ _ _ U1)|].
      exists st'. split; [unfold is_f in FE; destruct (e_type e); try discriminate; exact Q|exact X].
    + destruct (ok_bwd _ _ _ _ _ O e IE D FE) as (LV & NSW). fold n in LV, NSW.
      destruct (insert_node place sweep_cmp st1 n) as [(sweep, r)|] eqn:IN.
      2: { exfalso. unfold insert_node in IN. destruct LV as (g & _ & NG & _). cbn [st1 with_events s_nodes] in IN. rewrite NG in IN. destruct (values_ok st1 (s_sweep st1)) as (gs & NV); [intros k I; destruct (ok_sw _ _ _ _ _ OE k I) as (h & _ & H & _); apply nth_error_Some; congruence|]. rewrite NV in IN. cbv zeta in IN. destruct (if _ : bool then true else _) in IN; discriminate. }
      assert (NDS : NoDup sweep).
      { destruct r as [(before, after)|]; [apply (insert_form _ _ _ _ _ IN NSW (n_sweep _ _ _ U1))|]. destruct (insert_spec intersects place draws _ _ _ _ _ IN) as [(_ & ->)|((br & Q) & _)]; [exact (n_sweep _ _ _ U1)|discriminate]. }
      destruct (DONE sweep NDS) as (st' & Q & X). exists st'. split; [unfold is_f in FE; destruct (e_type e); try discriminate; exact Q|exact X].
Qed.

Lemma sum_ge l : (forall x, In x l -> 1 <= x)%Z -> (Z.of_nat (length l) <= sum l)%Z.
Proof.
  unfold sum. induction l as [|x l IH]; intros H; cbn [length fold_right]; [lia|]. pose proof (H x (or_introl eq_refl)). specialize (IH (fun y I => H y (or_intror I))). lia.
Qed.
(** Every edge has at least one step. *)
Lemma points_le st s all u : ok st s all u -> fc st s all -> num st -> (Z.of_nat (length (s_pts st)) <= T)%Z.
Proof.
  intros O (_ & CV) NU. rewrite <- (n_around _ _ _ NU). unfold around. rewrite <- (map_length (edge_steps (s_pts st))). apply sum_ge. intros x I. apply in_map_iff in I as (p & <- & I). apply In_nth_error in I as (i & N).
  destruct (CV i) as (n & g & NG & p' & N' & HH); [apply nth_error_Some; congruence|]. assert (p' = p) by congruence. subst p'. destruct (n_good _ _ _ NU n g NG) as (_ & ND).
  destruct (ok_nodes _ _ _ _ _ O n g NG) as (_ & pa & pb & A1 & A2 & B1 & B2). unfold edge_steps. destruct HH as [(H1 & H2)|(H1 & H2)].
  - rewrite <- H2, B1. apply steps_pos. assert (pa = p) by congruence. subst pa. congruence.
  - rewrite <- H2, A1. apply steps_pos. assert (pb = p) by congruence. subst pb. congruence.
Qed.

Let K := Z.to_nat T.
Lemma events_le st s all u : ok st s all u -> fc st s all -> num st -> length s <= length all <= 4 * K /\ length (s_pts st) <= K.
Proof.
  intros O F NU. pose proof (points_le _ _ _ _ O F NU) as P. assert (LK : length (s_pts st) <= K) by (unfold K; lia). destruct (EI_count _ _ _ _ (ok_q _ _ _ _ _ O)) as (LA & _).
  split; [|exact LK]. split; [|rewrite LA, (n_events _ _ _ NU); pose proof (n_nodes _ _ _ NU); lia].
  apply NoDup_incl_length; [exact (EI_NoDup _ _ _ _ (ok_q _ _ _ _ _ O) (ok_keys _ _ _ _ _ O))|]. intros e I. eapply ok_s_all; eassumption.
Qed.
Lemma loop_total fuel : forall st s all u, ok st s all u -> fc st s all -> num st ->
  (calm (s_events st) /\ (K - length (s_pts st)) * (8 * K + 2) + (4 * K - length s) <= fuel) \/ (K - length (s_pts st)) * (8 * K + 2) + length s + 4 * K + 1 <= fuel ->
  exists st', loop fuel st = Some st' /\ (Z.of_nat (length (s_pts st')) <= T)%Z.
Proof.
  induction fuel as [|f IH]; intros st s all u O F NU B; cbn [sweep_loop]; destruct (more ev (s_events st)) eqn:M; try (eexists; split; [reflexivity|eapply points_le; eassumption]).
  all: destruct (step_total _ _ _ _ O F NU M) as (st1 & E & U1 & R); destruct (ok_step _ _ _ _ _ _ SE SN _ _ _ _ _ O M E) as (s1 & all1 & u1 & O1 & C1); specialize (C1 PLC F).
  all: destruct (events_le _ _ _ _ O F NU) as ((LS & LA) & LP); destruct (events_le _ _ _ _ O1 C1 U1) as ((LS1 & LA1) & LP1); destruct (EI_count _ _ _ _ (ok_q _ _ _ _ _ O1)) as (_ & CT).
  - exfalso. destruct B as [(CA & B)|B]; [|clear -B; set (X := (K - length (s_pts st)) * (8 * K + 2)) in B; clearbody X; lia]. destruct R as [(_ & NC & _)|(QN & QC & _)]; [contradiction|].
    destruct u1; [destruct CT; contradiction|]. destruct CT as (_ & CT). clear -B QC CT LS1 LA1. set (X := (K - length (s_pts st)) * (8 * K + 2)) in B. clearbody X. lia.
  - rewrite E. apply (IH st1 s1 all1 u1 O1 C1 U1). destruct R as [(NE & NC & R & LL)|(QN & QC & R)].
    + right. destruct B as [(CA & _)|B]; [contradiction|]. pose proof (EI_count _ _ _ _ R) as (_ & QN & QC). destruct u1; destruct CT as (CT1 & CT2); [|contradiction].
      destruct s as [|e s]; [contradiction|]. cbn [tl length] in *. rewrite LL. clear -B QC CT2. set (X := (K - length (s_pts st)) * (8 * K + 2)) in *. clearbody X. lia.
    + destruct u1; destruct CT as (CT1 & CT2); [contradiction|]. assert (L1 : length s1 = S (length s)) by (clear -QC CT2; lia). destruct R as [(CA & LL)|LL].
      * left. split; [exact CA|]. rewrite LL, L1. rewrite L1 in LS1. clear -B LS1 LA1. set (X := (K - length (s_pts st)) * (8 * K + 2)) in *. clearbody X. destruct B as [(_ & B)|B]; lia.
      * right. rewrite L1. rewrite L1 in LS1. assert (Y : (K - length (s_pts st)) * (8 * K + 2) >= (K - length (s_pts st1)) * (8 * K + 2) + (8 * K + 2)).
        { replace (K - length (s_pts st)) with (S (K - length (s_pts st1) + (length (s_pts st1) - S (length (s_pts st))))) by (clear -LL LP1; lia). clear. nia. }
        clear -B Y LS1 LA1. set (X := (K - length (s_pts st)) * (8 * K + 2)) in *. set (X' := (K - length (s_pts st1)) * _) in *. clearbody X X'. destruct B as [(_ & B)|B]; lia.
Qed.
Lemma loop_end fuel : forall st s all u st', ok st s all u -> fc st s all -> num st -> loop fuel st = Some st' -> exists s' all' u', ok st' s' all' u' /\ fc st' s' all' /\ num st'.
Proof.
  induction fuel as [|f IH]; intros st s all u st' O F NU H; cbn [sweep_loop] in H; destruct (more ev (s_events st)) eqn:M; try discriminate; try (injection H as <-; eauto 6).
  destruct (step_total _ _ _ _ O F NU M) as (st1 & E & U1 & _). destruct (ok_step _ _ _ _ _ _ SE SN _ _ _ _ _ O M E) as (s1 & all1 & u1 & O1 & C1). rewrite E in H. exact (IH _ _ _ _ _ O1 (C1 PLC F) U1 H).
Qed.
End Run.
