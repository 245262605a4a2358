(** Lines that a sweep does not split: where they meet and what is marked. *)
From Coq Require Import ZArith QArith List Bool Arith Permutation Sorted Lia Lqa.
From Verif Require Import GeomModel GeomSpec GeomProofs BalanceModel EventsModel EventsSpec EventsProofs OutModel PointSinkModel CycleProofs ClipModel ClipSpec ClipProofs SweepProofs
  SegOrder SegPair SegTrace SegCheck SegStep SegRun SegClean ArrangeSpec ArrangeProofs SegSpec.
Import ListNotations.
Local Open Scope Z_scope.
Notation inj := inject_Z.

Lemma same_ends_dec e1 e2 : {same_ends e1 e2} + {~ same_ends e1 e2}.
Proof.
  assert (D : forall a b : point * point, {a = b} + {a <> b}) by (intros a b; repeat decide equality).
  unfold same_ends. destruct (D e1 e2); [left; auto|]. destruct (D e1 (snd e2, fst e2)); [left; auto|right; tauto].
Qed.

(** * From lines that only meet at ends to edges that do *)
Lemma clean_core pts pts' (w : nat -> cseg) (s : list ev) : proper_loops pts -> moments w (mkp pts') s ->
  (forall e, In e s -> e = fev (w (e_node e)) (e_node e) (e_deleted e) \/ e = bev (w (e_node e)) (e_node e) (e_deleted e)) ->
  (forall e, In e s -> line_of w s (e_node e)) ->
  (forall i P Q, edge_of pts i P Q -> exists n p, line_of w s n /\ nth_error pts i = Some p /\
    ((sg_a (w n) = i /\ sg_b (w n) = c_next p /\ sg_pa (w n) = P /\ sg_pb (w n) = Q) \/ (sg_b (w n) = i /\ sg_a (w n) = c_next p /\ sg_pb (w n) = P /\ sg_pa (w n) = Q))) ->
  apart pts /\ marked pts pts'.
Proof.
  intros PL MO EV LO ED. set (mk := mkp pts') in *. pose proof (mkp_trans pts') as MT. pose proof (mkp_refl pts') as MR. pose proof (mkp_sym pts') as MS. fold mk in MT, MR, MS.
  pose proof (meet_any w mk MT MR MS s MO EV LO) as MA. pose proof (meet_side w mk MT MR MS s MO EV LO) as MD.
  assert (DIFF : forall i j P Q P' Q' n m p q, edge_of pts i P Q -> edge_of pts j P' Q' -> i <> j -> nth_error pts i = Some p -> nth_error pts j = Some q ->
    (sg_a (w n) = i /\ sg_b (w n) = c_next p \/ sg_b (w n) = i /\ sg_a (w n) = c_next p) -> (sg_a (w m) = j /\ sg_b (w m) = c_next q \/ sg_b (w m) = j /\ sg_a (w m) = c_next q) -> n <> m).
  { intros i j P Q P' Q' n m p q E1 E2 D NP NQ A B X. subst m. assert (T : c_next p = j /\ c_next q = i) by (destruct A as [(A1 & A2)|(A1 & A2)], B as [(B1 & B2)|(B1 & B2)]; split; congruence).
    destruct T as (T1 & T2). destruct PL as (PL1 & _). destruct (PL1 i p NP) as (q' & r & X1 & X2 & X3 & X4 & _). rewrite T1 in X1. congruence. }
  assert (ONW : forall n P Q X Y, (sg_pa (w n) = P /\ sg_pb (w n) = Q \/ sg_pb (w n) = P /\ sg_pa (w n) = Q) -> on_seg P Q X Y -> on_seg (sg_pa (w n)) (sg_pb (w n)) X Y).
  { intros n P Q X Y [(-> & ->)|(-> & ->)] O; [exact O|apply on_seg_sym; exact O]. }
  split.
  - intros i j P Q P' Q' E1 E2 D. destruct (ED _ _ _ E1) as (n & p & Ln & NP & K). destruct (ED _ _ _ E2) as (m & q & Lm & NQ & K').
    assert (NM : n <> m) by (eapply (DIFF i j P Q P' Q' n m p q); eauto; tauto).
    assert (KK : sg_pa (w n) = P /\ sg_pb (w n) = Q \/ sg_pb (w n) = P /\ sg_pa (w n) = Q) by tauto. assert (KK' : sg_pa (w m) = P' /\ sg_pb (w m) = Q' \/ sg_pb (w m) = P' /\ sg_pa (w m) = Q') by tauto.
    assert (TW : twin mk (w n) (w m) -> same_ends (P, Q) (P', Q')).
    { intros T. unfold same_ends. cbn [fst snd]. destruct T as [(T1 & T2 & _)|(T1 & T2 & _)]; destruct KK as [(<- & <-)|(<- & <-)], KK' as [(<- & <-)|(<- & <-)]; rewrite T1, T2; auto. }
    destruct (same_ends_dec (P, Q) (P', Q')) as [S|S]; [left; exact S|right]. intros X Y A B. destruct (MA n m X Y Ln Lm NM) as [T|(Z1 & Z2)]; [eapply ONW; eassumption|eapply ONW; eassumption|elim S; apply TW; exact T|].
    assert (END : forall k P0 Q0, (sg_pa (w k) = P0 /\ sg_pb (w k) = Q0 \/ sg_pb (w k) = P0 /\ sg_pa (w k) = Q0) -> ends (w k) X Y -> end_of (P0, Q0) X Y).
    { intros k P0 Q0 E (a & W). unfold end_of. cbn [fst snd]. destruct E as [(<- & <-)|(<- & <-)], W as [(_ & W)|(_ & W)]; auto. }
    split; [eapply END; [exact KK|exact Z1]|eapply END; [exact KK'|exact Z2]].
  - intros i j a b P Q Q' T1 T2 D AB OP.
    assert (TIP : forall i a P Q, tip pts i a P Q -> exists P1 Q1 n p, edge_of pts i P1 Q1 /\ line_of w s n /\ nth_error pts i = Some p /\ (sg_a (w n) = i /\ sg_b (w n) = c_next p \/ sg_b (w n) = i /\ sg_a (w n) = c_next p) /\
      at_end (w n) a (injX P) (injY P) /\ (sg_pa (w n) = P /\ sg_pb (w n) = Q \/ sg_pb (w n) = P /\ sg_pa (w n) = Q)).
    { clear -ED. intros i a P Q [(-> & E)|(E & p & NP & ->)]; destruct (ED _ _ _ E) as (n & p' & Ln & NP' & K); [exists P, Q, n, p'|exists Q, P, n, p']; (split; [exact E|]); (split; [exact Ln|]); (split; [exact NP'|]);
        try (assert (p' = p) by congruence; subst p'); destruct K as [(K1 & K2 & K3 & K4)|(K1 & K2 & K3 & K4)]; (split; [tauto|]); (split; [|tauto]); unfold at_end; rewrite K1, K2, K3, K4; [left|right|right|left]; repeat split; reflexivity. }
    destruct (TIP _ _ _ _ T1) as (P1 & Q1 & n & p & E1 & Ln & NP & K1 & A1 & S1). destruct (TIP _ _ _ _ T2) as (P2 & Q2 & m & q & E2 & Lm & NQ & K2 & A2 & S2). clear TIP.
    assert (NM : n <> m) by exact (DIFF i j P1 Q1 P2 Q2 n m p q E1 E2 D NP NQ K1 K2). pose proof Ln as (Gn & _). pose proof Lm as (Gm & _).
    assert (TW : twin mk (w n) (w m) -> chk pts' a /\ chk pts' b).
    { intros T. destruct (twin_end_l mk _ _ _ _ _ T A1) as (b' & A2' & M). rewrite (at_end_unique _ _ _ _ _ Gm A2' A2) in M. destruct M as [M|M]; [contradiction|exact M]. }
    assert (TI : tie mk (w n) (w m) (injX P) (injY P) -> (chk pts' a /\ chk pts' b) \/ (vt (w n) = true /\ vt (w m) = true)).
    { intros (a' & b' & X1 & X2 & [M|M]); [left|right; exact M]. rewrite (at_end_unique _ _ _ _ _ Gn X1 A1), (at_end_unique _ _ _ _ _ Gm X2 A2) in M. destruct M as [M|M]; [contradiction|exact M]. }
    assert (O1 : on_seg (sg_pa (w n)) (sg_pb (w n)) (injX P) (injY P)) by (eapply at_end_on; [exact Gn|exact A1]).
    assert (O2 : on_seg (sg_pa (w m)) (sg_pb (w m)) (injX P) (injY P)) by (eapply at_end_on; [exact Gm|exact A2]).
    assert (VX : forall k Q0, good (w k) -> (sg_pa (w k) = P /\ sg_pb (w k) = Q0 \/ sg_pb (w k) = P /\ sg_pa (w k) = Q0) ->
      (px Q0 < px P -> left_at (px P) (w k)) /\ (px P < px Q0 -> right_at (px P) (w k)) /\ (px Q0 = px P -> left_at (px P) (w k) /\ right_at (px P) (w k)) /\ (vt (w k) = true -> px Q0 = px P)).
    { intros k Q0 (G1 & G2) [(<- & <-)|(<- & <-)]; unfold left_at, right_at, vt; rewrite Z.eqb_eq; (split; [intros; left; lia|]); (split; [intros; left; lia|]); (split; [intros; split; right; lia|intros; lia]). }
    destruct (VX n Q Gn S1) as (L1 & R1 & B1 & W1). destruct (VX m Q' Gm S2) as (L2 & R2 & B2 & W2).
    destruct (Z.eq_dec (px Q) (px P)) as [V1|V1], (Z.eq_dec (px Q') (px P)) as [V2|V2].
    + (* both vertical *)
      assert (SAME : 0 < (py Q - py P) * (py Q' - py P)).
      { destruct (Z.lt_trichotomy ((py Q - py P) * (py Q' - py P)) 0) as [Z|[Z|Z]]; [exfalso; apply OP; right; auto| |exact Z]. exfalso.
        apply Z.mul_eq_0 in Z as [Z|Z]; [destruct Gn as (_ & G); apply G|destruct Gm as (_ & G); apply G]; apply pt_eq.
        1-2: destruct S1 as [(-> & ->)|(-> & ->)]; lia. all: destruct S2 as [(-> & ->)|(-> & ->)]; lia. }
      assert (SG : (py P < py Q /\ py P < py Q') \/ (py Q < py P /\ py Q' < py P)) by (apply Z.lt_0_mul in SAME; clear -SAME; lia). clear SAME.
      apply TW.
      assert (MID : exists Y, (on_seg (sg_pa (w n)) (sg_pb (w n)) (injX P) Y) /\ (on_seg (sg_pa (w m)) (sg_pb (w m)) (injX P) Y) /\ (~ ends (w n) (injX P) Y \/ ~ ends (w m) (injX P) Y)).
      { assert (VN : vt (w n) = true) by (apply vt_true; destruct S1 as [(-> & ->)|(-> & ->)]; lia). assert (VM : vt (w m) = true) by (apply vt_true; destruct S2 as [(-> & ->)|(-> & ->)]; lia).
        assert (NEAR : forall k T, good (w k) -> vt (w k) = true -> (sg_pa (w k) = P /\ sg_pb (w k) = T \/ sg_pb (w k) = P /\ sg_pa (w k) = T) -> px T = px P ->
          (forall Y, (inj (Z.min (py P) (py T)) <= Y <= inj (Z.max (py P) (py T)))%Q -> on_seg (sg_pa (w k)) (sg_pb (w k)) (injX P) Y) /\
          (forall Y, (inj (Z.min (py P) (py T)) < Y < inj (Z.max (py P) (py T)))%Q -> ~ ends (w k) (injX P) Y)).
        { intros k T G V S XT. split.
          - intros Y RY. apply on_v; [exact G|exact V|]. unfold lo, hi. rewrite V. unfold injX. destruct S as [(-> & ->)|(-> & ->)]; [|rewrite (Z.min_comm (py T)), (Z.max_comm (py T)), XT]; split; [reflexivity|exact RY|reflexivity|exact RY].
          - intros Y RY (a0 & E). assert (E' : (Y == inj (py P))%Q \/ (Y == inj (py T))%Q) by (clear -E S; unfold at_end in E; destruct S as [(<- & <-)|(<- & <-)]; destruct E as [(_ & _ & E)|(_ & _ & E)]; auto).
            destruct (Z.min_spec (py P) (py T)) as [(_ & M)|(_ & M)], (Z.max_spec (py P) (py T)) as [(_ & M')|(_ & M')]; rewrite M, M' in RY; destruct E' as [E'|E']; rewrite E' in RY; destruct RY; lra. }
        destruct (NEAR n Q Gn VN S1 V1) as (N1 & N2). destruct (NEAR m Q' Gm VM S2 V2) as (M1 & M2). clear NEAR.
        set (d := if Z.abs (py Q - py P) <=? Z.abs (py Q' - py P) then py Q else py Q'). set (Y := ((inj (py P) + inj d) * (1#2))%Q). exists Y.
        assert (HALF : forall lo hi, lo < hi -> (inj lo < (inj lo + inj hi) * (1#2) < inj hi)%Q) by (intros l h L; apply inj_lt in L; split; lra).
        assert (YM : (inj (Z.min (py P) d) < Y < inj (Z.max (py P) d))%Q).
        { assert (py P <> d) by (clear -SG; unfold d; destruct (_ <=? _); lia). destruct (Z.lt_ge_cases (py P) d) as [L|L].
          - rewrite Z.min_l, Z.max_r by lia. apply HALF. exact L.
          - rewrite Z.min_r, Z.max_l by lia. assert (E : (Y == (inj d + inj (py P)) * (1#2))%Q) by (unfold Y; ring). rewrite E. apply HALF. lia. }
        assert (IN : forall T, (T = py Q \/ T = py Q') -> Z.min (py P) T <= Z.min (py P) d /\ Z.max (py P) d <= Z.max (py P) T).
        { intros T [->| ->]; unfold d; clear -SG; destruct (Z.leb_spec (Z.abs (py Q - py P)) (Z.abs (py Q' - py P))); split; lia. }
        destruct (IN (py Q) (or_introl eq_refl)) as (I1 & I2). destruct (IN (py Q') (or_intror eq_refl)) as (I3 & I4). apply inj_le in I1, I2, I3, I4. destruct YM as (Y1 & Y2).
        split; [apply N1; split; lra|]. split; [apply M1; split; lra|]. unfold d in Y1, Y2. destruct (_ <=? _); [left; apply N2|right; apply M2]; split; assumption. }
      destruct MID as (Y & Z1 & Z2 & Z3). destruct (MA n m _ _ Ln Lm NM Z1 Z2) as [T|(X1 & X2)]; [exact T|destruct Z3 as [Z3|Z3]; contradiction].
    + assert (SD : (left_at (px P) (w n) /\ left_at (px P) (w m)) \/ (right_at (px P) (w n) /\ right_at (px P) (w m))).
      { destruct (B1 V1) as (B1a & B1b). destruct (Z.lt_ge_cases (px Q') (px P)); [left; split; [exact B1a|apply L2; lia]|right; split; [exact B1b|apply R2; lia]]. }
      destruct (MD n m (px P) (injY P) Ln Lm NM SD O1 O2) as [T|T]; [apply TW; exact T|]. destruct (TI T) as [X|(_ & X)]; [exact X|]. apply W2 in X. contradiction.
    + assert (SD : (left_at (px P) (w n) /\ left_at (px P) (w m)) \/ (right_at (px P) (w n) /\ right_at (px P) (w m))).
      { destruct (B2 V2) as (B2a & B2b). destruct (Z.lt_ge_cases (px Q) (px P)); [left; split; [apply L1; lia|exact B2a]|right; split; [apply R1; lia|exact B2b]]. }
      destruct (MD n m (px P) (injY P) Ln Lm NM SD O1 O2) as [T|T]; [apply TW; exact T|]. destruct (TI T) as [X|(X & _)]; [exact X|]. apply W1 in X. contradiction.
    + assert (SD : (left_at (px P) (w n) /\ left_at (px P) (w m)) \/ (right_at (px P) (w n) /\ right_at (px P) (w m))).
      { destruct (Z.lt_ge_cases (px Q) (px P)) as [Ha|Ha], (Z.lt_ge_cases (px Q') (px P)) as [Hb|Hb]; [left; auto| | |right; split; [apply R1|apply R2]; lia]; exfalso; apply OP; left; clear -Ha Hb V1 V2; nia. }
      destruct (MD n m (px P) (injY P) Ln Lm NM SD O1 O2) as [T|T]; [apply TW; exact T|]. destruct (TI T) as [X|(X & _)]; [exact X|]. apply W1 in X. contradiction.
Qed.

Section Final.
Variables place : list cseg -> cseg -> nat.
Variable sort_events : list EventsModel.event -> list EventsModel.event.
Variable sort_new : list (EventsModel.event * nat) -> list (EventsModel.event * nat).
Variable draws : cseg -> cseg -> bool.
Hypothesis SE : sorts event_lt sort_events.
Hypothesis SN : sorts (lt_new _ _ (fun e : ev => e) event_lt) sort_new.
Hypothesis FI : finds place.
Notation loop := (sweep_loop intersects place sort_events sort_new draws).
Notation self := (self_intersection intersects place sort_events sort_new draws).

(** Before the sweep. *)
Lemma add_lines_fresh k : forall st i st', add_lines st k i = Some st' -> calm (s_events st) -> q_last _ (s_events st) = 0%nat -> (forall e, In e (q_events _ (s_events st)) -> e_deleted e = false) ->
  s_pts st' = s_pts st /\ s_sweep st' = s_sweep st /\ calm (s_events st') /\ (forall e, In e (q_events _ (s_events st')) -> e_deleted e = false).
Proof.
  assert (ADD : forall st a b st', add_fb_events st a b = Some st' -> calm (s_events st) -> q_last _ (s_events st) = 0%nat -> (forall e, In e (q_events _ (s_events st)) -> e_deleted e = false) ->
    s_pts st' = s_pts st /\ s_sweep st' = s_sweep st /\ calm (s_events st') /\ q_last _ (s_events st') = 0%nat /\ (forall e, In e (q_events _ (s_events st')) -> e_deleted e = false)).
  { intros st a b st' H (C1 & C2) L D. unfold add_fb_events in H. destruct (nth_error (s_pts st) a); [|discriminate]. destruct (nth_error (s_pts st) b); [|discriminate]. destruct (_ && _); [discriminate|].
    injection H as <-. cbn [s_pts s_sweep s_events add_event q_events q_new q_last]. split; [reflexivity|]. split; [reflexivity|]. split; [split; [exact C1|right; exact L]|]. split; [exact L|].
    intros e I. apply in_app_or in I as [I|[<-|[]]]; [|reflexivity]. apply in_app_or in I as [I|[<-|[]]]; [auto|reflexivity]. }
  induction k as [|k IH]; intros st i st' H C L D; cbn [add_lines] in H; [injection H as <-; auto|].
  destruct (nth_error (s_pts st) i) as [p|]; [|discriminate]. destruct (nth_error (s_pts st) (c_next p)) as [q|]; [|discriminate].
  destruct (if _ <? _ then _ else _) as [st1|] eqn:E; [|discriminate].
  assert (X : s_pts st1 = s_pts st /\ s_sweep st1 = s_sweep st /\ calm (s_events st1) /\ q_last _ (s_events st1) = 0%nat /\ (forall e, In e (q_events _ (s_events st1)) -> e_deleted e = false)) by (destruct (_ <? _); eapply ADD; eassumption).
  destruct X as (X1 & X2 & X3 & X4 & X5). destruct (IH _ _ _ H X3 X4 X5) as (Y1 & Y2 & Y3 & Y4). split; [congruence|]. split; [congruence|]. auto.
Qed.

Variable pts : list cpoint.
Hypothesis PL : proper_loops pts.
Hypothesis PP : forall i P Q, edge_of pts i P Q -> P <> Q.

(** The nodes and events that the sweep starts with. *)
Lemma start rand st1 : add_lines (mk_cs pts [] (q_empty ev) [] rand []) (length pts) 0 = Some st1 ->
  s_pts st1 = pts /\ exists all : list ev, let N := s_nodes st1 in
    (forall e, In e all -> e_deleted e = false) /\
    (forall e, In e all -> (e_node e < length N)%nat /\ (e = fev (v N (e_node e)) (e_node e) false \/ e = bev (v N (e_node e)) (e_node e) false)) /\
    (forall n, (n < length N)%nat -> In (fev (v N n) n false) all /\ In (bev (v N n) n false) all) /\
    (forall n, (n < length N)%nat -> px (sg_pa (v N n)) <= px (sg_pb (v N n)) /\ exists pa pb, nth_error pts (sg_a (v N n)) = Some pa /\ c_data pa = sg_pa (v N n) /\ nth_error pts (sg_b (v N n)) = Some pb /\ c_data pb = sg_pb (v N n)) /\
    (forall n, (n < length N)%nat -> good (v N n)) /\
    (forall n m, (n < length N)%nat -> (m < length N)%nat -> agree (v N n) (v N m)) /\
    NoDup (map ekey all) /\ quiet N all st1 [] /\ (forall i, (i < length pts)%nat -> covered pts N i) /\
    (forall n m, (n < length N)%nat -> (m < length N)%nat -> n <> m -> ~ same_pair (sg_a (v N n)) (sg_b (v N n)) (sg_a (v N m)) (sg_b (v N m))) /\
    (forall n, (n < length N)%nat -> exists i p, nth_error pts i = Some p /\ same_pair (sg_a (v N n)) (sg_b (v N n)) i (c_next p)) /\ Permutation all (q_events _ (s_events st1)).
Proof.
  intros A.
  destruct (add_lines_ok pts intersects draws (length pts) (mk_cs pts [] (q_empty ev) [] rand []) 0 [] st1) as (all & O & FL & CV); try reflexivity; [| | | |exact A|].
  { constructor; cbn [s_pts s_nodes s_events s_sweep s_log].
    + exact PL.
    + constructor.
    + intros i p0 N. exists p0. auto.
    + apply (inv_normal _ _ _ _ _ _ _ [] [] 0); try reflexivity. constructor.
    + constructor.
    + intros e [].
    + intros [|n] g X; discriminate.
    + intros [|n] m g h X; discriminate.
    + intros e [].
    + intros e [].
    + intros n []. }
  { intros [|j] g X; discriminate. }
  { constructor; cbn [s_pts s_nodes s_sweep]; try (intros [|j] g; discriminate); try (intros [|j] g d; discriminate). intros n []. }
  { intros j L. destruct (Nat.nlt_0_r _ L). }
  destruct (add_lines_fresh _ _ _ _ A) as (SP & SS & CM & DL); [split; [reflexivity|right; reflexivity]|reflexivity|intros e []|]. cbn [s_pts s_sweep] in SP, SS.
  set (N := s_nodes st1) in *. pose proof (ok_q _ _ _ _ _ O) as OQ. pose proof (EI_perm _ _ _ OQ) as EP.
  assert (DEL : forall e, In e all -> e_deleted e = false) by (intros e I; apply DL; eapply Permutation_in; [exact EP|exact I]).
  assert (EVS : forall e, In e all -> (e_node e < length N)%nat /\ (e = fev (v N (e_node e)) (e_node e) false \/ e = bev (v N (e_node e)) (e_node e) false)).
  { intros e I. pose proof (DEL e I) as D. destruct (ok_ev _ _ _ _ _ O e I) as (g & G & E). rewrite D in E. apply v_nth in G as (-> & L). auto. }
  assert (BOTH : forall n, (n < length N)%nat -> In (fev (v N n) n false) all /\ In (bev (v N n) n false) all).
  { intros n L. destruct (nth_error N n) as [g|] eqn:G; [|apply nth_error_None in G; lia]. destruct (f_evs _ _ _ FL n g G) as (d & d' & I & I'). apply v_nth in G as (-> & _).
    pose proof (DEL _ I) as D. pose proof (DEL _ I') as D'. cbn in D, D'. subst d d'. auto. }
  assert (PTS : forall n, (n < length N)%nat -> px (sg_pa (v N n)) <= px (sg_pb (v N n)) /\ exists pa pb, nth_error pts (sg_a (v N n)) = Some pa /\ c_data pa = sg_pa (v N n) /\ nth_error pts (sg_b (v N n)) = Some pb /\ c_data pb = sg_pb (v N n)).
  { intros n L. destruct (nth_error N n) as [g|] eqn:G; [|apply nth_error_None in G; lia]. pose proof (ok_nodes _ _ _ _ _ O n g G) as K. rewrite SP in K. apply v_nth in G as (-> & _). exact K. }
  assert (GOODS : forall n, (n < length N)%nat -> good (v N n)).
  { intros n L. destruct (PTS n L) as (LE & pa & pb & A1 & A2 & A3 & A4). split; [exact LE|]. destruct (BOTH n L) as (F & _).
    destruct (ok_fwd _ _ _ _ _ O _ F eq_refl (is_f_fev _ _ _)) as (g & i & G & p & NI & K). rewrite SP in NI. cbn in G. fold N in G. apply v_nth in G as (-> & _).
    destruct PL as (PL1 & _). destruct (PL1 i p NI) as (q & _ & NQ & _). assert (ED : edge_of pts i (c_data p) (c_data q)) by (exists p, q; auto).
    apply PP in ED. destruct K as [(K1 & K2)|(K1 & K2)]; [rewrite K1 in A1; rewrite K2 in A3|rewrite K1 in A3; rewrite K2 in A1]; congruence. }
  assert (AGREES : forall n m, (n < length N)%nat -> (m < length N)%nat -> agree (v N n) (v N m)).
  { intros n m Ln Lm. destruct (PTS n Ln) as (_ & pa & pb & A1 & A2 & A3 & A4). destruct (PTS m Lm) as (_ & pa' & pb' & B1 & B2 & B3 & B4). repeat split; intros Q; [rewrite Q in A1|rewrite Q in A1|rewrite Q in A3|rewrite Q in A3]; congruence. }
  assert (Q0 : quiet N all st1 []).
  { constructor; [reflexivity|exact CM|exact OQ|rewrite SS; constructor]. }
  split; [exact SP|]. exists all. cbn zeta. repeat (split; [first [assumption|exact (ok_keys _ _ _ _ _ O)]|]).
  split; [intros i L; rewrite <- SP in L |- *; apply CV; exact L|]. split; [|split; [|exact EP]].
  - intros n m Ln Lm D P. destruct (nth_error N n) as [g|] eqn:G; [|apply nth_error_None in G; lia]. destruct (nth_error N m) as [h|] eqn:H; [|apply nth_error_None in H; lia].
    pose proof (v_nth N n g G) as (Eg & _). pose proof (v_nth N m h H) as (Eh & _). rewrite <- Eg, <- Eh in P. apply D. exact (ok_pairs _ _ _ _ _ O n m g h G H P).
  - intros n L. destruct (BOTH n L) as (F & _). destruct (ok_fwd _ _ _ _ _ O _ F eq_refl (is_f_fev _ _ _)) as (g & i & G & p & NI & K). rewrite SP in NI. cbn in G. fold N in G. apply v_nth in G as (-> & _). exists i, p. split; [exact NI|]. clear -K. cbn in K. unfold same_pair in *. intuition congruence.
Qed.
(** A node for every edge, and what the sweep found. *)
Lemma clean_run fuel rand st : self fuel pts rand = Some st -> length (s_pts st) = length pts ->
  later pts (s_pts st) /\
  exists (N : list cseg) (s : list ev) (R : list nat), trace (v N) (mkp (s_pts st)) s R /\ srt (rev s) /\
    (forall e, In e s -> e = fev (v N (e_node e)) (e_node e) (e_deleted e) \/ e = bev (v N (e_node e)) (e_node e) (e_deleted e)) /\
    (forall e, In e s -> line_of (v N) s (e_node e)) /\
    forall i P Q, edge_of pts i P Q -> exists n p, line_of (v N) s n /\ nth_error pts i = Some p /\
      ((sg_a (v N n) = i /\ sg_b (v N n) = c_next p /\ sg_pa (v N n) = P /\ sg_pb (v N n) = Q) \/ (sg_b (v N n) = i /\ sg_a (v N n) = c_next p /\ sg_pb (v N n) = P /\ sg_pa (v N n) = Q)).
Proof.
  intros H LEN. unfold self_intersection in H. destruct (add_lines _ _ _) as [st1|] eqn:A; [|discriminate].
  destruct (start rand st1 A) as (SP & all & DEL & EVS & BOTH & PTS & GOODS & AGREES & KEYS & Q0 & CV & _). set (N := s_nodes st1) in *.
  destruct (quiet_loop place sort_events sort_new draws SE SN FI N all EVS BOTH GOODS AGREES KEYS fuel st1 [] st Q0 H) as (s & [QN QC QE QT] & LT & M); [rewrite SP; exact LEN|].
  rewrite SP in LT. split; [exact LT|].
  assert (DONE : Permutation s all).
  { unfold more in M. apply orb_false_iff in M as (M1 & _). apply Z.ltb_ge in M1. inversion QE as [L J c E1 E2 S E3 E4 B E5 P|]; subst. rewrite E1, app_length, E4 in M1. assert (length J = 0%nat) by lia.
    destruct J; [|discriminate]. rewrite app_nil_r, map_id in *. rewrite P. rewrite firstn_all2 by lia. symmetry. apply Permutation_rev. }
  assert (SA : forall e, In e s <-> In e all) by (intros e; split; apply Permutation_in; [|apply Permutation_sym]; exact DONE).
  assert (LO : forall n, (n < length N)%nat -> line_of (v N) s n).
  { intros n L. destruct (BOTH n L) as (F & B). split; [apply GOODS; exact L|]. split; [exists false; apply SA; exact F|exists false; apply SA; exact B]. }
  exists N, s, (s_sweep st). split; [exact QT|]. split; [eapply EI_sorted; exact QE|]. split.
  { intros e I. apply SA in I. pose proof (DEL e I) as D. rewrite D. apply EVS. exact I. }
  split; [intros e I; apply LO; apply SA in I; apply EVS; exact I|].
  intros i P Q (p & q & NP & NQ & <- & <-). destruct (CV i) as (n & g & G & p' & NP' & K); [apply nth_error_Some; congruence|]. assert (p' = p) by congruence. subst p'.
  fold N in G. apply v_nth in G as (-> & L). exists n, p. split; [apply LO; exact L|]. split; [exact NP|]. destruct (PTS n L) as (_ & pa & pb & A1 & A2 & A3 & A4).
  destruct K as [(K1 & K2)|(K1 & K2)]; [left; rewrite K1 in A1; rewrite K2 in A3|right; rewrite K1 in A3; rewrite K2 in A1]; repeat split; congruence.
Qed.

Lemma clean_final fuel rand st : self fuel pts rand = Some st -> length (s_pts st) = length pts -> apart pts /\ marked pts (s_pts st).
Proof.
  intros H LEN. destruct (clean_run fuel rand st H LEN) as (LT & N & s & R & TR & SO & EV & LO & ED).
  eapply clean_core; [exact PL|eapply trace_moments; eassumption|exact EV|exact LO|exact ED].
Qed.
End Final.
