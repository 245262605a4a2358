(** The run of a sweep that splits no line. *)
From Coq Require Import ZArith QArith List Bool Arith Permutation Sorted Lia.
From Verif Require Import GeomModel GeomSpec GeomProofs BalanceModel EventsModel EventsSpec EventsProofs OutModel PointSinkModel CycleProofs ClipModel ClipSpec ClipProofs SweepProofs
  SegOrder SegPair SegTrace SegCheck SegStep SegRun ArrangeSpec.
Import ListNotations.
Local Open Scope Z_scope.

(** A search that also puts a line right before one that comes after it. *)
Definition finds (place : list cseg -> cseg -> nat) : Prop :=
  forall gs g h, nth_error gs (Nat.min (place gs g) (length gs)) = Some h -> sweep_cmp g h = true.
Lemma first_greater_finds : finds (first_greater sweep_cmp).
Proof.
  intros gs g h. assert (X : forall l, (first_greater sweep_cmp l g <= length l)%nat) by (induction l as [|a l IH]; cbn; [lia|]; destruct (sweep_cmp g a); lia).
  rewrite Nat.min_l by apply X. clear X. induction gs as [|a gs IH]; cbn [first_greater]; [discriminate|]. destruct (sweep_cmp g a) eqn:C; cbn; [intros Q; injection Q as <-; exact C|exact IH].
Qed.

Lemma ev_order e1 e2 : event_lt e2 e1 = false -> e_x e1 <= e_x e2 /\ (e_x e1 = e_x e2 -> (type_rank (e_type e1) <= type_rank (e_type e2))%nat).
Proof.
  unfold event_lt, type_eqb. destruct (Z.eqb_spec (e_x e2) (e_x e1)) as [Q|Q]; cbn [negb]; [|intros H; apply Z.ltb_ge in H; split; lia].
  destruct (Nat.eqb_spec (type_rank (e_type e2)) (type_rank (e_type e1))) as [Q2|Q2]; cbn [negb]; [intros _; split; lia|]. intros H. apply Nat.ltb_ge in H. split; lia.
Qed.
(** No event is waiting to be put in place. *)
Definition calm (q : queue ev) : Prop := q_new _ q = [] /\ (q_last _ q = length (q_events _ q) \/ q_last _ q = 0%nat).
Lemma calm_next se sn q e fwd q' : calm q -> EventsModel.next ev event_lt se sn q = Some (e, fwd, q') -> fwd = true /\ calm q'.
Proof.
  intros (N & L) H. unfold EventsModel.next in H. rewrite N in H. destruct (_ <=? _); [discriminate|].
  assert (D : forall q0, calm q0 -> deliver ev q0 = Some (e, fwd, q') -> fwd = true /\ calm q').
  { intros q0 (N0 & L0) D. unfold deliver in D. destruct (at_cur _ _); [|discriminate]. injection D as _ <- <-. split; [reflexivity|]. split; assumption. }
  destruct L as [L|L].
  - rewrite L, Nat.ltb_irrefl in H. apply (D q); [split; auto|exact H].
  - rewrite L in H. destruct (Nat.ltb _ _); cbn [Nat.eqb] in H; [|apply (D q); [split; auto|exact H]]. eapply D; [|exact H]. split; [reflexivity|left; reflexivity].
Qed.
Lemma around_split : forall A prev n B, ~ In n A -> around_node prev (A ++ n :: B) n = (match last_of A with Some a => Some a | None => prev end, hd_error B).
Proof.
  induction A as [|a A IH]; intros prev n B NI; cbn [app around_node].
  - rewrite Nat.eqb_refl. destruct B; reflexivity.
  - destruct (Nat.eqb_spec a n) as [Q|_]; [exfalso; apply NI; left; exact Q|]. rewrite IH by (intros I; apply NI; right; exact I). rewrite last_of_cons. destruct (last_of A); reflexivity.
Qed.
Lemma erase_split A n B : NoDup (A ++ n :: B) -> erase_node (A ++ n :: B) n = Some (A ++ B).
Proof.
  intros ND. unfold erase_node. destruct (in_dec _ _ _) as [_|X]; [|exfalso; apply X, in_or_app; right; left; reflexivity]. f_equal. apply NoDup_remove_2 in ND.
  rewrite remove_app. cbn. destruct (Nat.eq_dec n n) as [_|X]; [|contradiction]. rewrite !notin_remove; [reflexivity| |]; intros I; apply ND, in_or_app; auto.
Qed.
Lemma last_firstn {A} (l : list A) k : (k <= length l)%nat -> last_of (firstn k l) = if (k =? 0)%nat then None else nth_error l (k - 1).
Proof.
  intros L. destruct k as [|k]; [reflexivity|]. cbn [Nat.eqb]. rewrite Nat.sub_succ, Nat.sub_0_r. destruct (nth_error l k) as [x|] eqn:N; [|apply nth_error_None in N; lia].
  unfold last_of. rewrite (rev_firstn_S _ _ _ N). reflexivity.
Qed.
Lemma hd_skipn {A} (l : list A) : forall k, hd_error (skipn k l) = nth_error l k.
Proof. induction l as [|a l IH]; intros [|k]; cbn; try reflexivity. apply IH. Qed.

Section Clean.
Variables place : list cseg -> cseg -> nat.
Variable sort_events : list EventsModel.event -> list EventsModel.event.
Variable sort_new : list (EventsModel.event * nat) -> list (EventsModel.event * nat).
Variable draws : cseg -> cseg -> bool.
Hypothesis SE : sorts event_lt sort_events.
Hypothesis SN : sorts (lt_new _ _ (fun e : ev => e) event_lt) sort_new.
Hypothesis FI : finds place.
Notation check := (check_intersection intersects draws).
Notation step := (sweep_step intersects place sort_events sort_new draws).
Notation loop := (sweep_loop intersects place sort_events sort_new draws).

Variable N : list cseg.
Variable all : list ev.
Definition v (n : nat) : cseg := nth n N (mk_cseg 0 0 (0, 0) (0, 0)).
Hypothesis EVS : forall e, In e all -> (e_node e < length N)%nat /\ (e = fev (v (e_node e)) (e_node e) false \/ e = bev (v (e_node e)) (e_node e) false).
Hypothesis BOTH : forall n, (n < length N)%nat -> In (fev (v n) n false) all /\ In (bev (v n) n false) all.
Hypothesis GOODS : forall n, (n < length N)%nat -> good (v n).
Hypothesis AGREES : forall n m, (n < length N)%nat -> (m < length N)%nat -> agree (v n) (v m).
Hypothesis KEYS : NoDup (map ekey all).

Record quiet (st : cstate) (s : list ev) : Prop := {
  q_nodes : s_nodes st = N;
  q_calm : calm (s_events st);
  q_ei : EI (s_events st) s all false;
  q_tr : trace v (mkp (s_pts st)) s (s_sweep st) }.

Lemma v_nth n g : nth_error N n = Some g -> g = v n /\ (n < length N)%nat.
Proof. intros H. split; [symmetry; apply nth_error_nth; exact H|apply nth_error_Some; congruence]. Qed.
Lemma values_map st l : forall gs, s_nodes st = N -> node_values st l = Some gs -> gs = map v l.
Proof.
  induction l as [|n l IH]; intros gs E H; cbn [node_values] in H; [injection H as <-; reflexivity|]. rewrite E in H. destruct (nth_error N n) as [g|] eqn:G; [|discriminate].
  destruct (node_values st l) as [gs1|] eqn:V; [|discriminate]. injection H as <-. apply v_nth in G as (-> & _). rewrite (IH gs1 E eq_refl). reflexivity.
Qed.

(** At one event. *)
Section At.
Variables (mk : nat -> nat -> Prop) (s : list ev) (R : list nat) (e : ev) (rest : list ev).
Hypothesis T : trace v mk s R.
Hypothesis SO : srt (rev (e :: s) ++ rest).
Hypothesis PR : Permutation (rev (e :: s) ++ rest) all.
Lemma at_all x : In x (e :: s) -> In x all.
Proof. intros I. eapply Permutation_in; [exact PR|]. apply in_or_app. left. apply -> in_rev. exact I. Qed.
Lemma at_nodup : NoDup (rev (e :: s) ++ rest).
Proof. eapply Permutation_NoDup; [apply Permutation_sym; exact PR|]. eapply NoDup_map_inv. exact KEYS. Qed.
Lemma at_new : ~ In e s.
Proof. pose proof at_nodup as ND. cbn [rev] in ND. rewrite <- app_assoc in ND. cbn [app] in ND. apply NoDup_remove_2 in ND. intros I. apply ND, in_or_app. left. apply -> in_rev. exact I. Qed.
Lemma at_before x : In x s -> event_lt e x = false.
Proof. intros I. cbn [rev] in SO. rewrite <- app_assoc in SO. apply (srt_app ev event_lt) in SO as (_ & _ & C). apply C; [apply -> in_rev; exact I|left; reflexivity]. Qed.
Lemma at_after x : In x all -> ~ In x s -> event_lt x e = false.
Proof.
  intros I NI. apply (Permutation_in _ (Permutation_sym PR)) in I. cbn [rev] in I, SO. rewrite <- app_assoc in I, SO. cbn [app] in I, SO. apply (srt_app ev event_lt) in SO as (_ & S2 & _).
  apply in_app_or in I as [I|[<-|I]]; [exfalso; apply NI, in_rev; exact I|apply event_lt_irrefl|]. change (e :: rest) with ([e] ++ rest) in S2. apply (srt_app ev event_lt) in S2 as (_ & _ & C). apply C; [left; reflexivity|exact I].
Qed.
Lemma at_in k : In k R -> (k < length N)%nat /\ In (fev (v k) k false) s /\ ~ In (bev (v k) k false) s.
Proof.
  intros I. apply (tr_mem _ _ _ _ T) in I as ((x & I & F & <-) & B). destruct (EVS x (at_all x (or_intror I))) as (L & [E|E]); [|rewrite E, is_f_bev in F; discriminate].
  split; [exact L|]. split; [rewrite <- E; exact I|]. intros J. apply (B _ J (is_f_bev _ _ _)). reflexivity.
Qed.
Lemma rank_f g n : e_type (fev g n false) = if vt g then VForward else Forward.
Proof. reflexivity. Qed.
Lemma rank_b g n : e_type (bev g n false) = if vt g then VBackward else Backward.
Proof. reflexivity. Qed.
Lemma at_cover k : In k R -> good (v k) /\ cover (v k) (e_x e) /\
  (vt (v k) = false -> (px (sg_pa (v k)) < e_x e \/ (2 <= type_rank (e_type e))%nat) /\ (e_x e < px (sg_pb (v k)) \/ (type_rank (e_type e) <= 1)%nat)).
Proof.
  intros I. destruct (at_in k I) as (L & F & B). split; [apply GOODS; exact L|]. destruct (BOTH k L) as (_ & B'). pose proof (at_before _ F) as O1. pose proof (at_after _ B' B) as O2.
  apply ev_order in O1 as (O1 & O1'), O2 as (O2 & O2'). rewrite rank_f in O1'. rewrite rank_b in O2'. cbn [e_x fev bev] in *. split; [split; assumption|]. intros V. rewrite V in *. cbn [type_rank] in *. lia.
Qed.
Lemma at_le x : In x s -> e_x x <= e_x e.
Proof. intros I. apply at_before in I. apply ev_order in I. apply I. Qed.
(** The line of a backward event is in the set. *)
Lemma at_back : is_f e = false -> In (e_node e) R /\ e = bev (v (e_node e)) (e_node e) false.
Proof.
  intros F. destruct (EVS e (at_all e (or_introl eq_refl))) as (L & [E|E]); [rewrite E, is_f_fev in F; discriminate|]. split; [|exact E].
  apply (tr_mem _ _ _ _ T). destruct (BOTH _ L) as (F' & B'). split.
  - exists (fev (v (e_node e)) (e_node e) false). split; [|split; [apply is_f_fev|reflexivity]]. destruct (in_dec (fun a b : ev => ltac:(repeat decide equality)) (fev (v (e_node e)) (e_node e) false) s) as [I|NI]; [exact I|exfalso].
    pose proof (at_after _ F' NI) as O. rewrite E in O. rewrite fev_bev in O; [discriminate|]. apply GOODS. exact L.
  - intros x I FX Q. destruct (EVS x (at_all x (or_intror I))) as (_ & [E2|E2]); [rewrite E2, is_f_fev in FX; discriminate|]. rewrite Q, <- E in E2. subst x. apply at_new. exact I.
Qed.
Lemma at_fwd : is_f e = true -> e = fev (v (e_node e)) (e_node e) false /\ (e_node e < length N)%nat /\ forall x, In x s -> e_node x <> e_node e.
Proof.
  intros F. destruct (EVS e (at_all e (or_introl eq_refl))) as (L & [E|E]); [|rewrite E, is_f_bev in F; discriminate]. split; [exact E|]. split; [exact L|].
  intros x I Q. destruct (EVS x (at_all x (or_intror I))) as (_ & [E2|E2]); rewrite Q in E2; [rewrite <- E in E2; subst x; apply at_new; exact I|].
  apply at_before in I. rewrite E, E2 in I. rewrite fev_bev in I; [discriminate|]. apply GOODS. exact L.
Qed.
(** Two neighbours that get checked. *)
Lemma wide_in b : is_f e = true -> In b R -> wide (v (e_node e)) (v b).
Proof.
  intros F I V1 V2. destruct (at_fwd F) as (E & L & _). destruct (at_cover b I) as (G & (C1 & C2) & W). destruct (W V2) as (_ & W2). pose proof (vt_false _ (GOODS _ L) V1) as W3.
  assert (X : e_x e = px (sg_pa (v (e_node e)))) by (rewrite E at 1; reflexivity). assert (K : e_type e = Forward) by (rewrite E, rank_f, V1; reflexivity). rewrite K in W2. cbn [type_rank] in W2. lia.
Qed.
Lemma wide_out a b : is_f e = false -> In a R -> In b R -> wide (v a) (v b).
Proof.
  intros F I J V1 V2. destruct (at_cover a I) as (_ & (A1 & A2) & WA). destruct (at_cover b J) as (_ & (B1 & B2) & WB). specialize (WA V1). specialize (WB V2). unfold is_f in F. destruct (e_type e); try discriminate; cbn [type_rank] in *; lia.
Qed.
End At.

Lemma quiet_step st s st' : quiet st s -> more _ (s_events st) = true -> step st = Some st' -> length (s_pts st') = length (s_pts st) ->
  exists e, quiet st' (e :: s) /\ later (s_pts st) (s_pts st').
Proof.
  intros [QN QC QE QT] M H LEN. unfold sweep_step in H.
  destruct (next_inv ev ev (fun e => e) event_lt event_lt_swo sort_events sort_new SE SN _ _ _ _ QE M) as (e & fwd & q & NX & R).
  change (EventsModel.next ev event_lt sort_events sort_new (s_events st) = Some (e, fwd, q)) in NX. rewrite NX in H. destruct (calm_next _ _ _ _ _ _ QC NX) as (-> & QC'). destruct R as (EI' & rest & SO & PR).
  exists e. set (st1 := with_events st q) in *. assert (IE : In e all) by (eapply at_all; [exact PR|left; reflexivity]).
  assert (D : e_deleted e = false) by (destruct (EVS e IE) as (_ & [Q|Q]); rewrite Q; reflexivity). rewrite D in H.
  assert (PT : s_pts st1 = s_pts st) by reflexivity. assert (ND1 : s_nodes st1 = N) by exact QN. assert (SW : s_sweep st1 = s_sweep st) by reflexivity. assert (EQ : s_events st1 = q) by reflexivity.
  rewrite <- PT, <- SW in QT. rewrite <- PT in LEN |- *. clearbody st1. set (n := e_node e) in *.
  assert (CK : forall st2 a b st3 sp, check st2 a b = Some (st3, sp) -> length (s_pts st3) = length (s_pts st2) -> s_nodes st2 = N -> wide (v a) (v b) ->
    sp = false /\ s_nodes st3 = N /\ s_events st3 = s_events st2 /\ s_sweep st3 = s_sweep st2 /\ later (s_pts st2) (s_pts st3) /\ fine (mkp (s_pts st3)) (v a) (v b)).
  { intros st2 a b st3 sp C L3 N2 W. apply check_quiet in C as (_ & C). destruct (C L3) as (-> & g & h & pts & r & G & GH & -> & LT & FN). cbn [with_rand with_pts s_nodes s_events s_sweep s_pts] in *.
    rewrite N2 in G, GH. apply v_nth in G as (-> & La), GH as (-> & Lb). repeat (split; [first [reflexivity|assumption]|]). apply FN; auto. }
  assert (FIN : forall st2 R2, s_nodes st2 = N -> s_events st2 = q -> s_sweep st2 = R2 -> trace v (mkp (s_pts st2)) (e :: s) R2 -> quiet st2 (e :: s)).
  { intros st2 R2 X1 X2 X3 X4. constructor; [exact X1|rewrite X2; exact QC'|rewrite X2; exact EI'|rewrite X3; exact X4]. }
  assert (TM : forall p, later (s_pts st1) p -> trace v (mkp p) s (s_sweep st1)) by (intros p (_ & MM); eapply trace_mono; [apply mkp_mono; exact MM|exact QT]).
  destruct (is_f e) eqn:F.
  - assert (H' : (do (sweep, r) <- insert_node place sweep_cmp st1 n;
          do (before, after) <- r;
          let st := with_sweep st1 sweep in
          do (st, split) <- match before with None => Some (st, false) | Some b => check st n b end;
          if split then Some st
          else match after with
               | None => Some st
               | Some a => do (st, _) <- check st n a; Some st
               end) = Some st') by (unfold is_f in F; destruct (e_type e); try discriminate; exact H).
    clear H. unfold insert_node in H'. rewrite ND1 in H'. destruct (nth_error N n) as [g|] eqn:G; [|discriminate]. apply v_nth in G as (-> & LN).
    destruct (node_values st1 (s_sweep st1)) as [gs|] eqn:NV; [|discriminate]. apply values_map in NV; [|exact ND1]. cbn zeta in H'. pose proof (FI gs (v n)) as FP. set (k := Nat.min (place gs (v n)) (length gs)) in *.
    set (R := s_sweep st1) in *. assert (LK : (k <= length R)%nat) by (unfold k; rewrite NV, map_length; lia). set (A := firstn k R) in *. set (B := skipn k R) in *. assert (RAB : R = A ++ B) by (symmetry; apply firstn_skipn).
    destruct (if (k =? 0)%nat then true else _) eqn:OK; [|discriminate]. set (st2 := with_sweep st1 (A ++ n :: B)) in *.
    destruct (at_fwd s e rest SO PR F) as (EE & _ & FR). fold n in EE.
    assert (HA : last_of A = if (k =? 0)%nat then None else nth_error R (k - 1)) by (apply last_firstn; exact LK).
    assert (HB : hd_error B = nth_error R k) by apply hd_skipn. rewrite <- HA, <- HB in H'.
    assert (CA : forall a, last_of A = Some a -> sweep_cmp (v a) (v n) = true).
    { intros a Q. rewrite HA in Q. destruct (k =? 0)%nat; [discriminate|]. rewrite NV, nth_error_map, Q in OK. exact OK. }
    assert (CB : forall b, hd_error B = Some b -> sweep_cmp (v n) (v b) = true).
    { intros b Q. rewrite HB in Q. apply FP. rewrite NV, nth_error_map, Q. reflexivity. }
    assert (IA : forall a, last_of A = Some a -> In a R) by (intros a Q; rewrite RAB; apply in_or_app; left; apply last_of_in; exact Q).
    assert (IB : forall b, hd_error B = Some b -> In b R) by (intros b Q; rewrite RAB; apply in_or_app; right; apply hd_error_in; exact Q).
    assert (P2 : s_pts st2 = s_pts st1) by reflexivity. assert (N2 : s_nodes st2 = N) by exact ND1. assert (E2 : s_events st2 = q) by exact EQ. assert (S2 : s_sweep st2 = A ++ n :: B) by reflexivity. clearbody st2.
    assert (GO : forall st4, s_nodes st4 = N -> s_events st4 = q -> s_sweep st4 = A ++ n :: B -> later (s_pts st1) (s_pts st4) ->
      (forall a, last_of A = Some a -> fine (mkp (s_pts st4)) (v a) (v n)) -> (forall b, hd_error B = Some b -> fine (mkp (s_pts st4)) (v n) (v b)) -> quiet st4 (e :: s) /\ later (s_pts st1) (s_pts st4)).
    { intros st4 X1 X2 X3 X4 X5 X6. split; [|exact X4]. apply (FIN st4 _ X1 X2 X3). pose proof (TM _ X4) as T4. fold R in T4. rewrite RAB in T4.
      unfold n. apply (step_in v (mkp (s_pts st4)) (mkp_trans _) (mkp_refl _) (mkp_sym _) e s A B); auto.
      - intros x. apply (at_le s e rest SO).
      - intros x I. rewrite <- RAB in I, T4. destruct (at_cover _ s R e rest T4 SO PR x I) as (G1 & G2 & _). auto.
      - fold n. rewrite EE. reflexivity. }
    destruct (match last_of A with None => Some (st2, false) | Some b => check st2 n b end) as [(st3, sp)|] eqn:C1; [|discriminate].
    pose proof (f_equal (@length _) P2) as P2'.
    assert (L23 : (length (s_pts st2) <= length (s_pts st3))%nat) by (destruct (last_of A); [apply check_quiet in C1; apply C1|injection C1 as <- _; lia]).
    assert (L34 : (length (s_pts st3) <= length (s_pts st'))%nat).
    { destruct sp; [injection H' as <-; lia|]. destruct (hd_error B) as [b|]; [|injection H' as <-; lia]. destruct (check st3 n b) as [(st4, sp4)|] eqn:C2; [|discriminate]. injection H' as <-. apply check_quiet in C2. apply C2. }
    assert (K3 : sp = false /\ s_nodes st3 = N /\ s_events st3 = q /\ s_sweep st3 = A ++ n :: B /\ later (s_pts st1) (s_pts st3) /\ (forall a, last_of A = Some a -> fine (mkp (s_pts st3)) (v a) (v n))).
    { destruct (last_of A) as [a|] eqn:LA.
      - destruct (CK _ _ _ _ _ C1) as (-> & Y2 & Y3 & Y4 & Y5 & Y6); [lia|exact N2|apply (wide_in (mkp (s_pts st1)) s R e rest QT SO PR a F); apply IA; reflexivity|]. rewrite P2, ?E2, ?S2 in *.
        repeat (split; [first [reflexivity|assumption]|]). intros a' Q. injection Q as <-. apply fine_sym; [apply mkp_sym|exact Y6].
      - injection C1 as <- <-. rewrite P2. repeat (split; [first [reflexivity|assumption|apply later_refl]|]). discriminate. }
    destruct K3 as (-> & Y2 & Y3 & Y4 & Y5 & Y6). destruct (hd_error B) as [b|] eqn:HB'.
    + destruct (check st3 n b) as [(st4, sp4)|] eqn:C2; [|discriminate]. injection H' as <-.
      destruct (CK _ _ _ _ _ C2) as (-> & Z2 & Z3 & Z4 & Z5 & Z6); [lia|exact Y2|apply (wide_in (mkp (s_pts st1)) s R e rest QT SO PR b F); apply IB; reflexivity|].
      apply (GO st4); [congruence|congruence|congruence|eapply later_trans; eassumption| |].
      * intros a Q. eapply fine_mono; [apply mkp_mono, Z5|apply Y6; exact Q].
      * intros b' Q. injection Q as <-. exact Z6.
    + injection H' as <-. apply GO; auto. discriminate.
  - assert (H' : (if in_dec Nat.eq_dec n (s_sweep st1) then
            let '(before, after) := around_node None (s_sweep st1) n in
            do sweep <- erase_node (s_sweep st1) n;
            let st := with_sweep st1 sweep in
            match before, after with
            | Some b, Some a => do (st, _) <- check st b a; Some st
            | _, _ => Some st
            end
          else
            do q <- update_at _ (fun e => EventsModel.mk_event (e_x e) (e_a e) (e_b e) (e_node e) (e_type e) true) (Z.to_nat (q_cur _ q)) q;
            Some (with_events st1 q)) = Some st') by (unfold is_f in F; destruct (e_type e); try discriminate; exact H).
    clear H. destruct (at_back _ s _ e rest QT SO PR F) as (IN & EE). fold n in IN, EE. destruct (in_dec _ _ _) as [_|X]; [|contradiction].
    pose proof (proj1 (tr_mem _ _ _ _ QT)) as NDR. apply in_split in IN as (A & B & RAB). rewrite RAB in *. rewrite around_split in H' by (intros I; apply NoDup_remove_2 in NDR; apply NDR, in_or_app; auto).
    rewrite erase_split in H' by exact NDR. cbn zeta in H'. set (st2 := with_sweep st1 (A ++ B)) in *.
    assert (P2 : s_pts st2 = s_pts st1) by reflexivity. assert (N2 : s_nodes st2 = N) by exact ND1. assert (E2 : s_events st2 = q) by exact EQ. assert (S2 : s_sweep st2 = A ++ B) by reflexivity. clearbody st2.
    assert (GO : forall st4, s_nodes st4 = N -> s_events st4 = q -> s_sweep st4 = A ++ B -> later (s_pts st1) (s_pts st4) ->
      (forall a b, last_of A = Some a -> hd_error B = Some b -> fine (mkp (s_pts st4)) (v a) (v b)) -> quiet st4 (e :: s) /\ later (s_pts st1) (s_pts st4)).
    { intros st4 X1 X2 X3 X4 X5. split; [|exact X4]. apply (FIN st4 _ X1 X2 X3). pose proof (TM _ X4) as T4.
      apply (step_out v (mkp (s_pts st4)) (mkp_trans _) (mkp_refl _) (mkp_sym _) e s A B); auto.
      - intros x. apply (at_le s e rest SO).
      - intros x I. destruct (at_cover _ s _ e rest T4 SO PR x I) as (G1 & G2 & _). auto.
      - fold n. rewrite EE. reflexivity.
      - fold n. destruct (vt (v n)) eqn:V; [auto|right]. intros x I VX. assert (I' : In x (A ++ n :: B)) by (apply in_app_or in I; apply in_or_app; cbn; tauto).
        destruct (at_cover _ s _ e rest T4 SO PR x I') as (_ & _ & W). destruct (W VX) as (W1 & _). assert (K : e_type e = Backward) by (rewrite EE, rank_b, V; reflexivity). rewrite K in W1. cbn [type_rank] in W1. lia. }
    destruct (last_of A) as [a|] eqn:LA; [destruct (hd_error B) as [b|] eqn:HB|]; try (injection H' as <-; apply GO; auto; [rewrite P2; apply later_refl|intros; discriminate]).
    destruct (check st2 a b) as [(st4, sp4)|] eqn:C2; [|discriminate]. injection H' as <-.
    assert (W : wide (v a) (v b)) by (apply (wide_out (mkp (s_pts st1)) s _ e rest QT SO PR a b F); apply in_or_app; [left; apply last_of_in; exact LA|right; right; apply hd_error_in; exact HB]).
    destruct (CK _ _ _ _ _ C2) as (-> & Z2 & Z3 & Z4 & Z5 & Z6); [rewrite P2; exact LEN|exact N2|exact W|].
    apply (GO st4); [congruence|congruence|congruence|rewrite <- P2; exact Z5|]. intros a' b' Q1 Q2. injection Q1 as <-. injection Q2 as <-. exact Z6.
Qed.
Lemma quiet_loop fuel : forall st s st', quiet st s -> loop fuel st = Some st' -> length (s_pts st') = length (s_pts st) ->
  exists s', quiet st' s' /\ later (s_pts st) (s_pts st') /\ more _ (s_events st') = false.
Proof.
  induction fuel as [|f IH]; intros st s st' Q H L; cbn [sweep_loop] in H; destruct (more ev (s_events st)) eqn:M; try discriminate; try (injection H as <-; exists s; split; [exact Q|split; [apply later_refl|exact M]]).
  destruct (step st) as [st1|] eqn:E; [|discriminate]. pose proof (step_len _ _ _ _ _ _ E) as L1. pose proof (loop_len _ _ _ _ _ _ _ H) as L2.
  destruct (quiet_step st s st1 Q M E) as (e & Q1 & T1); [lia|]. destruct (IH _ _ _ Q1 H) as (s' & Q2 & T2 & M2); [lia|]. exists s'. split; [exact Q2|]. split; [eapply later_trans; eassumption|exact M2].
Qed.
End Clean.
