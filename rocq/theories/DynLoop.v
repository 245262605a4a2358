(** The history of a whole sweep. *)
From Coq Require Import ZArith QArith List Bool Arith Permutation Sorted Lia Lqa.
From Verif Require Import GeomModel GeomSpec GeomProofs IsectProofs GeomFinal BalanceModel EventsModel EventsSpec EventsProofs OutModel PointSinkModel CycleProofs ClipModel ClipSpec ClipProofs SweepProofs
  SegOrder SegPair SegTrace SegCheck SegStep SegRun SegClean ArrangeSpec SegSpec TotalSpec TotalSplit TotalRun ExactProofs DynOrder DynTrace DynShape DynCut DynCheck DynWeak DynForm DynStep.
Import ListNotations.
Local Open Scope nat_scope.

Section Loop.
Variable place : list cseg -> cseg -> nat.
Variable sort_events : list EventsModel.event -> list EventsModel.event.
Variable sort_new : list (EventsModel.event * nat) -> list (EventsModel.event * nat).
Variable draws : cseg -> cseg -> bool.
Hypothesis SE : sorts event_lt sort_events.
Hypothesis SN : sorts (lt_new _ _ (fun e : ev => e) event_lt) sort_new.
Hypothesis PLC : places place.
Hypothesis FI : finds place.
Variable pts0 : list cpoint.
Variable T : Z.
Hypothesis GRID : grid pts0.
Notation check := (check_intersection intersects draws).
Notation step := (sweep_step intersects place sort_events sort_new draws).
Notation loop := (sweep_loop intersects place sort_events sort_new draws).
Notation base := (base pts0 T).

Section Fixed.
Variable v : nat -> cseg.
Variable mk : nat -> nat -> Prop.
Hypothesis mk_trans : forall i j k, mk i j -> mk j k -> mk i k.
Hypothesis mk_refl : forall i, mk i i.
Hypothesis mk_sym : forall i j, mk i j -> mk j i.
Notation ff k := (fev (v k) k false).
Notation WI := (WI v mk).
Notation sub := (sub v mk).
Notation dtr := (dtr v mk).
Notation hist := (hist v mk).
Notation Inv := (Inv v mk).

Lemma split_Inv st2 s all e R st' n0 m0 : base st2 (e :: s) all false -> e_deleted e = false -> hist all s R -> (forall y x, In y s -> In x all -> ~ In x s -> event_lt y x = true) -> (forall x, In x s -> event_lt e x = false) ->
  path v (alive s) R (e :: alive s) (s_sweep st2) -> In n0 (s_sweep st2) -> In m0 (s_sweep st2) -> n0 <> m0 -> check st2 n0 m0 = Some (st', true) -> sub st' ->
  (forall k, k = n0 \/ k = m0 -> ff k <> e -> same_start (ff k) e -> sg_a (v n0) <> sg_a (v m0) -> False) ->
  exists s' all' u', base st' s' all' u' /\ Inv (s_sweep st') s' all'.
Proof.
  intros B D H SEP BEF P IN IM NE C SB KIND.
  assert (W : WI (s_sweep st2) (e :: s) all s [e] R). { constructor; [reflexivity|exact SEP| |exact H]. cbn [alive filter]. rewrite D. exact P. }
  destruct (check_WI pts0 T GRID draws v mk st2 n0 m0 st' (e :: s) all s [e] R B IN IM NE C SB W) as (s' & all' & t' & s2' & Rt' & F & B' & W' & FK & ES & CASE & DA & k & f0 & KK & I1 & I2 & I3 & SS & DF).
  exists s', all', false. split; [exact B'|]. destruct CASE as [(-> & ->)|PU]; [|exists t', s2', Rt'; auto]. cbn [map] in *.
  set (bad := fun x => if in_dec ev_dec x s' then false else negb (event_lt (F e) x)). destruct (existsb bad all') eqn:EX.
  { apply existsb_exists in EX as (x & IX & BX). unfold bad in BX. destruct (in_dec ev_dec x s') as [|NX]; [discriminate|]. apply negb_true_iff in BX. exists (map F s), [F e], Rt'. split; [exact W'|right]. exists x. split; [exact IX|]. split; [exact NX|]. intros y [<-|[]]. exact BX. }
  assert (AF : forall x, In x all' -> ~ In x s' -> event_lt (F e) x = true).
  { intros x IX NX. destruct (event_lt (F e) x) eqn:Z; [reflexivity|exfalso]. rewrite <- not_true_iff_false in EX. apply EX, existsb_exists. exists x. split; [exact IX|]. unfold bad. destruct (in_dec ev_dec x s'); [contradiction|rewrite Z; reflexivity]. }
  destruct (e_deleted (F e)) eqn:DE.
  - destruct W' as [W1 W2 W3 W4]. assert (AL : alive s' = alive (map F s)) by (rewrite ES; cbn [alive filter]; rewrite DE; reflexivity).
    exists s', [], Rt'. split; [|auto]. constructor; [reflexivity| |rewrite AL; rewrite AL in W3; exact W3|].
    + intros y x I J N. assert (N' : ~ In x (map F s)) by (intros Z; apply N; rewrite ES; right; exact Z). rewrite ES in I. destruct I as [<-|I]; [apply AF; assumption|apply W2; assumption].
    + unfold DynCut.hist in *. rewrite AL. destruct W4 as [W4|(k1 & W4 & O1 & O2 & O3)]; [left; exact W4|right]. exists k1. split; [exact W4|]. split; [exact O1|]. rewrite ES. split; [intros [Q|Z]; [rewrite Q in DE; discriminate|contradiction]|].
      intros x J N. apply O3; [exact J|]. intros Z. apply N. right. exact Z.
  - exfalso. assert (NK : ff k <> e) by (intros Q; rewrite Q in DF; congruence). destruct I1 as [Q|I1]; [symmetry in Q; contradiction|].
    apply (KIND k KK NK); [|exact DA]. apply (between_start (ff k) e f0 SS (BEF _ I1)). rewrite <- (AF f0 I2 I3). symmetry. apply event_lt_key; [apply FK|reflexivity].
Qed.

Lemma path_in s R A B e : R = A ++ B -> is_f e = true -> path v (alive s) R (e :: alive s) (A ++ e_node e :: B).
Proof. intros -> F. apply p_in; [apply p_nil|exact F]. Qed.

Lemma step_Inv st s all u st' : base st s all u -> sub st' -> more _ (s_events st) = true -> step st = Some st' -> Inv (s_sweep st) s all -> exists s' all' u', base st' s' all' u' /\ Inv (s_sweep st') s' all'.
Proof.
  intros B SB M H I0. pose proof (sub_ext _ _ _ _ (step_ext _ _ _ _ _ _ H) SB) as S0.
  pose proof (ok_keys _ _ _ _ _ (b_ok _ _ _ _ _ _ B)) as KEYS. pose proof (st_inc pts0 T st s all u B) as INC.
  destruct (step_form place sort_events sort_new draws SE SN PLC FI pts0 T v mk st s all u st' B S0 M H) as
   [e all' u' SQ K B' P D ER|e all' u' SQ K B' P D F ER|e all' u' A Bl SQ K B' P D F ER ER' CA CB|e all' u' IE NI BEF AFT B' P D ER|e all' u' IE NI BEF AFT B' P D F NS ER|e A Bl st2 IE NI BEF AFT D F ER NR CA CB B2 ER2 X2 C|e A Bl st2 IE NI BEF AFT D F ER ND B2 ER2 X2 C].
  - exists (tl s), all', u'. split; [exact B'|]. apply (Inv_all v mk _ _ all _ P). apply (undo_Inv v mk (s_sweep st) _ s all e I0 SQ K). intros t Rt _ PA. rewrite ER. rewrite SQ in PA. cbn [alive filter] in PA. rewrite D in PA. exact PA.
  - exists (tl s), all', u'. split; [exact B'|]. apply (Inv_all v mk _ _ all _ P). apply (undo_Inv v mk (s_sweep st) _ s all e I0 SQ K). intros t Rt [L|L] PA; [|congruence]. rewrite SQ in PA. cbn [alive filter] in PA. rewrite D in PA.
    destruct (path_f _ _ _ _ _ _ PA L F) as (A & Bl & E & PA'). rewrite E, erase_split in ER; [injection ER as <-; exact PA'|]. rewrite <- E. exact (n_sweep _ _ _ (b_num _ _ _ _ _ _ B)).
  - exists (tl s), all', u'. split; [exact B'|]. apply (Inv_all v mk _ _ all _ P). apply (undo_Inv v mk (s_sweep st) _ s all e I0 SQ K). intros t Rt [L|L] PA; [|congruence]. rewrite SQ in PA. cbn [alive filter] in PA. rewrite D in PA.
    destruct (path_b _ _ _ _ _ _ PA L F) as (A1 & B1 & E & O & PA'). destruct (ord_place v A1 (e_node e) B1 A Bl O) as (-> & ->); [congruence|exact CA|exact CB|]. rewrite ER'. exact PA'.
  - destruct (deliver_now v mk _ _ _ e KEYS INC I0 BEF AFT) as (HI & SEP). exists (e :: s), all', u'. split; [exact B'|]. apply (Inv_all v mk _ _ all _ P). rewrite ER. apply deleted_Inv; assumption.
  - destruct (deliver_now v mk _ _ _ e KEYS INC I0 BEF AFT) as (HI & SEP). exists (map (delk (ekey e)) (e :: s)), all', u'. split; [exact B'|]. apply (Inv_all v mk _ _ _ _ P). rewrite ER. apply drop_Inv; assumption.
  - destruct (deliver_now v mk _ _ _ e KEYS INC I0 BEF AFT) as (HI & SEP). pose proof (sep_more s all e KEYS IE AFT SEP) as SEP'. set (n := e_node e) in *.
    pose proof (dl_eq pts0 T v mk st s all u e B S0 IE D F) as EE. fold n in EE.
    assert (IA : forall a, last_of A = Some a -> In a (A ++ Bl)) by (intros a Q; apply in_or_app; left; apply last_of_in; exact Q).
    assert (IB : forall a, hd_error Bl = Some a -> In a (A ++ Bl)) by (intros a Q; apply in_or_app; right; apply hd_error_in; exact Q).
    assert (UP : forall k, In k (A ++ Bl) -> In k (A ++ n :: Bl) /\ n <> k) by (intros k I; split; [apply in_app_or in I; apply in_or_app; cbn; tauto|intros Q; subst k; contradiction]).
    assert (INN : In n (A ++ n :: Bl)) by (apply in_or_app; cbn; auto).
    assert (SPLIT : forall st3 m, base st3 (e :: s) all false -> s_sweep st3 = A ++ n :: Bl -> In m (A ++ Bl) -> check st3 n m = Some (st', true) -> exists s' all' u', base st' s' all' u' /\ Inv (s_sweep st') s' all').
    { intros st3 m B3 E3 I3 C3. destruct (UP m I3) as (J3 & N3). apply (split_Inv st3 s all e (s_sweep st) st' n m); auto.
      - rewrite E3. apply path_in; assumption.
      - rewrite E3. exact INN.
      - rewrite E3. exact J3.
      - intros k [->| ->] NK SS DA; [apply NK; symmetry; exact EE|]. destruct SS as (_ & _ & SS). rewrite EE in SS. apply DA. symmetry. exact SS. }
    assert (FINE : forall st3 m st4, base st3 (e :: s) all false -> s_sweep st3 = A ++ n :: Bl -> ext st st3 -> In m (A ++ Bl) -> check st3 n m = Some (st4, false) -> sub st4 ->
      base st4 (e :: s) all false /\ s_sweep st4 = A ++ n :: Bl /\ ext st st4 /\ fine mk (v n) (v m)).
    { intros st3 m st4 B3 E3 X3 I3 C3 S4. destruct (UP m I3) as (J3 & N3). pose proof (check_ext _ _ _ _ _ _ C3) as X4. pose proof (sub_ext _ _ _ _ X4 S4) as S3.
      destruct (check_form pts0 T GRID draws st3 n m st4 false (e :: s) all B3) as (g & h & r & pts & NG & NH & E & LT & FN); [rewrite E3; exact INN|rewrite E3; exact J3|exact N3|exact C3|]. rewrite <- (proj1 S3 _ _ NG), <- (proj1 S3 _ _ NH) in FN.
      split; [rewrite E; apply base_rand, base_later; [exact B3|apply LT]|]. split; [rewrite E; exact E3|]. split; [eapply ext_trans; eassumption|].
      eapply fine_mono; [|apply FN].
      - intros i j Z. apply (proj2 S4). rewrite E. exact Z.
      - apply (dl_agree pts0 T v st s all u B); [apply (dl_self pts0 T v mk st s all u e B S0 IE)|apply (dl_node pts0 T v mk st s all u B S0); rewrite ER; exact I3].
      - apply (dl_wide pts0 T v mk mk_trans mk_refl mk_sym st s all u e B S0 IE NI BEF AFT D F). rewrite ER. exact I3. }
    assert (GO : forall st4, base st4 (e :: s) all false -> s_sweep st4 = A ++ n :: Bl -> (forall a, last_of A = Some a -> fine mk (v n) (v a)) -> (forall b, hd_error Bl = Some b -> fine mk (v n) (v b)) -> exists s' all' u', base st4 s' all' u' /\ Inv (s_sweep st4) s' all').
    { intros st4 B4 E4 FA FB. exists (e :: s), all, false. split; [exact B4|]. rewrite E4. apply WI_now; [|exact SEP']. left.
      apply (dl_hist_in pts0 T v mk mk_trans mk_refl mk_sym st s all u e B S0 IE NI BEF AFT D F A Bl); auto. intros a Q. apply fine_sym; auto. }
    destruct (last_of A) as [a|] eqn:LA.
    + destruct (check st2 n a) as [(st3, [|])|] eqn:C1; [| |discriminate].
      * injection C as ->. apply (SPLIT st2 a B2 ER2 (IA a eq_refl) C1).
      * destruct (hd_error Bl) as [b|] eqn:HB.
        -- destruct (check st3 n b) as [(st4, sp)|] eqn:C2; [|discriminate]. injection C as ->. pose proof (check_ext _ _ _ _ _ _ C2) as X4. pose proof (sub_ext _ _ _ _ X4 SB) as S3.
           destruct (FINE st2 a st3 B2 ER2 X2 (IA a eq_refl) C1 S3) as (B3 & E3 & X3 & F3). destruct sp; [apply (SPLIT st3 b B3 E3 (IB b eq_refl) C2)|].
           destruct (FINE st3 b st' B3 E3 X3 (IB b eq_refl) C2 SB) as (B4 & E4 & _ & F4). apply GO; auto; intros x Q; injection Q as <-; assumption.
        -- injection C as ->. destruct (FINE st2 a st' B2 ER2 X2 (IA a eq_refl) C1 SB) as (B3 & E3 & X3 & F3). apply GO; auto; [intros x Q; injection Q as <-; assumption|discriminate].
    + destruct (hd_error Bl) as [b|] eqn:HB.
      * destruct (check st2 n b) as [(st4, sp)|] eqn:C2; [|discriminate]. injection C as ->. destruct sp; [apply (SPLIT st2 b B2 ER2 (IB b eq_refl) C2)|].
        destruct (FINE st2 b st' B2 ER2 X2 (IB b eq_refl) C2 SB) as (B4 & E4 & _ & F4). apply GO; auto; [discriminate|intros x Q; injection Q as <-; assumption].
      * injection C as ->. apply GO; auto; discriminate.
  - destruct (deliver_now v mk _ _ _ e KEYS INC I0 BEF AFT) as (HI & SEP). pose proof (sep_more s all e KEYS IE AFT SEP) as SEP'. set (n := e_node e) in *.
    pose proof (dl_hist_out pts0 T v mk st s all u e B IE NI AFT D F HI) as HD.
    assert (GO : forall st4, base st4 (e :: s) all false -> s_sweep st4 = A ++ Bl -> (forall a b, last_of A = Some a -> hd_error Bl = Some b -> fine mk (v a) (v b)) -> exists s' all' u', base st4 s' all' u' /\ Inv (s_sweep st4) s' all').
    { intros st4 B4 E4 FN. exists (e :: s), all, false. split; [exact B4|]. rewrite E4. apply WI_now; [|exact SEP']. left.
      apply (dl_out pts0 T v mk mk_trans mk_refl mk_sym st s all u e B S0 IE NI BEF AFT D F A Bl); auto. }
    destruct (last_of A) as [a|] eqn:LA; [destruct (hd_error Bl) as [b|] eqn:HB|]; try (injection C as ->; apply GO; auto; intros; discriminate).
    destruct (check st2 a b) as [(st4, sp)|] eqn:C2; [|discriminate]. injection C as ->.
    assert (Ia : In a (A ++ Bl)) by (apply in_or_app; left; apply last_of_in; exact LA). assert (Ib : In b (A ++ Bl)) by (apply in_or_app; right; apply hd_error_in; exact HB).
    assert (Na : In a (s_sweep st)) by (rewrite ER; apply in_app_or in Ia; apply in_or_app; cbn; tauto). assert (Nb : In b (s_sweep st)) by (rewrite ER; apply in_app_or in Ib; apply in_or_app; cbn; tauto).
    assert (AB : a <> b). { intros ->. apply NoDup_remove_1 in ND. destruct (last_split A b LA) as (A' & ->). destruct Bl as [|x Bl]; [discriminate|]. injection HB as ->. rewrite <- app_assoc in ND. cbn [app] in ND. apply NoDup_remove_2 in ND. apply ND, in_or_app. right. left. reflexivity. }
    destruct sp.
    + apply (split_Inv st2 s all e (s_sweep st) st' a b); auto.
      * rewrite ER2, ER. apply p_out; [apply p_nil|exact F|]. fold n. rewrite <- ER. eapply d_ord. exact HD.
      * rewrite ER2. exact Ia.
      * rewrite ER2. exact Ib.
      * intros k _ _ (_ & Q & _) _. unfold is_f in F. rewrite <- Q in F. cbn [e_type fev] in F. destruct (vert (v k)); discriminate.
    + pose proof (check_ext _ _ _ _ _ _ C2) as X4. pose proof (sub_ext _ _ _ _ X4 SB) as S3.
      destruct (check_form pts0 T GRID draws st2 a b st' false (e :: s) all B2) as (g & h & r & pts & NG & NH & E & LT & FN); [rewrite ER2; exact Ia|rewrite ER2; exact Ib|exact AB|exact C2|]. rewrite <- (proj1 S3 _ _ NG), <- (proj1 S3 _ _ NH) in FN.
      apply GO; [rewrite E; apply base_rand, base_later; [exact B2|apply LT]|rewrite E; exact ER2|]. intros x y Q1 Q2. injection Q1 as <-. injection Q2 as <-.
      eapply fine_mono; [|apply FN].
      * intros i j Z. apply (proj2 SB). rewrite E. exact Z.
      * apply (dl_agree pts0 T v st s all u B); apply (dl_node pts0 T v mk st s all u B S0); assumption.
      * apply (dl_wide_out pts0 T v mk mk_trans mk_refl mk_sym st s all u e B S0 IE NI BEF AFT D F); assumption.
Qed.
Lemma loop_Inv fuel : forall st s all u st', base st s all u -> sub st' -> loop fuel st = Some st' -> Inv (s_sweep st) s all -> exists s' all' u', base st' s' all' u' /\ Inv (s_sweep st') s' all' /\ more _ (s_events st') = false.
Proof.
  induction fuel as [|f IH]; intros st s all u st' B SB H I0; cbn [sweep_loop] in H; destruct (more ev (s_events st)) eqn:M; try discriminate; try (injection H as <-; eauto 6).
  destruct (step st) as [st1|] eqn:E; [|discriminate]. pose proof (sub_ext _ _ _ _ (loop_ext _ _ _ _ _ _ _ H) SB) as S1. destruct (step_Inv _ _ _ _ _ B S1 M E I0) as (s1 & all1 & u1 & B1 & I1). exact (IH _ _ _ _ _ B1 SB H I1).
Qed.
End Fixed.

(** At the end of a sweep. *)
Definition vof (st : cstate) (n : nat) : cseg := nth n (s_nodes st) (mk_cseg 0 0 (0, 0)%Z (0, 0)%Z).
Lemma sub_self st : sub (vof st) (mkp (s_pts st)) st.
Proof. split; [|auto]. intros n g H. apply nth_error_nth. exact H. Qed.
Lemma loop_dtr fuel st all u st' : base st [] all u -> s_sweep st = [] -> loop fuel st = Some st' ->
  exists s' all' u', base st' s' all' u' /\ more _ (s_events st') = false /\ Permutation s' all' /\ dtr (vof st') (mkp (s_pts st')) (alive s') (s_sweep st').
Proof.
  intros B SW H. destruct (loop_Inv (vof st') (mkp (s_pts st')) (mkp_trans _) (mkp_refl _) (mkp_sym _) fuel st [] all u st' B (sub_self st') H) as (s' & all' & u' & B' & (t & s2 & Rt & W & PU) & M').
  { rewrite SW. apply WI_now; [left; apply d_nil|intros y x []]. }
  exists s', all', u'. split; [exact B'|]. split; [exact M'|].
  assert (P : Permutation s' all').
  { pose proof (ok_q _ _ _ _ _ (b_ok _ _ _ _ _ _ B')) as Q. unfold more in M'. apply orb_false_iff in M' as (M1 & M2). apply Z.ltb_ge in M1.
    inversion Q as [L J c E1 E2 SS E3 E4 BB E5 PP|L J e p l c E1 E2 SS E3 G1 LJ E4 BB PC E5 PP]; [|rewrite E3 in M2; discriminate].
    rewrite E1, app_length, E4 in M1. assert (J = []) by (destruct J; [reflexivity|cbn in M1; lia]). assert (c = length L) by (subst J; cbn in M1; lia). subst J c.
    rewrite map_id, ?app_nil_r in *. rewrite firstn_all in E5. rewrite E5, PP. apply Permutation_sym, Permutation_rev. }
  split; [exact P|]. assert (IA : forall x, In x all' -> In x s') by (intros x; apply Permutation_in, Permutation_sym, P).
  assert (s2 = []) by (destruct PU as [PU|(f0 & F1 & F2 & _)]; [exact PU|exfalso; apply F2, IA, F1]). subst s2. destruct W as [W1 _ W3 W4]. cbn [app] in W1. subst t.
  destruct (proj2 (path_len _ _ _ _ _ W3) eq_refl) as (_ & ->). destruct W4 as [W4|(k1 & _ & O1 & O2 & _)]; [exact W4|exfalso; apply O2, IA, O1].
Qed.
End Loop.
