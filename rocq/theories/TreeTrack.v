(** What becomes of the anchors put behind recorded lines, while the lines are followed and
    joined. *)
From Coq Require Import ZArith List Bool Arith Permutation Lia.
From Verif Require Import GeomModel OutModel OutSpec JoinSpec CycleProofs JoinProofs LinkProofs MatchProofs FinishProofs.
Import ListNotations.

(** Ordinary points stay where they are. *)
Definition calm (pts pts' : list opoint) : Prop :=
  length pts <= length pts' /\ forall j p, nth_error pts j = Some p -> o_anchor p = false -> exists p', nth_error pts' j = Some p' /\ o_anchor p' = false /\ o_data p' = o_data p.
Lemma calm_refl pts : calm pts pts.
Proof. split; [lia|]. intros j p E A. exists p. auto. Qed.
Lemma calm_trans a b c : calm a b -> calm b c -> calm a c.
Proof. intros (L1 & C1) (L2 & C2). split; [lia|]. intros j p E A. destruct (C1 j p E A) as (p1 & E1 & A1 & D1). destruct (C2 j p1 E1 A1) as (p2 & E2 & A2 & D2). exists p2. split; [exact E2|]. split; [exact A2|congruence]. Qed.
Lemma calm_at pts pts' j : calm pts pts' -> oan pts j = false -> j < length pts -> oan pts' j = false /\ j < length pts' /\ pos pts' j = pos pts j.
Proof.
  intros (L & C) O J. destruct (nth_error pts j) as [p|] eqn:E; [|apply nth_error_None in E; lia]. assert (A : o_anchor p = false) by (unfold oan in O; rewrite E in O; exact O).
  destruct (C j p E A) as (p' & E' & A' & D). unfold oan, pos. rewrite E, E'. split; [exact A'|]. split; [lia|exact D].
Qed.
Lemma grows_calm pts pts' i : grows pts pts' i -> calm pts pts'.
Proof. intros G. split; [apply G|]. intros j p E A. destruct (g_same _ _ _ G j p E) as (n & E'). exists (set_next p n). auto. Qed.

(** The anchor a of the line from A to B that starts at the point i, not followed yet. *)
Definition held (pts : list opoint) (a i : nat) (A B : point) : Prop :=
  exists p j, nth_error pts i = Some p /\ o_next p = a /\ o_anchor p = false /\ o_data p = A /\ nth_error pts a = Some (mk_op A j Undef true) /\ oan pts j = false /\ j < length pts /\ pos pts j = B.
(** The line from A to B that starts at the point i, with or without an anchor. *)
Definition line_at (pts : list opoint) (i : nat) (A B : point) : Prop :=
  (oan pts i = false /\ i < length pts /\ oan pts (onx pts i) = false /\ onx pts i < length pts /\ pos pts i = A /\ pos pts (onx pts i) = B) \/ exists a, held pts a i A B.
(** The anchor of a line that has been followed with the result r. *)
Definition done (pts : list opoint) (a : nat) (A B : point) (r : lstate) : Prop :=
  exists D j, nth_error pts a = Some (mk_op D j (Res r) true) /\ oan pts j = false /\ j < length pts /\ (r = LSkeep -> D = A /\ pos pts j = B) /\ (r = LSkeep_rev -> D = B /\ pos pts j = A).

Lemma done_calm pts pts' a A B r : calm pts pts' -> nth_error pts' a = nth_error pts a -> done pts a A B r -> done pts' a A B r.
Proof.
  intros C E (D & j & E0 & O & J & K1 & K2). destruct (calm_at _ _ _ C O J) as (O' & J' & P). exists D, j. rewrite E, P. auto.
Qed.
Lemma held_calm pts pts' a i A B : calm pts pts' -> nth_error pts' i = nth_error pts i -> nth_error pts' a = nth_error pts a -> held pts a i A B -> held pts' a i A B.
Proof.
  intros C EI EA (p & j & E & N & OA & D & Ea & O & J & P). destruct (calm_at _ _ _ C O J) as (O' & J' & P'). exists p, j. rewrite EI, EA, P'. repeat (split; [assumption|]). assumption.
Qed.

(** * Insertion *)
Lemma insert_calm pts k pts' b : insert_anchor pts k = Some (pts', b) -> calm pts pts'.
Proof. intros H. apply (grows_calm _ _ k). apply (insert_grows _ _ _ _ H). Qed.
Lemma anchor_stays pts k pts' b a p : insert_anchor pts k = Some (pts', b) -> oan pts k = false -> nth_error pts a = Some p -> o_anchor p = true -> nth_error pts' a = nth_error pts a.
Proof.
  intros H O E A. pose proof (insert_grows _ _ _ _ H) as G. apply (g_other _ _ _ G); [|eapply nth_lt; eauto]. intros ->. unfold oan in O. rewrite E in O. congruence.
Qed.
Lemma done_insert pts k pts' b a A B r : insert_anchor pts k = Some (pts', b) -> oan pts k = false -> done pts a A B r -> done pts' a A B r.
Proof.
  intros H O D. pose proof D as (D0 & j & E & _). apply (done_calm pts); [eapply insert_calm; eauto| |exact D]. eapply anchor_stays; eauto.
Qed.
Lemma held_insert pts k pts' b a i A B : insert_anchor pts k = Some (pts', b) -> oan pts k = false -> held pts a i A B -> held pts' a i A B.
Proof.
  intros H O D. pose proof D as (p & j & E & N & OA & DD & Ea & Oj & J & P).
  assert (EA : nth_error pts' a = nth_error pts a) by (eapply anchor_stays; eauto).
  apply (held_calm pts); [eapply insert_calm; eauto| |exact EA|exact D].
  destruct (Nat.eq_dec i k) as [<-|NE]; [|apply (g_other _ _ _ (insert_grows _ _ _ _ H)); [exact NE|eapply nth_lt; eauto]].
  unfold insert_anchor in H. rewrite E, N, Ea in H. cbn [o_anchor] in H. injection H as <- <-. reflexivity.
Qed.
Lemma insert_held pts i pts' a A B : insert_anchor pts i = Some (pts', a) -> line_at pts i A B -> held pts' a i A B.
Proof.
  intros H [(O & LI & ON & LN & PA & PB)|(a0 & HD)].
  - pose proof (insert_calm _ _ _ _ H) as C. destruct (calm_at _ _ _ C ON LN) as (ON' & LN' & PN'). apply insert_shape in H as (p & E & [(-> & -> & OA)|(OA & L & -> & ->)]).
    + unfold onx in ON. rewrite E in ON. congruence.
    + unfold onx in *. rewrite E in *. exists (set_next p (length pts)), (o_next p). rewrite nth_error_app1 by (rewrite put_length; exact LI). rewrite (put_same' _ _ _ _ E).
      assert (OP : o_anchor p = false) by (unfold oan in O; rewrite E in O; exact O). assert (DP : o_data p = A) by (unfold pos in PA; rewrite E in PA; exact PA).
      split; [reflexivity|]. split; [reflexivity|]. split; [exact OP|]. split; [exact DP|]. rewrite nth_error_app2 by (rewrite put_length; lia). rewrite put_length, Nat.sub_diag. rewrite <- DP. split; [reflexivity|]. split; [exact ON'|]. split; [exact LN'|]. congruence.
  - pose proof HD as (p & j & E & N & OA & DD & Ea & Oj & J & P). assert (O : oan pts i = false) by (unfold oan; rewrite E; exact OA).
    pose proof H as H'. unfold insert_anchor in H'. rewrite E, N, Ea in H'. cbn [o_anchor] in H'. injection H' as <- <-. exact HD.
Qed.
Lemma line_insert pts k pts' b i A B : insert_anchor pts k = Some (pts', b) -> oan pts k = false -> line_at pts i A B -> line_at pts' i A B.
Proof.
  intros H O LA. destruct (Nat.eq_dec i k) as [<-|NE]; [right; exists b; eapply insert_held; eauto|].
  destruct LA as [(OI & LI & ON & LN & PA & PB)|(a & HD)]; [|right; exists a; eapply held_insert; eauto].
  left. pose proof (insert_calm _ _ _ _ H) as C. destruct (calm_at _ _ _ C ON LN) as (ON' & LN' & PN'). destruct (calm_at _ _ _ C OI LI) as (OI' & LI' & PI').
  assert (E : onx pts' i = onx pts i) by (unfold onx; rewrite (g_other _ _ _ (insert_grows _ _ _ _ H)) by assumption; reflexivity). rewrite E, PI', PN'. auto 10.
Qed.

(** The points of a run before and after an insertion. *)
Lemma trail_det pts pts' k b : insert_anchor pts k = Some (pts', b) -> forall c m e c' e', trail pts m c e -> trail pts' m c' e' -> incl c c' /\ forall x, In x c' -> x < length pts -> In x c.
Proof.
  intros H. pose proof (insert_grows _ _ _ _ H) as G. apply insert_shape in H as (pk & EK & [(-> & _)|(OA & LK & -> & EP)]).
  - induction c as [|y c IH]; intros m e c' e' T T'.
    + cbn in T. destruct T as (-> & q & r & E & S). destruct c' as [|z c']; [split; [intros x []|intros x []]|]. cbn in T'. destruct T' as (-> & q' & E' & U & _). congruence.
    + cbn in T. destruct T as (-> & q & E & U & T). destruct c' as [|z c']; [cbn in T'; destruct T' as (-> & q' & r' & E' & S'); congruence|]. cbn in T'. destruct T' as (-> & q' & E' & U' & T'). rewrite E in E'. injection E' as <-.
      destruct (IH _ _ _ _ T T') as (I1 & I2). split; [intros x [<-|X]; [left; reflexivity|right; auto]|]. intros x [<-|X] LX; [left; reflexivity|right; auto].
  - assert (NEW : nth_error pts' (length pts) = Some (mk_op (o_data pk) (o_next pk) Undef true)) by (rewrite EP, nth_error_app2 by (rewrite put_length; lia); rewrite put_length, Nat.sub_diag; reflexivity).
    assert (ATK : nth_error pts' k = Some (set_next pk (length pts))) by (rewrite EP, nth_error_app1 by (rewrite put_length; eapply nth_lt; eauto); apply (put_same' _ _ _ _ EK)). clear EP.
    induction c as [|y c IH]; intros m e c' e' T T'.
    + cbn in T. destruct T as (-> & q & r & E & S). destruct (g_same _ _ _ G _ _ E) as (n & E1). destruct c' as [|z c']; [split; [intros x []|intros x []]|]. cbn in T'. destruct T' as (-> & q' & E' & U & _). rewrite E1 in E'. injection E' as <-. cbn in U. congruence.
    + cbn in T. destruct T as (-> & q & E & U & T). destruct (g_same _ _ _ G _ _ E) as (n & E1). destruct c' as [|z c']; [cbn in T'; destruct T' as (-> & q' & r' & E' & S'); rewrite E1 in E'; injection E' as <-; cbn in S'; congruence|].
      cbn in T'. destruct T' as (-> & q' & E' & U' & T'). destruct (Nat.eq_dec m k) as [->|N].
      * rewrite ATK in E'. injection E' as <-. cbn [set_next o_next] in T'. rewrite EK in E. injection E as <-. destruct c' as [|z c']; [cbn in T'; destruct T' as (<- & q' & r' & E' & S'); rewrite NEW in E'; injection E' as <-; discriminate|].
        cbn in T'. destruct T' as (-> & q' & E' & _ & T'). rewrite NEW in E'. injection E' as <-. cbn [o_next] in T'. destruct (IH _ _ _ _ T T') as (I1 & I2).
        split; [intros x [<-|X]; [left; reflexivity|right; right; auto]|]. intros x [<-|[<-|X]] LX; [left; reflexivity|lia|right; auto].
      * rewrite (g_other _ _ _ G) in E' by (auto; eapply nth_lt; eauto). rewrite E in E'. injection E' as <-. destruct (IH _ _ _ _ T T') as (I1 & I2).
        split; [intros x [<-|X]; [left; reflexivity|right; auto]|]. intros x [<-|X] LX; [left; reflexivity|right; auto].
Qed.
Lemma nodes_det pts pts' k b R R' : insert_anchor pts k = Some (pts', b) -> is_run pts R -> is_run pts' R' -> head R' = head R -> incl (nodes R) (nodes R') /\ forall x, In x (nodes R') -> x < length pts -> In x (nodes R).
Proof.
  intros H RN RN' HD. pose proof (insert_grows _ _ _ _ H) as G. destruct R as ((i, c), e). destruct R' as ((i', c'), e'). cbn [head fst] in HD. subst i'. destruct RN as (p & r & E & S & T). destruct RN' as (p' & r' & E' & S' & T').
  unfold nodes. cbn [head fst snd]. destruct (Nat.eq_dec i k) as [->|N].
  - pose proof H as H0. apply insert_shape in H0 as (pk & EK & [(-> & _)|(OA & LK & -> & EP)]).
    + assert (p' = p) by congruence. subst p'. destruct (trail_det _ _ _ _ H _ _ _ _ _ T T') as (I1 & I2). split; [intros x [<-|X]; [left; reflexivity|right; auto]|]. intros x [<-|X] LX; [left; reflexivity|right; auto].
    + assert (p = pk) by congruence. subst pk.
      assert (NEW : nth_error pts' (length pts) = Some (mk_op (o_data p) (o_next p) Undef true)) by (rewrite EP, nth_error_app2 by (rewrite put_length; lia); rewrite put_length, Nat.sub_diag; reflexivity).
      assert (ATK : nth_error pts' k = Some (set_next p (length pts))) by (rewrite EP, nth_error_app1 by (rewrite put_length; eapply nth_lt; eauto); apply (put_same' _ _ _ _ EK)).
      rewrite ATK in E'. injection E' as <-. cbn [set_next o_next] in T'. destruct c' as [|z c']; [cbn in T'; destruct T' as (<- & q' & r1 & E' & S1); rewrite NEW in E'; injection E' as <-; discriminate|].
      cbn in T'. destruct T' as (-> & q' & E' & _ & T'). rewrite NEW in E'. injection E' as <-. cbn [o_next] in T'. destruct (trail_det _ _ _ _ H _ _ _ _ _ T T') as (I1 & I2).
      split; [intros x [<-|X]; [left; reflexivity|right; right; auto]|]. intros x [<-|[<-|X]] LX; [left; reflexivity|lia|right; auto].
  - rewrite (g_other _ _ _ G) in E' by (auto; eapply nth_lt; eauto). rewrite E in E'. injection E' as <-. destruct (trail_det _ _ _ _ H _ _ _ _ _ T T') as (I1 & I2).
    split; [intros x [<-|X]; [left; reflexivity|right; auto]|]. intros x [<-|X] LX; [left; reflexivity|right; auto].
Qed.

(** * Following one run *)
Lemma trail_after pts : forall c n e i k x q, trail pts n c e -> onx pts i = n -> nth_error (i :: c) k = Some x -> nth_error pts (onx pts x) = Some q -> o_state q = Undef -> nth_error c k = Some (onx pts x).
Proof.
  induction c as [|y c IH]; intros n e i k x q T N X Q U.
  - destruct k as [|k]; [|destruct k; discriminate]. injection X as <-. cbn in T. destruct T as (-> & q' & r & E & S). rewrite N in Q. congruence.
  - cbn in T. destruct T as (-> & q' & E & U' & T). destruct k as [|k]; [injection X as <-; rewrite N; reflexivity|]. cbn [nth_error] in X |- *. eapply (IH _ _ n); eauto. unfold onx. rewrite E. reflexivity.
Qed.
Lemma turned_at pts pts' : forall c prev k i a, turned_to pts pts' prev c -> nth_error (prev :: c) k = Some i -> nth_error c k = Some a ->
  exists q, nth_error pts a = Some q /\ nth_error pts' a = Some (mk_op (if o_anchor q then pos pts (o_next q) else o_data q) i (Res LSkeep_rev) (o_anchor q)).
Proof.
  induction c as [|x c IH]; intros prev k i a T I A; [destruct k; discriminate|]. destruct T as (Q & T). destruct k as [|k]; [injection I as <-; injection A as <-; exact Q|]. cbn [nth_error] in *. eapply IH; eauto.
Qed.
Lemma follow_frame fuel pts br merged K i c e RC pts' br' m' : fstate pts br K ((i, c, e) :: RC) -> follow_balance fuel pts br merged i = Some (pts', br', m') ->
  exists r, judgement pts (i, c, e) = Res r /\ calm pts pts' /\ (forall j, ~ In j c -> nth_error pts' j = nth_error pts j) /\ marked r pts pts' i c /\ NoDup (i :: c) /\ (exists p, nth_error pts i = Some p /\ trail pts (o_next p) c e) /\ oan pts i = false.
Proof.
  intros (FI & RK & ND & DJ & KA) H. apply Forall_cons_iff in RK as (RK & RKS). pose proof RK as ((p & r & E & SR & T) & HA & EA & AN). cbn [head fst snd whole_run] in HA, EA, AN.
  cbn [flat_map] in ND. apply NoDup_app_iff in ND as (ND1 & ND2 & ND3). unfold nodes in ND1. cbn [head fst snd] in ND1. pose proof ND1 as NDC. apply NoDup_cons_iff in ND1 as (NI & NC).
  destruct (follow_exact c fuel r pts merged i (o_next p) e T NC) as (pts1 & m1 & F1 & F2 & LEN & OTH & MK).
  assert (AP : o_anchor p = false) by (unfold oan in HA; rewrite E in HA; exact HA).
  unfold follow_balance in H. rewrite E, SR, AP in H. destruct (Nat.lt_ge_cases (length c) fuel) as [L|L]; [|rewrite (F2 L) in H; discriminate]. rewrite (F1 L) in H.
  assert (pts' = pts1). { destruct r; [injection H as <- _ _; reflexivity|injection H as <- _ _; reflexivity| |]; repeat (match type of H with match ?x with _ => _ end = _ => destruct x; try discriminate end); injection H as <- _ _; reflexivity. } subst pts1.
  exists r. split; [unfold judgement; cbn [fst]; rewrite E; exact SR|]. split; [|split; [exact OTH|split; [exact MK|split; [exact NDC|split; [exists p; auto|exact HA]]]]].
  split; [lia|]. intros j q Q OQ. destruct (in_dec Nat.eq_dec j c) as [X|X]; [|exists q; rewrite OTH by exact X; auto].
  destruct (match r with LSkeep_rev => true | _ => false end) eqn:RV.
  - destruct r; try discriminate. cbn [marked] in MK. apply In_nth_error in X as (k & X). assert (LE : k < length (i :: c)) by (apply nth_lt in X; cbn; lia). destruct (nth_error (i :: c) k) as [y|] eqn:Y; [|apply nth_error_None in Y; lia].
    destruct (turned_at _ _ _ _ _ _ _ MK Y X) as (q' & Q' & W). rewrite Q in Q'. injection Q' as <-. rewrite OQ in W. eexists. split; [exact W|]. auto.
  - assert (MK' : forall x, In x c -> exists q, nth_error pts x = Some q /\ nth_error pts' x = Some (set_state q (Res r))) by (destruct r; try discriminate; exact MK). destruct (MK' j X) as (q' & Q' & W). rewrite Q in Q'. injection Q' as <-. eexists. split; [exact W|]. auto.
Qed.
Lemma follow_own fuel pts br merged K i c e RC pts' br' m' a x A B r : fstate pts br K ((i, c, e) :: RC) -> follow_balance fuel pts br merged i = Some (pts', br', m') ->
  judgement pts (i, c, e) = Res r -> In x (i :: c) -> held pts a x A B -> done pts' a A B r.
Proof.
  intros F H JR X HD. destruct (follow_frame _ _ _ _ _ _ _ _ _ _ _ _ F H) as (r' & JR' & C & OTH & MK & ND & (p0 & E0 & T) & OI). assert (r' = r) by congruence. subst r'.
  pose proof HD as (p & j & E & N & OA & DD & Ea & Oj & J & P). apply In_nth_error in X as (k & X). assert (NX : onx pts x = a) by (unfold onx; rewrite E; exact N).
  pose proof (trail_after _ _ _ _ i k x _ T ltac:(unfold onx; rewrite E0; reflexivity) X ltac:(rewrite NX; exact Ea) eq_refl) as Y. rewrite NX in Y. destruct (calm_at _ _ _ C Oj J) as (Oj' & J' & P').
  assert (Ox : oan pts x = false) by (unfold oan; rewrite E; exact OA). assert (Lx : x < length pts) by (eapply nth_lt; eauto). destruct (calm_at _ _ _ C Ox Lx) as (Ox' & Lx' & Px').
  destruct (match r with LSkeep_rev => true | _ => false end) eqn:RV.
  - destruct r; try discriminate. cbn [marked] in MK. destruct (turned_at _ _ _ _ _ _ _ MK X Y) as (q & Q & W). rewrite Ea in Q. injection Q as <-. cbn [o_anchor o_next] in W. exists (pos pts j), x. split; [exact W|]. split; [exact Ox'|]. split; [exact Lx'|]. split; [discriminate|].
    intros _. split; [exact P|]. rewrite Px'. unfold pos. rewrite E. exact DD.
  - assert (MK' : forall x, In x c -> exists q, nth_error pts x = Some q /\ nth_error pts' x = Some (set_state q (Res r))) by (destruct r; try discriminate; exact MK). destruct (MK' a (nth_error_In _ _ Y)) as (q & Q & W). rewrite Ea in Q. injection Q as <-.
    exists A, j. split; [exact W|]. split; [exact Oj'|]. split; [exact J'|]. split; [intros _; split; [reflexivity|congruence]|]. intros ->. discriminate.
Qed.
Lemma follow_done fuel pts br merged K i c e RC pts' br' m' a A B r : fstate pts br K ((i, c, e) :: RC) -> follow_balance fuel pts br merged i = Some (pts', br', m') -> done pts a A B r -> done pts' a A B r.
Proof.
  intros F H D. destruct (follow_frame _ _ _ _ _ _ _ _ _ _ _ _ F H) as (r' & JR' & C & OTH & MK & ND & (p0 & E0 & T) & OI). apply (done_calm pts); [exact C| |exact D]. apply OTH. intros X. destruct D as (D0 & j & E & _). destruct (trail_undef _ _ _ _ _ T X) as (q & Q & U). rewrite E in Q. injection Q as <-. discriminate.
Qed.
Lemma node_next pts R x q : is_run pts R -> In x (nodes R) -> nth_error pts (onx pts x) = Some q -> o_state q = Undef -> In (onx pts x) (nodes R).
Proof.
  destruct R as ((i, c), e). intros (p & r & E & S & T) X Q U. unfold nodes in *. cbn [head fst snd] in *. apply In_nth_error in X as (k & X). right. eapply nth_error_In. eapply (trail_after _ _ _ _ i k x q T); eauto. unfold onx. rewrite E. reflexivity.
Qed.
Lemma follow_other fuel pts br merged K i c e RC pts' br' m' R x : fstate pts br K ((i, c, e) :: RC) -> follow_balance fuel pts br merged i = Some (pts', br', m') -> In R RC -> In x (nodes R) ->
  nth_error pts' x = nth_error pts x /\ (forall a A B, held pts a x A B -> held pts' a x A B) /\ (forall A B, line_at pts x A B -> line_at pts' x A B).
Proof.
  intros F H IR X. destruct (follow_frame _ _ _ _ _ _ _ _ _ _ _ _ F H) as (r' & JR' & C & OTH & MK & ND & (p0 & E0 & T) & OI). destruct F as (_ & RK & NDN & _). apply Forall_cons_iff in RK as (_ & RKS). assert (RR : is_run pts R) by (eapply Forall_forall in RKS; [|exact IR]; apply RKS).
  assert (DIS : forall y, In y (nodes R) -> nth_error pts' y = nth_error pts y).
  { intros y Y. apply OTH. intros Z. cbn [flat_map] in NDN. apply NoDup_app_iff in NDN as (_ & _ & N3). apply (N3 y); [right; exact Z|]. apply in_flat_map. eauto. }
  assert (HH : forall a A B, held pts a x A B -> held pts' a x A B).
  { intros a A B HD. pose proof HD as (p & j & E & N & OA & DD & Ea & Oj & J & P). apply (held_calm pts); [exact C|apply DIS; exact X| |exact HD]. apply DIS. assert (NX : onx pts x = a) by (unfold onx; rewrite E; exact N). rewrite <- NX. eapply node_next; eauto; [rewrite NX; exact Ea|reflexivity]. }
  split; [apply DIS; exact X|]. split; [exact HH|]. intros A B [(OX & LX & ON & LN & PA & PB)|(a & HD)]; [|right; exists a; auto].
  left. destruct (calm_at _ _ _ C OX LX) as (OX' & LX' & PX'). assert (EN : onx pts' x = onx pts x) by (unfold onx; rewrite DIS by exact X; reflexivity). destruct (calm_at _ _ _ C ON LN) as (ON' & LN' & PN'). rewrite EN, PX', PN'. auto 10.
Qed.

(** * Following all samples *)
Lemma Forall2_pick {A B} (P : A -> B -> Prop) l l' x : Forall2 P l l' -> In x l -> exists y, In y l' /\ P x y.
Proof. induction 1 as [|a b l l' Q F IH]; intros X; [destruct X|]. destruct X as [<-|X]; [exists b; cbn; auto|]. destruct (IH X) as (y & Y & Z). exists y. cbn. auto. Qed.
Lemma Forall2_pick_r {A B} (P : A -> B -> Prop) l l' y : Forall2 P l l' -> In y l' -> exists x, In x l /\ P x y.
Proof. induction 1 as [|a b l l' Q F IH]; intros X; [destruct X|]. destruct X as [<-|X]; [exists a; cbn; auto|]. destruct (IH X) as (x & Y & Z). exists x. cbn. auto. Qed.
Lemma Forall2_impl {A B} (P Q : A -> B -> Prop) l l' : (forall x y, P x y -> Q x y) -> Forall2 P l l' -> Forall2 Q l l'.
Proof. intros H. induction 1; constructor; auto. Qed.
Lemma Forall2_chain {A B C} (P : A -> B -> Prop) (Q : B -> C -> Prop) (T : A -> C -> Prop) l m k : Forall2 P l m -> Forall2 Q m k -> (forall x y z, In x l -> P x y -> Q y z -> T x z) -> Forall2 T l k.
Proof. intros F. revert k. induction F as [|x y l m X F IH]; intros k G H; inversion G; subst; constructor; [eapply H; eauto; left; reflexivity|]. apply IH; auto. intros a b c I. apply H. right. exact I. Qed.
Section Track.
Variable n : nat.
Variable A B : nat -> point.
Definition lines_ok (pts : list opoint) (RC : list run) : Prop := n <= length pts /\ forall R i, In R RC -> In i (nodes R) -> i < n -> line_at pts i (A i) (B i).
Lemma insert_lines pts k pts' b RC RC' : insert_anchor pts k = Some (pts', b) -> oan pts k = false -> Forall (rok pts) RC -> Forall2 (same_run pts pts') RC RC' -> lines_ok pts RC -> lines_ok pts' RC'.
Proof.
  intros H O RK SR (LN & LO). split; [pose proof (g_len _ _ _ (insert_grows _ _ _ _ H)); lia|]. intros R' i IR IX LI. destruct (Forall2_pick_r _ _ _ _ SR IR) as (R & IR0 & SM).
  apply (line_insert _ _ _ _ _ _ _ H O). apply (LO R); auto. eapply Forall_forall in RK; [|exact IR0]. destruct (nodes_det _ _ _ _ R R' H (proj1 RK)) as (_ & N2); [apply SM|apply SM|]. apply N2; [exact IX|lia].
Qed.
Lemma follow_track : forall ss fuel pts br merged K RC pts' br' m' ss', fstate pts br K RC -> map head RC = map fst ss -> (forall R, In R RC -> head R < n) -> lines_ok pts RC ->
  follow_all fuel true pts br merged ss = Some (pts', br', m', ss') ->
  calm pts pts' /\ (forall a x y r, done pts a x y r -> done pts' a x y r) /\
  (forall a R i r, In R RC -> In i (nodes R) -> judgement pts R = Res r -> held pts a i (A i) (B i) -> done pts' a (A i) (B i) r) /\
  Forall2 (fun s s' => snd s' = snd s /\ exists R r, In R RC /\ head R = fst s /\ judgement pts R = Res r /\ done pts' (fst s') (A (fst s)) (B (fst s)) r) ss ss'.
Proof.
  induction ss as [|(i, hits) ss IH]; intros fuel pts br merged K RC pts' br' m' ss' F HD HL LO H.
  - destruct RC; [|discriminate]. cbn [follow_all] in H. injection H as <- <- <- <-. split; [apply calm_refl|]. split; [auto|]. split; [intros a R i r []|constructor].
  - destruct RC as [|R RC]; [discriminate|]. cbn [map fst] in HD. injection HD as HR HD. cbn [follow_all] in H. destruct (insert_anchor pts i) as [(pts1, a1)|] eqn:EI; [|discriminate].
    destruct (follow_balance fuel pts1 br merged i) as [((pts2, br2), m2)|] eqn:EF; [|discriminate]. destruct (follow_all fuel true pts2 br2 m2 ss) as [(((pts3, br3), m3), ss3)|] eqn:E3; [|discriminate]. injection H as <- <- <- <-.
    destruct (fstate_insert pts br K (R :: RC) i pts1 a1 F EI) as (RC1 & S1 & F1 & _); [left; exact HR|].
    assert (RK : Forall (rok pts) (R :: RC)) by apply F. assert (RKR : rok pts R) by (apply Forall_cons_iff in RK; apply RK). assert (OI : oan pts i = false) by (rewrite <- HR; apply RKR).
    pose proof (insert_lines _ _ _ _ _ _ EI OI RK S1 LO) as LO1. pose proof (insert_calm _ _ _ _ EI) as C1. pose proof S1 as S1'. inversion S1 as [|R0 R1 RC0 RC1' SR SRC Q1 Q2]; subst R0 RC0 RC1. destruct R1 as ((i1, c), e). assert (i1 = i) by (pose proof (proj1 SR) as W; cbn [head fst] in W; congruence). subst i1.
    destruct (follow_one fuel pts1 br merged K i c e RC1' F1) as (FN & FS). destruct (Nat.lt_ge_cases (length c) fuel) as [LF|LF]; [|rewrite (FN LF) in EF; discriminate].
    destruct (FS LF) as (pts2' & br2' & m2' & K2 & E2 & F2 & LEN & S2 & TA). rewrite EF in E2. injection E2 as <- <- <-. clear FN FS TA.
    destruct (follow_frame _ _ _ _ _ _ _ _ _ _ _ _ F1 EF) as (r & JR & C2 & _).
    assert (HD1 : map head RC1' = map fst ss). { rewrite <- HD. clear - SRC. induction SRC as [|x y l l' X F IH]; [reflexivity|]. cbn. rewrite IH. f_equal. apply X. }
    assert (HL1 : forall R, In R RC1' -> head R < n). { intros R' X. destruct (Forall2_pick_r _ _ _ _ SRC X) as (R0 & Y & Z). rewrite (proj1 Z). apply HL. right. exact Y. }
    assert (LO2 : lines_ok pts2 RC1'). { destruct LO1 as (L1 & L2). split; [lia|]. intros R' x IR IX LX. apply (follow_other _ _ _ _ _ _ _ _ _ _ _ _ R' x F1 EF IR IX). apply (L2 R'); auto. right. exact IR. }
    destruct (IH fuel pts2 br2 m2 K2 RC1' pts3 br3 m3 ss3 F2 HD1 HL1 LO2 E3) as (I1 & I2 & I3 & I4).
    assert (HIR : i < n) by (rewrite <- HR; apply HL; left; reflexivity).
    assert (JD : forall R' , In R' RC1' -> judgement pts2 R' = judgement pts1 R'). { intros R' X. destruct (follow_other _ _ _ _ _ _ _ _ _ _ _ _ R' (head R') F1 EF X) as (W & _); [left; reflexivity|]. unfold judgement. fold (head R'). rewrite W. reflexivity. }
    split; [eapply calm_trans; [exact C1|eapply calm_trans; [exact C2|exact I1]]|]. split; [|split].
    + intros a x y r' D. apply I2. eapply follow_done; eauto. eapply done_insert; eauto.
    + intros a R' x r' IR IX J HX. apply (held_insert _ _ _ _ _ _ _ _ EI OI) in HX. destruct (Forall2_pick _ _ _ _ S1' IR) as (R'' & IR'' & SM). assert (RKR' : is_run pts R') by (eapply Forall_forall in RK; [|exact IR]; apply RK).
      destruct (nodes_det _ _ _ _ R' R'' EI RKR') as (N1 & _); [apply SM|apply SM|]. apply N1 in IX. assert (J1 : judgement pts1 R'' = Res r') by (rewrite (proj1 (proj2 (proj2 SM))); exact J).
      destruct IR'' as [<-|IR''].
      * apply I2. eapply follow_own; eauto.
      * apply (I3 a R''); auto; [rewrite JD by exact IR''; exact J1|]. apply (follow_other _ _ _ _ _ _ _ _ _ _ _ _ R'' x F1 EF IR'' IX). exact HX.
    + constructor.
      * cbn [fst snd]. split; [reflexivity|]. exists R, r. split; [left; reflexivity|]. split; [exact HR|]. assert (J1 : judgement pts R = Res r) by (rewrite <- (proj1 (proj2 (proj2 SR))); exact JR). split; [exact J1|]. apply I2.
        apply (follow_own _ _ _ _ _ _ _ _ _ _ _ _ a1 i _ _ _ F1 EF JR); [left; reflexivity|]. apply (insert_held _ _ _ _ _ _ EI). apply (proj2 LO R); [left; reflexivity|rewrite <- HR; left; reflexivity|exact HIR].
      * eapply Forall2_impl; [|exact I4]. intros s s' (W1 & R' & r' & W2 & W3 & W4 & W5). split; [exact W1|]. destruct (Forall2_pick_r _ _ _ _ SRC W2) as (R0 & X0 & SM). exists R0, r'. split; [right; exact X0|]. split; [rewrite <- (proj1 SM); exact W3|]. split; [|exact W5].
        rewrite <- (proj1 (proj2 (proj2 SM))). rewrite <- (JD R' W2). exact W4.
Qed.

(** * Anchors for recorded lines *)
Lemma list_track : forall l pts RC pts' l', nexts_ok pts -> (forall i, In i l -> i < n /\ oan pts i = false /\ In i (flat_map nodes RC)) -> Forall (rok pts) RC -> NoDup (flat_map nodes RC) -> lines_ok pts RC ->
  anchor_list pts l = Some (pts', l') ->
  exists RC', Forall2 (same_run pts pts') RC RC' /\ grown pts pts' /\ NoDup (flat_map nodes RC') /\ lines_ok pts' RC' /\ (forall a x y z, held pts a x y z -> held pts' a x y z) /\ (Forall2 (fun R R' => incl (nodes R) (nodes R')) RC RC') /\
    Forall2 (fun i a => held pts' a i (A i) (B i)) l l'.
Proof.
  induction l as [|i l IH]; intros pts RC pts' l' NX HI RK ND LO H; cbn [anchor_list] in H.
  - injection H as <- <-. exists RC. split; [apply sames_refl; exact RK|]. split; [apply grown_refl|]. split; [exact ND|]. split; [exact LO|]. split; [auto|]. split; [|constructor]. clear. induction RC; constructor; auto. apply incl_refl.
  - destruct (insert_anchor pts i) as [(pts1, a)|] eqn:EI; [|discriminate]. destruct (anchor_list pts1 l) as [(pts2, l2)|] eqn:E2; [|discriminate]. injection H as <- <-. destruct (HI i (or_introl eq_refl)) as (LI & OI & II).
    pose proof (insert_grows _ _ _ _ EI) as G. pose proof (grows_grown _ _ _ G) as GN. destruct (insert_all _ _ _ _ RC EI OI RK ND) as (RC1 & S1 & ND1 & _).
    assert (INC : Forall2 (fun R R' => incl (nodes R) (nodes R')) RC RC1). { clear - S1 RK EI. induction S1 as [|x y l l' X F IH]; constructor; [|apply IH; apply Forall_cons_iff in RK; apply RK]. apply Forall_cons_iff in RK as (RX & _). apply (nodes_det _ _ _ _ _ _ EI); [apply RX|apply X|apply X]. }
    destruct (IH pts1 RC1 pts2 l2) as (RC2 & S2 & G2 & ND2 & LO2 & H2 & I2 & W2).
    + apply GN. exact NX.
    + intros j J. destruct (HI j (or_intror J)) as (LJ & OJ & IJ). split; [exact LJ|]. split; [rewrite (grown_oan _ _ _ GN); [exact OJ|destruct LO; lia]|]. apply in_flat_map in IJ as (R & IR & IX). destruct (Forall2_pick _ _ _ _ INC IR) as (R1 & IR1 & SUB). apply in_flat_map. exists R1. split; [exact IR1|apply SUB; exact IX].
    + eapply sames_rok; eauto.
    + exact ND1.
    + eapply insert_lines; eauto.
    + exact E2.
    + exists RC2. split; [eapply sames_trans; eauto|]. split; [eapply grown_trans; eauto|]. split; [exact ND2|]. split; [exact LO2|]. split; [intros b x y z HX; apply H2; eapply held_insert; eauto|]. split.
      * clear - INC I2. revert RC2 I2. induction INC; intros RC2 I2; inversion I2; subst; constructor; eauto. eapply incl_tran; eauto.
      * constructor; [|exact W2]. apply H2. eapply insert_held; eauto. apply in_flat_map in II as (R & IR & IX). apply (proj2 LO R); auto.
Qed.
Lemma hits_track : forall ss pts RC pts' ss', nexts_ok pts -> (forall s i, In s ss -> In i (snd s) -> i < n /\ oan pts i = false /\ In i (flat_map nodes RC)) -> Forall (rok pts) RC -> NoDup (flat_map nodes RC) -> lines_ok pts RC ->
  anchor_hits pts ss = Some (pts', ss') ->
  exists RC', Forall2 (same_run pts pts') RC RC' /\ grown pts pts' /\ NoDup (flat_map nodes RC') /\ lines_ok pts' RC' /\ (forall a x y z, held pts a x y z -> held pts' a x y z) /\ (Forall2 (fun R R' => incl (nodes R) (nodes R')) RC RC') /\
    Forall2 (fun s s' => fst s' = fst s /\ Forall2 (fun i a => held pts' a i (A i) (B i)) (snd s) (snd s')) ss ss'.
Proof.
  induction ss as [|(p, hits) ss IH]; intros pts RC pts' ss' NX HI RK ND LO H; cbn [anchor_hits] in H.
  - injection H as <- <-. exists RC. split; [apply sames_refl; exact RK|]. split; [apply grown_refl|]. split; [exact ND|]. split; [exact LO|]. split; [auto|]. split; [|constructor]. clear. induction RC; constructor; auto. apply incl_refl.
  - destruct (anchor_list pts hits) as [(pts1, l1)|] eqn:E1; [|discriminate]. destruct (anchor_hits pts1 ss) as [(pts2, ss2)|] eqn:E2; [|discriminate]. injection H as <- <-.
    destruct (list_track hits pts RC pts1 l1 NX) as (RC1 & S1 & G1 & ND1 & LO1 & H1 & I1 & W1); auto; [intros i X; apply (HI (p, hits)); [left; reflexivity|exact X]|].
    destruct (IH pts1 RC1 pts2 ss2) as (RC2 & S2 & G2 & ND2 & LO2 & H2 & I2 & W2).
    + apply G1. exact NX.
    + intros s j X J. destruct (HI s j (or_intror X) J) as (LJ & OJ & IJ). split; [exact LJ|]. split; [rewrite (grown_oan _ _ _ G1); [exact OJ|destruct LO; lia]|]. apply in_flat_map in IJ as (R & IR & IX). destruct (Forall2_pick _ _ _ _ I1 IR) as (R1 & IR1 & SUB). apply in_flat_map. exists R1. split; [exact IR1|apply SUB; exact IX].
    + eapply sames_rok; eauto.
    + exact ND1.
    + exact LO1.
    + exact E2.
    + exists RC2. split; [eapply sames_trans; eauto|]. split; [eapply grown_trans; eauto|]. split; [exact ND2|]. split; [exact LO2|]. split; [auto|]. split.
      * clear - I1 I2. revert RC2 I2. induction I1; intros RC2 I2; inversion I2; subst; constructor; eauto. eapply incl_tran; eauto.
      * constructor; [|exact W2]. cbn [fst snd]. split; [reflexivity|]. eapply Forall2_impl; [|exact W1]. intros i a X. apply H2. exact X.
Qed.
End Track.

(** * Orphans *)
Lemma match_track : forall O pts starts ends virts pts' starts' ends', (forall o, In o O -> oan pts o = false) -> match_orphans pts starts ends virts O = Some (pts', starts', ends') ->
  calm pts pts' /\ forall a x y r, done pts a x y r -> done pts' a x y r.
Proof.
  induction O as [|o O IH]; intros pts starts ends virts pts' starts' ends' HO H; cbn [match_orphans] in H; [injection H as <- _ _; split; [apply calm_refl|auto]|].
  destruct (nth_error pts o) as [p|] eqn:E; [|discriminate]. destruct (rev (pm_get virts (o_data p))) as [|vp rest]; [discriminate|]. destruct (v_end vp && negb (v_keep vp)); [discriminate|].
  assert (OP : o_anchor p = false) by (specialize (HO o (or_introl eq_refl)); unfold oan in HO; rewrite E in HO; exact HO).
  match type of H with match_orphans (put pts o ?p1) _ _ _ _ = _ => set (p' := p1) in * end.
  assert (C : calm pts (put pts o p')). { split; [rewrite put_length; lia|]. intros j q Q OQ. destruct (Nat.eq_dec o j) as [<-|N]; [exists p'; rewrite (put_same' _ _ _ _ E); split; [reflexivity|]; split; [reflexivity|]; rewrite E in Q; injection Q as <-; reflexivity|exists q; rewrite put_other by exact N; auto]. }
  apply IH in H as (C' & D').
  - split; [eapply calm_trans; eauto|]. intros a x y r D. apply D'. apply (done_calm pts); [exact C| |exact D]. apply put_other. intros <-. destruct D as (D0 & j & Ea & _). rewrite E in Ea. injection Ea as ->. discriminate.
  - intros o' X. destruct (Nat.lt_ge_cases o' (length pts)) as [L|L].
    + apply (calm_at _ _ _ C); [apply HO; right; exact X|exact L].
    + unfold oan. destruct (nth_error (put pts o p') o') eqn:E'; [|reflexivity]. apply nth_lt in E'. rewrite put_length in E'. lia.
Qed.

(** * Finding the loops leaves discarded points alone *)
Definition still (f : list fpoint) (g : list fpoint) : Prop := forall x p, nth_error f x = Some p -> f_index p = (-2)%Z -> exists p', nth_error g x = Some p' /\ f_index p' = (-2)%Z.
Lemma still_put f j p q : nth_error f j = Some p -> (f_index p = (-2)%Z -> f_index q = (-2)%Z) -> still f (put f j q).
Proof. intros E H x p0 X I. destruct (Nat.eq_dec j x) as [<-|N]; [exists q; rewrite (put_same' _ _ _ _ E); rewrite E in X; injection X as <-; auto|exists p0; rewrite put_other by exact N; auto]. Qed.
Lemma still_trans f g h : still f g -> still g h -> still f h.
Proof. intros A B x p X I. destruct (A x p X I) as (p1 & X1 & I1). exact (B x p1 X1 I1). Qed.
Lemma trace_still : forall fuel li i f prev j size g s, trace_loop fuel li i f prev j size = Some (g, s) -> still f g.
Proof.
  induction fuel as [|fuel IH]; intros li i f prev j size g s H; cbn [trace_loop] in H; (destruct (Nat.eqb j i); [injection H as <- _; intros x p X I; eauto|]); [discriminate|].
  destruct (nth_error f j) as [pj|] eqn:E; [|discriminate]. destruct (Z.eqb_spec (f_index pj) (-3)) as [I3|I3].
  - destruct (nth_error f prev) as [pp|] eqn:EP; [|discriminate]. apply IH in H. eapply still_trans; [|exact H]. eapply still_trans; [apply (still_put f prev pp (f_set_next pp (f_next pj)) EP); auto|].
    destruct (Nat.eq_dec prev j) as [<-|N]; [eapply still_put; [apply (put_same' _ _ _ _ EP)|cbn; intros; assert (pp = pj) by congruence; subst; congruence]|]. eapply still_put; [rewrite put_other by exact N; exact E|intros W; congruence].
  - destruct (Z.eqb_spec (f_index pj) (-1)) as [I1|I1]; [|discriminate]. apply IH in H. eapply still_trans; [|exact H]. eapply still_put; [exact E|intros W; congruence].
Qed.
Lemma find_still : forall k fuel i f loops g l, find_loops_from fuel k i f loops = Some (g, l) -> still f g.
Proof.
  induction k as [|k IH]; intros fuel i f loops g l H; cbn [find_loops_from] in H; [injection H as <- _; intros x p X I; eauto|].
  destruct (nth_error f i) as [p|] eqn:E; [|discriminate]. destruct (Z.eqb_spec (f_index p) (-1)) as [I1|I1]; [|eapply IH; eauto].
  match type of H with match ?t with _ => _ end = _ => destruct t as [(f1, sz)|] eqn:T end; [|discriminate]. apply IH in H. apply trace_still in T. eapply still_trans; [|exact H]. eapply still_trans; [|exact T]. eapply still_put; [exact E|intros W; congruence].
Qed.

(** * The whole stage *)
(** The point a stands for the line from A to B that was judged r: it is not in any loop if the
    line is discarded; otherwise the line from a to the next point is the line, in its final
    direction, and the loop of a is that of the next point. *)
Definition stands (fps : list fpoint) (Ls : list (list nat)) (a : nat) (A B : point) (r : lstate) : Prop :=
  exists p, nth_error fps a = Some p /\
  if keeps r then exists q k L, nth_error fps (f_next p) = Some q /\ nth_error Ls k = Some L /\ In (f_next p) L /\ f_index p = Z.of_nat k /\ (f_data p, f_data q) = (if revs r then (B, A) else (A, B))
  else f_index p = (-2)%Z.
Lemma edges_at pts pts' K a : edges pts' K = edges pts K -> In a K -> pos pts' (onx pts' a) = pos pts (onx pts a).
Proof. unfold edges. induction K as [|k K IH]; intros E X; [destruct X|]. cbn [map] in E. injection E as _ E1 E. destruct X as [<-|X]; auto. Qed.
Lemma finish_track fuel pts ss RS fps loops ss' merged : judged_points pts ss -> Forall (is_run pts) RS -> map head RS = map fst ss -> (forall s i, In s ss -> In i (snd s) -> In i (flat_map nodes RS)) ->
  finish fuel true pts ss = Some (fps, loops, ss', merged) ->
  exists Ls, Forall2 (fun loc L => L <> [] /\ iterate_loop fps (fst loc) (snd loc) = Some L) loops Ls /\ NoDup (concat Ls) /\
    (forall L x, In L Ls -> In x L -> x < length fps) /\
    Forall2 (fun s s' => (exists R r, In R RS /\ head R = fst s /\ judgement pts R = Res r /\ stands fps Ls (fst s') (pos pts (fst s)) (pos pts (onx pts (fst s))) r) /\
      Forall2 (fun i a => exists R r, In R RS /\ In i (nodes R) /\ judgement pts R = Res r /\ stands fps Ls a (pos pts i) (pos pts (onx pts i)) r) (snd s) (snd s')) ss ss'.
Proof.
  intros JP RUN HD HIN H. destruct (start_state _ _ _ JP RUN HD) as (NX & HT & RK & ND & _). destruct JP as (PERM & ST & NDS & JD & HITS).
  set (n := length pts). set (A := pos pts). set (B := fun i => pos pts (onx pts i)).
  assert (OA : forall i, oan pts i = false) by (intros i; unfold oan; destruct (nth_error pts i) as [p|] eqn:E; [apply ST; eapply nth_error_In; eauto|reflexivity]).
  assert (LO : lines_ok n A B pts RS). { split; [lia|]. intros R i IR IX LI. left. split; [apply OA|]. split; [exact LI|]. split; [apply OA|]. split; [|split; reflexivity]. unfold onx. destruct (nth_error pts i) as [p|] eqn:E; [eapply NX; eauto|apply nth_error_None in E; lia]. }
  unfold finish in H. destruct (anchor_hits pts ss) as [(pts1, ss1)|] eqn:E1; [|discriminate].
  destruct (hits_track n A B ss pts RS pts1 ss1 NX) as (RC1 & SM & G & ND1 & LO1 & _ & INC & W1); auto; [intros s i X Y; destruct (HT s i X Y) as (Y1 & Y2); split; [exact Y1|]; split; [exact Y2|]; eapply HIN; eauto|].
  assert (HF : map fst ss1 = map fst ss). { clear - W1. induction W1 as [|x y l l' X F IH]; [reflexivity|]. cbn. rewrite IH. f_equal. apply X. }
  assert (HF1 : map head RC1 = map head RS). { clear - SM. induction SM as [|x y l l' X F IH]; [reflexivity|]. cbn. rewrite IH. f_equal. apply X. }
  assert (RES1 : forall j p r, nth_error pts1 j = Some p -> o_state p = Res r -> isres pts j).
  { intros j p r Q S. destruct (Nat.lt_ge_cases j (length pts)) as [LJ|LJ]; [|destruct (n_new _ _ G j p LJ Q) as (U & _); congruence]. destruct (nth_error pts j) as [q|] eqn:E0; [|apply nth_error_None in E0; lia].
    destruct (n_same _ _ G j q E0) as (m & E2). rewrite Q in E2. injection E2 as ->. exists q, r. auto. }
  assert (F1 : fstate pts1 no_breaks [] RC1). { apply fstate_init; [eapply sames_rok; eauto|exact ND1|]. intros j p r Q S. rewrite HF1, HD. apply JD. apply (RES1 j p r Q S). }
  destruct (follow_all fuel true pts1 no_breaks [] ss1) as [(((pts2, br), m2), ss2)|] eqn:E2; [|discriminate].
  destruct (follow_all_ok true ss1 fuel pts1 no_breaks [] [] RC1 F1) as (_ & FS); [congruence|]. destruct (FS _ _ _ _ E2) as (K & (FI & _ & _ & _ & KA) & _).
  destruct (follow_track n A B ss1 fuel pts1 no_breaks [] [] RC1 pts2 br m2 ss2 F1) as (C2 & _ & T2 & W2); [congruence| |exact LO1|exact E2|].
  { intros R X. destruct (Forall2_pick_r _ _ _ _ SM X) as (R0 & Y & Z). rewrite (proj1 Z). eapply Forall_forall in RK; [|exact Y]. apply (run_bounds pts R0); [apply RK|]. destruct R0 as ((?, ?), ?). left. reflexivity. }
  assert (KI : kept_in pts2 K (b_orphans br)). { intros j p r Q S KR. destruct (KA j p r Q S KR) as [X|[X|[]]]; auto. }
  destruct (match_ok (b_orphans br) pts2 (b_starts br) (b_ends br) (b_virt br) K FI KI) as (_ & MS).
  destruct (match_orphans pts2 (b_starts br) (b_ends br) (b_virt br) (b_orphans br)) as [((pts3, starts), ends)|] eqn:E3; [|discriminate].
  destruct (match_track _ _ _ _ _ _ _ _ (fun o X => proj2 (b_orph _ _ _ _ _ (proj2 FI) o X)) E3) as (C3 & T3).
  destruct (MS _ _ _ eq_refl) as (K3 & L3 & ST3 & KI3 & _). destruct (join_ok ends pts3 starts K3 L3 ST3) as (_ & JS).
  destruct (join_ends pts3 starts ends) as [(pts4, starts4)|] eqn:E4; [|discriminate]. destruct (JS _ _ eq_refl) as (L4 & EE4 & LN4 & SAME4 & _).
  assert (KI4 : kept_in pts4 K3 []).
  { intros j p r Q S KR. destruct (nth_error pts3 j) as [q|] eqn:E0; [|apply nth_error_None in E0; apply nth_lt in Q; lia]. destruct (SAME4 j q E0) as (m & E5). rewrite Q in E5. injection E5 as ->. apply (KI3 j q r); auto. }
  destruct (forallb _ starts4); [|discriminate]. destruct (find_loops_ok (map index_point pts4) (links_closed _ _ _ L4 KI4)) as (fps' & loops' & Ls & FL & IT & PC & CN & DT & IX & AN). rewrite FL in H. injection H as <- <- <- <-.
  assert (LF : length fps' = length pts4) by (rewrite <- (map_length f_data fps'), DT, !map_length; reflexivity).
  assert (FP : forall i p, nth_error pts4 i = Some p -> exists q, nth_error fps' i = Some q /\ f_data q = o_data p).
  { intros i p E. assert (Q : option_map f_data (nth_error fps' i) = option_map o_data (nth_error pts4 i)) by (rewrite map_map in DT; rewrite <- !nth_error_map, DT; reflexivity). rewrite E in Q. destruct (nth_error fps' i) as [q|]; cbn in Q; [|discriminate]. exists q. split; [reflexivity|congruence]. }
  assert (KEY : forall a x y r, done pts2 a x y r -> stands fps' Ls a x y r).
  { intros a x y r D. apply T3 in D. destruct D as (D0 & j & Ea & Oj & Lj & K1 & K2). destruct (SAME4 a _ Ea) as (m & Ea4). destruct (FP a _ Ea4) as (p & EP & DP). cbn [set_next o_data o_next o_state o_anchor] in Ea4, DP. exists p. split; [exact EP|].
    assert (E0 : nth_error (map index_point pts4) a = Some (index_point (mk_op D0 m (Res r) true))) by (rewrite nth_error_map, Ea4; reflexivity).
    destruct (keeps r) eqn:KR.
    - assert (AK : In a K3) by (destruct (KI4 a _ r Ea4 eq_refl KR) as [X|[]]; exact X). assert (ON : onx pts4 a = m) by (unfold onx; rewrite Ea4; reflexivity).
      pose proof (anchor_next _ _ _ L4 a AK ltac:(unfold oan; rewrite Ea4; reflexivity)) as ON4. pose proof (next_kept _ _ _ L4 a AK) as NK. rewrite ON in *. destruct (l_keep _ _ _ _ L4 m NK) as (q & rq & EQ & SQ & KQ).
      assert (OQ : o_anchor q = false) by (unfold oan in ON4; rewrite EQ in ON4; exact ON4).
      assert (EM : nth_error (map index_point pts4) m = Some (mk_fp (o_data q) (o_next q) (-1))). { rewrite nth_error_map, EQ. cbn. unfold index_point. rewrite SQ, KQ, OQ. reflexivity. }
      assert (LD : leads_to (map index_point pts4) a m). { refine (leads_direct (map index_point pts4) a _ _ E0 EM _). reflexivity. }
      assert (I3 : f_index (index_point (mk_op D0 m (Res r) true)) = (-3)%Z) by (cbn; rewrite KR; reflexivity).
      destruct (FP m _ EQ) as (q' & EQ' & DQ'). destruct (AN a m _ q' p E0 I3 LD EP EQ') as (AI & AX). cbn in AX.
      assert (MO : In m (ordinary (map index_point pts4))). { unfold ordinary. apply filter_In. split; [apply in_seq; rewrite map_length; apply nth_lt in EQ; lia|]. rewrite EM. reflexivity. }
      apply (Permutation_in _ (Permutation_sym PC)) in MO. apply in_concat' in MO as (L & IL & IM). apply In_nth_error in IL as (k & IL). exists q', k, L. rewrite AX. split; [exact EQ'|]. split; [exact IL|]. split; [exact IM|]. split; [rewrite AI; apply (IX k L m); auto|].
      rewrite DP, DQ'. pose proof (edges_at _ _ _ a EE4 AK) as PE. rewrite ON in PE. assert (PQ : o_data q = pos pts3 j) by (transitivity (pos pts4 m); [unfold pos; rewrite EQ; reflexivity|rewrite PE; f_equal; unfold onx; rewrite Ea; reflexivity]). rewrite PQ.
      destruct r; try discriminate; cbn [revs]; [destruct (K1 eq_refl) as (-> & ->)|destruct (K2 eq_refl) as (-> & ->)]; reflexivity.
    - unfold find_loops in FL. apply find_still in FL. destruct (FL a _ E0) as (p' & E' & I'); [cbn; rewrite KR; reflexivity|]. rewrite EP in E'. injection E' as <-. exact I'. }
  exists Ls. split; [clear - IT; induction IT as [|loc L0 locs Ls (X1 & X2 & X3) FL IH]; constructor; auto|]. split; [eapply Permutation_NoDup; [symmetry; exact PC|apply NoDup_filter, seq_NoDup]|]. split.
  { intros L x IL X. assert (Y : In x (ordinary (map index_point pts4))) by (eapply Permutation_in; [exact PC|]; apply in_concat'; eauto). unfold ordinary in Y. apply filter_In in Y as (Y & _). apply in_seq in Y. rewrite map_length in Y. lia. }
  assert (JS1 : forall R R1, same_run pts pts1 R R1 -> judgement pts1 R1 = judgement pts R) by (intros R R1 X; apply X).
  assert (W : forall s s1 s2, (fst s1 = fst s /\ Forall2 (fun i a => held pts1 a i (A i) (B i)) (snd s) (snd s1)) -> In s ss ->
    (snd s2 = snd s1 /\ exists R r, In R RC1 /\ head R = fst s1 /\ judgement pts1 R = Res r /\ done pts2 (fst s2) (A (fst s1)) (B (fst s1)) r) ->
    (exists R r, In R RS /\ head R = fst s /\ judgement pts R = Res r /\ stands fps' Ls (fst s2) (pos pts (fst s)) (pos pts (onx pts (fst s))) r) /\
      Forall2 (fun i a => exists R r, In R RS /\ In i (nodes R) /\ judgement pts R = Res r /\ stands fps' Ls a (pos pts i) (pos pts (onx pts i)) r) (snd s) (snd s2)).
  { intros s s1 s2 (FS1 & HH) INS (SS & R & r & IR & HR & JR & DN). split.
    - destruct (Forall2_pick_r _ _ _ _ SM IR) as (R0 & IR0 & SR). exists R0, r. split; [exact IR0|]. split; [rewrite <- (proj1 SR); congruence|]. split; [rewrite <- (JS1 _ _ SR); exact JR|]. rewrite FS1 in DN. apply KEY in DN. exact DN.
    - rewrite SS. assert (IH : forall i, In i (snd s) -> In i (flat_map nodes RS)) by (intros i X; eapply HIN; eauto). clear - HH IH KEY T2 SM INC JS1 RK. induction HH as [|i a l l' HX F IHF]; constructor; [|apply IHF; intros j X; apply IH; right; exact X].
      specialize (IH i (or_introl eq_refl)). apply in_flat_map in IH as (R & IR & IX).
      assert (P2 : exists R1, In R1 RC1 /\ same_run pts pts1 R R1 /\ In i (nodes R1)).
      { clear - SM INC IR IX. revert INC. induction SM as [|x y l l' X F IH]; intros INC; [destruct IR|]. inversion INC; subst. destruct IR as [->|IR]; [exists y; split; [left; reflexivity|]; split; [exact X|auto]|]. destruct (IH IR) as (R1 & Y1 & Y2 & Y3); auto. exists R1. split; [right; exact Y1|auto]. }
      destruct P2 as (R1 & IR1 & SR & IX1). assert (JE : exists r, judgement pts R = Res r). { destruct R as ((i0, c0), e0). eapply Forall_forall in RK; [|exact IR]. destruct RK as ((p & r & E & S & _) & _). exists r. unfold judgement. cbn [fst]. rewrite E. exact S. }
      destruct JE as (r & JE). exists R, r. split; [exact IR|]. split; [exact IX|]. split; [exact JE|]. apply KEY. apply (T2 a R1); auto. rewrite (JS1 _ _ SR). exact JE. }
  eapply Forall2_chain; [exact W1|exact W2|]. intros s s1 s2 IS X Y. exact (W s s1 s2 X IS Y).
Qed.
