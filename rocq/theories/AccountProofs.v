(** Every point ends in the output or is reported as discarded, once. *)
From Coq Require Import ZArith List Bool Arith Permutation Lia.
From Verif Require Import GeomModel BalanceModel EventsModel EventsSpec OutModel PointSinkModel CycleProofs JoinSpec ClipModel ClipSpec SegSpec WholeProofs WholeRuns DropProofs.
Import ListNotations.
Local Open Scope nat_scope.

Definition undef (pts : list opoint) (i : nat) : Prop := exists p, nth_error pts i = Some p /\ o_state p = Undef.
Definition resd (pts : list opoint) (i : nat) : Prop := exists r, at_state pts i r.
Lemma resd_fixed a b i : fixed a b -> resd a i -> resd b i.
Proof. intros F (r & A). exists r. auto. Qed.
Lemma undef_not_resd pts i : undef pts i -> resd pts i -> False.
Proof. intros (p & E & S) (r & q & F & T). congruence. Qed.
Lemma dropped_resd pts i : dropped pts i -> resd pts i.
Proof. intros (r & A & _). exists r. exact A. Qed.

(** * Following the lines *)
Section Follow.
Variable pts0 : list opoint.
(** done: the samples followed so far; pend: the point not yet merged. *)
Record inv (pts : list opoint) (merged : list (nat * nat)) (done pend : list nat) : Prop := {
  v_len : length pts = length pts0;
  v_res : forall i p r, nth_error pts0 i = Some p -> o_state p = Res r -> nth_error pts i = Some p;
  v_und : forall i p, nth_error pts i = Some p -> o_state p = Undef -> nth_error pts0 i = Some p;
  v_anc : forall i p q, nth_error pts i = Some p -> nth_error pts0 i = Some q -> o_anchor p = o_anchor q;
  v_nod : NoDup (map fst merged);
  v_mer : forall i, In i (map fst merged) <-> dropped pts i /\ (In i done \/ undef pts0 i) /\ ~ In i pend;
  v_to : forall f t, In (f, t) merged -> exists p, nth_error pts0 f = Some p /\ o_next p = t;
  v_nxt : forall i p, nth_error pts0 i = Some p -> resd pts i -> In i done \/ undef pts0 i -> ~ In i pend -> resd pts (o_next p) }.
Lemma put_state pts next pn q r i : nth_error pts next = Some pn -> o_state pn = Undef -> o_state q = Res r -> dropped (put pts next q) i <-> dropped pts i \/ i = next /\ keeps r = false.
Proof.
  intros E U S. split.
  - intros (r' & (x & X & T) & K). destruct (Nat.eq_dec next i) as [<-|N]; [rewrite (put_same' _ _ _ _ E) in X; injection X as <-; right; split; [reflexivity|congruence]|]. rewrite put_other in X by exact N. left. exists r'. split; [exists x; auto|exact K].
  - intros [(r' & (x & X & T) & K)|(-> & K)]; [|exists r; split; [eapply at_put; eassumption|exact K]]. exists r'. split; [|exact K]. exists x. rewrite put_other; [auto|]. intros <-. congruence.
Qed.
Lemma put_resd pts next pn q r i : nth_error pts next = Some pn -> o_state pn = Undef -> o_state q = Res r -> resd (put pts next q) i <-> resd pts i \/ i = next.
Proof.
  intros E U S. split.
  - intros (r' & x & X & T). destruct (Nat.eq_dec next i) as [<-|N]; [right; reflexivity|]. rewrite put_other in X by exact N. left. exists r', x. auto.
  - intros [(r' & x & X & T)| ->]; [|exists r; eapply at_put; eassumption]. exists r', x. rewrite put_other; [auto|]. intros <-. congruence.
Qed.
Lemma follow_loop_inv fuel r : r <> LSdiscard_rev -> forall done pts merged prev next pts' merged' prev' next' p0,
  follow_loop fuel r pts merged prev next = Some (pts', merged', prev', next') -> inv pts merged done [prev] ->
  at_state pts prev r -> In prev done \/ undef pts0 prev -> nth_error pts0 prev = Some p0 -> o_next p0 = next ->
  inv pts' merged' done [prev'] /\ at_state pts' prev' r /\ (In prev' done \/ undef pts0 prev') /\ resd pts' next' /\ exists p1, nth_error pts0 prev' = Some p1 /\ o_next p1 = next'.
Proof.
  intros NR done. induction fuel as [|f IH]; intros pts merged prev next pts' merged' prev' next' p0 H V A D E0 N0; cbn [follow_loop] in H; [discriminate|].
  destruct (nth_error pts next) as [pn|] eqn:N; [|discriminate]. destruct (o_state pn) as [| |r0] eqn:SN; [|discriminate|].
  2:{ injection H as <- <- <- <-. split; [exact V|]. split; [exact A|]. split; [exact D|]. split; [exists r0, pn; auto|exists p0; auto]. }
  assert (W : forall q m, o_state q = Res r -> o_anchor q = o_anchor pn -> (m = merged /\ keeps r = true \/ m = merged ++ [(prev, next)] /\ keeps r = false) ->
    follow_loop f r (put pts next q) m next (o_next pn) = Some (pts', merged', prev', next') ->
    inv pts' merged' done [prev'] /\ at_state pts' prev' r /\ (In prev' done \/ undef pts0 prev') /\ resd pts' next' /\ exists p1, nth_error pts0 prev' = Some p1 /\ o_next p1 = next').
  { intros q m S AQ M X. destruct V as [V1 V2 V3 V4 V5 V6 VT V7]. assert (UN : nth_error pts0 next = Some pn) by (apply V3; assumption). assert (PN : prev <> next) by (intros ->; destruct A as (x & X1 & X2); congruence).
    assert (UNN : undef pts0 next) by (exists pn; auto). assert (NDR : ~ dropped pts next) by (intros G; apply dropped_resd in G as (r1 & x & X1 & X2); congruence).
    refine (IH _ _ _ _ _ _ _ _ pn X _ _ (or_intror UNN) UN eq_refl); [|eapply at_put; [exact N|exact S]]. constructor.
    - rewrite put_length. exact V1.
    - intros i p r1 P1 P2. rewrite put_other; [eapply V2; eassumption|]. intros <-. congruence.
    - intros i p P1 P2. destruct (Nat.eq_dec next i) as [<-|Q]; [rewrite (put_same' _ _ _ _ N) in P1; congruence|]. rewrite put_other in P1 by exact Q. apply V3; assumption.
    - intros i p x P1 P2. destruct (Nat.eq_dec next i) as [<-|Q]; [rewrite (put_same' _ _ _ _ N) in P1; congruence|]. rewrite put_other in P1 by exact Q. eapply V4; eassumption.
    - destruct M as [(-> & _)|(-> & K)]; [exact V5|]. rewrite map_app. apply NoDup_app'; [exact V5|constructor; [intros []|constructor]|]. intros x P1 [P2|[]]. cbn in P2. subst x. apply V6 in P1 as (_ & _ & P1). apply P1. left. reflexivity.
    - intros i. rewrite (put_state _ _ _ _ r _ N SN S). destruct M as [(-> & K)|(-> & K)].
      + rewrite V6. split.
        * intros (P1 & P2 & P3). split; [left; exact P1|]. split; [exact P2|]. intros [->|[]]. apply NDR, P1.
        * intros ([P1|(_ & P1)] & P2 & P3); [|congruence]. split; [exact P1|]. split; [exact P2|]. intros [<-|[]]. destruct P1 as (r1 & P1 & K1). rewrite (at_state_one _ _ _ _ P1 A) in K1. congruence.
      + rewrite map_app, in_app_iff, V6. cbn [map fst In]. split.
        * intros [(P1 & P2 & P3)|[<-|[]]].
          -- split; [left; exact P1|]. split; [exact P2|]. intros [->|[]]. apply NDR, P1.
          -- split; [left; exists r; auto|]. split; [exact D|]. intros [->|[]]. apply PN. reflexivity.
        * intros ([P1|(-> & _)] & P2 & P3); [|exfalso; apply P3; left; reflexivity]. destruct (Nat.eq_dec prev i) as [->|Q]; [right; left; reflexivity|]. left. split; [exact P1|]. split; [exact P2|]. intros [P4|[]]. congruence.
    - intros x y X1. destruct M as [(-> & _)|(-> & _)]; [apply VT; exact X1|]. apply in_app_or in X1 as [X1|[X1|[]]]; [apply VT; exact X1|]. injection X1 as <- <-. exists p0. auto.
    - intros i p P1 P2 P3 P4. apply (put_resd _ _ _ _ r _ N SN S) in P2. apply (put_resd _ _ _ _ r _ N SN S). destruct P2 as [P2| ->]; [|exfalso; apply P4; left; reflexivity].
      destruct (Nat.eq_dec prev i) as [<-|Q]; [right; congruence|]. left. eapply V7; [exact P1|exact P2|exact P3|]. intros [P5|[]]. congruence. }
  destruct (keeps r) eqn:K; cbn [negb] in H.
  - destruct (revs r); [|eapply W; [| | |exact H]; [reflexivity|reflexivity|left; auto]]. destruct (o_anchor pn) eqn:AN.
    + destruct (nth_error pts (o_next pn)) as [q|]; [|discriminate]. eapply W; [| | |exact H]; [reflexivity|reflexivity|left; auto].
    + eapply W; [| | |exact H]; [reflexivity|exact AN|left; auto].
  - eapply W; [| | |exact H]; [reflexivity|reflexivity|right; auto].
Qed.
Definition all_kept (m : pmap virt) : Prop := forall k l v, In (k, l) m -> In v l -> v_keep v = true.
Lemma get_kept m k v : all_kept m -> In v (pm_get m k) -> v_keep v = true.
Proof.
  induction m as [|(k', l) m IH]; intros A I; cbn [pm_get] in I; [destruct I|]. destruct (point_eqb k k'); [eapply A; [left; reflexivity|exact I]|]. apply IH; [|exact I]. intros a b c X. apply (A a b c). right. exact X.
Qed.
Lemma set_kept m k l : all_kept m -> (forall v, In v l -> v_keep v = true) -> all_kept (pm_set m k l).
Proof.
  induction m as [|(k', l') m IH]; intros A L a b c I J; cbn [pm_set] in I; [destruct I as [I|[]]; injection I as <- <-; auto|].
  assert (A' : all_kept m) by (intros x y z X; apply (A x y z); right; exact X).
  destruct (point_eqb k k'); destruct I as [I|I].
  - injection I as <- <-. auto.
  - eapply A'; eassumption.
  - injection I as <- <-. eapply A; [left; reflexivity|exact J].
  - eapply IH; eassumption.
Qed.
Lemma push_kept m k v : all_kept m -> v_keep v = true -> all_kept (pm_push m k v).
Proof. intros A V. apply set_kept; [exact A|]. intros w I. apply in_app_or in I as [I|[<-|[]]]; [eapply get_kept; eassumption|exact V]. Qed.
Definition good_breaks (br : breaks) : Prop := all_kept (b_virt br) /\ forall o, In o (b_orphans br) -> at_state pts0 o LSkeep_rev.
Lemma follow_balance_inv fuel done pts br merged i pts' br' merged' :
  (forall r, at_state pts0 i r -> r <> LSdiscard_rev) -> resd pts0 i -> ~ In i done -> good_breaks br ->
  follow_balance fuel pts br merged i = Some (pts', br', merged') -> inv pts merged done [] -> inv pts' merged' (done ++ [i]) [] /\ good_breaks br'.
Proof.
  intros NR R0 ND AK H V. unfold follow_balance in H. destruct R0 as (r0 & p0 & E0 & S0). pose proof (v_res _ _ _ _ V _ _ _ E0 S0) as E. rewrite E, S0 in H.
  assert (NR0 : r0 <> LSdiscard_rev) by (apply NR; exists p0; auto). destruct (o_anchor p0); [discriminate|].
  assert (NU : ~ undef pts0 i) by (intros X; eapply undef_not_resd; [exact X|exists r0, p0; auto]).
  assert (V1 : inv pts merged (done ++ [i]) [i]).
  { destruct V as [V1 V2 V3 V4 V5 V6 VT V7]. constructor; auto.
    - intros j. rewrite V6. rewrite in_app_iff. cbn [In]. split.
      + intros (P1 & P2 & _). split; [exact P1|]. split; [tauto|]. intros [<-|[]]. tauto.
      + intros (P1 & P2 & P3). split; [exact P1|]. split; [|intros []]. destruct P2 as [[P2|[P2|[]]]|P2]; [left; exact P2| |right; exact P2]. exfalso. apply P3. left. exact P2.
    - intros j p P1 P2 P3 P4. eapply V7; [exact P1|exact P2| |intros []]. rewrite in_app_iff in P3. cbn [In] in P3. destruct P3 as [[P3|[P3|[]]]|P3]; [left; exact P3| |right; exact P3]. exfalso. apply P4. left. exact P3. }
  destruct (follow_loop fuel r0 pts merged i (o_next p0)) as [[[[pts1 m1] prev] next]|] eqn:F; [|discriminate].
  apply follow_loop_inv with (done := done ++ [i]) (p0 := p0) in F; auto; [|exists p0; auto|left; apply in_or_app; right; left; reflexivity]. destruct F as (V2 & A2 & D2 & RN & p1 & E1 & N1).
  assert (NXT : forall j p, nth_error pts0 j = Some p -> resd pts1 j -> In j (done ++ [i]) \/ undef pts0 j -> ~ In j [] -> resd pts1 (o_next p)).
  { intros j p P1 P2 P3 _. destruct (Nat.eq_dec prev j) as [<-|Q]; [rewrite E1 in P1; injection P1 as <-; rewrite N1; exact RN|]. eapply (v_nxt _ _ _ _ V2); [exact P1|exact P2|exact P3|]. intros [P4|[]]. congruence. }
  assert (KEPT : keeps r0 = true -> inv pts1 m1 (done ++ [i]) []).
  { intros K. destruct V2 as [U1 U2 U3 U4 U5 U6 UT U7]. constructor; auto. intros j. rewrite U6. split; [intros (P1 & P2 & _); auto|]. intros (P1 & P2 & _). split; [exact P1|]. split; [exact P2|].
    intros [<-|[]]. destruct P1 as (r1 & P1 & K1). rewrite (at_state_one _ _ _ _ P1 A2) in K1. congruence. }
  destruct r0.
  - injection H as <- <- <-. split; [|exact AK]. destruct V2 as [U1 U2 U3 U4 U5 U6 UT U7]. constructor; auto.
    + rewrite map_app. apply NoDup_app'; [exact U5|constructor; [intros []|constructor]|]. intros x P1 [P2|[]]. cbn in P2. subst x. apply U6 in P1 as (_ & _ & P1). apply P1. left. reflexivity.
    + intros j. rewrite map_app, in_app_iff, U6. cbn [map fst In]. split.
      * intros [(P1 & P2 & _)|[<-|[]]]; [auto|]. split; [exists LSdiscard; auto|]. auto.
      * intros (P1 & P2 & _). destruct (Nat.eq_dec prev j) as [->|Q]; [right; left; reflexivity|]. left. split; [exact P1|]. split; [exact P2|]. intros [P4|[]]. congruence.
    + intros x y X1. apply in_app_or in X1 as [X1|[X1|[]]]; [apply UT; exact X1|]. injection X1 as <- <-. exists p1. auto.
  - injection H as <- <- <-. split; [apply KEPT; reflexivity|exact AK].
  - contradiction.
  - destruct (nth_error pts1 i); [|discriminate]. destruct (nth_error pts1 next); [|discriminate]. injection H as <- <- <-. split; [apply KEPT; reflexivity|]. destruct AK as (AK & OR). split; [apply push_kept; [exact AK|reflexivity]|]. intros x X. apply in_app_or in X as [X|[<-|[]]]; [apply OR; exact X|exists p0; auto].
Qed.
End Follow.

(** * Anchors *)
Inductive extended : list opoint -> list opoint -> Prop :=
| ext_here a : extended a a
| ext_step a i b x c : insert_anchor a i = Some (b, x) -> extended b c -> extended a c.
Lemma ext_trans a b c : extended a b -> extended b c -> extended a c.
Proof. induction 1; [auto|]. intros. eapply ext_step; eauto. Qed.
Lemma anchor_list_ext l : forall pts pts' l', anchor_list pts l = Some (pts', l') -> extended pts pts'.
Proof.
  induction l as [|i l IH]; intros pts pts' l' H; cbn [anchor_list] in H; [injection H as <- _; constructor|].
  destruct (insert_anchor pts i) as [(p1, a)|] eqn:E; [|discriminate]. destruct (anchor_list p1 l) as [(p2, as_)|] eqn:F; [|discriminate]. injection H as <- _. eapply ext_step; [exact E|eapply IH; exact F].
Qed.
Lemma anchor_hits_ext ss : forall pts pts' ss', anchor_hits pts ss = Some (pts', ss') -> extended pts pts' /\ map fst ss' = map fst ss.
Proof.
  induction ss as [|(p, hits) ss IH]; intros pts pts' ss' H; cbn [anchor_hits] in H; [injection H as <- <-; split; [constructor|reflexivity]|].
  destruct (anchor_list pts hits) as [(p1, h1)|] eqn:E; [|discriminate]. destruct (anchor_hits p1 ss) as [(p2, s2)|] eqn:F; [|discriminate]. injection H as <- <-.
  apply IH in F as (F & M). split; [|cbn [map fst]; rewrite M; reflexivity]. eapply ext_trans; [eapply anchor_list_ext; exact E|exact F].
Qed.
Lemma ins_at {A} (l : list A) p x x' y i : nth_error l p = Some x -> nth_error (put l p x' ++ [y]) i = if Nat.eqb i p then Some x' else if Nat.eqb i (length l) then Some y else nth_error l i.
Proof.
  intros E. assert (L : p < length l) by (apply nth_lt in E; exact E). destruct (Nat.eqb_spec i p) as [->|N].
  - rewrite nth_error_app1 by (rewrite put_length; exact L). apply (put_same' _ _ _ _ E).
  - destruct (Nat.eqb_spec i (length l)) as [->|M].
    + rewrite nth_error_app2 by (rewrite put_length; lia). rewrite put_length, Nat.sub_diag. reflexivity.
    + destruct (Nat.lt_ge_cases i (length l)) as [Q|Q].
      * rewrite nth_error_app1 by (rewrite put_length; exact Q). apply put_other. congruence.
      * rewrite (proj2 (nth_error_None l i) Q). apply nth_error_None. rewrite app_length, put_length. cbn. lia.
Qed.
(** What an insertion is. *)
Lemma insert_is pts i pts' a : insert_anchor pts i = Some (pts', a) -> pts' = pts \/ exists p, nth_error pts i = Some p /\ pts' = put pts i (set_next p (length pts)) ++ [mk_op (o_data p) (o_next p) Undef true].
Proof.
  unfold insert_anchor. destruct (nth_error pts i) as [p|] eqn:E; [|discriminate]. destruct (nth_error pts (o_next p)) as [q|]; [|discriminate]. destruct (o_anchor q); intros H; injection H as <- _; [left; reflexivity|right; exists p; auto].
Qed.
(** The states and kinds of old points stay; new points are anchors. *)
Definition old_new (a b : list opoint) : Prop := length a <= length b /\
  (forall i p, nth_error a i = Some p -> exists q, nth_error b i = Some q /\ o_state q = o_state p /\ o_anchor q = o_anchor p) /\
  (forall i q, length a <= i -> nth_error b i = Some q -> o_state q = Undef /\ o_anchor q = true).
Lemma insert_old_new pts i pts' a : insert_anchor pts i = Some (pts', a) -> old_new pts pts'.
Proof.
  intros H. apply insert_is in H as [->|(p & E & ->)].
  - split; [lia|]. split; [intros j q J; exists q; auto|]. intros j q L J. apply nth_lt in J. lia.
  - split; [rewrite app_length, put_length; lia|]. split.
    + intros j q J. rewrite (ins_at _ _ p _ _ _ E). destruct (Nat.eqb_spec j i) as [->|N]; [rewrite E in J; injection J as <-; eexists; split; [reflexivity|split; reflexivity]|]. destruct (Nat.eqb_spec j (length pts)) as [->|M]; [apply nth_lt in J; lia|]. exists q. auto.
    + intros j q L. rewrite (ins_at _ _ p _ _ _ E). pose proof (nth_lt _ _ _ E). destruct (Nat.eqb_spec j i) as [->|N]; [lia|]. destruct (Nat.eqb_spec j (length pts)) as [->|M]; [intros J; injection J as <-; split; reflexivity|]. intros J. apply nth_lt in J. lia.
Qed.
Lemma ext_old_new a b : extended a b -> old_new a b.
Proof.
  induction 1 as [a|a i b x c H E (L2 & O2 & N2)]; [split; [lia|]; split; [intros j q J; exists q; auto|intros j q L J; apply nth_lt in J; lia]|]. apply insert_old_new in H as (L1 & O1 & N1). split; [lia|]. split.
  - intros j p J. destruct (O1 j p J) as (q & Q & S & A). destruct (O2 j q Q) as (y & Y & T & B). exists y. split; [exact Y|]. split; congruence.
  - intros j y L J. destruct (Nat.lt_ge_cases j (length b)) as [Q|Q]; [|apply (N2 j y Q J)]. destruct (nth_error b j) as [q|] eqn:EQ; [|apply nth_error_None in EQ; lia]. destruct (N1 j q L EQ) as (S & A). destruct (O2 j q EQ) as (y' & Y & T & B). assert (y = y') by congruence. subst. split; congruence.
Qed.
Lemma old_new_state a b i r : old_new a b -> at_state b i r <-> at_state a i r.
Proof.
  intros (L & O & N). split.
  - intros (q & Q & S). destruct (nth_error a i) as [p|] eqn:E; [destruct (O i p E) as (q' & Q' & T & _); exists p; split; [exact E|congruence]|]. apply nth_error_None in E. destruct (N i q E Q) as (T & _). congruence.
  - intros (p & P & S). destruct (O i p P) as (q & Q & T & _). exists q. split; [exact Q|congruence].
Qed.
Definition reach (pts : list opoint) : Prop := forall P : nat -> Prop, (forall i, resd pts i -> P i) -> (forall i p, P i -> nth_error pts i = Some p -> P (o_next p)) -> forall i, i < length pts -> P i.
Lemma ext_reach a b : extended a b -> reach a -> reach b.
Proof.
  induction 1 as [a|a i b x c H E IH]; [auto|]. intros R. apply IH. clear IH E. pose proof (insert_old_new _ _ _ _ H) as ON. apply insert_is in H as [->|(p & E & EB)]; [exact R|].
  intros P P1 P2. assert (AT : forall j, nth_error b j = if Nat.eqb j i then Some (set_next p (length a)) else if Nat.eqb j (length a) then Some (mk_op (o_data p) (o_next p) Undef true) else nth_error a j) by (intros j; rewrite EB; apply (ins_at _ _ _ _ _ _ E)).
  pose proof (nth_lt _ _ _ E) as LI. assert (NEW : P i -> P (length a)). { intros PI. apply (P2 i (set_next p (length a)) PI). rewrite AT, Nat.eqb_refl. reflexivity. }
  assert (OLD : forall j, j < length a -> P j).
  { apply R.
    - intros j (r & A). apply P1. exists r. apply (old_new_state _ _ _ _ ON). exact A.
    - intros j q PJ Q. destruct (Nat.eq_dec j i) as [->|N].
      + rewrite E in Q. injection Q as <-. apply (P2 (length a) (mk_op (o_data p) (o_next p) Undef true) (NEW PJ)). rewrite AT. destruct (Nat.eqb_spec (length a) i); [lia|]. rewrite Nat.eqb_refl. reflexivity.
      + apply (P2 j q PJ). rewrite AT. destruct (Nat.eqb_spec j i); [contradiction|]. destruct (Nat.eqb_spec j (length a)) as [->|]; [apply nth_lt in Q; lia|exact Q]. }
  intros j L. rewrite EB, app_length, put_length in L. cbn in L. destruct (Nat.eq_dec j (length a)) as [->|N]; [apply NEW, OLD, LI|apply OLD; lia].
Qed.
Lemma insert_inv pts0 pts merged done p pts' a : inv pts0 pts merged done [] -> resd pts0 p -> ~ In p done -> insert_anchor pts p = Some (pts', a) ->
  exists pts0', insert_anchor pts0 p = Some (pts0', a) /\ inv pts0' pts' merged done [].
Proof.
  intros V (r0 & x & X0 & XS) ND H. pose proof (v_res _ _ _ _ _ V _ _ _ X0 XS) as X. unfold insert_anchor in *. rewrite X in H. rewrite X0. destruct (nth_error pts (o_next x)) as [q|] eqn:Q; [|discriminate].
  pose proof (v_len _ _ _ _ _ V) as LEN. destruct (nth_error pts0 (o_next x)) as [q0|] eqn:Q0; [|apply nth_error_None in Q0; apply nth_lt in Q; lia]. rewrite <- (v_anc _ _ _ _ _ V _ _ _ Q Q0), <- LEN.
  destruct (o_anchor q); injection H as <- <-; [exists pts0; auto|]. eexists. split; [reflexivity|]. set (x' := set_next x (length pts)). set (y := mk_op (o_data x) (o_next x) Undef true).
  assert (AT : forall i, nth_error (put pts p x' ++ [y]) i = if Nat.eqb i p then Some x' else if Nat.eqb i (length pts) then Some y else nth_error pts i) by (intros i; apply (ins_at _ _ _ _ _ _ X)).
  assert (AT0 : forall i, nth_error (put pts0 p x' ++ [y]) i = if Nat.eqb i p then Some x' else if Nat.eqb i (length pts) then Some y else nth_error pts0 i) by (intros i; rewrite LEN; apply (ins_at _ _ _ _ _ _ X0)).
  pose proof (nth_lt _ _ _ X) as LP.
  assert (ST : forall i r, at_state (put pts p x' ++ [y]) i r <-> at_state pts i r).
  { intros i r. unfold at_state. rewrite AT. destruct (Nat.eqb_spec i p) as [->|N1]; [rewrite X; split; intros (z & Z & T); injection Z as <-; eexists; (split; [reflexivity|exact T])|]. destruct (Nat.eqb_spec i (length pts)) as [->|N2]; [|reflexivity].
    split; [intros (z & Z & T); injection Z as <-; discriminate T|intros (z & Z & _); apply nth_lt in Z; lia]. }
  assert (RD : forall i, resd (put pts p x' ++ [y]) i <-> resd pts i) by (intros i; split; intros (r & A); exists r; apply ST; exact A).
  assert (DR : forall i, dropped (put pts p x' ++ [y]) i <-> dropped pts i) by (intros i; split; intros (r & A & K); exists r; (split; [apply ST; exact A|exact K])).
  assert (UN : forall i, undef (put pts0 p x' ++ [y]) i <-> undef pts0 i \/ i = length pts).
  { intros i. unfold undef. rewrite AT0. destruct (Nat.eqb_spec i p) as [->|N1].
    - split; [intros (z & Z & T); injection Z as <-; cbn in T; congruence|]. intros [(z & Z & T)|E]; [congruence|lia].
    - destruct (Nat.eqb_spec i (length pts)) as [->|N2]; [split; [right; reflexivity|intros _; exists y; auto]|]. split; [left; assumption|intros [Z|Z]; [exact Z|contradiction]]. }
  assert (NL : forall i, resd pts i -> i <> length pts) by (intros i (r & z & Z & _) ->; apply nth_lt in Z; lia).
  assert (NP : forall i, In i done \/ undef pts0 i -> i <> p) by (intros i [I|(z & Z & T)] ->; [contradiction|congruence]).
  destruct V as [V1 V2 V3 V4 V5 V6 VT V7]. constructor.
  - rewrite !app_length, !put_length. cbn. lia.
  - intros i z r. rewrite AT0, AT. destruct (Nat.eqb_spec i p); [auto|]. destruct (Nat.eqb_spec i (length pts)); [auto|]. apply V2.
  - intros i z. rewrite AT0, AT. destruct (Nat.eqb_spec i p); [auto|]. destruct (Nat.eqb_spec i (length pts)); [auto|]. apply V3.
  - intros i z w. rewrite AT0, AT. destruct (Nat.eqb_spec i p); [congruence|]. destruct (Nat.eqb_spec i (length pts)); [congruence|]. apply V4.
  - exact V5.
  - intros i. rewrite V6, DR, UN. split; [tauto|]. intros (D & U & _). split; [exact D|]. split; [|intros []]. destruct U as [U|[U|U]]; [tauto|tauto|]. exfalso. exact (NL i (dropped_resd _ _ D) U).
  - intros f t I. destruct (VT f t I) as (z & Z & N). exists z. split; [|exact N]. assert (IF : In f (map fst merged)) by (apply (in_map fst) in I; exact I). apply V6 in IF as (D & U & _).
    rewrite AT0. destruct (Nat.eqb_spec f p); [exfalso; eapply NP; eassumption|]. destruct (Nat.eqb_spec f (length pts)); [exfalso; eapply NL; [apply dropped_resd; exact D|assumption]|exact Z].
  - intros i z Z R U _. apply RD in R. apply RD. rewrite UN in U. assert (U' : In i done \/ undef pts0 i) by (destruct U as [U|[U|U]]; [tauto|tauto|exfalso; exact (NL i R U)]). pose proof (NP i U') as N1. pose proof (NL i R) as N2.
    rewrite AT0 in Z. destruct (Nat.eqb_spec i p); [contradiction|]. destruct (Nat.eqb_spec i (length pts)); [contradiction|]. eapply V7; [exact Z|exact R|exact U'|intros []].
Qed.
Lemma follow_all_inv fuel tree ss : forall pts0 done pts br merged pts' br' merged' ss',
  (forall i, ~ at_state pts0 i LSdiscard_rev) -> (forall i, In i (map fst ss) -> resd pts0 i) -> NoDup (done ++ map fst ss) -> good_breaks pts0 br ->
  follow_all fuel tree pts br merged ss = Some (pts', br', merged', ss') -> inv pts0 pts merged done [] ->
  exists pts0', extended pts0 pts0' /\ (tree = false -> pts0' = pts0) /\ inv pts0' pts' merged' (done ++ map fst ss) [] /\ good_breaks pts0' br'.
Proof.
  induction ss as [|(p, hits) ss IH]; intros pts0 done pts br merged pts' br' merged' ss' NR RS ND AK H V; cbn [follow_all] in H; [injection H as <- <- <- _; exists pts0; split; [constructor|]; cbn [map]; rewrite app_nil_r; auto|]. cbn [map fst] in *.
  assert (NI : ~ In p done) by (intros X; apply NoDup_remove_2 in ND; apply ND; apply in_or_app; left; exact X). assert (RP : resd pts0 p) by (apply RS; left; reflexivity).
  destruct (if tree then insert_anchor pts p else Some (pts, p)) as [(p0, a)|] eqn:E; [|discriminate].
  assert (W : exists q0, extended pts0 q0 /\ (tree = false -> q0 = pts0) /\ inv q0 p0 merged done []).
  { destruct tree; [|injection E as <- _; exists pts0; split; [constructor|auto]]. destruct (insert_inv _ _ _ _ _ _ _ V RP NI E) as (q0 & I0 & V0). exists q0. split; [eapply ext_step; [exact I0|constructor]|]. split; [discriminate|exact V0]. }
  destruct W as (q0 & X0 & T0 & V0). pose proof (ext_old_new _ _ X0) as ON.
  assert (NR0 : forall i, ~ at_state q0 i LSdiscard_rev) by (intros i A; apply (NR i); apply (old_new_state _ _ _ _ ON); exact A).
  assert (RS0 : forall i, resd pts0 i -> resd q0 i) by (intros i (r & A); exists r; apply (old_new_state _ _ _ _ ON); exact A).
  assert (AK0 : good_breaks q0 br) by (destruct AK as (A1 & A2); split; [exact A1|intros o O; apply (old_new_state _ _ _ _ ON); apply A2; exact O]).
  destruct (follow_balance fuel p0 br merged p) as [[[p1 br1] m1]|] eqn:F; [|discriminate]. apply (follow_balance_inv q0) with (done := done) in F; auto; [|intros r A ->; exact (NR0 p A)]. destruct F as (V1 & AK1).
  destruct (follow_all fuel tree p1 br1 m1 ss) as [[[[p2 br2] m2] s2]|] eqn:G; [|discriminate]. injection H as <- <- <- _.
  apply IH with (pts0 := q0) (done := done ++ [p]) in G; [|exact NR0|intros i I; apply RS0, RS; right; exact I|rewrite <- app_assoc; exact ND|exact AK1|exact V1].
  destruct G as (q1 & X1 & T1 & V2 & AK2). exists q1. split; [eapply ext_trans; eassumption|]. split; [intros T; rewrite (T1 T); exact (T0 T)|]. rewrite <- app_assoc in V2. auto.
Qed.

(** * Orphans and ends *)
Definition same_kind (a b : list opoint) : Prop := length a = length b /\ forall i p, nth_error a i = Some p -> exists q, nth_error b i = Some q /\ o_anchor q = o_anchor p /\
  forall r, o_state p = Res r -> exists r', o_state q = Res r' /\ keeps r' = keeps r.
Lemma kind_refl a : same_kind a a.
Proof. split; [reflexivity|]. intros i p E. exists p. split; [exact E|]. split; [reflexivity|]. intros r S. exists r. auto. Qed.
Lemma kind_trans a b c : same_kind a b -> same_kind b c -> same_kind a c.
Proof.
  intros (L1 & K1) (L2 & K2). split; [congruence|]. intros i p E. destruct (K1 i p E) as (q & E1 & A1 & S1). destruct (K2 i q E1) as (x & E2 & A2 & S2). exists x. split; [exact E2|]. split; [congruence|].
  intros r S. destruct (S1 r S) as (r1 & T1 & W1). destruct (S2 r1 T1) as (r2 & T2 & W2). exists r2. split; [exact T2|congruence].
Qed.
Lemma kind_put a i p q : nth_error a i = Some p -> o_anchor q = o_anchor p -> (forall r, o_state p = Res r -> exists r', o_state q = Res r' /\ keeps r' = keeps r) -> same_kind a (put a i q).
Proof.
  intros E A S. split; [rewrite put_length; reflexivity|]. intros j x X. destruct (Nat.eq_dec i j) as [<-|N].
  - rewrite E in X. injection X as <-. exists q. rewrite (put_same' _ _ _ _ E). auto.
  - exists x. rewrite put_other by exact N. split; [exact X|]. split; [reflexivity|]. intros r T. exists r. auto.
Qed.
Lemma orphans_kind orphans : forall pts starts ends virts pts' starts' ends', match_orphans pts starts ends virts orphans = Some (pts', starts', ends') ->
  all_kept virts -> (forall o, In o orphans -> exists p r, nth_error pts o = Some p /\ o_anchor p = false /\ o_state p = Res r /\ keeps r = true) -> same_kind pts pts'.
Proof.
  induction orphans as [|o orphans IH]; intros pts starts ends virts pts' starts' ends' H AK O; cbn [match_orphans] in H; [injection H as <- _ _; apply kind_refl|].
  destruct (O o (or_introl eq_refl)) as (p & r & E & A & S & K). rewrite E in H. destruct (rev (pm_get virts (o_data p))) as [|vp rest] eqn:RV; [discriminate|]. destruct (v_end vp && negb (v_keep vp)); [discriminate|].
  assert (VI : forall v, In v (vp :: rest) -> v_keep v = true) by (intros v I; apply (get_kept virts (o_data p)); [exact AK|]; apply in_rev; rewrite RV; exact I).
  assert (KV : v_keep vp = true) by (apply VI; left; reflexivity). rewrite KV in H.
  set (p' := mk_op (o_data p) (v_next vp) (Res LSkeep) false) in *.
  assert (K1 : same_kind pts (put pts o p')). { apply (kind_put _ _ p); [exact E|cbn; congruence|]. intros r1 S1. exists LSkeep. split; [reflexivity|]. rewrite S in S1. injection S1 as <-. rewrite K. reflexivity. }
  eapply kind_trans; [exact K1|]. eapply IH; [exact H| |].
  - apply set_kept; [exact AK|]. intros v I. apply VI. right. apply in_rev. exact I.
  - intros o' I. destruct (O o' (or_intror I)) as (q & r' & E' & A' & S' & K'). destruct K1 as (_ & K1). destruct (K1 o' q E') as (x & X & XA & XS). destruct (XS r' S') as (r2 & T & W). exists x, r2. split; [exact X|]. split; [congruence|]. split; [exact T|congruence].
Qed.
Lemma join_kind ends : forall pts starts pts' starts', join_ends pts starts ends = Some (pts', starts') -> same_kind pts pts'.
Proof.
  induction ends as [|e ends IH]; intros pts starts pts' starts' H; cbn [join_ends] in H; [injection H as <- _; apply kind_refl|].
  destruct (nth_error pts e) as [pe|] eqn:E; [|discriminate]. destruct (end_point pts e) as [p|]; [|discriminate]. destruct (point_eqb _ _); [discriminate|].
  destruct (choose_start _ _ _ _) as [b|]; [|discriminate]. destruct (nth_error (pm_get starts p) b) as [s|]; [|discriminate]. apply IH in H.
  eapply kind_trans; [apply (kind_put pts e pe (set_next pe s)); [exact E|reflexivity|]|exact H]. intros r S. exists r. auto.
Qed.

(** * Finding the loops *)
Definition free (pts : list fpoint) (x : nat) : Prop := exists p, nth_error pts x = Some p /\ f_index p = (-1)%Z.
Lemma marked_ext_in pts pts' li C : forall i e, (forall x p, In x C -> nth_error pts x = Some p -> nth_error pts' x = Some p) -> marked pts li i C e -> marked pts' li i C e.
Proof.
  induction C as [|c C IH]; intros i e S H; [exact H|]. destruct H as (-> & p & E & X & H). split; [reflexivity|]. exists p. split; [apply S; [left; reflexivity|exact E]|]. split; [exact X|]. apply IH; [|exact H]. intros x q I. apply S. right. exact I.
Qed.
Lemma free_put pts j pj x q : nth_error pts j = Some q -> f_index q <> (-1)%Z -> f_index pj <> (-1)%Z -> free (put pts j pj) x <-> free pts x.
Proof.
  intros E N M. unfold free. destruct (Nat.eq_dec j x) as [<-|D]; [|rewrite put_other by exact D; reflexivity]. rewrite (put_same' _ _ _ _ E), E. split; intros (p & P & I); injection P as <-; contradiction.
Qed.
Lemma trace_full : forall fuel li i pts prev j size pts' size' C pp, (0 <= li)%Z -> trace_loop fuel li i pts prev j size = Some (pts', size') ->
  marked pts li i C prev -> nth_error pts prev = Some pp -> f_index pp = li -> f_next pp = j -> NoDup (C ++ [prev]) -> size = S (length C) ->
  exists C', marked pts' li i C' i /\ size' = length C' /\ NoDup C' /\ incl (C ++ [prev]) C' /\ length pts' = length pts /\
    (forall x, In x C' -> In x (C ++ [prev]) \/ free pts x) /\ (forall x, ~ In x C' -> free pts' x <-> free pts x).
Proof.
  induction fuel as [|fuel IH]; intros li i pts prev j size pts' size' C pp L H M EP IP NX ND SZ; cbn [trace_loop] in H.
  all: assert (STOP : j = i -> exists C', marked pts li i C' i /\ size = length C' /\ NoDup C' /\ incl (C ++ [prev]) C' /\ length pts = length pts /\ (forall x, In x C' -> In x (C ++ [prev]) \/ free pts x) /\ (forall x, ~ In x C' -> free pts x <-> free pts x)) by
    (intros ->; exists (C ++ [prev]); split; [apply marked_app; exists prev; split; [exact M|]; split; [reflexivity|]; exists pp; cbn; auto|]; split; [rewrite app_length, SZ; cbn; lia|]; split; [exact ND|]; split; [intros x X; exact X|]; split; [reflexivity|]; split; [auto|reflexivity]).
  all: destruct (Nat.eqb_spec j i) as [->|NJ]; [injection H as <- <-; apply STOP; reflexivity|clear STOP]. 1: discriminate.
  destruct (nth_error pts j) as [pj|] eqn:EJ; [|discriminate]. destruct (Z.eqb_spec (f_index pj) (-3)) as [I3|I3].
  - rewrite EP in H. assert (PJ : prev <> j) by (intros ->; assert (pp = pj) by congruence; subst; lia).
    assert (NI : ~ In prev C) by (intros X; apply NoDup_remove_2 in ND; rewrite app_nil_r in ND; exact (ND X)).
    set (pp' := f_set_next pp (f_next pj)) in *. set (pts1 := put (put pts prev pp') j (f_set_index pj li)) in *.
    assert (E1 : nth_error pts1 prev = Some pp') by (unfold pts1; rewrite put_other by congruence; apply (put_same' _ _ _ _ EP)).
    assert (M1 : marked pts1 li i C prev).
    { eapply marked_ext_in; [|exact M]. intros x p X E. unfold pts1. rewrite put_put_ne; [exact E|intros ->; exact (NI X)|]. intros ->. destruct (marked_in _ _ _ _ _ _ M X) as (q & Q & W). assert (q = pj) by congruence. subst. lia. }
    assert (FR : forall x, free pts1 x <-> free pts x).
    { intros x. unfold pts1. rewrite (free_put _ j _ x pj); [|rewrite put_other by congruence; exact EJ|lia|cbn; lia]. apply (free_put _ _ _ _ pp); [exact EP|lia|cbn; lia]. }
    assert (L1 : length pts1 = length pts) by (unfold pts1; rewrite !put_length; reflexivity). clearbody pts1.
    apply IH with (C := C) (pp := pp') in H; auto. destruct H as (C' & H1 & H2 & H3 & H4 & H5 & H6 & H7). exists C'. split; [exact H1|]. split; [exact H2|]. split; [exact H3|]. split; [exact H4|]. split; [congruence|]. split.
    + intros x X. destruct (H6 x X) as [Y|Y]; [left; exact Y|right; apply FR; exact Y].
    + intros x X. rewrite (H7 x X). apply FR.
  - destruct (Z.eqb_spec (f_index pj) (-1)) as [I1|I1]; [|discriminate]. set (pj' := f_set_index pj li) in *. set (pts1 := put pts j pj') in *.
    assert (E1 : nth_error pts1 j = Some pj') by apply (put_same' _ _ _ _ EJ).
    assert (OT : forall x p, nth_error pts x = Some p -> f_index p = li -> nth_error pts1 x = Some p). { intros x p E W. unfold pts1. rewrite put_other; [exact E|]. intros <-. assert (p = pj) by congruence. subst. lia. }
    assert (MP : marked pts li i (C ++ [prev]) j) by (apply marked_app; exists prev; split; [exact M|]; split; [reflexivity|]; exists pp; cbn; auto).
    assert (NJC : ~ In j (C ++ [prev])) by (intros X; destruct (marked_in _ _ _ _ _ _ MP X) as (p & E & W); assert (p = pj) by congruence; subst; lia).
    apply IH with (C := C ++ [prev]) (pp := pj') in H; auto.
    + destruct H as (C' & H1 & H2 & H3 & H4 & H5 & H6 & H7). exists C'. split; [exact H1|]. split; [exact H2|]. split; [exact H3|]. split; [intros x X; apply H4, in_or_app; left; exact X|]. split; [rewrite H5; apply put_length|]. split.
      * intros x X. destruct (H6 x X) as [Y|(p & P1 & P2)].
        -- apply in_app_or in Y as [Y|[<-|[]]]; [left; exact Y|]. right. exists pj. auto.
        -- right. unfold pts1 in P1. destruct (Nat.eq_dec j x) as [<-|N]; [exists pj; auto|]. rewrite put_other in P1 by exact N. exists p. auto.
      * intros x X. rewrite (H7 x X). unfold free, pts1. rewrite put_other; [reflexivity|]. intros ->. apply X, H4, in_or_app. right. left. reflexivity.
    + eapply marked_ext; [exact OT|exact MP].
    + apply NoDup_app'; [exact ND|constructor; [intros []|constructor]|]. intros x X [<-|[]]. exact (NJC X).
    + rewrite SZ, app_length. cbn. lia.
Qed.
Definition loops_full (pts0 pts : list fpoint) (i : nat) (loops : list loop_loc) (Cs : list (list nat)) : Prop :=
  length pts = length pts0 /\ length Cs = length loops /\
  (forall k loc C, nth_error loops k = Some loc -> nth_error Cs k = Some C -> marked pts (Z.of_nat k) (fst loc) C (fst loc) /\ snd loc = length C /\ NoDup C /\ C <> []) /\
  (forall x, In x (concat Cs) -> free pts0 x) /\
  (forall x, ~ In x (concat Cs) -> free pts x <-> free pts0 x) /\
  (forall x, x < i -> free pts0 x -> In x (concat Cs)).
Lemma in_loop pts0 pts i loops Cs x : loops_full pts0 pts i loops Cs -> In x (concat Cs) -> exists k C p, nth_error Cs k = Some C /\ In x C /\ nth_error pts x = Some p /\ f_index p = Z.of_nat k.
Proof.
  intros (_ & L & M & _) X. apply in_concat' in X as (C & X & Y). apply In_nth_error in X as (k & X). destruct (nth_error loops k) as [loc|] eqn:E; [|apply nth_error_None in E; apply nth_lt in X; lia].
  destruct (M k loc C E X) as (MK & _). destruct (marked_in _ _ _ _ _ _ MK Y) as (p & P & Q). exists k, C, p. auto.
Qed.
Lemma find_full fuel pts0 : forall k i pts loops Cs pts' loops', k + i = length pts0 -> loops_full pts0 pts i loops Cs -> find_loops_from fuel k i pts loops = Some (pts', loops') ->
  exists Cs', loops_full pts0 pts' (length pts0) loops' Cs'.
Proof.
  induction k as [|k IH]; intros i pts loops Cs pts' loops' KI LF H; cbn [find_loops_from] in H; [injection H as <- <-; cbn in KI; subst i; exists Cs; exact LF|].
  destruct (nth_error pts i) as [p|] eqn:E; [|discriminate]. pose proof (in_loop _ _ _ _ _ i LF) as IL. pose proof (fun x => in_loop _ _ _ _ _ x LF) as ILX. destruct LF as (L1 & L2 & M & O1 & O2 & O3). destruct (Z.eqb_spec (f_index p) (-1)) as [I1|I1].
  2:{ apply (IH (S i) pts loops Cs pts' loops'); [lia| |exact H]. split; [exact L1|]. split; [exact L2|]. split; [exact M|]. split; [exact O1|]. split; [exact O2|].
    intros x X F0. destruct (Nat.eq_dec x i) as [->|N]; [|apply (O3 x); [lia|exact F0]]. destruct (in_dec Nat.eq_dec i (concat Cs)) as [Y|Y]; [exact Y|]. apply (O2 i Y) in F0 as (q & Q & W). congruence. }
  assert (NI : ~ In i (concat Cs)) by (intros X; destruct (IL X) as (k' & C & q & _ & _ & Q1 & Q2); assert (q = p) by congruence; subst; lia).
  set (li := Z.of_nat (length loops)) in *. set (p' := f_set_index p li) in *. destruct (trace_loop fuel li i (put pts i p') i (f_next p) 1) as [(pts1, size)|] eqn:T; [|discriminate].
  pose proof T as TM. apply trace_marked with (C := []) (pp := p') in TM; [|unfold li; lia|reflexivity|apply (put_same' _ _ _ _ E)|reflexivity|reflexivity|intros []|reflexivity]. destruct TM as (_ & KEEP).
  apply trace_full with (C := []) (pp := p') in T; [|unfold li; lia|reflexivity|apply (put_same' _ _ _ _ E)|reflexivity|reflexivity|constructor; [intros []|constructor]|reflexivity].
  destruct T as (C & T1 & T2 & T3 & T4 & T5 & T6 & T7). cbn [app] in T4, T6. rewrite put_length in T5.
  assert (IC : In i C) by (apply T4; left; reflexivity). assert (FI : free pts i) by (exists p; auto).
  assert (PF : forall x, i <> x -> free (put pts i p') x <-> free pts x) by (intros x N; unfold free; rewrite put_other by exact N; reflexivity).
  assert (CN : forall x, In x C -> free pts x).
  { intros x X. destruct (Nat.eq_dec i x) as [<-|N]; [exact FI|]. destruct (T6 x X) as [[Y|[]]|Y]; [contradiction|]. apply PF; assumption. }
  assert (DIS : forall x, In x C -> ~ In x (concat Cs)).
  { intros x X Y. destruct (CN x X) as (q & Q1 & Q2). destruct (ILX x Y) as (m & D & q' & _ & _ & Q3 & Q4). assert (q = q') by congruence. subst. lia. }
  assert (CC : concat (Cs ++ [C]) = concat Cs ++ C) by (rewrite concat_app; cbn [concat]; rewrite app_nil_r; reflexivity).
  eapply (IH (S i) pts1 (loops ++ [(i, size)]) (Cs ++ [C])); [lia| |exact H]. split; [congruence|].
  split; [rewrite !app_length, L2; reflexivity|]. split; [|split; [|split]].
  - intros n loc D N1 N2. destruct (Nat.lt_ge_cases n (length loops)) as [Q|Q].
    + rewrite nth_error_app1 in N1 by exact Q. rewrite nth_error_app1 in N2 by lia. destruct (M n loc D N1 N2) as (MD & SD & ND & NN). split; [|auto].
      eapply marked_ext; [|exact MD]. intros x q EX IX. apply KEEP; [|lia|unfold li; lia]. rewrite put_other; [exact EX|]. intros <-. assert (q = p) by congruence. subst. lia.
    + rewrite nth_error_app2 in N1 by exact Q. rewrite nth_error_app2 in N2 by lia. rewrite L2 in N2. destruct (n - length loops) as [|m] eqn:R; [|destruct m; discriminate]. cbn in N1, N2. injection N1 as <-. injection N2 as <-. cbn [fst snd]. replace n with (length loops) by lia. split; [exact T1|]. split; [exact T2|]. split; [exact T3|]. intros ->. destruct IC.
  - intros x X. rewrite CC in X. apply in_app_or in X as [X|X]; [apply O1; exact X|]. apply (O2 x (DIS x X)). apply CN, X.
  - intros x X. rewrite CC, in_app_iff in X. rewrite T7 by tauto. rewrite PF by (intros ->; tauto). apply O2. tauto.
  - intros x X F0. rewrite CC, in_app_iff. destruct (Nat.eq_dec x i) as [->|N]; [right; exact IC|]. left. apply (O3 x); [lia|exact F0].
Qed.
Lemma full_nodup pts0 pts i loops Cs : loops_full pts0 pts i loops Cs -> NoDup (concat Cs).
Proof.
  intros (_ & L & M & _). assert (G : forall base, (forall k loc C, nth_error loops k = Some loc -> nth_error Cs k = Some C -> marked pts (Z.of_nat (base + k)) (fst loc) C (fst loc) /\ NoDup C) -> NoDup (concat Cs)).
  2:{ apply (G 0). intros k loc C A B. destruct (M k loc C A B) as (X & _ & Y & _). auto. }
  clear M. revert loops L. induction Cs as [|C Cs IH]; intros loops L base M; [constructor|]. destruct loops as [|loc loops]; [discriminate|]. cbn [concat]. apply NoDup_app'.
  - apply (M 0 loc C eq_refl eq_refl).
  - apply (IH loops ltac:(cbn in L; lia) (S base)). intros k l D A B. destruct (M (S k) l D A B) as (X & Y). replace (S base + k) with (base + S k) by lia. auto.
  - intros x X Y. apply in_concat' in Y as (D & Y & Z). apply In_nth_error in Y as (k & Y). destruct (nth_error loops k) as [l|] eqn:E; [|apply nth_error_None in E; apply nth_lt in Y; cbn in L; lia].
    destruct (M 0 loc C eq_refl eq_refl) as (A & _). destruct (M (S k) l D E Y) as (B & _). destruct (marked_in _ _ _ _ _ _ A X) as (p & P1 & P2). destruct (marked_in _ _ _ _ _ _ B Z) as (q & Q1 & Q2). assert (p = q) by congruence. subst. lia.
Qed.

(** * The whole *)
Lemma finish_whole fuel tree pts0 ss fps loops ss' merged : judged_points pts0 ss -> (forall i, ~ at_state pts0 i LSdiscard_rev) -> reach pts0 ->
  finish fuel tree pts0 ss = Some (fps, loops, ss', merged) ->
  exists pts1, extended pts0 pts1 /\ (tree = false -> pts1 = pts0) /\ length fps = length pts1 /\
  exists Ls, Forall2 (fun loc L => iterate_loop fps (fst loc) (snd loc) = Some L /\ L <> []) loops Ls /\
    NoDup (map fst merged) /\ (forall f, In f (map fst merged) -> f < length pts1) /\
    Permutation (filter (fun f => f <? length pts0) (map fst merged) ++ concat Ls) (seq 0 (length pts0)) /\
    forall f t, In (f, t) merged -> exists p, nth_error pts1 f = Some p /\ o_next p = t.
Proof.
  intros (_ & PLAIN & ND & IN & _) NR REACH H. unfold finish in H.
  destruct (if tree then anchor_hits pts0 ss else Some (pts0, ss)) as [(pa, sa)|] eqn:AH; [|discriminate].
  assert (XA : extended pts0 pa /\ map fst sa = map fst ss /\ (tree = false -> pa = pts0)) by (destruct tree; [apply anchor_hits_ext in AH as (X & Y); split; [exact X|]; split; [exact Y|discriminate]|injection AH as <- <-; split; [constructor|auto]]).
  destruct XA as (XA & MA & TA). clear AH. pose proof (ext_old_new _ _ XA) as ONA.
  destruct (follow_all fuel tree pa no_breaks [] sa) as [[[[p1 br1] m1] s1]|] eqn:FA; [|discriminate].
  assert (RS : forall i, In i (map fst ss) <-> resd pts0 i). { intros i. rewrite IN. split; [intros (p & r & E & S); exists r, p; auto|intros (r & p & E & S); exists p, r; auto]. }
  apply follow_all_inv with (pts0 := pa) (done := []) in FA; [|intros i A; apply (NR i); apply (old_new_state _ _ _ _ ONA); exact A|rewrite MA; intros i I; apply RS in I as (r & A); exists r; apply (old_new_state _ _ _ _ ONA); exact A|rewrite MA; exact ND|split; [intros k l v []|intros o []]|].
  2:{ constructor; auto; [intros; congruence|constructor| |intros f t []|].
    - intros i. cbn. split; [intros []|]. intros (D & [[]|U] & _). eapply undef_not_resd; [exact U|apply dropped_resd; exact D].
    - intros i p E R [[]|U]. exfalso. eapply undef_not_resd; eassumption. }
  cbn [app] in FA. rewrite MA in FA. destruct FA as (pb & XB & TB & V & AK & OR). pose proof (ext_trans _ _ _ XA XB) as X. assert (TT : tree = false -> pb = pts0) by (intros T; rewrite (TB T); exact (TA T)).
  clear XA MA TA ONA XB TB pa sa. pose proof (ext_old_new _ _ X) as ON. pose proof (ext_reach _ _ X REACH) as RB. clear REACH.
  destruct V as [V1 V2 V3 V4 V5 V6 VT V7].
  assert (RSB : forall i, In i (map fst ss) <-> resd pb i). { intros i. rewrite RS. split; intros (r & A); exists r; apply (old_new_state _ _ _ _ ON); exact A. }
  pose proof ON as (LB & OB & NB).
  assert (ANC : forall i p, nth_error p1 i = Some p -> o_anchor p = negb (i <? length pts0)).
  { intros i p E. destruct (nth_error pb i) as [q|] eqn:Q; [|apply nth_error_None in Q; apply nth_lt in E; lia]. rewrite (V4 i p q E Q). destruct (Nat.ltb_spec i (length pts0)) as [W|W].
    - destruct (nth_error pts0 i) as [q0|] eqn:Q0; [|apply nth_error_None in Q0; lia]. destruct (OB i q0 Q0) as (q' & Q' & _ & A). assert (q' = q) by congruence. subst q'. rewrite A. apply (PLAIN q0). eapply nth_error_In. exact Q0.
    - apply (NB i q W Q). }
  destruct (match_orphans p1 (b_starts br1) (b_ends br1) (b_virt br1) (b_orphans br1)) as [[[p2 st2] en2]|] eqn:MO; [|discriminate].
  apply orphans_kind in MO; [|exact AK|]. 2:{ intros o O. pose proof (OR o O) as W. pose proof (proj1 (old_new_state _ _ _ _ ON) W) as (p0 & E0 & _). destruct W as (p & E & S). exists p, LSkeep_rev. pose proof (V2 _ _ _ E S) as EP. split; [exact EP|]. split; [|auto]. rewrite (ANC o p EP). apply nth_lt in E0. apply Nat.ltb_lt in E0. rewrite E0. reflexivity. }
  destruct (join_ends p2 st2 en2) as [(p3, st3)|] eqn:JE; [|discriminate]. apply join_kind in JE. pose proof (kind_trans _ _ _ MO JE) as (L3 & K3). clear MO JE.
  destruct (forallb _ st3); [|discriminate]. destruct (find_loops (map index_point p3)) as [(f4, l4)|] eqn:FL; [|discriminate]. injection H as <- <- _ <-.
  assert (KIND : forall i, i < length pb -> In i (map fst ss) \/ undef pb i).
  { intros i L. destruct (nth_error pb i) as [p|] eqn:E; [|apply nth_error_None in E; lia]. destruct (o_state p) as [| |r] eqn:S; [right; exists p; auto| |left; apply RSB; exists r, p; auto]. exfalso.
    destruct (nth_error pts0 i) as [q|] eqn:Q; [|apply nth_error_None in Q; destruct (NB i p Q E); congruence]. destruct (OB i q Q) as (p' & P' & T & _). apply (proj2 (PLAIN q (nth_error_In _ _ Q))). congruence. }
  assert (ALL : forall i, i < length pb -> resd p1 i).
  { apply (RB (resd p1)).
    - intros i (r & p & E & S). exists r, p. split; [eapply V2; eassumption|exact S].
    - intros i p R E. eapply V7; [exact E|exact R|apply KIND; apply nth_error_Some; congruence|intros []]. }
  assert (IDX : forall i, i < length pb -> exists q, nth_error (map index_point p3) i = Some q /\ (f_index q = (-1)%Z <-> ~ dropped p1 i /\ i < length pts0)).
  { intros i L. destruct (ALL i L) as (r & p & E & S). destruct (K3 i p E) as (q & Q & QA & QS). destruct (QS r S) as (r' & S' & KR). exists (index_point q). rewrite nth_error_map, Q. split; [reflexivity|].
    unfold index_point. cbn [f_index]. rewrite S', KR, QA, (ANC i p E). destruct (keeps r) eqn:K.
    - assert (D : ~ dropped p1 i) by (intros (r1 & A1 & K1); rewrite (at_state_one _ _ _ r A1) in K1; [congruence|exists p; auto]). destruct (Nat.ltb_spec i (length pts0)); cbn; split; try discriminate; auto; intros (_ & W); lia.
    - split; [discriminate|]. intros (D & _). exfalso. apply D. exists r. split; [exists p; auto|exact K]. }
  assert (LM : length (map index_point p3) = length pb) by (rewrite map_length; congruence).
  assert (FREE : forall i, free (map index_point p3) i <-> ~ dropped p1 i /\ i < length pts0).
  { intros i. split.
    - intros (q & Q & I). destruct (IDX i) as (q' & Q' & W); [rewrite <- LM; apply nth_error_Some; congruence|]. assert (q = q') by congruence. subst. apply W, I.
    - intros (D & L). destruct (IDX i) as (q & Q & W); [lia|]. exists q. split; [exact Q|]. apply W. auto. }
  exists pb. split; [exact X|]. split; [exact TT|].
  unfold find_loops in FL. apply (find_full _ (map index_point p3)) with (Cs := []) in FL; [|lia|].
  2:{ split; [reflexivity|]. split; [reflexivity|]. split; [intros k loc C N; destruct k; discriminate|]. split; [intros x []|]. split; [reflexivity|intros x W; lia]. }
  destruct FL as (Cs & LF). pose proof (full_nodup _ _ _ _ _ LF) as NDC. destruct LF as (L1 & L2 & M & O1 & _ & O3). split; [congruence|]. exists Cs. split.
  { clear - L2 M. assert (G : forall base, (forall k loc C, nth_error l4 k = Some loc -> nth_error Cs k = Some C -> marked f4 (Z.of_nat (base + k)) (fst loc) C (fst loc) /\ snd loc = length C /\ C <> []) -> Forall2 (fun loc L => iterate_loop f4 (fst loc) (snd loc) = Some L /\ L <> []) l4 Cs).
    2:{ apply (G 0). intros k loc C A B. destruct (M k loc C A B) as (X & Y & _ & W). auto. }
    clear M. revert Cs L2. induction l4 as [|loc l IH]; intros [|C Cs] L base M; try discriminate; [constructor|]. constructor.
    - destruct (M 0 loc C eq_refl eq_refl) as (X & Y & W). rewrite Y. split; [eapply marked_iterate; exact X|exact W].
    - apply (IH Cs ltac:(cbn in L; lia) (S base)). intros k l0 D A B. destruct (M (S k) l0 D A B) as (X & Y). replace (S base + k) with (base + S k) by lia. auto. }
  split; [exact V5|]. split; [intros f I; apply V6 in I as ((r & (p & E & _) & _) & _); rewrite <- V1; apply nth_error_Some; congruence|].
  split; [|exact VT]. apply NoDup_Permutation; [|apply seq_NoDup|].
  - apply NoDup_app'; [apply NoDup_filter; exact V5|exact NDC|]. intros x I Y. apply filter_In in I as (I & _). apply V6 in I as (I & _). apply O1, FREE in Y as (Y & _). exact (Y I).
  - intros x. rewrite in_app_iff, in_seq, filter_In, Nat.ltb_lt. split.
    + intros [(_ & I)|I]; [cbn; lia|]. apply O1, FREE in I as (_ & I). cbn. lia.
    + intros (_ & L). cbn in L. destruct (in_dec Nat.eq_dec x (concat Cs)) as [Y|Y]; [right; exact Y|]. left. split; [|exact L]. apply V6. split; [|split; [apply KIND; lia|intros []]].
      destruct (ALL x) as (r & p & E & S); [lia|]. exists r. split; [exists p; auto|]. destruct (keeps r) eqn:K; [|reflexivity]. exfalso. apply Y, O3; [rewrite LM; lia|]. apply FREE. split; [|exact L].
      intros (r1 & A1 & K1). rewrite (at_state_one _ _ _ r A1) in K1; [congruence|exists p; auto].
Qed.
Lemma filter_all l n : (forall f, In f l -> f < n) -> filter (fun f => f <? n) l = l.
Proof. induction l as [|x l IH]; intros H; [reflexivity|]. cbn [filter]. rewrite (proj2 (Nat.ltb_lt _ _) (H x (or_introl eq_refl))), IH; [reflexivity|]. intros f I. apply H. right. exact I. Qed.
Lemma finish_account fuel pts0 ss fps loops ss' merged : judged_points pts0 ss -> (forall i, ~ at_state pts0 i LSdiscard_rev) -> reach pts0 ->
  finish fuel false pts0 ss = Some (fps, loops, ss', merged) ->
  length fps = length pts0 /\ exists Ls, Forall2 (fun loc L => iterate_loop fps (fst loc) (snd loc) = Some L /\ L <> []) loops Ls /\ Permutation (map fst merged ++ concat Ls) (seq 0 (length pts0)) /\ forall f t, In (f, t) merged -> exists p, nth_error pts0 f = Some p /\ o_next p = t.
Proof.
  intros JP NR RE H. apply finish_whole in H as (pts1 & _ & T & L & Ls & F & _ & LT & P & N); auto. rewrite (T eq_refl) in *. split; [exact L|]. exists Ls. split; [exact F|]. rewrite (filter_all _ _ LT) in P. auto.
Qed.
