(** Points that the tracker was told are discarded. *)
From Coq Require Import ZArith List Bool Arith Lia.
From Verif Require Import GeomModel BalanceModel EventsModel OutModel CycleProofs TreeTrack ClipModel WholeProofs.
Import ListNotations.
Local Open Scope nat_scope.

(** * States that are known are not changed while the lines are followed *)
Definition at_state (pts : list opoint) (i : nat) (r : lstate) : Prop := exists p, nth_error pts i = Some p /\ o_state p = Res r.
Definition fixed (pts pts' : list opoint) : Prop := forall i r, at_state pts i r -> at_state pts' i r.
Lemma fixed_refl pts : fixed pts pts.
Proof. intros i r H. exact H. Qed.
Lemma fixed_trans a b c : fixed a b -> fixed b c -> fixed a c.
Proof. intros F G i r H. apply G, F, H. Qed.
Lemma fixed_put pts i p q : nth_error pts i = Some p -> (forall r, o_state p = Res r -> o_state q = Res r) -> fixed pts (put pts i q).
Proof.
  intros E H j r (x & X & S). destruct (Nat.eq_dec i j) as [<-|N]; [exists q; rewrite (put_same' _ _ _ _ E); split; [reflexivity|]; apply H; congruence|].
  exists x. rewrite put_other by exact N. auto.
Qed.
Lemma fixed_app pts l : fixed pts (pts ++ l).
Proof. intros i r (x & X & S). exists x. split; [|exact S]. rewrite nth_error_app1; [exact X|eapply nth_lt; exact X]. Qed.
Lemma at_put pts i p q r : nth_error pts i = Some p -> o_state q = Res r -> at_state (put pts i q) i r.
Proof. intros E S. exists q. split; [apply (put_same' _ _ _ _ E)|exact S]. Qed.
Lemma insert_fixed pts i pts' a : insert_anchor pts i = Some (pts', a) -> fixed pts pts'.
Proof.
  unfold insert_anchor. destruct (nth_error pts i) as [p|] eqn:E; [|discriminate]. destruct (nth_error pts (o_next p)) as [q|]; [|discriminate].
  destruct (o_anchor q); intros H; injection H as <- _; [apply fixed_refl|]. eapply fixed_trans; [|apply fixed_app]. eapply fixed_put; [exact E|]. intros r S. exact S.
Qed.
Lemma anchor_list_fixed l : forall pts pts' l', anchor_list pts l = Some (pts', l') -> fixed pts pts'.
Proof.
  induction l as [|i l IH]; intros pts pts' l' H; cbn [anchor_list] in H; [injection H as <- _; apply fixed_refl|].
  destruct (insert_anchor pts i) as [(p1, a)|] eqn:E; [|discriminate]. destruct (anchor_list p1 l) as [(p2, as_)|] eqn:F; [|discriminate]. injection H as <- _.
  eapply fixed_trans; [eapply insert_fixed; exact E|eapply IH; exact F].
Qed.
Lemma anchor_hits_fixed ss : forall pts pts' ss', anchor_hits pts ss = Some (pts', ss') -> fixed pts pts' /\ map fst ss' = map fst ss.
Proof.
  induction ss as [|(p, hits) ss IH]; intros pts pts' ss' H; cbn [anchor_hits] in H; [injection H as <- <-; split; [apply fixed_refl|reflexivity]|].
  destruct (anchor_list pts hits) as [(p1, h1)|] eqn:E; [|discriminate]. destruct (anchor_hits p1 ss) as [(p2, s2)|] eqn:F; [|discriminate]. injection H as <- <-.
  apply IH in F as (F & M). split; [|cbn [map fst]; rewrite M; reflexivity]. eapply fixed_trans; [eapply anchor_list_fixed; exact E|exact F].
Qed.

(** * Only discarded points are merged *)
Definition dropped (pts : list opoint) (i : nat) : Prop := exists r, at_state pts i r /\ keeps r = false.
Definition all_dropped (pts : list opoint) (merged : list (nat * nat)) : Prop := forall a b, In (a, b) merged -> dropped pts a.
Lemma dropped_fixed pts pts' i : fixed pts pts' -> dropped pts i -> dropped pts' i.
Proof. intros F (r & A & K). exists r. auto. Qed.
Lemma all_fixed pts pts' m : fixed pts pts' -> all_dropped pts m -> all_dropped pts' m.
Proof. intros F D a b I. eapply dropped_fixed; [exact F|]. eapply D. exact I. Qed.
Lemma all_snoc pts m a b : all_dropped pts m -> dropped pts a -> all_dropped pts (m ++ [(a, b)]).
Proof. intros D A x y I. apply in_app_or in I as [I|[I|[]]]; [eapply D; exact I|]. injection I as <- _. exact A. Qed.
Lemma follow_loop_drop fuel r : forall pts merged prev next pts' merged' prev' next',
  follow_loop fuel r pts merged prev next = Some (pts', merged', prev', next') -> at_state pts prev r -> all_dropped pts merged ->
  fixed pts pts' /\ at_state pts' prev' r /\ all_dropped pts' merged'.
Proof.
  induction fuel as [|f IH]; intros pts merged prev next pts' merged' prev' next' H A D; cbn [follow_loop] in H; [discriminate|].
  destruct (nth_error pts next) as [pn|] eqn:N; [|discriminate]. destruct (o_state pn) as [| |r0] eqn:SN; [|discriminate|injection H as <- <- <- _; split; [apply fixed_refl|auto]].
  assert (G : forall q, o_state q = Res r -> fixed pts (put pts next q) /\ at_state (put pts next q) next r).
  { intros q S. split; [eapply fixed_put; [exact N|]; intros r1 W; congruence|eapply at_put; [exact N|exact S]]. }
  assert (W : forall q m, o_state q = Res r -> follow_loop f r (put pts next q) m next (o_next pn) = Some (pts', merged', prev', next') -> all_dropped (put pts next q) m -> fixed pts pts' /\ at_state pts' prev' r /\ all_dropped pts' merged').
  { intros q m S X M. destruct (G q S) as (F & B). apply IH in X as (F' & B' & D'); [|exact B|exact M]. split; [eapply fixed_trans; eassumption|auto]. }
  destruct (keeps r) eqn:K; cbn [negb] in H.
  - destruct (revs r); [destruct (o_anchor pn)|].
    + destruct (nth_error pts (o_next pn)) as [q|]; [|discriminate]. eapply W; [|exact H|]; [reflexivity|]. eapply all_fixed; [apply G; reflexivity|exact D].
    + eapply W; [|exact H|]; [reflexivity|]. eapply all_fixed; [apply G; reflexivity|exact D].
    + eapply W; [|exact H|]; [reflexivity|]. eapply all_fixed; [apply G; reflexivity|exact D].
  - eapply W; [|exact H|]; [reflexivity|]. eapply all_fixed; [apply G; reflexivity|]. apply all_snoc; [exact D|]. exists r. auto.
Qed.
Definition turned (pts : list opoint) (o : nat) : Prop := exists r, at_state pts o r /\ revs r = true.
Lemma turned_fixed pts pts' i : fixed pts pts' -> turned pts i -> turned pts' i.
Proof. intros F (r & A & K). exists r. auto. Qed.
Lemma follow_balance_drop fuel pts br merged i pts' br' merged' : follow_balance fuel pts br merged i = Some (pts', br', merged') -> all_dropped pts merged ->
  fixed pts pts' /\ all_dropped pts' merged' /\ (b_orphans br' = b_orphans br \/ b_orphans br' = b_orphans br ++ [i] /\ turned pts' i).
Proof.
  intros H D. unfold follow_balance in H. destruct (nth_error pts i) as [p|] eqn:N; [|discriminate]. destruct (o_state p) as [| |r] eqn:S; try discriminate. destruct (o_anchor p); [discriminate|].
  assert (A : at_state pts i r) by (exists p; auto).
  destruct (follow_loop fuel r pts merged i (o_next p)) as [[[[pts1 m1] prev] next]|] eqn:F; [|discriminate]. apply follow_loop_drop in F as (FX & B & D1); [|exact A|exact D].
  assert (A1 : at_state pts1 i r) by (apply FX; exact A).
  destruct r.
  - injection H as <- <- <-. split; [exact FX|]. split; [apply all_snoc; [exact D1|]; exists LSdiscard; auto|left; reflexivity].
  - injection H as <- <- <-. auto.
  - destruct (nth_error pts1 next); [|discriminate]. injection H as <- <- <-. split; [exact FX|]. split; [exact D1|]. right. split; [reflexivity|]. exists LSdiscard_rev. auto.
  - destruct (nth_error pts1 i); [|discriminate]. destruct (nth_error pts1 next); [|discriminate]. injection H as <- <- <-. split; [exact FX|]. split; [exact D1|]. right. split; [reflexivity|]. exists LSkeep_rev. auto.
Qed.
Lemma follow_all_drop fuel tree ss : forall pts br merged pts' br' merged' ss', follow_all fuel tree pts br merged ss = Some (pts', br', merged', ss') -> all_dropped pts merged ->
  fixed pts pts' /\ all_dropped pts' merged' /\ forall o, In o (b_orphans br') -> In o (b_orphans br) \/ In o (map fst ss) /\ turned pts' o.
Proof.
  induction ss as [|(p, hits) ss IH]; intros pts br merged pts' br' merged' ss' H D; cbn [follow_all] in H; [injection H as <- <- <- _; split; [apply fixed_refl|auto]|].
  destruct (if tree then insert_anchor pts p else Some (pts, p)) as [(p0, a)|] eqn:E; [|discriminate].
  assert (F0 : fixed pts p0). { destruct tree; [eapply insert_fixed; exact E|]. injection E as <- _. apply fixed_refl. }
  destruct (follow_balance fuel p0 br merged p) as [[[p1 br1] m1]|] eqn:F; [|discriminate]. apply follow_balance_drop in F as (F1 & D1 & O1); [|eapply all_fixed; eassumption].
  destruct (follow_all fuel tree p1 br1 m1 ss) as [[[[p2 br2] m2] s2]|] eqn:G; [|discriminate]. injection H as <- <- <- _. apply IH in G as (F2 & D2 & O2); [|exact D1].
  split; [eapply fixed_trans; [exact F0|]; eapply fixed_trans; eassumption|]. split; [exact D2|]. intros o I. apply O2 in I as [I|(I & T)]; [|right; split; [right; exact I|exact T]].
  destruct O1 as [O1|(O1 & T)]; rewrite O1 in I; [left; exact I|]. apply in_app_or in I as [I|[<-|[]]]; [left; exact I|]. right. split; [left; reflexivity|]. eapply turned_fixed; eassumption.
Qed.
Lemma orphans_other orphans : forall pts starts ends virts pts' starts' ends', match_orphans pts starts ends virts orphans = Some (pts', starts', ends') ->
  forall i, ~ In i orphans -> nth_error pts' i = nth_error pts i.
Proof.
  induction orphans as [|o orphans IH]; intros pts starts ends virts pts' starts' ends' H i N; cbn [match_orphans] in H; [injection H as <- _ _; reflexivity|].
  destruct (nth_error pts o) as [p|]; [|discriminate]. destruct (rev (pm_get virts (o_data p))) as [|vp rest]; [discriminate|]. destruct (v_end vp && negb (v_keep vp)); [discriminate|].
  apply IH with (i := i) in H; [|intros X; apply N; right; exact X]. rewrite H. apply put_other. intros ->. apply N. left. reflexivity.
Qed.
Lemma join_fixed ends : forall pts starts pts' starts', join_ends pts starts ends = Some (pts', starts') -> fixed pts pts'.
Proof.
  induction ends as [|e ends IH]; intros pts starts pts' starts' H; cbn [join_ends] in H; [injection H as <- _; apply fixed_refl|].
  destruct (nth_error pts e) as [pe|] eqn:E; [|discriminate]. destruct (end_point pts e) as [p|]; [|discriminate]. destruct (point_eqb _ _); [discriminate|].
  destruct (choose_start _ _ _ _) as [b|]; [|discriminate]. destruct (nth_error (pm_get starts p) b) as [s|]; [|discriminate]. apply IH in H.
  eapply fixed_trans; [eapply fixed_put; [exact E|]|exact H]. intros r S. exact S.
Qed.
Lemma at_state_one pts i r r' : at_state pts i r -> at_state pts i r' -> r = r'.
Proof. intros (p & E & S) (q & F & T). congruence. Qed.
(** A point that was merged and is not marked as discarded at the end was a sample judged
    "discard, reversed". *)
Lemma finish_drop fuel tree pts ss fps loops ss' merged : finish fuel tree pts ss = Some (fps, loops, ss', merged) -> (forall i, In i (map fst ss) -> exists r, at_state pts i r) ->
  forall from to p, In (from, to) merged -> nth_error fps from = Some p -> f_index p <> (-2)%Z -> In from (map fst ss) /\ at_state pts from LSdiscard_rev.
Proof.
  unfold finish. intros H J from to p I E NI. destruct (if tree then anchor_hits pts ss else Some (pts, ss)) as [(p0, s0)|] eqn:A; [|discriminate].
  assert (F0 : fixed pts p0 /\ map fst s0 = map fst ss). { destruct tree; [apply anchor_hits_fixed; exact A|]. injection A as <- <-. split; [apply fixed_refl|reflexivity]. }
  destruct F0 as (F0 & M0). destruct (follow_all fuel tree p0 no_breaks [] s0) as [[[[p1 br1] m1] s1]|] eqn:F; [|discriminate]. apply follow_all_drop in F as (F1 & D1 & O1); [|intros a b []].
  destruct (match_orphans _ _ _ _ _) as [[[p2 st2] en2]|] eqn:MO; [|discriminate]. destruct (join_ends p2 st2 en2) as [(p3, st3)|] eqn:JE; [|discriminate]. destruct (forallb _ _); [|discriminate].
  destruct (find_loops (map index_point p3)) as [(f4, l4)|] eqn:FL; [|discriminate]. injection H as <- _ _ <-. destruct (D1 _ _ I) as (r & AT & K).
  destruct (in_dec Nat.eq_dec from (b_orphans br1)) as [O|O].
  - apply O1 in O as [[]|(O & r' & AT' & RV)]. rewrite M0 in O. split; [exact O|]. destruct (J _ O) as (r0 & A0). pose proof (F1 _ _ (F0 _ _ A0)) as A1.
    pose proof (at_state_one _ _ _ _ A1 AT) as ->. pose proof (at_state_one _ _ _ _ AT AT') as <-. destruct r; try discriminate. exact A0.
  - exfalso. destruct AT as (x & X & S). assert (A2 : at_state p2 from r). { exists x. rewrite (orphans_other _ _ _ _ _ _ _ _ MO _ O). auto. }
    apply (join_fixed _ _ _ _ _ JE) in A2 as (y & Y & T). unfold find_loops in FL. apply find_still in FL.
    destruct (FL from (index_point y)) as (z & Z1 & Z2); [rewrite nth_error_map, Y; reflexivity| |congruence]. unfold index_point. rewrite T, K. reflexivity.
Qed.

(** * Which points are judged so *)
Section Judge.
Variable op : bool_op.
Variable pts0 : list cpoint.
Definition origin (pts : list cpoint) : Prop := forall i p, nth_error pts i = Some p -> exists p0, nth_error pts0 i = Some p0 /\ c_set p = c_set p0 /\
  (c_state p = c_state p0 \/ c_state p0 = Check /\ exists l1 ls, c_state p = Res (line_result op l1 ls) /\ ln_set l1 = c_set p0).
Definition samples_judged (pts : list cpoint) (ss : list sample) : Prop := forall i, In i (map fst ss) -> exists p r, nth_error pts i = Some p /\ c_state p = Res r.
Lemma scan_origin q x sweep i pts ss pts' ss' : scan op q x sweep i pts ss = Some (pts', ss') -> origin pts -> samples_judged pts ss -> origin pts' /\ samples_judged pts' ss'.
Proof.
  unfold scan. intros H O J. destruct (nth_error pts i) as [p|] eqn:E; [|discriminate]. destruct (c_state p) eqn:S; try (injection H as <- <-; auto; fail).
  destruct (line_at pts i) as [l1|] eqn:L; [|discriminate]. destruct (seg_lines _ _) as [ls|]; [|discriminate]. injection H as <- <-.
  assert (LS : ln_set l1 = c_set p). { unfold line_at in L. rewrite E in L. destruct (nth_error pts (c_next p)); [|discriminate]. injection L as <-. reflexivity. }
  split.
  - intros j x0 X. destruct (Nat.eq_dec i j) as [<-|N]; [|rewrite put_other in X by exact N; apply O; exact X]. rewrite (put_same' _ _ _ _ E) in X. injection X as <-.
    destruct (O i p E) as (p0 & E0 & C0 & W). exists p0. split; [exact E0|]. split; [exact C0|]. right. destruct W as [W|(W & l & k & R & _)]; [|congruence]. split; [congruence|]. exists l1, ls. split; [reflexivity|congruence].
  - intros j X. rewrite map_app in X. destruct (Nat.eq_dec i j) as [<-|N]; [eexists; exists (line_result op l1 ls); split; [apply (put_same' _ _ _ _ E)|reflexivity]|].
    rewrite put_other by exact N. apply in_app_or in X as [X|[X|[]]]; [apply J; exact X|cbn in X; congruence].
Qed.
Variable place : list cseg -> cseg -> nat.
Variable se : list EventsModel.event -> list EventsModel.event.
Variable sn : list (EventsModel.event * nat) -> list (EventsModel.event * nat).
Lemma bal_step_origin nodes q sweep pts ss q' sweep' pts' ss' : bal_step place se sn op nodes (q, sweep, pts, ss) = Some (q', sweep', pts', ss') ->
  origin pts -> samples_judged pts ss -> origin pts' /\ samples_judged pts' ss'.
Proof.
  unfold bal_step. destruct (next _ _ _ _ _) as [[[e fwd] q1]|]; [|discriminate]. destruct (negb fwd); [discriminate|]. destruct (e_deleted e); [intros H; injection H as _ _ <- <-; auto|].
  cbv zeta. destruct (e_type e).
  all: repeat match goal with
    | |- match scan ?a ?b ?c ?d ?e ?f ?g with _ => _ end = _ -> _ => let E := fresh "E" in destruct (scan a b c d e f g) as [[? ?]|] eqn:E; [|discriminate]
    | |- match ?f with _ => _ end = _ -> _ => destruct f; [|discriminate]
    end; intros H O J; injection H as _ _ <- <-; eapply scan_origin; eassumption.
Qed.
Lemma bal_loop_origin nodes fuel : forall q sweep pts ss q' sweep' pts' ss', bal_loop place se sn fuel op nodes (q, sweep, pts, ss) = Some (q', sweep', pts', ss') ->
  origin pts -> samples_judged pts ss -> origin pts' /\ samples_judged pts' ss'.
Proof.
  induction fuel as [|f IH]; intros q sweep pts ss q' sweep' pts' ss' H O J; cbn [bal_loop fst] in H; destruct (more _ q); try discriminate; try (injection H as _ _ <- <-; auto; fail).
  destruct (bal_step place se sn op nodes (q, sweep, pts, ss)) as [[[[q1 sw1] pts1] ss1]|] eqn:E; [|discriminate]. apply bal_step_origin in E as (O1 & J1); [|exact O|exact J]. eapply IH; eassumption.
Qed.
End Judge.
Lemma calc_origin place se sn fuel op st pts ss : calc_line_bal place se sn fuel op st = Some (pts, ss) -> origin op (s_pts st) pts /\ samples_judged pts ss.
Proof.
  unfold calc_line_bal. destruct (rewind _ _) as [q|]; [|discriminate]. destruct (bal_loop _ _ _ _ _ _ _) as [[[[q1 sw1] pts1] ss1]|] eqn:E; [|discriminate].
  intros H. injection H as <- <-. eapply bal_loop_origin; [exact E| |].
  - intros i p N. exists p. auto.
  - intros i [].
Qed.
Lemma discard_rev_only op l1 ls : line_result op l1 ls = LSdiscard_rev -> op = OpDifference /\ ln_set l1 = Clip.
Proof.
  unfold line_result, line_balance_result. destruct op, (ln_set l1); cbv zeta; try (intros _; split; reflexivity);
    repeat match goal with |- (if ?b then _ else _) = _ -> _ => destruct b end; discriminate.
Qed.
Lemma do_op_drop isect place se sn draws fuel op tree pts rand fps loops ss log merged r from to p :
  unjudged pts -> do_op isect place se sn draws fuel op tree pts rand = Some (fps, loops, ss, log, merged, r) -> In (from, to) merged -> nth_error fps from = Some p -> f_index p <> (-2)%Z ->
  op = OpDifference /\ exists st q, self_intersection isect place se sn draws fuel pts rand = Some st /\ nth_error (s_pts st) from = Some q /\ c_state q = Check /\ c_set q = Clip.
Proof.
  intros U H I E N. unfold do_op in H. destruct (self_intersection isect place se sn draws fuel pts rand) as [st|] eqn:S; [|discriminate].
  destruct (calc_line_bal place se sn fuel op st) as [(cps, ss0)|] eqn:C; [|discriminate]. destruct (finish fuel tree (map to_out cps) ss0) as [[[[f1 l1] s1] m1]|] eqn:F; [|discriminate].
  injection H as <- _ _ _ <- _. apply calc_origin in C as (O & J).
  destruct (finish_drop _ _ _ _ _ _ _ _ F) with (from := from) (to := to) (p := p) as (_ & q & Q & T); auto.
  { intros i X. destruct (J i X) as (q & r0 & Q & R). exists r0, (to_out q). rewrite nth_error_map, Q. auto. }
  rewrite nth_error_map in Q. destruct (nth_error cps from) as [c|] eqn:CE; [|discriminate]. injection Q as <-. cbn in T.
  destruct (O from c CE) as (c0 & E0 & CS & [W|(W & la & ls & R & LS)]).
  - exfalso. apply (self_unjudged _ _ _ _ _ _ _ _ _ S U c0 LSdiscard_rev); [eapply nth_error_In; exact E0|congruence].
  - rewrite T in R. injection R as R. symmetry in R. apply discard_rev_only in R as (-> & R). split; [reflexivity|]. exists st, c0. split; [reflexivity|]. split; [exact E0|]. split; [exact W|congruence].
Qed.

(** * The points of the loops of the output *)
(** Going through the points of C from i, each marked li, the next point after the last is e. *)
Fixpoint marked (pts : list fpoint) (li : Z) (i : nat) (C : list nat) (e : nat) : Prop :=
  match C with [] => i = e | c :: C' => c = i /\ exists p, nth_error pts i = Some p /\ f_index p = li /\ marked pts li (f_next p) C' e end.
Lemma marked_iterate pts li C : forall i e, marked pts li i C e -> iterate_loop pts i (length C) = Some C.
Proof.
  induction C as [|c C IH]; intros i e H; [reflexivity|]. destruct H as (-> & p & E & _ & H). cbn [length iterate_loop]. rewrite E, (IH _ _ H). reflexivity.
Qed.
Lemma marked_in pts li C : forall i e x, marked pts li i C e -> In x C -> exists p, nth_error pts x = Some p /\ f_index p = li.
Proof. induction C as [|c C IH]; intros i e x H I; [destruct I|]. destruct H as (-> & p & E & X & H). destruct I as [<-|I]; [eauto|eapply IH; eassumption]. Qed.
Lemma marked_ext pts pts' li C : (forall x p, nth_error pts x = Some p -> f_index p = li -> nth_error pts' x = Some p) -> forall i e, marked pts li i C e -> marked pts' li i C e.
Proof. intros S. induction C as [|c C IH]; intros i e H; [exact H|]. destruct H as (-> & p & E & X & H). split; [reflexivity|]. exists p. auto. Qed.
Lemma marked_app pts li C C' : forall i e, marked pts li i (C ++ C') e <-> exists m, marked pts li i C m /\ marked pts li m C' e.
Proof.
  induction C as [|c C IH]; intros i e; cbn [app marked]; [split; [intros H; exists i; auto|intros (m & -> & H); exact H]|]. split.
  - intros (-> & p & E & X & H). apply IH in H as (m & H1 & H2). exists m. split; [|exact H2]. split; [reflexivity|]. exists p. auto.
  - intros (m & (-> & p & E & X & H1) & H2). split; [reflexivity|]. exists p. split; [exact E|]. split; [exact X|]. apply IH. exists m. auto.
Qed.
Lemma put_put_ne (pts : list fpoint) prev a j b x : x <> prev -> x <> j -> nth_error (put (put pts prev a) j b) x = nth_error pts x.
Proof. intros A B. rewrite !put_other by congruence. reflexivity. Qed.
(** C are the points before prev. *)
Lemma trace_marked : forall fuel li i pts prev j size pts' size' C pp, (0 <= li)%Z -> trace_loop fuel li i pts prev j size = Some (pts', size') ->
  marked pts li i C prev -> nth_error pts prev = Some pp -> f_index pp = li -> f_next pp = j -> ~ In prev C -> size = S (length C) ->
  (exists C', marked pts' li i C' i /\ size' = length C') /\ (forall x p, nth_error pts x = Some p -> (0 <= f_index p)%Z -> f_index p <> li -> nth_error pts' x = Some p).
Proof.
  induction fuel as [|fuel IH]; intros li i pts prev j size pts' size' C pp L H M EP IP NX NI SZ; cbn [trace_loop] in H.
  all: assert (STOP : j = i -> (exists C', marked pts li i C' i /\ size = length C') /\ (forall x p, nth_error pts x = Some p -> (0 <= f_index p)%Z -> f_index p <> li -> nth_error pts x = Some p)) by
    (intros ->; split; [|auto]; exists (C ++ [prev]); split; [apply marked_app; exists prev; split; [exact M|]; split; [reflexivity|]; exists pp; cbn; auto|rewrite app_length, SZ; cbn; lia]).
  all: destruct (Nat.eqb_spec j i) as [->|NJ]; [injection H as <- <-; apply STOP; reflexivity|clear STOP]. 1: discriminate.
  destruct (nth_error pts j) as [pj|] eqn:EJ; [|discriminate]. destruct (Z.eqb_spec (f_index pj) (-3)) as [I3|I3].
  - rewrite EP in H. assert (PJ : prev <> j) by (intros ->; assert (pp = pj) by congruence; subst; lia).
    set (pp' := f_set_next pp (f_next pj)) in *. set (pts1 := put (put pts prev pp') j (f_set_index pj li)) in *.
    assert (E1 : nth_error pts1 prev = Some pp') by (unfold pts1; rewrite put_other by congruence; apply (put_same' _ _ _ _ EP)).
    assert (OT : forall x, x <> prev -> x <> j -> nth_error pts1 x = nth_error pts x) by (intros x A B; apply put_put_ne; assumption).
    assert (M1 : marked pts1 li i C prev).
    { clear H IH SZ. assert (NJC : ~ In j C) by (intros X; destruct (marked_in _ _ _ _ _ _ M X) as (p & E & W); assert (p = pj) by congruence; subst; lia). revert i NJ M NI NJC. induction C as [|c C IHC]; intros i NJ M NI NJC; [exact M|].
      destruct M as (-> & p & E & X & M). split; [reflexivity|]. exists p. split; [rewrite OT; [exact E|intros ->; apply NI; left; reflexivity|congruence]|]. split; [exact X|].
      destruct C as [|c' C]; [exact M|]. apply IHC; [intros ->; destruct M as (-> & _); apply NJC; right; left; reflexivity|exact M|intros Y; apply NI; right; exact Y|intros Y; apply NJC; right; exact Y]. }
    apply IH with (C := C) (pp := pp') in H; auto. destruct H as (H1 & H2). split; [exact H1|]. intros x p E P Q. apply H2; [|exact P|exact Q]. rewrite OT; [exact E| |]; intros ->; assert (W : p = pp \/ p = pj) by (try (left; congruence); right; congruence); destruct W; subst; lia.
  - destruct (Z.eqb_spec (f_index pj) (-1)) as [I1|I1]; [|discriminate]. set (pj' := f_set_index pj li) in *. set (pts1 := put pts j pj') in *.
    assert (E1 : nth_error pts1 j = Some pj') by apply (put_same' _ _ _ _ EJ).
    assert (PJ : prev <> j) by (intros ->; assert (pp = pj) by congruence; subst; lia).
    assert (NJC : ~ In j C) by (intros X; destruct (marked_in _ _ _ _ _ _ M X) as (p & E & W); assert (p = pj) by congruence; subst; lia).
    assert (OT : forall x p, nth_error pts x = Some p -> f_index p = li -> nth_error pts1 x = Some p). { intros x p E W. unfold pts1. rewrite put_other; [exact E|]. intros <-. assert (p = pj) by congruence. subst. lia. }
    apply IH with (C := C ++ [prev]) (pp := pj') in H; auto.
    + destruct H as (H1 & H2). split; [exact H1|]. intros x p E P Q. apply H2; [|exact P|exact Q]. unfold pts1. rewrite put_other; [exact E|]. intros <-. assert (p = pj) by congruence. subst. lia.
    + apply marked_app. exists prev. split; [eapply marked_ext; [exact OT|exact M]|]. split; [reflexivity|]. exists pp. split; [apply OT; assumption|]. split; [exact IP|]. exact NX.
    + intros X. apply in_app_or in X as [X|[X|[]]]; congruence.
    + rewrite SZ, app_length. cbn. lia.
Qed.
Definition loops_marked (pts : list fpoint) (loops : list loop_loc) : Prop :=
  forall k loc, nth_error loops k = Some loc -> exists C, marked pts (Z.of_nat k) (fst loc) C (fst loc) /\ snd loc = length C.
Lemma find_marked fuel : forall k i pts loops pts' loops', find_loops_from fuel k i pts loops = Some (pts', loops') -> loops_marked pts loops -> loops_marked pts' loops'.
Proof.
  induction k as [|k IH]; intros i pts loops pts' loops' H LM; cbn [find_loops_from] in H; [injection H as <- <-; exact LM|].
  destruct (nth_error pts i) as [p|] eqn:E; [|discriminate]. destruct (Z.eqb_spec (f_index p) (-1)) as [I1|I1]; [|eapply IH; eassumption].
  set (li := Z.of_nat (length loops)) in *. set (p' := f_set_index p li) in *. destruct (trace_loop fuel li i (put pts i p') i (f_next p) 1) as [(pts1, size)|] eqn:T; [|discriminate].
  apply trace_marked with (C := []) (pp := p') in T; [|unfold li; lia|reflexivity|apply (put_same' _ _ _ _ E)|reflexivity|reflexivity|intros []|reflexivity]. destruct T as ((C & MC & SC) & KEEP).
  apply IH in H; [exact H|]. intros n loc N. destruct (Nat.lt_ge_cases n (length loops)) as [Q|Q].
  - rewrite nth_error_app1 in N by exact Q. destruct (LM n loc N) as (D & MD & SD). exists D. split; [|exact SD]. eapply marked_ext; [|exact MD]. intros x q EX IX. apply KEEP; [|lia|unfold li; lia].
    rewrite put_other; [exact EX|]. intros <-. assert (q = p) by congruence. subst. lia.
  - rewrite nth_error_app2 in N by exact Q. destruct (n - length loops) as [|m] eqn:R; [|destruct m; discriminate]. cbn in N. injection N as <-. exists C. cbn [fst snd]. split; [|exact SC]. replace n with (length loops) by lia. exact MC.
Qed.
(** Every loop can be gone through, and none of its points is marked as discarded. *)
Lemma loops_used pts fps loops : find_loops pts = Some (fps, loops) -> forall loc, In loc loops -> exists C, iterate_loop fps (fst loc) (snd loc) = Some C /\ forall x, In x C -> exists p, nth_error fps x = Some p /\ (0 <= f_index p)%Z.
Proof.
  intros H loc I. unfold find_loops in H. apply find_marked in H; [|intros k l N; destruct k; discriminate]. apply In_nth_error in I as (k & N). destruct (H k loc N) as (C & M & S).
  exists C. rewrite S. split; [eapply marked_iterate; exact M|]. intros x X. destruct (marked_in _ _ _ _ _ _ M X) as (p & E & W). exists p. split; [exact E|]. lia.
Qed.
Lemma finish_used fuel tree pts ss fps loops ss' merged : finish fuel tree pts ss = Some (fps, loops, ss', merged) ->
  forall loc, In loc loops -> exists C, iterate_loop fps (fst loc) (snd loc) = Some C /\ forall x, In x C -> exists p, nth_error fps x = Some p /\ (0 <= f_index p)%Z.
Proof.
  unfold finish. destruct (if tree then anchor_hits pts ss else Some (pts, ss)) as [(p0, s0)|]; [|discriminate]. destruct (follow_all _ _ _ _ _ _) as [[[[p1 br1] m1] s1]|]; [|discriminate].
  destruct (match_orphans _ _ _ _ _) as [[[p2 st2] en2]|]; [|discriminate]. destruct (join_ends p2 st2 en2) as [(p3, st3)|]; [|discriminate]. destruct (forallb _ _); [|discriminate].
  destruct (find_loops (map index_point p3)) as [(f4, l4)|] eqn:FL; [|discriminate]. intros H. injection H as <- <- _ _. eapply loops_used. exact FL.
Qed.
Lemma do_op_used isect place se sn draws fuel op tree pts rand fps loops ss log merged r from to loc C :
  unjudged pts -> do_op isect place se sn draws fuel op tree pts rand = Some (fps, loops, ss, log, merged, r) -> In (from, to) merged -> In loc loops -> iterate_loop fps (fst loc) (snd loc) = Some C -> In from C ->
  op = OpDifference /\ exists st q, self_intersection isect place se sn draws fuel pts rand = Some st /\ nth_error (s_pts st) from = Some q /\ c_state q = Check /\ c_set q = Clip.
Proof.
  intros U H I L IT X. assert (W : exists p, nth_error fps from = Some p /\ (0 <= f_index p)%Z).
  { pose proof H as G. unfold do_op in G. destruct (self_intersection isect place se sn draws fuel pts rand) as [st|]; [|discriminate].
    destruct (calc_line_bal place se sn fuel op st) as [(cps, ss0)|]; [|discriminate]. destruct (finish fuel tree (map to_out cps) ss0) as [[[[f1 l1] s1] m1]|] eqn:F; [|discriminate].
    injection G as <- <- _ _ _ _. destruct (finish_used _ _ _ _ _ _ _ _ F loc L) as (C' & IT' & P). rewrite IT in IT'. injection IT' as <-. apply P. exact X. }
  destruct W as (p & E & P). eapply do_op_drop; try eassumption. lia.
Qed.
