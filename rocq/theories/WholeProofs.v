(** From the points after judging to the last stage: what the last stage assumes holds. *)
From Coq Require Import ZArith List Bool Arith Permutation Lia.
From Verif Require Import GeomModel BalanceModel EventsModel EventsSpec OutModel PointSinkModel ClipModel ClipSpec ClipProofs SweepProofs BalSweepProofs ClipProps JudgeProps JoinSpec.
Import ListNotations.
Local Open Scope nat_scope.

(** * No state of a line is known before the second sweep *)
Definition unjudged (pts : list cpoint) : Prop := forall p r, In p pts -> c_state p <> Res r.
Lemma put_in {A} (l : list A) i x y : In y (put l i x) -> y = x \/ In y l.
Proof. revert i. induction l as [|a l IH]; intros [|i] I; cbn [put] in I; auto; destruct I as [<-|I]; cbn [In]; auto. apply IH in I. tauto. Qed.
Lemma unjudged_put pts i p q : unjudged pts -> In q pts -> c_state p = c_state q \/ (forall r, c_state p <> Res r) -> unjudged (put pts i p).
Proof. intros U I H x r X. apply put_in in X as [->|X]; [|apply U; exact X]. destruct H as [->|H]; [apply U; exact I|apply H]. Qed.
Lemma add_fb_pts st a b st' : add_fb_events st a b = Some st' -> s_pts st' = s_pts st.
Proof.
  unfold add_fb_events. destruct (nth_error (s_pts st) a) as [pa|]; [|discriminate]. destruct (nth_error (s_pts st) b) as [pb|]; [|discriminate].
  destruct (_ && _); [discriminate|]. intros H. injection H as <-. reflexivity.
Qed.
Lemma mark_unjudged st i st' : mark st i = Some st' -> unjudged (s_pts st) -> unjudged (s_pts st').
Proof.
  unfold mark. destruct (nth_error (s_pts st) i) as [p|] eqn:E; [|discriminate]. intros H U. injection H as <-. cbn [with_pts s_pts]. apply (unjudged_put _ _ _ p); auto.
  - eapply nth_error_In. exact E.
  - right. intros r. discriminate.
Qed.
Lemma split_unjudged st s c e st' i : split_segment st s c e = Some (st', i) -> unjudged (s_pts st) -> unjudged (s_pts st').
Proof.
  unfold split_segment. destruct (nth_error (s_nodes st) s) as [g|]; [|discriminate]. destruct e; try (intros H; injection H as <- _; auto; fail); [|discriminate].
  destruct c as [c|]; [|discriminate]. destruct (erase_node _ _) as [sw|]; [|discriminate].
  destruct (nth_error (s_pts st) (sg_a g)) as [pa|] eqn:EA; [|discriminate]. destruct (nth_error (s_pts st) (sg_b g)) as [pb|] eqn:EB; [|discriminate].
  destruct (find_event _ _ _ _ _ _) as [k|]; [|discriminate]. destruct (update_at _ _ _ _) as [q|]; [|discriminate]. destruct (_ || _); [discriminate|].
  intros H U. revert H. assert (G : forall sa sb pa pb, In pa (s_pts st) -> forall st', 
    (do st0 <- (if (px (c_data pa) <=? px c)%Z then add_fb_events (with_log (with_pts (with_sweep (with_events st q) sw) (put (s_pts st) sa (c_set_next pa (length (s_pts st))) ++ [mk_cp c sb (c_set pa) Undef])) (s_log st ++ [(sa, sb)])) sa (length (s_pts st))
       else add_fb_events (with_log (with_pts (with_sweep (with_events st q) sw) (put (s_pts st) sa (c_set_next pa (length (s_pts st))) ++ [mk_cp c sb (c_set pa) Undef])) (s_log st ++ [(sa, sb)])) (length (s_pts st)) sa);
     do st1 <- (if (px c <=? px (c_data pb))%Z then add_fb_events st0 (length (s_pts st)) sb else add_fb_events st0 sb (length (s_pts st)));
     Some (st1, length (s_pts st))) = Some st' -> unjudged (s_pts (fst st'))).
  { intros sa sb a b IA st2. match goal with |- context [with_log ?x ?y] => set (S0 := with_log x y) end.
    assert (U0 : unjudged (s_pts S0)).
    { intros p r I. unfold S0 in I. cbn [with_log with_pts s_pts] in I. apply in_app_iff in I as [I|[<-|[]]]; [|discriminate]. eapply unjudged_put; [exact U|exact IA| |exact I]. left. reflexivity. }
    match goal with |- context [if ?b then ?x else ?y] => destruct (if b then x else y) as [S1|] eqn:E1; [|discriminate] end.
    assert (U1 : s_pts S1 = s_pts S0) by (destruct (_ <=? _)%Z in E1; apply add_fb_pts in E1; exact E1).
    match goal with |- context [if ?b then ?x else ?y] => destruct (if b then x else y) as [S2|] eqn:E2; [|discriminate] end.
    assert (U2 : s_pts S2 = s_pts S1) by (destruct (_ <=? _)%Z in E2; apply add_fb_pts in E2; exact E2).
    intros H. injection H as <-. cbn [fst]. rewrite U2, U1. exact U0. }
  destruct (c_next pa =? sg_b g); cbn [with_sweep with_events s_pts]; destruct (negb _); try discriminate; intros H; apply G in H; try exact H; eapply nth_error_In; eassumption.
Qed.
Section Steps.
Variable isect : bool -> bool -> cseg -> cseg -> isect.
Variable place : list cseg -> cseg -> nat.
Variable sort_events : list EventsModel.event -> list EventsModel.event.
Variable sort_new : list (EventsModel.event * nat) -> list (EventsModel.event * nat).
Variable draws : cseg -> cseg -> bool.
Lemma check_unjudged st n m st' b : check_intersection isect draws st n m = Some (st', b) -> unjudged (s_pts st) -> unjudged (s_pts st').
Proof.
  unfold check_intersection. destruct (nth_error (s_nodes st) n) as [g1|]; [|discriminate]. destruct (nth_error (s_nodes st) m) as [g2|]; [|discriminate].
  destruct (rand_bool (s_rand st)) as (rx, r1). destruct (rand_bool r1) as (ry, r2). set (S0 := if draws g1 g2 then with_rand st r2 else st).
  intros H U. assert (U0 : unjudged (s_pts S0)) by (unfold S0; destruct (draws g1 g2); exact U). revert H. clearbody S0. clear U.
  destruct (isect rx ry g1 g2) as [((c, e1), e2)|]; [|intros H; injection H as <- _; exact U0]. destruct (negb _); [discriminate|]. destruct (_ || _).
  - destruct (split_segment S0 n c e1) as [(S1, i1)|] eqn:E1; [|discriminate]. apply split_unjudged in E1; [|exact U0]. destruct (split_segment S1 m c e2) as [(S2, i2)|] eqn:E2; [|discriminate]. apply split_unjudged in E2; [|exact E1].
    destruct (mark S2 i1) as [S3|] eqn:E3; [|discriminate]. apply mark_unjudged in E3; [|exact E2]. destruct (mark S3 i2) as [S4|] eqn:E4; [|discriminate]. apply mark_unjudged in E4; [|exact E3].
    intros H. injection H as <- _. exact E4.
  - destruct (at_edge_eqb e1 AEboth).
    + destruct (mark S0 _) as [S1|] eqn:E1; [|discriminate]. apply mark_unjudged in E1; [|exact U0]. destruct (mark S1 _) as [S2|] eqn:E2; [|discriminate]. apply mark_unjudged in E2; [|exact E1].
      destruct (mark S2 _) as [S3|] eqn:E3; [|discriminate]. apply mark_unjudged in E3; [|exact E2]. destruct (mark S3 _) as [S4|] eqn:E4; [|discriminate]. apply mark_unjudged in E4; [|exact E3].
      intros H. injection H as <- _. exact E4.
    + destruct (mark S0 _) as [S1|] eqn:E1; [|discriminate]. apply mark_unjudged in E1; [|exact U0]. destruct (mark S1 _) as [S2|] eqn:E2; [|discriminate]. apply mark_unjudged in E2; [|exact E1].
      intros H. injection H as <- _. exact E2.
Qed.
Lemma step_unjudged st st' : sweep_step isect place sort_events sort_new draws st = Some st' -> unjudged (s_pts st) -> unjudged (s_pts st').
Proof.
  unfold sweep_step. destruct (next _ _ _ _ _) as [((e, fwd), q)|]; [|discriminate]. intros H U. revert H. destruct (e_deleted e); [intros H; injection H as <-; exact U|].
  assert (U1 : unjudged (s_pts (with_events st q))) by exact U. assert (C : forall sw, unjudged (s_pts (with_sweep (with_events st q) sw))) by (intros; exact U).
  assert (F : (if fwd then
          do (sweep, r) <- insert_node place sweep_cmp (with_events st q) (e_node e);
          do (before, after) <- r;
          let st := with_sweep (with_events st q) sweep in
          do (st, split) <- match before with None => Some (st, false) | Some b => check_intersection isect draws st (e_node e) b end;
          if split then Some st
          else match after with
               | None => Some st
               | Some a => do (st, _) <- check_intersection isect draws st (e_node e) a; Some st
               end
        else do sweep <- erase_node (s_sweep (with_events st q)) (e_node e); Some (with_sweep (with_events st q) sweep)) = Some st' -> unjudged (s_pts st')).
  { destruct fwd.
    - destruct (insert_node _ _ _ _) as [(sw, [(bf, af)|])|]; try discriminate. cbn zeta. specialize (C sw). set (S0 := with_sweep (with_events st q) sw) in *. clearbody S0.
      destruct bf as [bf|].
      + destruct (check_intersection isect draws S0 (e_node e) bf) as [(S1, sp)|] eqn:E1; [|discriminate]. apply check_unjudged in E1; [|exact C]. destruct sp; [intros H; injection H as <-; exact E1|].
        destruct af as [af|]; [|intros H; injection H as <-; exact E1]. destruct (check_intersection isect draws S1 (e_node e) af) as [(S2, sp)|] eqn:E2; [|discriminate]. apply check_unjudged in E2; [|exact E1]. intros H. injection H as <-. exact E2.
      + destruct af as [af|]; [|intros H; injection H as <-; exact C]. destruct (check_intersection isect draws S0 (e_node e) af) as [(S2, sp)|] eqn:E2; [|discriminate]. apply check_unjudged in E2; [|exact C]. intros H. injection H as <-. exact E2.
    - destruct (erase_node _ _) as [sw|]; [|discriminate]. intros H. injection H as <-. apply C. }
  assert (B : (if fwd then
          if in_dec Nat.eq_dec (e_node e) (s_sweep (with_events st q)) then
            let '(before, after) := around_node None (s_sweep (with_events st q)) (e_node e) in
            do sweep <- erase_node (s_sweep (with_events st q)) (e_node e);
            let st := with_sweep (with_events st q) sweep in
            match before, after with
            | Some b, Some a => do (st, _) <- check_intersection isect draws st b a; Some st
            | _, _ => Some st
            end
          else
            do q <- update_at _ (fun e => EventsModel.mk_event (e_x e) (e_a e) (e_b e) (e_node e) (e_type e) true) (Z.to_nat (q_cur _ q)) q;
            Some (with_events (with_events st q) q)
        else
          do (sweep, _) <- insert_node place sweep_cmp (with_events st q) (e_node e);
          Some (with_sweep (with_events st q) sweep)) = Some st' -> unjudged (s_pts st')).
  { destruct fwd.
    - destruct (in_dec _ _ _).
      + destruct (around_node _ _ _) as (bf, af). destruct (erase_node _ _) as [sw|]; [|discriminate]. cbn zeta. specialize (C sw). set (S0 := with_sweep (with_events st q) sw) in *. clearbody S0.
        destruct bf as [bf|]; [|intros H; injection H as <-; exact C]. destruct af as [af|]; [|intros H; injection H as <-; exact C].
        destruct (check_intersection isect draws S0 bf af) as [(S2, sp)|] eqn:E2; [|discriminate]. apply check_unjudged in E2; [|exact C]. intros H. injection H as <-. exact E2.
      + destruct (update_at _ _ _ _) as [q2|]; [|discriminate]. intros H. injection H as <-. exact U.
    - destruct (insert_node _ _ _ _) as [(sw, r)|]; [|discriminate]. intros H. injection H as <-. apply C. }
  destruct (e_type e); [exact F|exact B|exact F|exact B] || (intros H; first [apply F; exact H | apply B; exact H]).
Qed.
Lemma loop_unjudged fuel : forall st st', sweep_loop isect place sort_events sort_new draws fuel st = Some st' -> unjudged (s_pts st) -> unjudged (s_pts st').
Proof.
  induction fuel as [|fuel IH]; intros st st' H U; cbn [sweep_loop] in H; destruct (more _ (s_events st)); try discriminate; try (injection H as <-; exact U).
  destruct (sweep_step isect place sort_events sort_new draws st) as [S1|] eqn:E; [|discriminate]. eapply IH; [exact H|]. eapply step_unjudged; eassumption.
Qed.
Lemma add_lines_pts k : forall st i st', add_lines st k i = Some st' -> s_pts st' = s_pts st.
Proof.
  induction k as [|k IH]; intros st i st' H; cbn [add_lines] in H; [injection H as <-; reflexivity|].
  destruct (nth_error (s_pts st) i) as [p|]; [|discriminate]. destruct (nth_error (s_pts st) (c_next p)) as [q|]; [|discriminate].
  match goal with H : context [if ?b then ?x else ?y] |- _ => destruct (if b then x else y) as [S1|] eqn:E1; [|discriminate] end.
  apply IH in H. rewrite H. destruct (_ <? _)%Z in E1; apply add_fb_pts in E1; exact E1.
Qed.
Lemma self_unjudged fuel pts rand st : self_intersection isect place sort_events sort_new draws fuel pts rand = Some st -> unjudged pts -> unjudged (s_pts st).
Proof.
  unfold self_intersection. destruct (add_lines _ _ _) as [S0|] eqn:E; [|discriminate]. intros H U. eapply loop_unjudged; [exact H|]. apply add_lines_pts in E. rewrite E. exact U.
Qed.
End Steps.

(** * The points of the last stage *)
Lemma hits_in l1 ck : forall st i, In i (snd (fold_left (lb_check l1) ck st)) -> In i (snd st) \/ In i (map ln_i ck).
Proof.
  induction ck as [|l ck IH]; intros st i I; cbn [fold_left] in I; [left; exact I|]. apply IH in I. cbn [map In]. destruct I as [I|I]; [|tauto].
  unfold lb_check in I. destruct (Nat.eqb _ _); [tauto|]. destruct (lb_hit l1 l); [|tauto]. cbn [snd] in I. apply in_app_iff in I as [I|[<-|[]]]; tauto.
Qed.
Lemma loops_perm pts : proper_loops pts -> Permutation (map c_next pts) (seq 0 (length pts)).
Proof.
  intros (P1 & P2). apply NoDup_Permutation_bis.
  - apply NoDup_nth_error. intros i j L E. rewrite map_length in L. rewrite !nth_error_map in E. destruct (nth_error pts i) as [p|] eqn:EI; [|apply nth_error_None in EI; lia].
    destruct (nth_error pts j) as [q|] eqn:EJ; [|discriminate]. cbn in E. injection E as E. eapply P2; eassumption.
  - rewrite map_length, seq_length. lia.
  - intros n I. apply in_map_iff in I as (p & <- & I). apply In_nth_error in I as (i & I). destruct (P1 i p I) as (q & _ & Q & _). apply in_seq. split; [lia|]. apply nth_error_Some. cbn. congruence.
Qed.
Lemma judged_out op pts pts' ss : proper_loops pts -> unjudged pts -> judged op pts pts' ss -> judged_points (map to_out pts') ss.
Proof.
  intros PL U (LN & SAME & ND & IN & RES).
  assert (NTH : forall i p', nth_error pts' i = Some p' -> exists p, nth_error pts i = Some p /\ c_next p' = c_next p /\ (c_state p <> Check -> c_state p' = c_state p)).
  { intros i p' E. destruct (nth_error pts i) as [p|] eqn:EP; [|apply nth_error_None in EP; assert (i < length pts') by (apply nth_error_Some; congruence); lia].
    destruct (SAME i p EP) as (p2 & E2 & _ & E3 & _ & E4). rewrite E in E2. injection E2 as <-. exists p. auto. }
  assert (CHK : forall i p, nth_error pts i = Some p -> c_state p = Check -> exists p' r, nth_error pts' i = Some p' /\ c_state p' = Res r).
  { intros i p E C. assert (I : In i (map fst ss)) by (apply IN; exists p; auto). apply in_map_iff in I as ((j, hits) & J & I). cbn in J. subst j. destruct (RES i hits I) as (l1 & ck & p' & _ & _ & _ & _ & E' & S' & _). exists p', (line_result op l1 ck). auto. }
  split; [|split; [|split; [exact ND|split]]].
  - assert (EQ : map o_next (map to_out pts') = map c_next pts). 2:{ rewrite EQ, map_length, LN. apply loops_perm. exact PL. }
    rewrite map_map. cbn [to_out o_next]. apply nth_ext with (d := 0) (d' := 0); [rewrite !map_length; exact LN|]. intros n L. rewrite map_length in L.
    destruct (nth_error pts' n) as [p'|] eqn:E; [|apply nth_error_None in E; lia]. destruct (NTH n p' E) as (p & E2 & E3 & _).
    erewrite !nth_error_nth by (rewrite nth_error_map, ?E, ?E2; reflexivity). exact E3.
  - intros p I. apply in_map_iff in I as (p' & <- & I). cbn [to_out o_anchor o_state]. split; [reflexivity|]. intros C. apply In_nth_error in I as (i & I). destruct (NTH i p' I) as (p & E & _ & S).
    destruct (c_state p) eqn:SP; try (rewrite S in C by discriminate; discriminate). destruct (CHK i p E SP) as (p2 & r & E2 & R). congruence.
  - intros i. rewrite IN. split.
    + intros (p & E & C). destruct (CHK i p E C) as (p' & r & E' & R). exists (to_out p'), r. rewrite nth_error_map, E'. split; [reflexivity|exact R].
    + intros (p & r & E & R). rewrite nth_error_map in E. destruct (nth_error pts' i) as [p'|] eqn:E'; [|discriminate]. injection E as <-. cbn [to_out o_state] in R. destruct (NTH i p' E') as (q & EQ & _ & S). exists q. split; [exact EQ|].
      destruct (c_state q) eqn:SQ; [|reflexivity|]; rewrite S in R by discriminate; [discriminate|]. destruct (U q r0); [eapply nth_error_In; exact EQ|exact SQ].
  - intros s i I J. destruct s as (j, hits). destruct (RES j hits I) as (l1 & ck & p' & _ & _ & _ & ICK & _ & _ & ->). cbn [snd] in J. unfold line_balance in J. apply hits_in in J as [[]|J].
    apply in_map_iff in J as (l & <- & J). apply ICK in J as (J & _). rewrite map_length, LN. apply (in_map ln_i) in J. rewrite lines_index in J. apply in_seq in J. lia.
Qed.
