(** Splitting keeps the sets of the points: if all are of the subject, all stay so. *)
From Coq Require Import ZArith QArith List Bool Arith Permutation Sorted Lia.
From Verif Require Import GeomModel GeomSpec BalanceModel EventsModel EventsSpec EventsProofs WindSpec OutModel PointSinkModel CycleProofs ClipModel ClipSpec ClipProofs SweepProofs BalSweepProofs ClipProps JudgeProps JoinSpec JoinProofs JoinProps
  ArrangeSpec RegionProps SegOrder SegSpec SegRun SegClean SegFinal SegTotal WholeProofs WholeRuns WholeCore WholeTotal TotalSpec TotalSplit TotalRun TotalEnds GeneralProofs.
Import ListNotations.
Local Open Scope nat_scope.

Definition all_subject (pts : list cpoint) : Prop := Forall (fun p => c_set p = Subject) pts.
Lemma set_get pts i p : all_subject pts -> nth_error pts i = Some p -> c_set p = Subject.
Proof. intros U N. apply nth_error_In in N. unfold all_subject in U. rewrite Forall_forall in U. exact (U p N). Qed.
Lemma set_put pts i q : all_subject pts -> c_set q = Subject -> all_subject (put pts i q).
Proof.
  intros U S. apply Forall_forall. intros x I. apply In_nth_error in I as (j & N). rewrite put_get in N. destruct ((i =? j) && (j <? length pts)); [injection N as <-; exact S|exact (set_get _ _ _ U N)].
Qed.
Lemma mark_subject st i st' : mark st i = Some st' -> all_subject (s_pts st) -> all_subject (s_pts st').
Proof.
  unfold mark. destruct (nth_error (s_pts st) i) as [p|] eqn:E; [|discriminate]. intros H U. injection H as <-. cbn [with_pts s_pts]. apply set_put; [exact U|]. cbn. exact (set_get _ _ _ U E).
Qed.
Lemma split_subject st s c e st' i : split_segment st s c e = Some (st', i) -> all_subject (s_pts st) -> all_subject (s_pts st').
Proof.
  unfold split_segment. destruct (nth_error (s_nodes st) s) as [g|]; [|discriminate]. destruct e; try (intros H; injection H as <- _; auto; fail); [|discriminate].
  destruct c as [c|]; [|discriminate]. destruct (erase_node _ _) as [sw|]; [|discriminate].
  destruct (nth_error (s_pts st) (sg_a g)) as [pa|] eqn:EA; [|discriminate]. destruct (nth_error (s_pts st) (sg_b g)) as [pb|] eqn:EB; [|discriminate].
  destruct (find_event _ _ _ _ _ _) as [k|]; [|discriminate]. destruct (update_at _ _ _ _) as [q|]; [|discriminate]. destruct (_ || _); [discriminate|].
  intros H U. revert H. assert (G : forall sa sb pa pb, nth_error (s_pts st) sa = Some pa -> forall st', 
    (do st0 <- (if (px (c_data pa) <=? px c)%Z then add_fb_events (with_log (with_pts (with_sweep (with_events st q) sw) (put (s_pts st) sa (c_set_next pa (length (s_pts st))) ++ [mk_cp c sb (c_set pa) Undef])) (s_log st ++ [(sa, sb)])) sa (length (s_pts st))
       else add_fb_events (with_log (with_pts (with_sweep (with_events st q) sw) (put (s_pts st) sa (c_set_next pa (length (s_pts st))) ++ [mk_cp c sb (c_set pa) Undef])) (s_log st ++ [(sa, sb)])) (length (s_pts st)) sa);
     do st1 <- (if (px c <=? px (c_data pb))%Z then add_fb_events st0 (length (s_pts st)) sb else add_fb_events st0 sb (length (s_pts st)));
     Some (st1, length (s_pts st))) = Some st' -> all_subject (s_pts (fst st'))).
  { intros sa sb a b IA st2. match goal with |- context [with_log ?x ?y] => set (S0 := with_log x y) end.
    assert (U0 : all_subject (s_pts S0)).
    { unfold S0. cbn [with_log with_pts s_pts]. apply Forall_app. split; [apply set_put; [exact U|cbn; exact (set_get _ _ _ U IA)]|]. constructor; [cbn; exact (set_get _ _ _ U IA)|constructor]. }
    match goal with |- context [if ?b then ?x else ?y] => destruct (if b then x else y) as [S1|] eqn:E1; [|discriminate] end.
    assert (U1 : s_pts S1 = s_pts S0) by (destruct (_ <=? _)%Z in E1; apply add_fb_pts in E1; exact E1).
    match goal with |- context [if ?b then ?x else ?y] => destruct (if b then x else y) as [S2|] eqn:E2; [|discriminate] end.
    assert (U2 : s_pts S2 = s_pts S1) by (destruct (_ <=? _)%Z in E2; apply add_fb_pts in E2; exact E2).
    intros H. injection H as <-. cbn [fst]. rewrite U2, U1. exact U0. }
  destruct (c_next pa =? sg_b g); cbn [with_sweep with_events s_pts]; destruct (negb _); try discriminate; intros H; apply G in H; assumption.
Qed.
Section Steps.
Variable isect : bool -> bool -> cseg -> cseg -> isect.
Variable place : list cseg -> cseg -> nat.
Variable sort_events : list EventsModel.event -> list EventsModel.event.
Variable sort_new : list (EventsModel.event * nat) -> list (EventsModel.event * nat).
Variable draws : cseg -> cseg -> bool.
Lemma check_subject st n m st' b : check_intersection isect draws st n m = Some (st', b) -> all_subject (s_pts st) -> all_subject (s_pts st').
Proof.
  unfold check_intersection. destruct (nth_error (s_nodes st) n) as [g1|]; [|discriminate]. destruct (nth_error (s_nodes st) m) as [g2|]; [|discriminate].
  destruct (rand_bool (s_rand st)) as (rx, r1). destruct (rand_bool r1) as (ry, r2). set (S0 := if draws g1 g2 then with_rand st r2 else st).
  intros H U. assert (U0 : all_subject (s_pts S0)) by (unfold S0; destruct (draws g1 g2); exact U). revert H. clearbody S0. clear U.
  destruct (isect rx ry g1 g2) as [((c, e1), e2)|]; [|intros H; injection H as <- _; exact U0]. destruct (negb _); [discriminate|]. destruct (_ || _).
  - destruct (split_segment S0 n c e1) as [(S1, i1)|] eqn:E1; [|discriminate]. apply split_subject in E1; [|exact U0]. destruct (split_segment S1 m c e2) as [(S2, i2)|] eqn:E2; [|discriminate]. apply split_subject in E2; [|exact E1].
    destruct (mark S2 i1) as [S3|] eqn:E3; [|discriminate]. apply mark_subject in E3; [|exact E2]. destruct (mark S3 i2) as [S4|] eqn:E4; [|discriminate]. apply mark_subject in E4; [|exact E3].
    intros H. injection H as <- _. exact E4.
  - destruct (at_edge_eqb e1 AEboth).
    + destruct (mark S0 _) as [S1|] eqn:E1; [|discriminate]. apply mark_subject in E1; [|exact U0]. destruct (mark S1 _) as [S2|] eqn:E2; [|discriminate]. apply mark_subject in E2; [|exact E1].
      destruct (mark S2 _) as [S3|] eqn:E3; [|discriminate]. apply mark_subject in E3; [|exact E2]. destruct (mark S3 _) as [S4|] eqn:E4; [|discriminate]. apply mark_subject in E4; [|exact E3].
      intros H. injection H as <- _. exact E4.
    + destruct (mark S0 _) as [S1|] eqn:E1; [|discriminate]. apply mark_subject in E1; [|exact U0]. destruct (mark S1 _) as [S2|] eqn:E2; [|discriminate]. apply mark_subject in E2; [|exact E1].
      intros H. injection H as <- _. exact E2.
Qed.
Lemma step_subject st st' : sweep_step isect place sort_events sort_new draws st = Some st' -> all_subject (s_pts st) -> all_subject (s_pts st').
Proof.
  unfold sweep_step. destruct (next _ _ _ _ _) as [((e, fwd), q)|]; [|discriminate]. intros H U. revert H. destruct (e_deleted e); [intros H; injection H as <-; exact U|].
  assert (U1 : all_subject (s_pts (with_events st q))) by exact U. assert (C : forall sw, all_subject (s_pts (with_sweep (with_events st q) sw))) by (intros; exact U).
  assert (F : (if fwd then
          do (sweep, r) <- insert_node place sweep_cmp (with_events st q) (e_node e);
          do (before, after) <- r;
          let st := with_sweep (with_events st q) sweep in
          do (st, split) <- match before with None => Some (st, false) | Some b => check_intersection isect draws st (e_node e) b end;
          if split then Some st
          else match after with
               | None => Some st
               | Some a => do (st, _) <- check_intersection isect draws st (e_node e) a; Some st
               end
        else do sweep <- erase_node (s_sweep (with_events st q)) (e_node e); Some (with_sweep (with_events st q) sweep)) = Some st' -> all_subject (s_pts st')).
  { destruct fwd.
    - destruct (insert_node _ _ _ _) as [(sw, [(bf, af)|])|]; try discriminate. cbn zeta. specialize (C sw). set (S0 := with_sweep (with_events st q) sw) in *. clearbody S0.
      destruct bf as [bf|].
      + destruct (check_intersection isect draws S0 (e_node e) bf) as [(S1, sp)|] eqn:E1; [|discriminate]. apply check_subject in E1; [|exact C]. destruct sp; [intros H; injection H as <-; exact E1|].
        destruct af as [af|]; [|intros H; injection H as <-; exact E1]. destruct (check_intersection isect draws S1 (e_node e) af) as [(S2, sp)|] eqn:E2; [|discriminate]. apply check_subject in E2; [|exact E1]. intros H. injection H as <-. exact E2.
      + destruct af as [af|]; [|intros H; injection H as <-; exact C]. destruct (check_intersection isect draws S0 (e_node e) af) as [(S2, sp)|] eqn:E2; [|discriminate]. apply check_subject in E2; [|exact C]. intros H. injection H as <-. exact E2.
    - destruct (erase_node _ _) as [sw|]; [|discriminate]. intros H. injection H as <-. apply C. }
  assert (B : (if fwd then
          if in_dec Nat.eq_dec (e_node e) (s_sweep (with_events st q)) then
            let '(before, after) := around_node None (s_sweep (with_events st q)) (e_node e) in
            do sweep <- erase_node (s_sweep (with_events st q)) (e_node e);
            let st := with_sweep (with_events st q) sweep in
            match before, after with
            | Some b, Some a => do (st, _) <- check_intersection isect draws st b a; Some st
            | _, _ => Some st
            end
          else
            do q <- update_at _ (fun e => EventsModel.mk_event (e_x e) (e_a e) (e_b e) (e_node e) (e_type e) true) (Z.to_nat (q_cur _ q)) q;
            Some (with_events (with_events st q) q)
        else
          do (sweep, _) <- insert_node place sweep_cmp (with_events st q) (e_node e);
          Some (with_sweep (with_events st q) sweep)) = Some st' -> all_subject (s_pts st')).
  { destruct fwd.
    - destruct (in_dec _ _ _).
      + destruct (around_node _ _ _) as (bf, af). destruct (erase_node _ _) as [sw|]; [|discriminate]. cbn zeta. specialize (C sw). set (S0 := with_sweep (with_events st q) sw) in *. clearbody S0.
        destruct bf as [bf|]; [|intros H; injection H as <-; exact C]. destruct af as [af|]; [|intros H; injection H as <-; exact C].
        destruct (check_intersection isect draws S0 bf af) as [(S2, sp)|] eqn:E2; [|discriminate]. apply check_subject in E2; [|exact C]. intros H. injection H as <-. exact E2.
      + destruct (update_at _ _ _ _) as [q2|]; [|discriminate]. intros H. injection H as <-. exact U.
    - destruct (insert_node _ _ _ _) as [(sw, r)|]; [|discriminate]. intros H. injection H as <-. apply C. }
  destruct (e_type e); [exact F|exact B|exact F|exact B] || (intros H; first [apply F; exact H | apply B; exact H]).
Qed.
Lemma loop_subject fuel : forall st st', sweep_loop isect place sort_events sort_new draws fuel st = Some st' -> all_subject (s_pts st) -> all_subject (s_pts st').
Proof.
  induction fuel as [|fuel IH]; intros st st' H U; cbn [sweep_loop] in H; destruct (more _ (s_events st)); try discriminate; try (injection H as <-; exact U).
  destruct (sweep_step isect place sort_events sort_new draws st) as [S1|] eqn:E; [|discriminate]. eapply IH; [exact H|]. eapply step_subject; eassumption.
Qed.
Lemma self_subject fuel pts rand st : self_intersection isect place sort_events sort_new draws fuel pts rand = Some st -> all_subject pts -> all_subject (s_pts st).
Proof.
  unfold self_intersection. destruct (add_lines _ _ _) as [S0|] eqn:E; [|discriminate]. intros H U. eapply loop_subject; [exact H|]. apply add_lines_pts in E. rewrite E. exact U.
Qed.
End Steps.
