(** A sweep that splits no line leaves lines that only meet at their ends. *)
From Coq Require Import ZArith QArith List Bool Arith Permutation Sorted Lia.
From Verif Require Import GeomModel GeomSpec GeomProofs BalanceModel EventsModel EventsSpec EventsProofs OutModel PointSinkModel CycleProofs ClipModel ClipSpec ClipProofs SweepProofs
  SegOrder SegPair SegTrace SegCheck SegStep ArrangeSpec.
Import ListNotations.
Local Open Scope Z_scope.

Definition chk (pts : list cpoint) (i : nat) : Prop := exists p, nth_error pts i = Some p /\ c_state p = Check.
Definition mkp (pts : list cpoint) (i j : nat) : Prop := i = j \/ (chk pts i /\ chk pts j).
Lemma mkp_trans pts i j k : mkp pts i j -> mkp pts j k -> mkp pts i k.
Proof. intros [->|(A & B)] [<-|(C & D)]; unfold mkp; auto. Qed.
Lemma mkp_refl pts i : mkp pts i i.
Proof. left. reflexivity. Qed.
Lemma mkp_sym pts i j : mkp pts i j -> mkp pts j i.
Proof. intros [->|(A & B)]; [left; reflexivity|right; auto]. Qed.
Definition more_marks (a b : list cpoint) : Prop := forall i, chk a i -> chk b i.
Lemma mkp_mono a b : more_marks a b -> forall i j, mkp a i j -> mkp b i j.
Proof. intros M i j [->|(A & B)]; [left; reflexivity|right; auto]. Qed.
(** The same points, apart from states, with no mark less. *)
Definition later (a b : list cpoint) : Prop := same_skel a b /\ more_marks a b.
Lemma later_refl a : later a a.
Proof. split; [intros i; reflexivity|intros i C; exact C]. Qed.
Lemma later_trans a b c : later a b -> later b c -> later a c.
Proof. intros (S & M) (S' & M'). split; [intros i; rewrite S; apply S'|intros i C; apply M', M, C]. Qed.
Lemma mark_later st i st' : mark st i = Some st' -> exists pts, st' = with_pts st pts /\ later (s_pts st) pts /\ chk pts i /\ length pts = length (s_pts st).
Proof.
  intros H. destruct (mark_skel _ _ _ H) as (pts & E & S). exists pts. split; [exact E|]. unfold mark in H. destruct (nth_error (s_pts st) i) as [p|] eqn:N; [|discriminate].
  injection H as H. rewrite E in H. injection H as H. subst pts.
  assert (C : chk (put (s_pts st) i (c_set_state p Check)) i) by (eexists; split; [eapply put_same'; exact N|reflexivity]).
  split; [split; [exact S|]|split; [exact C|apply put_length]]. intros j (q & Q & V). destruct (Nat.eq_dec i j) as [<-|D]; [exact C|]. exists q. rewrite put_other by exact D. auto.
Qed.

Lemma add_len st a b st' : add_fb_events st a b = Some st' -> s_pts st' = s_pts st.
Proof.
  unfold add_fb_events. destruct (nth_error (s_pts st) a); [|discriminate]. destruct (nth_error (s_pts st) b); [|discriminate]. destruct (_ && _); [discriminate|]. intros Q. injection Q as <-. reflexivity.
Qed.
Lemma split_len st n c e st' i : split_segment st n c e = Some (st', i) -> length (s_pts st') = (length (s_pts st) + if at_edge_eqb e AEno then 1 else 0)%nat.
Proof.
  unfold split_segment. destruct (nth_error (s_nodes st) n) as [seg|]; [|discriminate]. destruct e; try discriminate; cbn [at_edge_eqb]; try (intros Q; injection Q as <- _; lia).
  destruct c as [c|]; [|discriminate]. destruct (erase_node (s_sweep st) n) as [sweep|]; [|discriminate].
  destruct (nth_error (s_pts st) (sg_a seg)) as [pa|]; [|discriminate]. destruct (nth_error (s_pts st) (sg_b seg)) as [pb|]; [|discriminate].
  destruct (find_event _ _ _ _ _ _) as [k|]; [|discriminate]. destruct (update_at _ _ _ _) as [q|]; [|discriminate]. destruct (_ || _); [discriminate|].
  destruct (if c_next pa =? sg_b seg then (sg_a seg, sg_b seg, pa, pb) else (sg_b seg, sg_a seg, pb, pa))%nat as (((sa, sb), pa'), pb'). destruct (negb _); [discriminate|].
  match goal with |- (match ?m with _ => _ end) = _ -> _ => destruct m as [st1|] eqn:A1; [|discriminate] end.
  match goal with |- (match ?m with _ => _ end) = _ -> _ => destruct m as [st2|] eqn:A2; [|discriminate] end.
  intros Q. injection Q as <- _. assert (E2 : s_pts st2 = s_pts st1) by (destruct (px c <=? _); eapply add_len; exact A2). rewrite E2.
  match type of A1 with (if _ then add_fb_events ?s _ _ else _) = _ => assert (E1 : s_pts st1 = s_pts s) by (destruct (_ <=? px c); eapply add_len; exact A1) end.
  rewrite E1. cbn [with_log with_pts s_pts with_sweep with_events]. rewrite app_length, put_length. reflexivity.
Qed.
Section Sweep.
Variable draws : cseg -> cseg -> bool.
Notation check := (check_intersection intersects draws).

(** What a check does if it adds no point. *)
Lemma check_quiet st n m st' b : check st n m = Some (st', b) -> (length (s_pts st) <= length (s_pts st'))%nat /\
  (length (s_pts st') = length (s_pts st) -> b = false /\ exists g h pts r, nth_error (s_nodes st) n = Some g /\ nth_error (s_nodes st) m = Some h /\
     st' = with_rand (with_pts st pts) r /\ later (s_pts st) pts /\ (good g -> good h -> agree g h -> wide g h -> fine (mkp pts) g h)).
Proof.
  unfold check_intersection. destruct (nth_error (s_nodes st) n) as [g|] eqn:G; [|discriminate]. destruct (nth_error (s_nodes st) m) as [h|] eqn:H; [|discriminate].
  destruct (rand_bool (s_rand st)) as (rx, r1). destruct (rand_bool r1) as (ry, r2). set (st1 := if draws g h then with_rand st r2 else st).
  assert (S1 : exists r, st1 = with_rand st r) by (unfold st1; destruct (draws g h); [exists r2; reflexivity|exists (s_rand st); destruct st; reflexivity]).
  destruct S1 as (r & S1). clearbody st1. pose proof (fun mk R => isect_fine mk R rx ry g h) as IF. destruct (intersects rx ry g h) as [((c, e1), e2)|] eqn:IS.
  - destruct (negb _) eqn:EB; [discriminate|]. destruct (at_edge_eqb e1 AEno || at_edge_eqb e2 AEno) eqn:NO.
    + destruct (split_segment st1 n c e1) as [(st2, i1)|] eqn:P1; [|discriminate]. destruct (split_segment st2 m c e2) as [(st3, i2)|] eqn:P2; [|discriminate].
      destruct (mark st3 i1) as [st4|] eqn:M1; [|discriminate]. destruct (mark st4 i2) as [st5|] eqn:M2; [|discriminate]. intros Q. injection Q as <- <-.
      apply split_len in P1, P2. apply mark_later in M1 as (p1 & -> & _ & _ & L1). apply mark_later in M2 as (p2 & -> & _ & _ & L2). cbn [with_pts s_pts] in *.
      assert (LL : s_pts st1 = s_pts st) by (rewrite S1; reflexivity). rewrite LL in P1. apply orb_prop in NO as [NO|NO]; rewrite NO in *; split; try lia; destruct (at_edge_eqb _ _); lia.
    + apply orb_false_iff in NO as (NO1 & NO2). destruct (at_edge_eqb e1 AEboth) eqn:BO.
      * destruct (mark st1 (sg_a g)) as [st2|] eqn:M1; [|discriminate]. destruct (mark st2 (sg_b g)) as [st3|] eqn:M2; [|discriminate].
        destruct (mark st3 (sg_a h)) as [st4|] eqn:M3; [|discriminate]. destruct (mark st4 (sg_b h)) as [st5|] eqn:M4; [|discriminate]. intros Q. injection Q as <- <-.
        apply mark_later in M1 as (p1 & -> & T1 & C1 & L1). apply mark_later in M2 as (p2 & -> & T2 & C2 & L2). apply mark_later in M3 as (p3 & -> & T3 & C3 & L3). apply mark_later in M4 as (p4 & -> & T4 & C4 & L4).
        rewrite S1 in *. cbn [with_pts with_rand s_pts] in *. split; [lia|]. intros _. split; [reflexivity|]. exists g, h, p4, r. split; [reflexivity|]. split; [reflexivity|]. split; [destruct st; reflexivity|].
        split; [eapply later_trans; [exact T1|]; eapply later_trans; [exact T2|]; eapply later_trans; [exact T3|exact T4]|].
        intros Gg Gh AG W. destruct (IF (mkp p4) (mkp_refl p4) Gg Gh AG W) as [Q|[Q|[(_ & _ & Q)|(Q & _)]]].
        -- subst e1. discriminate.
        -- subst e2. discriminate.
        -- apply Q. intros i j I J. right. destruct T2 as (_ & T2), T3 as (_ & T3), T4 as (_ & T4). split; [destruct I as [->| ->]; auto|destruct J as [->| ->]; auto].
        -- destruct Q as [Q|Q]; subst e1; discriminate.
      * set (i1 := if at_edge_eqb e1 AEstart then sg_a g else sg_b g). set (i2 := if at_edge_eqb e2 AEstart then sg_a h else sg_b h).
        destruct (mark st1 i1) as [st2|] eqn:M1; [|discriminate]. destruct (mark st2 i2) as [st3|] eqn:M2; [|discriminate]. intros Q. injection Q as <- <-.
        apply mark_later in M1 as (p1 & -> & T1 & C1 & L1). apply mark_later in M2 as (p2 & -> & T2 & C2 & L2).
        rewrite S1 in *. cbn [with_pts with_rand s_pts] in *. split; [lia|]. intros _. split; [reflexivity|]. exists g, h, p2, r. split; [reflexivity|]. split; [reflexivity|]. split; [destruct st; reflexivity|].
        split; [eapply later_trans; [exact T1|exact T2]|].
        intros Gg Gh AG W. destruct (IF (mkp p2) (mkp_refl p2) Gg Gh AG W) as [Q|[Q|[(Q & _)|(_ & _ & Q)]]].
        -- subst e1. discriminate.
        -- subst e2. discriminate.
        -- subst e1. discriminate.
        -- apply Q. right. destruct T2 as (_ & T2). split; [apply T2; exact C1|exact C2].
  - intros Q. injection Q as <- <-. rewrite S1. cbn [with_rand s_pts]. split; [lia|]. intros _. split; [reflexivity|]. exists g, h, (s_pts st), r. split; [reflexivity|]. split; [reflexivity|].
    split; [destruct st; reflexivity|]. split; [apply later_refl|]. intros Gg Gh AG W. apply IF; auto. apply mkp_refl.
Qed.
Variables place : list cseg -> cseg -> nat.
Variable sort_events : list EventsModel.event -> list EventsModel.event.
Variable sort_new : list (EventsModel.event * nat) -> list (EventsModel.event * nat).
Notation step := (sweep_step intersects place sort_events sort_new draws).
Notation loop := (sweep_loop intersects place sort_events sort_new draws).
Lemma step_len st st' : step st = Some st' -> (length (s_pts st) <= length (s_pts st'))%nat.
Proof.
  unfold sweep_step. destruct (EventsModel.next _ _ _ _ _) as [((e, fwd), q)|]; [|discriminate]. destruct (e_deleted e); [intros Q; injection Q as <-; apply Nat.le_refl|].
  assert (INS : (if fwd then
          do (sweep, r) <- insert_node place sweep_cmp (with_events st q) (e_node e);
          do (before, after) <- r;
          let st := with_sweep (with_events st q) sweep in
          do (st, split) <- match before with None => Some (st, false) | Some b => check st (e_node e) b end;
          if split then Some st
          else match after with
               | None => Some st
               | Some a => do (st, _) <- check st (e_node e) a; Some st
               end
        else do sweep <- erase_node (s_sweep (with_events st q)) (e_node e); Some (with_sweep (with_events st q) sweep)) = Some st' -> (length (s_pts st) <= length (s_pts st'))%nat).
  { destruct fwd.
    - destruct (insert_node _ _ _ _) as [(sweep, r)|]; [|discriminate]. destruct r as [(before, after)|]; [|discriminate]. cbn zeta. set (st1 := with_sweep (with_events st q) sweep).
      assert (E : s_pts st1 = s_pts st) by reflexivity. clearbody st1. rewrite <- E.
      destruct (match before with None => Some (st1, false) | Some b => check st1 (e_node e) b end) as [(st2, sp)|] eqn:CK; [|discriminate].
      assert (L2 : (length (s_pts st1) <= length (s_pts st2))%nat) by (destruct before as [b|]; [apply check_quiet in CK; apply CK|injection CK as <- _; lia]).
      destruct sp; [intros Q; injection Q as <-; exact L2|]. destruct after as [a|]; [|intros Q; injection Q as <-; exact L2].
      destruct (check st2 (e_node e) a) as [(st3, sp)|] eqn:CK2; [|discriminate]. intros Q. injection Q as <-. apply check_quiet in CK2. lia.
    - destruct (erase_node _ _); [|discriminate]. intros Q. injection Q as <-. apply Nat.le_refl. }
  assert (OUT : (if fwd then
          if in_dec Nat.eq_dec (e_node e) (s_sweep (with_events st q)) then
            let '(before, after) := around_node None (s_sweep (with_events st q)) (e_node e) in
            do sweep <- erase_node (s_sweep (with_events st q)) (e_node e);
            let st := with_sweep (with_events st q) sweep in
            match before, after with
            | Some b, Some a => do (st, _) <- check st b a; Some st
            | _, _ => Some st
            end
          else
            do q <- update_at _ (fun e => EventsModel.mk_event (e_x e) (e_a e) (e_b e) (e_node e) (e_type e) true) (Z.to_nat (q_cur _ q)) q;
            Some (with_events (with_events st q) q)
        else
          do (sweep, _) <- insert_node place sweep_cmp (with_events st q) (e_node e);
          Some (with_sweep (with_events st q) sweep)) = Some st' -> (length (s_pts st) <= length (s_pts st'))%nat).
  { destruct fwd.
    - destruct (in_dec _ _ _).
      + destruct (around_node _ _ _) as (before, after). destruct (erase_node _ _) as [sweep|]; [|discriminate]. cbn zeta. set (st1 := with_sweep (with_events st q) sweep).
        assert (E : s_pts st1 = s_pts st) by reflexivity. clearbody st1. rewrite <- E. destruct before as [b|]; [destruct after as [a|]|]; try (intros Q; injection Q as <-; lia).
        destruct (check st1 b a) as [(st3, sp)|] eqn:CK2; [|discriminate]. intros Q. injection Q as <-. apply check_quiet in CK2. lia.
      + destruct (update_at _ _ _ _); [|discriminate]. intros Q. injection Q as <-. apply Nat.le_refl.
    - destruct (insert_node _ _ _ _) as [(sweep, r)|]; [|discriminate]. intros Q. injection Q as <-. apply Nat.le_refl. }
  destruct (e_type e); assumption.
Qed.
Lemma loop_len fuel : forall st st', loop fuel st = Some st' -> (length (s_pts st) <= length (s_pts st'))%nat.
Proof.
  induction fuel as [|f IH]; intros st st' H; cbn [sweep_loop] in H; destruct (more _ (s_events st)); try discriminate; try (injection H as <-; lia).
  destruct (step st) as [st1|] eqn:E; [|discriminate]. apply step_len in E. apply IH in H. lia.
Qed.
End Sweep.
