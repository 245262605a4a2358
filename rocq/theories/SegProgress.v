(** A sweep over lines that only meet at their ends comes to its end and splits no line. *)
From Coq Require Import ZArith QArith List Bool Arith Permutation Sorted Lia.
From Verif Require Import GeomModel GeomSpec GeomProofs BalanceModel EventsModel EventsSpec EventsProofs OutModel PointSinkModel CycleProofs ClipModel ClipSpec ClipProofs SweepProofs
  SegOrder SegPair SegTrace SegCheck SegStep SegRun SegClean SegFinal SegMeet ArrangeSpec ArrangeProofs SegSpec.
Import ListNotations.
Local Open Scope Z_scope.

Lemma mark_ok st i : (i < length (s_pts st))%nat -> exists pts, mark st i = Some (with_pts st pts) /\ length pts = length (s_pts st).
Proof. intros L. unfold mark. destruct (nth_error (s_pts st) i) as [p|] eqn:E; [|apply nth_error_None in E; lia]. eexists. split; [reflexivity|]. apply put_length. Qed.
Lemma values_ok st l : (forall n, In n l -> (n < length (s_nodes st))%nat) -> exists gs, node_values st l = Some gs.
Proof.
  induction l as [|n l IH]; intros H; cbn [node_values]; [eauto|]. destruct (nth_error (s_nodes st) n) as [g|] eqn:E; [|apply nth_error_None in E; specialize (H n (or_introl eq_refl)); lia].
  destruct IH as (gs & ->); [intros m I; apply H; right; exact I|]. eauto.
Qed.

Section Progress.
Variables place : list cseg -> cseg -> nat.
Variable sort_events : list EventsModel.event -> list EventsModel.event.
Variable sort_new : list (EventsModel.event * nat) -> list (EventsModel.event * nat).
Variable draws : cseg -> cseg -> bool.
Hypothesis SE : sorts event_lt sort_events.
Hypothesis SN : sorts (lt_new _ _ (fun e : ev => e) event_lt) sort_new.
Hypothesis FI : finds place.
Hypothesis PLC : places place.
Notation check := (check_intersection intersects draws).
Notation step := (sweep_step intersects place sort_events sort_new draws).
Notation loop := (sweep_loop intersects place sort_events sort_new draws).
Notation self := (self_intersection intersects place sort_events sort_new draws).

Lemma check_ok st n m g h : nth_error (s_nodes st) n = Some g -> nth_error (s_nodes st) m = Some h -> good g -> good h -> meet_ends g h ->
  (sg_a g < length (s_pts st))%nat -> (sg_b g < length (s_pts st))%nat -> (sg_a h < length (s_pts st))%nat -> (sg_b h < length (s_pts st))%nat ->
  exists st', check st n m = Some (st', false) /\ length (s_pts st') = length (s_pts st).
Proof.
  intros NG NH G H M L1 L2 L3 L4. unfold check_intersection. rewrite NG, NH. destruct (rand_bool (s_rand st)) as (rx, r1). destruct (rand_bool r1) as (ry, r2).
  set (st1 := if draws g h then with_rand st r2 else st). assert (P1 : s_pts st1 = s_pts st) by (unfold st1; destruct (draws g h); reflexivity). rewrite <- P1 in *. clearbody st1. clear P1 NG NH.
  destruct (intersects rx ry g h) as [((c, e1), e2)|] eqn:E; [|eauto]. destruct (isect_ends _ _ _ _ _ _ _ G H M E) as [(-> & ->)|(I1 & I2)]; cbn [at_edge_eqb Bool.eqb negb orb].
  - destruct (mark_ok st1 (sg_a g) L1) as (p1 & -> & Q1). destruct (mark_ok (with_pts st1 p1) (sg_b g)) as (p2 & -> & Q2); [cbn [with_pts s_pts]; lia|].
    destruct (mark_ok (with_pts (with_pts st1 p1) p2) (sg_a h)) as (p3 & -> & Q3); [cbn [with_pts s_pts] in *; lia|].
    destruct (mark_ok (with_pts (with_pts (with_pts st1 p1) p2) p3) (sg_b h)) as (p4 & -> & Q4); [cbn [with_pts s_pts] in *; lia|]. eexists. split; [reflexivity|]. cbn [with_pts s_pts] in *. lia.
  - assert (T : at_edge_eqb e1 AEboth = false /\ at_edge_eqb e2 AEboth = false /\ at_edge_eqb e1 AEno = false /\ at_edge_eqb e2 AEno = false) by (destruct I1 as [->| ->], I2 as [->| ->]; repeat split; reflexivity).
    destruct T as (-> & -> & -> & ->). cbn [Bool.eqb negb orb].
    destruct (mark_ok st1 (if at_edge_eqb e1 AEstart then sg_a g else sg_b g)) as (p1 & -> & Q1); [destruct (at_edge_eqb _ _); assumption|].
    destruct (mark_ok (with_pts st1 p1) (if at_edge_eqb e2 AEstart then sg_a h else sg_b h)) as (p2 & -> & Q2); [cbn [with_pts s_pts]; destruct (at_edge_eqb _ _); lia|]. eexists. split; [reflexivity|]. cbn [with_pts s_pts] in *. lia.
Qed.

Variable N : list cseg.
Variable all : list ev.
Notation v := (SegClean.v N).
Hypothesis EVS : forall e, In e all -> (e_node e < length N)%nat /\ (e = fev (v (e_node e)) (e_node e) false \/ e = bev (v (e_node e)) (e_node e) false).
Hypothesis BOTH : forall n, (n < length N)%nat -> In (fev (v n) n false) all /\ In (bev (v n) n false) all.
Hypothesis GOODS : forall n, (n < length N)%nat -> good (v n).
Hypothesis AGREES : forall n m, (n < length N)%nat -> (m < length N)%nat -> agree (v n) (v m).
Hypothesis KEYS : NoDup (map ekey all).
Hypothesis DIFF : forall n m, (n < length N)%nat -> (m < length N)%nat -> n <> m -> (sg_a (v n), sg_b (v n)) <> (sg_a (v m), sg_b (v m)).
Hypothesis MEET : forall n m, (n < length N)%nat -> (m < length N)%nat -> n <> m -> meet_ends (v n) (v m).
Variable size : nat.
Hypothesis IDX : forall n, (n < length N)%nat -> (sg_a (v n) < size)%nat /\ (sg_b (v n) < size)%nat.
Notation quiet := (quiet N all).

Lemma nth_v n : (n < length N)%nat -> nth_error N n = Some (v n).
Proof. intros L. destruct (nth_error N n) as [g|] eqn:G; [|apply nth_error_None in G; lia]. apply v_nth in G as (-> & _). reflexivity. Qed.

Lemma check_run st n m : s_nodes st = N -> length (s_pts st) = size -> (n < length N)%nat -> (m < length N)%nat -> n <> m ->
  exists st', check st n m = Some (st', false) /\ length (s_pts st') = size /\ s_nodes st' = N.
Proof.
  intros E L A B D. destruct (IDX n A), (IDX m B). destruct (check_ok st n m (v n) (v m)) as (st' & C & L'); try (rewrite E; apply nth_v; assumption); auto; try lia.
  exists st'. split; [exact C|]. split; [lia|]. apply check_quiet in C as (_ & C). destruct (C L') as (_ & g & h & pts & r & _ & _ & -> & _). exact E.
Qed.

Lemma step_run st s : quiet st s -> more _ (s_events st) = true -> length (s_pts st) = size -> exists st', step st = Some st' /\ length (s_pts st') = size.
Proof.
  intros [QN QC QE QT] M LEN. unfold sweep_step.
  destruct (next_inv ev ev (fun e => e) event_lt event_lt_swo sort_events sort_new SE SN _ _ _ _ QE M) as (e & fwd & q & NX & R).
  change (EventsModel.next ev event_lt sort_events sort_new (s_events st) = Some (e, fwd, q)) in NX. rewrite NX. destruct (calm_next _ _ _ _ _ _ QC NX) as (-> & QC'). destruct R as (EI' & rest & SO & PR).
  set (st1 := with_events st q). assert (IE : In e all) by (eapply at_all; [exact PR|left; reflexivity]).
  assert (D : e_deleted e = false) by (destruct (EVS e IE) as (_ & [Q|Q]); rewrite Q; reflexivity). rewrite D.
  assert (PT : s_pts st1 = s_pts st) by reflexivity. assert (ND1 : s_nodes st1 = N) by exact QN. assert (SW : s_sweep st1 = s_sweep st) by reflexivity.
  rewrite <- PT, <- SW in QT. rewrite <- PT in LEN. clearbody st1. set (n := e_node e).
  assert (INR : forall k, In k (s_sweep st1) -> (k < length N)%nat) by (intros k I; apply (at_in N all EVS _ s _ e rest QT PR k I)).
  destruct (is_f e) eqn:F.
  - assert (H' : exists st', (do (sweep, r) <- insert_node place sweep_cmp st1 n;
          do (before, after) <- r;
          let st := with_sweep st1 sweep in
          do (st, split) <- match before with None => Some (st, false) | Some b => check st n b end;
          if split then Some st
          else match after with
               | None => Some st
               | Some a => do (st, _) <- check st n a; Some st
               end) = Some st' /\ length (s_pts st') = size); [|unfold is_f in F; destruct (e_type e); try discriminate; exact H'].
    destruct (at_fwd N all EVS GOODS KEYS s e rest SO PR F) as (EE & LN & FR). fold n in EE, LN, FR.
    assert (NIN : forall k, In k (s_sweep st1) -> k <> n).
    { intros k I Q. apply (tr_mem _ _ _ _ QT) in I as ((x & I & _ & X) & _). apply (FR x I). congruence. }
    unfold insert_node. rewrite ND1, (nth_v n LN). destruct (values_ok st1 (s_sweep st1)) as (gs & NV); [rewrite ND1; exact INR|]. rewrite NV. pose proof (values_map N st1 _ _ ND1 NV) as GS. cbn zeta.
    specialize (PLC gs (v n)). set (k := Nat.min (place gs (v n)) (length gs)) in *.
    assert (OK : (if (k =? 0)%nat then true else match nth_error gs (k - 1) with Some h => sweep_cmp h (v n) | None => false end) = true).
    { destruct PLC as [Z|(h & X & C)]; [|rewrite Z; reflexivity|destruct (k =? 0)%nat; [reflexivity|]; rewrite X; exact C].
      intros h I. rewrite GS in I. apply in_map_iff in I as (j & <- & I). apply DIFF; auto. }
    rewrite OK. cbn [fst snd].
    set (st2 := with_sweep st1 _). assert (N2 : s_nodes st2 = N) by exact ND1. assert (L2 : length (s_pts st2) = size) by exact LEN. clearbody st2.
    assert (C1 : exists st3, match (if (k =? 0)%nat then None else nth_error (s_sweep st1) (k - 1)) with None => Some (st2, false) | Some b => check st2 n b end = Some (st3, false) /\ length (s_pts st3) = size /\ s_nodes st3 = N).
    { destruct (k =? 0)%nat; [eauto|]. destruct (nth_error (s_sweep st1) (k - 1)) as [b|] eqn:B; [|eauto]. apply nth_error_In in B. apply check_run; auto. intros Q. apply (NIN b B). auto. }
    destruct C1 as (st3 & -> & L3 & N3). destruct (nth_error (s_sweep st1) k) as [a|] eqn:B; [|eauto]. apply nth_error_In in B.
    destruct (check_run st3 n a N3 L3 LN (INR a B)) as (st4 & -> & L4 & _); [intros Q; apply (NIN a B); auto|]. eauto.
  - assert (H' : exists st', (if in_dec Nat.eq_dec n (s_sweep st1) then
            let '(before, after) := around_node None (s_sweep st1) n in
            do sweep <- erase_node (s_sweep st1) n;
            let st := with_sweep st1 sweep in
            match before, after with
            | Some b, Some a => do (st, _) <- check st b a; Some st
            | _, _ => Some st
            end
          else
            do q <- update_at _ (fun e => EventsModel.mk_event (e_x e) (e_a e) (e_b e) (e_node e) (e_type e) true) (Z.to_nat (q_cur _ q)) q;
            Some (with_events st1 q)) = Some st' /\ length (s_pts st') = size); [|unfold is_f in F; destruct (e_type e); try discriminate; exact H'].
    destruct (at_back N all EVS BOTH GOODS KEYS _ s _ e rest QT SO PR F) as (IN & EE). fold n in IN, EE. destruct (in_dec _ _ _) as [_|X]; [|contradiction].
    pose proof (proj1 (tr_mem _ _ _ _ QT)) as NDR. apply in_split in IN as (A & B & RAB). rewrite RAB in *. rewrite around_split by (intros I; apply NoDup_remove_2 in NDR; apply NDR, in_or_app; auto).
    rewrite erase_split by exact NDR. cbn zeta. set (st2 := with_sweep st1 (A ++ B)). assert (N2 : s_nodes st2 = N) by exact ND1. assert (L2 : length (s_pts st2) = size) by exact LEN. clearbody st2.
    destruct (last_of A) as [a|] eqn:LA; [|eauto]. destruct (hd_error B) as [b|] eqn:HB; [|eauto]. apply last_of_in in LA. apply hd_error_in in HB.
    destruct (check_run st2 a b N2 L2) as (st4 & -> & L4 & _); [apply INR, in_or_app; auto|apply INR, in_or_app; right; right; exact HB| |eauto].
    intros Q. subst b. apply NoDup_remove_1 in NDR. clear -NDR LA HB. induction A as [|x A IH]; [destruct LA|]. cbn in NDR. inversion NDR as [|? ? X Y]; subst. destruct LA as [->|LA]; [apply X, in_or_app; auto|apply IH; assumption].
Qed.

Lemma quiet_room st s : quiet st s -> more _ (s_events st) = true -> (length s < length all)%nat.
Proof.
  intros [_ _ QE _] M. destruct (next_inv ev ev (fun e => e) event_lt event_lt_swo sort_events sort_new SE SN _ _ _ _ QE M) as (e & [|] & q & NX & R).
  - destruct R as (_ & rest & _ & PR). apply Permutation_length in PR. rewrite app_length, rev_length in PR. cbn [length] in PR. lia.
  - destruct R as (_ & _ & k & rest & PR & _). apply Permutation_length in PR. cbn [length] in PR. rewrite app_length in PR. lia.
Qed.
Lemma loop_run fuel : forall st s, quiet st s -> length (s_pts st) = size -> (length all <= fuel + length s)%nat -> exists st', loop fuel st = Some st' /\ length (s_pts st') = size.
Proof.
  induction fuel as [|f IH]; intros st s Q L F; cbn [sweep_loop]; destruct (more ev (s_events st)) eqn:M; try (eexists; split; [reflexivity|exact L]).
  - pose proof (quiet_room _ _ Q M). lia.
  - destruct (step_run _ _ Q M L) as (st1 & E & L1). rewrite E. destruct (quiet_step place sort_events sort_new draws SE SN FI N all EVS BOTH GOODS AGREES KEYS st s st1 Q M E) as (e & Q1 & _); [lia|].
    apply (IH st1 (e :: s)); auto. cbn [length]. lia.
Qed.
End Progress.
