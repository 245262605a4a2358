(** Proofs about what offsetting stores and reports. *)
From Coq Require Import ZArith List Bool Arith Lia.
From Verif Require Import GeomModel PointSinkModel PointSinkSpec PointSinkProofs OffsetModel OffsetSpec OffsetProofs.
Import ListNotations.

Definition put_all (calls : list (point * nat)) (st : sink_state) : sink_state := fold_left (fun st pi => sink_put st (fst pi) (snd pi)) calls st.

(** What the sink has stored so far, with indices. *)
Record stored_ok (P0 : list lpoint) (log0 : list tcall) (calls : list (point * nat)) (st : sink_state) (stored : list (point * nat)) : Prop := {
  so_points : map lp_data (cs_points (ss_clip st)) = map lp_data P0 ++ map fst stored;
  so_prefix : firstn (length P0) (cs_points (ss_clip st)) = P0;
  so_first : sk_first (ss_sink st) = length P0;
  so_incl : incl stored calls;
  so_none : sk_prev (ss_sink st) = None -> stored = [];
  so_prev : forall p, sk_prev (ss_sink st) = Some p -> In p calls;
  so_log : sk_pt (ss_sink st) = true -> ss_log st = log0 ++ (if (length stored <? 3)%nat then [] else map (fun s => TAdded (snd s)) stored);
  so_nolog : sk_pt (ss_sink st) = false -> ss_log st = log0;
  so_o1 : sk_pt (ss_sink st) = true -> forall s, nth_error stored 0 = Some s -> sk_o1 (ss_sink st) = snd s;
  so_o2 : sk_pt (ss_sink st) = true -> forall s, nth_error stored 1 = Some s -> sk_o2 (ss_sink st) = snd s }.

Lemma points_length P0 log0 calls st stored : stored_ok P0 log0 calls st stored -> length (cs_points (ss_clip st)) = (length P0 + length stored)%nat.
Proof. intros [A _ _ _ _ _ _ _ _ _]. apply (f_equal (@length point)) in A. rewrite app_length, !map_length in A. exact A. Qed.
Lemma firstn_grow {A} n (l : list A) x P : firstn n l = P -> (n <= length l)%nat -> firstn n (l ++ [x]) = P.
Proof. intros E L. rewrite firstn_app. replace (n - length l)%nat with O by lia. cbn. rewrite app_nil_r. exact E. Qed.

Lemma finalize_ok P0 log0 calls st stored p o : stored_ok P0 log0 calls st stored -> sk_prev (ss_sink st) = Some (p, o) ->
  exists stored', stored_ok P0 log0 calls (finalize_prev st p o) stored' /\ sk_prev (ss_sink (finalize_prev st p o)) = Some (p, o) /\
    cs_next_orig (ss_clip (finalize_prev st p o)) = cs_next_orig (ss_clip st) /\ sk_pt (ss_sink (finalize_prev st p o)) = sk_pt (ss_sink st).
Proof.
  intros H SP. unfold finalize_prev. set (dup := match back _ with Some b => _ | None => false end). destruct dup.
  - exists stored. auto.
  - pose proof (points_length _ _ _ _ _ H) as PL. destruct H as [A B C D Z E F F' G1 G2]. exists (stored ++ [(p, o)]). cbv zeta. rewrite C, PL. replace (length P0 + length stored - length P0)%nat with (length stored) by lia.
    destruct (sk_pt (ss_sink st)) eqn:PT.
    + split; [|split; [|split]].
      * assert (PTS : forall l, map lp_data (cs_points (ss_clip st) ++ [mk_lpoint p l (sk_cat (ss_sink st)) false]) = map lp_data P0 ++ map fst (stored ++ [(p, o)])) by (intros l; rewrite !map_app, A, <- app_assoc; reflexivity).
        assert (PF : forall l, firstn (length P0) (cs_points (ss_clip st) ++ [mk_lpoint p l (sk_cat (ss_sink st)) false]) = P0) by (intros l; apply firstn_grow; [exact B|lia]).
        assert (IN : incl (stored ++ [(p, o)]) calls) by (apply incl_app; [exact D|intros x [<-|[]]; apply E; exact SP]).
        specialize (F eq_refl). specialize (G1 eq_refl). specialize (G2 eq_refl).
        split; cbn [ss_clip ss_sink ss_log cs_points set_points].
        -- apply PTS.
        -- apply PF.
        -- destruct (length stored) as [|[|[|n]]]; first [exact C|reflexivity].
        -- exact IN.
        -- intros X. exfalso. destruct (length stored) as [|[|[|n]]]; cbn in X; congruence.
        -- intros q. destruct (length stored) as [|[|[|n]]]; exact (E q).
        -- intros _. rewrite F. rewrite app_length. cbn [length]. destruct stored as [|s1 [|s2 [|s3 stored]]]; cbn [length Nat.ltb Nat.leb Nat.add]; rewrite ?app_nil_r; try reflexivity.
           ++ cbn [app map snd]. rewrite (G1 s1 eq_refl), (G2 s2 eq_refl). reflexivity.
           ++ rewrite <- app_assoc, map_app. reflexivity.
        -- intros X. destruct (length stored) as [|[|[|n]]]; cbn in X; congruence.
        -- intros _ s X. destruct stored as [|s1 [|s2 [|s3 stored]]]; cbn [length sk_o1]; cbn in X; injection X as <-; [reflexivity| | |]; apply G1; reflexivity.
        -- intros _ s X. destruct stored as [|s1 [|s2 [|s3 stored]]]; cbn [length sk_o2]; cbn in X; [discriminate| | |]; injection X as <-; [reflexivity| |]; apply G2; reflexivity.
      * destruct (length stored) as [|[|[|n]]]; exact SP.
      * reflexivity.
      * destruct (length stored) as [|[|[|n]]]; first [exact PT|reflexivity].
    + split; [|split; [exact SP|split; [reflexivity|exact PT]]].
      split; cbn [ss_clip ss_sink ss_log cs_points set_points].
      * rewrite !map_app, A, <- app_assoc. reflexivity.
      * apply firstn_grow; [exact B|lia].
      * exact C.
      * apply incl_app; [exact D|intros x [<-|[]]; apply E; exact SP].
      * congruence.
      * exact E.
      * congruence.
      * intros _. exact (F' eq_refl).
      * congruence.
      * congruence.
Qed.
Lemma stored_more P0 log0 calls x st stored : stored_ok P0 log0 calls st stored -> stored_ok P0 log0 (calls ++ [x]) st stored.
Proof. intros [A B C D Z E F F' G1 G2]. split; auto. - intros y Y. apply in_or_app. left. apply D. exact Y. - intros y Y. apply in_or_app. left. apply E. exact Y. Qed.
Lemma put_ok P0 log0 calls st stored p i : stored_ok P0 log0 calls st stored ->
  exists stored', stored_ok P0 log0 (calls ++ [(p, i)]) (sink_put st p i) stored' /\ sk_prev (ss_sink (sink_put st p i)) = Some (p, i) /\ cs_next_orig (ss_clip (sink_put st p i)) = S i /\
    sk_pt (ss_sink (sink_put st p i)) = sk_pt (ss_sink st).
Proof.
  intros H. unfold sink_put.
  assert (X : exists stored', stored_ok P0 log0 calls (match sk_prev (ss_sink st) with Some (q, o) => finalize_prev st q o | None => st end) stored' /\ sk_pt (ss_sink (match sk_prev (ss_sink st) with Some (q, o) => finalize_prev st q o | None => st end)) = sk_pt (ss_sink st)).
  { destruct (sk_prev (ss_sink st)) as [(q, o)|] eqn:SP; [|eauto]. destruct (finalize_ok _ _ _ _ _ _ _ H SP) as (s' & A & _ & _ & B). eauto. }
  destruct X as (stored' & X & PT). set (st1 := match sk_prev (ss_sink st) with Some (q, o) => finalize_prev st q o | None => st end) in *. exists stored'. cbv zeta.
  split; [|split; [reflexivity|split; [reflexivity|exact PT]]]. apply (stored_more _ _ _ (p, i)) in X. destruct X as [A B C D Z E F F' G1 G2]. split; cbn; auto; [discriminate|].
  intros q Q. injection Q as <-. apply in_or_app. right. left. reflexivity.
Qed.
Lemma puts_ok P0 log0 l : forall calls st stored, stored_ok P0 log0 calls st stored ->
  exists stored', stored_ok P0 log0 (calls ++ l) (put_all l st) stored' /\ sk_pt (ss_sink (put_all l st)) = sk_pt (ss_sink st).
Proof.
  induction l as [|(p, i) l IH]; intros calls st stored H; [exists stored; rewrite app_nil_r; auto|].
  destruct (put_ok _ _ _ _ _ p i H) as (s1 & H1 & _ & _ & P1). destruct (IH _ _ _ H1) as (s2 & H2 & P2). exists s2. rewrite <- app_assoc in H2. split; [exact H2|]. cbn [put_all fold_left fst snd] in *. unfold put_all in P2. rewrite P2. exact P1.
Qed.
Lemma set_last_data l f : (forall x, lp_data (f x) = lp_data x) -> map lp_data (set_last l f) = map lp_data l.
Proof.
  intros H. unfold set_last. destruct (rev l) as [|x r] eqn:R; [apply (f_equal (@rev lpoint)) in R; rewrite rev_involutive in R; subst; reflexivity|].
  apply (f_equal (@rev lpoint)) in R. rewrite rev_involutive in R. subst l. cbn [rev]. rewrite !map_app. cbn. rewrite H. reflexivity.
Qed.
Lemma set_last_prefix l f n P : firstn n l = P -> (n < length l)%nat -> firstn n (set_last l f) = P.
Proof.
  intros E L. unfold set_last. destruct (rev l) as [|x r] eqn:R; [apply (f_equal (@rev lpoint)) in R; rewrite rev_involutive in R; subst; cbn in L; lia|].
  apply (f_equal (@rev lpoint)) in R. rewrite rev_involutive in R. subst l. cbn [rev] in *. rewrite app_length in L. cbn in L. rewrite <- E, !firstn_app. replace (n - length (rev r))%nat with O by lia. reflexivity.
Qed.
Lemma close_calls P0 log0 calls st stored c' log' : stored_ok P0 log0 calls st stored -> sink_close st = Done (c', log') ->
  exists stored', map lp_data (cs_points c') = map lp_data P0 ++ map fst stored' /\ firstn (length P0) (cs_points c') = P0 /\ incl stored' calls /\ (stored' = [] \/ 3 <= length stored')%nat /\
    log' = log0 ++ (if sk_pt (ss_sink st) then map (fun s => TAdded (snd s)) stored' else []).
Proof.
  intros H. unfold sink_close. destruct (sk_prev (ss_sink st)) as [(p, o)|] eqn:SP.
  - destruct (nth_error _ _) as [f|] eqn:NF; [|discriminate].
    assert (X : exists stored', stored_ok P0 log0 calls (if negb (point_eqb p (lp_data f)) then finalize_prev st p o else st) stored' /\ sk_pt (ss_sink (if negb (point_eqb p (lp_data f)) then finalize_prev st p o else st)) = sk_pt (ss_sink st)).
    { destruct (negb _); [|eauto]. destruct (finalize_ok _ _ _ _ _ _ _ H SP) as (s' & A & _ & _ & B). eauto. }
    destruct X as (s1 & X & PT). set (st1 := if negb (point_eqb p (lp_data f)) then finalize_prev st p o else st) in *. clearbody st1. cbv zeta.
    pose proof (points_length _ _ _ _ _ X) as PL. destruct X as [A B C D Z E F F' G1 G2]. rewrite C, PL. replace (length P0 + length s1 - length P0)%nat with (length s1) by lia.
    destruct (Nat.ltb_spec (length s1) 3) as [LT|GE]; intros R; injection R as <- <-; cbn [cs_points set_points].
    + exists []. replace (length P0 + length s1 - length s1)%nat with (length P0) by lia. rewrite B, app_nil_r. split; [reflexivity|]. split; [apply firstn_all|]. split; [intros ? []|]. split; [left; reflexivity|].
      rewrite <- PT. destruct (sk_pt (ss_sink st1)) eqn:Q; [|cbn; rewrite app_nil_r; auto]. rewrite (F eq_refl). reflexivity.
    + exists s1. rewrite set_last_data by reflexivity. split; [exact A|]. split; [apply set_last_prefix; [exact B|lia]|]. split; [exact D|]. split; [right; exact GE|].
      rewrite <- PT. destruct (sk_pt (ss_sink st1)) eqn:Q; [|rewrite app_nil_r; auto]. rewrite (F eq_refl). reflexivity.
  - intros R. injection R as <- <-. destruct H as [A B C D Z E F F' G1 G2]. specialize (Z SP). subst stored. cbn [map] in A. rewrite app_nil_r in A. exists []. cbn [map].
    rewrite app_nil_r. split; [exact A|]. split; [exact B|]. split; [intros ? []|]. split; [left; reflexivity|]. destruct (sk_pt (ss_sink st)); [rewrite (F eq_refl)|rewrite (F' eq_refl), app_nil_r]; reflexivity.
Qed.

(** ** One sequence *)
Section Loop.
Variable moved : point -> point -> point.
Variable rotated : point -> point -> point -> nat -> point.
Variable steps : point -> point -> point -> Z.
Variable negative positive : bool.
Variable lone_steps : Z.
Variable lone_rotated : nat -> point.
Notation emit := (emit moved rotated steps negative positive lone_steps lone_rotated).
Notation offset_loop := (offset_loop moved rotated steps negative positive lone_steps lone_rotated).

Lemma emit_corner i1 i2 p1 p2 p3 q i : In (q, i) (emit (Corner i1 i2 p1 p2 p3)) ->
  (i = i1 /\ q = padd p1 (moved p1 p2)) \/ (i = i2 /\ q = padd p2 (moved p1 p2)) \/ (i = i2 /\ exists k, q = padd p2 (rotated p1 p2 p3 k)).
Proof.
  cbn [OffsetModel.emit]. intros [E|[E|I]]; [injection E as <- <-; auto|injection E as <- <-; auto|]. apply in_map_iff in I as (q' & E & I). injection E as <- <-. right. right. split; [reflexivity|].
  unfold arc_points in I. destruct (concave _ _ _ _); [|destruct I]. cbv zeta in I. destruct (Z.ltb _ _); [|destruct I]. apply in_map_iff in I as (k & <- & _). eauto.
Qed.

Lemma offset_loop_calls c log cat pt closed input ws e c' log' : cs_ran c = false ->
  (if closed : bool then plan_closed positive (Z.of_nat (cs_next_orig c)) input else plan_open positive (Z.of_nat (cs_next_orig c)) input) = Some (ws, e) ->
  offset_loop c log cat pt closed input = Done (c', log') ->
  cs_next_orig c' = Z.to_nat e /\ exists stored, map lp_data (cs_points c') = map lp_data (cs_points c) ++ map fst stored /\ firstn (length (cs_points c)) (cs_points c') = cs_points c /\
    (stored = [] \/ 3 <= length stored)%nat /\ log' = log ++ (if pt then map (fun s => TAdded (snd s)) stored else []) /\
    forall q i, In (q, i) stored -> exists w z, In w ws /\ In (q, z) (emit w) /\ i = Z.to_nat z.
Proof.
  intros R PL. unfold OffsetModel.offset_loop. unfold sink_open. rewrite R. cbn [andb ss_clip]. rewrite PL. set (st0 := mk_ss _ _ _).
  set (calls := map (fun pi : point * Z => (fst pi, Z.to_nat (snd pi))) (flat_map emit ws)).
  assert (FE : fold_left (fun st pi => sink_put st (fst pi) (Z.to_nat (snd pi))) (flat_map emit ws) st0 = put_all calls st0).
  { unfold put_all, calls. generalize st0. induction (flat_map emit ws) as [|x l IH]; intros s; [reflexivity|]. cbn [map fold_left fst snd]. apply IH. }
  rewrite FE. destruct (sink_close _) as [(c1, log1)|] eqn:CL; [|discriminate]. intros E. injection E as <- <-. split; [reflexivity|].
  assert (S0 : stored_ok (cs_points c) log [] st0 []).
  { split; cbn; try rewrite app_nil_r; auto; try discriminate; [apply firstn_all|intros ? []]. }
  destruct (puts_ok _ _ calls _ _ _ S0) as (s1 & S1 & PT). cbn [app] in S1. destruct (close_calls _ _ _ _ _ _ _ S1 CL) as (s2 & A & B & C & D & F). exists s2. cbn [cs_points set_orig].
  split; [exact A|]. split; [exact B|]. split; [exact D|]. split; [rewrite F, PT; reflexivity|]. intros q i I. apply C in I. unfold calls in I. apply in_map_iff in I as ((q', z) & E & I). injection E as <- <-. apply in_flat_map in I as (w & I & J). exists w, z. auto.
Qed.

(** A lone point. *)
Lemma lone_calls i p : positive = true -> length (emit (Lone i p)) = (Z.to_nat (Z.max lone_steps 3) - 1)%nat.
Proof. intros P. cbn [OffsetModel.emit]. rewrite P. rewrite map_length, seq_length. reflexivity. Qed.
End Loop.

