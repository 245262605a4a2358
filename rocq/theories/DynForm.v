(** What one step of a sweep does, case by case. *)
From Coq Require Import ZArith QArith List Bool Arith Permutation Sorted Lia Lqa.
From Verif Require Import GeomModel GeomSpec GeomProofs IsectProofs GeomFinal BalanceModel EventsModel EventsSpec EventsProofs OutModel PointSinkModel CycleProofs ClipModel ClipSpec ClipProofs SweepProofs
  SegOrder SegPair SegTrace SegCheck SegStep SegRun SegClean ArrangeSpec SegSpec TotalSpec TotalSplit TotalRun ExactProofs DynOrder DynTrace DynShape DynCut DynCheck DynWeak.
Import ListNotations.
Local Open Scope nat_scope.

Section Form.
Variable place : list cseg -> cseg -> nat.
Variable sort_events : list EventsModel.event -> list EventsModel.event.
Variable sort_new : list (EventsModel.event * nat) -> list (EventsModel.event * nat).
Variable draws : cseg -> cseg -> bool.
Hypothesis SE : sorts event_lt sort_events.
Hypothesis SN : sorts (lt_new _ _ (fun e : ev => e) event_lt) sort_new.
Hypothesis PLC : places place.
Hypothesis FI : finds place.
Variable pts0 : list cpoint.
Variable T : Z.
Notation check := (check_intersection intersects draws).
Notation step := (sweep_step intersects place sort_events sort_new draws).
Notation base := (base pts0 T).
Variable v : nat -> cseg.
Variable mk : nat -> nat -> Prop.
Notation sub := (sub v mk).

Lemma node_vals st l gs : sub st -> node_values st l = Some gs -> gs = map v l.
Proof.
  intros (S & _). revert gs. induction l as [|n l IH]; intros gs H; cbn [node_values] in H; [injection H as <-; reflexivity|]. destruct (nth_error (s_nodes st) n) as [g|] eqn:G; [|discriminate].
  destruct (node_values st l) as [gs1|] eqn:V; [|discriminate]. injection H as <-. rewrite (IH gs1 eq_refl), <- (S _ _ G). reflexivity.
Qed.
(** Where a line is put. *)
Lemma insert_at st n sweep before after : sub st -> insert_node place sweep_cmp st n = Some (sweep, Some (before, after)) ->
  exists A B, s_sweep st = A ++ B /\ sweep = A ++ n :: B /\ before = last_of A /\ after = hd_error B /\
    (forall a, last_of A = Some a -> sweep_cmp (v a) (v n) = true) /\ (forall b, hd_error B = Some b -> sweep_cmp (v n) (v b) = true).
Proof.
  intros S H. unfold insert_node in H. destruct (nth_error (s_nodes st) n) as [g|] eqn:G; [|discriminate]. rewrite <- (proj1 S _ _ G) in H. clear G g.
  destruct (node_values st (s_sweep st)) as [gs|] eqn:NV; [|discriminate]. apply (node_vals _ _ _ S) in NV. cbn zeta in H. pose proof (FI gs (v n)) as FP. set (k := Nat.min (place gs (v n)) (length gs)) in *.
  set (R := s_sweep st) in *. assert (LK : k <= length R) by (unfold k; rewrite NV, map_length; lia). exists (firstn k R), (skipn k R).
  destruct (if k =? 0 then true else _) eqn:OK; [|discriminate]. injection H as <- <- <-.
  assert (HA : last_of (firstn k R) = if k =? 0 then None else nth_error R (k - 1)) by (apply last_firstn; exact LK).
  assert (HB : hd_error (skipn k R) = nth_error R k) by apply hd_skipn.
  split; [symmetry; apply firstn_skipn|]. split; [reflexivity|]. split; [symmetry; exact HA|]. split; [symmetry; exact HB|]. split.
  - intros a Q. rewrite HA in Q. destruct (k =? 0); [discriminate|]. rewrite NV, nth_error_map, Q in OK. exact OK.
  - intros b Q. rewrite HB in Q. apply FP. rewrite NV, nth_error_map, Q. reflexivity.
Qed.

Inductive form (st : cstate) (s all : list ev) (st' : cstate) : Prop :=
| undo_deleted e all' u' : s = e :: tl s -> (exists k, In k all /\ ~ In k s /\ event_lt e k = false) -> base st' (tl s) all' u' -> Permutation all' all -> e_deleted e = true -> s_sweep st' = s_sweep st -> form st s all st'
| undo_in e all' u' : s = e :: tl s -> (exists k, In k all /\ ~ In k s /\ event_lt e k = false) -> base st' (tl s) all' u' -> Permutation all' all -> e_deleted e = false -> is_f e = true ->
    erase_node (s_sweep st) (e_node e) = Some (s_sweep st') -> form st s all st'
| undo_out e all' u' A B : s = e :: tl s -> (exists k, In k all /\ ~ In k s /\ event_lt e k = false) -> base st' (tl s) all' u' -> Permutation all' all -> e_deleted e = false -> is_f e = false ->
    s_sweep st = A ++ B -> s_sweep st' = A ++ e_node e :: B ->
    (forall a, last_of A = Some a -> sweep_cmp (v a) (v (e_node e)) = true) -> (forall b, hd_error B = Some b -> sweep_cmp (v (e_node e)) (v b) = true) -> form st s all st'
| do_deleted e all' u' : In e all -> ~ In e s -> (forall x, In x s -> event_lt e x = false) -> (forall x, In x all -> ~ In x s -> event_lt x e = false) ->
    base st' (e :: s) all' u' -> Permutation all' all -> e_deleted e = true -> s_sweep st' = s_sweep st -> form st s all st'
| do_drop e all' u' : In e all -> ~ In e s -> (forall x, In x s -> event_lt e x = false) -> (forall x, In x all -> ~ In x s -> event_lt x e = false) ->
    base st' (map (delk (ekey e)) (e :: s)) all' u' -> Permutation all' (map (delk (ekey e)) all) -> e_deleted e = false -> is_f e = false -> ~ In (e_node e) (s_sweep st) -> s_sweep st' = s_sweep st -> form st s all st'
| do_in e A B st2 : In e all -> ~ In e s -> (forall x, In x s -> event_lt e x = false) -> (forall x, In x all -> ~ In x s -> event_lt x e = false) ->
    e_deleted e = false -> is_f e = true -> s_sweep st = A ++ B -> ~ In (e_node e) (A ++ B) ->
    (forall a, last_of A = Some a -> sweep_cmp (v a) (v (e_node e)) = true) -> (forall b, hd_error B = Some b -> sweep_cmp (v (e_node e)) (v b) = true) ->
    base st2 (e :: s) all false -> s_sweep st2 = A ++ e_node e :: B -> ext st st2 ->
    (do (st3, split) <- match last_of A with None => Some (st2, false) | Some b => check st2 (e_node e) b end;
      if split : bool then Some st3 else match hd_error B with None => Some st3 | Some a => do (st, _) <- check st3 (e_node e) a; Some st end) = Some st' -> form st s all st'
| do_out e A B st2 : In e all -> ~ In e s -> (forall x, In x s -> event_lt e x = false) -> (forall x, In x all -> ~ In x s -> event_lt x e = false) ->
    e_deleted e = false -> is_f e = false -> s_sweep st = A ++ e_node e :: B -> NoDup (A ++ e_node e :: B) ->
    base st2 (e :: s) all false -> s_sweep st2 = A ++ B -> ext st st2 ->
    match last_of A, hd_error B with Some b, Some a => do (st, _) <- check st2 b a; Some st | _, _ => Some st2 end = Some st' -> form st s all st'.

Lemma num_ev st q : num pts0 T st -> length (q_events _ q) = length (q_events _ (s_events st)) -> num pts0 T (with_events st q).
Proof. intros [U1 U2 U3 U4 U5] L. constructor; cbn [with_events s_pts s_nodes s_events s_sweep]; try assumption. congruence. Qed.

Lemma step_form st s all u st' : base st s all u -> sub st -> more _ (s_events st) = true -> step st = Some st' -> form st s all st'.
Proof.
  intros [O F NU SH] SB M H0. pose proof H0 as H. destruct (step_total place sort_events sort_new draws SE SN PLC _ _ _ _ _ _ O F NU M) as (st'' & H1 & NU' & _). assert (st'' = st') by congruence. subst st''. clear H1.
  destruct (ok_step _ _ _ _ _ _ SE SN _ _ _ _ _ O M H0) as (s0 & all0 & u0 & O0 & F0). specialize (F0 PLC F). clear H0. unfold sweep_step in H.
  destruct (next_inv ev ev (fun e => e) event_lt event_lt_swo sort_events sort_new SE SN _ _ _ _ (ok_q _ _ _ _ _ O) M) as (e & fwd & q & NX & R).
  change (EventsModel.next ev event_lt sort_events sort_new (s_events st) = Some (e, fwd, q)) in NX. rewrite NX in H. set (st1 := with_events st q) in *. set (n := e_node e) in *.
  assert (BASE : forall s1 all1 u1, EI (s_events st') s1 all1 u1 -> same_skel (s_pts st) (s_pts st') -> s_nodes st' = s_nodes st -> s_log st' = s_log st -> exists all' u', base st' s1 all' u' /\ Permutation all' all1).
  { intros s1 all1 u1 E1 SK EN EL. destruct (EI_unique _ _ _ _ _ _ _ (ok_q _ _ _ _ _ O0) E1) as (-> & P). exists all0, u0. split; [|exact P]. constructor; try assumption. eapply shape_same; eassumption. }
  assert (RF : same_skel (s_pts st) (s_pts st)) by (intros i; reflexivity).
  assert (NDA : NoDup all) by (eapply NoDup_map_inv; exact (ok_keys _ _ _ _ _ O)).
  destruct fwd.
  - destruct R as (R & rest & SO & PR). assert (IE : In e all) by (eapply EI_in; [exact R|left; reflexivity]).
    assert (NIN : ~ In e s). { pose proof (EI_NoDup _ _ _ _ R (ok_keys _ _ _ _ _ O)) as ND. inversion ND; subst; assumption. }
    assert (BEF : forall x, In x s -> event_lt e x = false).
    { intros x I. unfold in_order in SO. cbn [rev] in SO. rewrite <- app_assoc in SO. apply (srt_app ev event_lt) in SO as (_ & _ & C). apply (C x e); [rewrite <- in_rev; exact I|left; reflexivity]. }
    assert (AFT : forall x, In x all -> ~ In x s -> event_lt x e = false) by (intros x; apply (at_after all s e rest SO PR)).
    destruct (EI_count _ _ _ _ R) as (LA & _). destruct (EI_count _ _ _ _ (ok_q _ _ _ _ _ O)) as (LA0 & _).
    assert (U1 : num pts0 T st1) by (apply num_ev; [exact NU|congruence]).
    assert (S1 : sub st1) by exact SB.
    assert (EX : forall l, ext st (with_sweep st1 l)) by (intros l; apply ext_same; reflexivity).
    destruct (e_deleted e) eqn:D.
    { injection H as <-. destruct (BASE _ _ _ R RF eq_refl eq_refl) as (all' & u' & B & P). eapply (do_deleted st s all st1 e); try eassumption. reflexivity. }
    destruct (is_f e) eqn:FE.
    + assert (H' : (do (sweep, r) <- insert_node place sweep_cmp st1 n;
          do (before, after) <- r;
          let st := with_sweep st1 sweep in
          do (st, split) <- match before with None => Some (st, false) | Some b => check st n b end;
          if split then Some st
          else match after with
               | None => Some st
               | Some a => do (st, _) <- check st n a; Some st
               end) = Some st') by (unfold is_f in FE; destruct (e_type e); try discriminate; exact H).
      clear H. assert (OF : ok pts0 st1 (e :: s) all false) by (eapply ok_events; [exact O|exact R|]; intros x [<-|I] DX FX; [congruence|apply (ok_bwd _ _ _ _ _ O); assumption]).
      destruct (ok_fev _ _ _ _ _ _ OF IE FE) as (g & NG & EE). rewrite D in EE. fold n in NG, EE.
      assert (NSW : ~ In n (s_sweep st)).
      { intros I. destruct (f_swf _ _ _ (proj1 F) n I) as (g' & G' & I'). cbn [st1 with_events s_nodes] in NG. assert (g' = g) by congruence. subst g'. apply NIN. rewrite EE. exact I'. }
      destruct (insert_node place sweep_cmp st1 n) as [(sweep, [(before, after)|])|] eqn:IN; [|discriminate|discriminate].
      destruct (insert_form _ draws _ _ _ _ _ IN NSW (n_sweep _ _ _ U1)) as (NDS & _ & _ & SW). destruct (insert_at _ _ _ _ _ S1 IN) as (A & B & ER & -> & -> & -> & CA & CB).
      change (s_sweep st1) with (s_sweep st) in ER, SW.
      assert (O2 : ok pts0 (with_sweep st1 (A ++ n :: B)) (e :: s) all false).
      { apply ok_sweep; [exact OF| |].
        - intros m I. apply SW in I as [->|I]; [apply (ok_fwd _ _ _ _ _ OF); assumption|apply (ok_sw _ _ _ _ _ OF); exact I].
        - intros x I DX FX Z. destruct I as [<-|I]; [congruence|]. apply SW in Z as [Z|Z]; [|exact (proj2 (ok_bwd _ _ _ _ _ O x I DX FX) Z)].
          destruct (ok_bev _ _ _ _ _ _ OF (ok_s_all _ _ _ _ _ _ O I) FX) as (g' & G' & E'). rewrite Z in *. assert (g' = g) by congruence. subst g'.
          pose proof (BEF x I) as X. rewrite EE, E' in X. rewrite fev_bev in X; [discriminate|]. eapply (ok_nodes _ _ _ _ _ OF); exact NG. }
      assert (F2 : fc (with_sweep st1 (A ++ n :: B)) (e :: s) all).
      { destruct F as (FL & CV). split; [|exact CV]. destruct (full_insert _ _ _ _ _ _ _ (A ++ n :: B) O FL SO PR D FE IE SW). constructor; assumption. }
      apply (do_in st s all st' e A B (with_sweep st1 (A ++ n :: B))); try assumption; try reflexivity; [rewrite <- ER; exact NSW| |apply EX].
      constructor; [exact O2|exact F2|apply num_sweep; assumption|]. eapply shape_same; [| | |exact SH]; [exact RF|reflexivity|reflexivity].
    + assert (H' : (if in_dec Nat.eq_dec n (s_sweep st1) then
            let '(before, after) := around_node None (s_sweep st1) n in
            do sweep <- erase_node (s_sweep st1) n;
            let st := with_sweep st1 sweep in
            match before, after with
            | Some b, Some a => do (st, _) <- check st b a; Some st
            | _, _ => Some st
            end
          else
            do q <- update_at _ (fun e => EventsModel.mk_event (e_x e) (e_a e) (e_b e) (e_node e) (e_type e) true) (Z.to_nat (q_cur _ q)) q;
            Some (with_events st1 q)) = Some st') by (unfold is_f in FE; destruct (e_type e); try discriminate; exact H).
      clear H. change (s_sweep st1) with (s_sweep st) in H'. destruct (in_dec Nat.eq_dec n (s_sweep st)) as [I|I].
      * pose proof (n_sweep _ _ _ U1) as ND. change (s_sweep st1) with (s_sweep st) in ND. apply in_split in I as (A & B & ER). rewrite ER in H', ND.
        rewrite SegClean.around_split in H' by (intros J; apply NoDup_remove_2 in ND; apply ND, in_or_app; auto). rewrite (erase_split _ _ _ ND) in H'. cbn zeta in H'.
        assert (SW : forall m, In m (A ++ B) <-> In m (s_sweep st) /\ m <> n) by (apply (erase_spec (s_sweep st) n (A ++ B)); rewrite ER; apply erase_split; exact ND).
        assert (O2 : ok pts0 (with_sweep st1 (A ++ B)) (e :: s) all false).
        { assert (O1 : ok pts0 (with_sweep st (A ++ B)) s all u).
          { apply ok_sweep; [exact O| |].
            - intros m J. apply SW in J as (J & _). apply (ok_sw _ _ _ _ _ O). exact J.
            - intros x J DX FX Z. apply SW in Z as (Z & _). exact (proj2 (ok_bwd _ _ _ _ _ O x J DX FX) Z). }
          change (with_sweep st1 (A ++ B)) with (with_events (with_sweep st (A ++ B)) q). eapply ok_events; [exact O1|exact R|]. cbn [with_sweep s_pts s_nodes s_sweep].
          intros x [<-|J] DX FX; [|apply (ok_bwd _ _ _ _ _ O1); assumption]. split; [apply (ok_sw _ _ _ _ _ O); fold n; rewrite ER; apply in_or_app; cbn; auto|]. intros Z. apply SW in Z as (_ & Z). unfold n in Z. congruence. }
        assert (F2 : fc (with_sweep st1 (A ++ B)) (e :: s) all).
        { destruct F as (FL & CV). split; [|exact CV]. destruct (full_erase _ _ _ _ _ _ _ (A ++ B) O FL SO PR FE IE SW). constructor; assumption. }
        apply (do_out st s all st' e A B (with_sweep st1 (A ++ B))); try assumption; try reflexivity; [|apply EX|destruct (last_of A); exact H'].
        constructor; [exact O2|exact F2|apply num_sweep; [assumption|]|]; [apply NoDup_remove_1 in ND; exact ND|]. eapply shape_same; [| | |exact SH]; [exact RF|reflexivity|reflexivity].
      * destruct (update_at ev _ (Z.to_nat (q_cur ev q)) q) as [q'|] eqn:UP; [|discriminate]. injection H' as <-.
        pose proof (EI_delete _ _ _ _ _ _ R (ok_keys _ _ _ _ _ O) (EI_current _ _ _ _ R) UP) as E2. destruct (BASE _ _ _ E2 RF eq_refl eq_refl) as (all' & u' & B & P).
        eapply (do_drop st s all _ e); try eassumption. reflexivity.
  - destruct R as (SQ & R & k & rest & PR & LE).
    assert (AF : exists k, In k all /\ ~ In k s /\ event_lt e k = false).
    { exists k. split; [eapply Permutation_in; [exact PR|left; reflexivity]|]. split; [|exact LE]. apply (Permutation_NoDup (Permutation_sym PR)) in NDA. inversion NDA as [|? ? N1 _]; subst. intros I. apply N1, in_or_app. auto. }
    destruct (e_deleted e) eqn:D.
    { injection H as <-. destruct (BASE _ _ _ R RF eq_refl eq_refl) as (all' & u' & B & P). eapply (undo_deleted st s all st1 e); try eassumption. reflexivity. }
    assert (IE : In e s) by (rewrite SQ; left; reflexivity).
    assert (OE : ok pts0 st1 (tl s) all true) by (eapply ok_events; [exact O|exact R|]; intros x I DX FX; apply (ok_bwd _ _ _ _ _ O); auto; rewrite SQ; right; exact I).
    destruct (is_f e) eqn:FE.
    + assert (HF : (do sweep <- erase_node (s_sweep st1) n; Some (with_sweep st1 sweep)) = Some st') by (unfold is_f in FE; destruct (e_type e); try discriminate; exact H).
      clear H. destruct (erase_node (s_sweep st1) n) as [sweep|] eqn:ER; [|discriminate]. injection HF as <-. destruct (BASE _ _ _ R RF eq_refl eq_refl) as (all' & u' & B & P). eapply (undo_in st s all _ e); eassumption.
    + assert (HB : (do (sweep, _) <- insert_node place sweep_cmp st1 n; Some (with_sweep st1 sweep)) = Some st') by (unfold is_f in FE; destruct (e_type e); try discriminate; exact H).
      clear H. destruct (insert_node place sweep_cmp st1 n) as [(sweep, r)|] eqn:IN; [|discriminate]. injection HB as <-.
      destruct (ok_bwd _ _ _ _ _ O e IE D FE) as (LV & NSW). fold n in LV, NSW.
      destruct r as [(before, after)|]; [|exfalso; exact (insert_places pts0 place _ _ _ _ _ _ _ PLC OE NSW IN eq_refl)].
      destruct (insert_at st1 _ _ _ _ SB IN) as (A & B & ER & -> & -> & -> & CA & CB). destruct (BASE _ _ _ R RF eq_refl eq_refl) as (all' & u' & BB & P).
      eapply (undo_out st s all _ e all' u' A B); try eassumption. reflexivity.
Qed.
End Form.
