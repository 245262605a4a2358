(** A check of two neighbours in a sweep that splits lines at points of the grid. *)
From Coq Require Import ZArith QArith List Bool Arith Permutation Sorted Lia Lqa.
From Verif Require Import GeomModel GeomSpec GeomProofs IsectProofs GeomFinal BalanceModel EventsModel EventsSpec EventsProofs OutModel PointSinkModel CycleProofs ClipModel ClipSpec ClipProofs SweepProofs
  SegOrder SegPair SegTrace SegCheck SegStep SegRun SegClean ArrangeSpec SegSpec TotalSpec TotalSplit TotalRun ExactProofs DynOrder DynTrace DynShape DynCut.
Import ListNotations.
Local Open Scope nat_scope.

(** The queue determines what has been delivered. *)
Lemma renumber_fst {A} (l : list (A * nat)) : forall i, map fst (renumber A i l) = map fst l.
Proof. induction l as [|(e, p) l IH]; intros i; cbn; [reflexivity|]. rewrite IH. reflexivity. Qed.
Lemma app_len {A} (a b c d : list A) : a ++ b = c ++ d -> length a = length c -> a = c /\ b = d.
Proof. revert c. induction a as [|x a IH]; intros [|y c] E L; try discriminate; [auto|]. injection E as -> E. injection L as L. destruct (IH _ E L) as (-> & ->). auto. Qed.
Lemma EI_unique q s all u s2 all2 u2 : EI q s all u -> EI q s2 all2 u2 -> s = s2 /\ Permutation all all2.
Proof.
  intros I1 I2. inversion I1 as [L J c E1 E2 S E3 E4 B E5 P|L J e p l c E1 E2 S E3 G LJ E4 B PC E5 P]; inversion I2 as [L' J' c' E1' E2' S' E3' E4' B' E5' P'|L' J' e' p' l' c' E1' E2' S' E3' G' LJ' E4' B' PC' E5' P']; subst u u2;
    (destruct (app_len L J L' J') as (<- & <-); [congruence|congruence|]); rewrite ?map_id in *.
  - assert (c = c') by lia. subst c'. split; [congruence|]. rewrite P, P'. reflexivity.
  - rewrite E3 in E3'. discriminate.
  - rewrite E3' in E3. discriminate.
  - assert (c = c') by lia. subst c'. split; [congruence|]. rewrite E3 in E3'. apply (f_equal (map fst)) in E3'. rewrite !renumber_fst in E3'. cbn [map fst] in E3'. rewrite P, P', E3'. reflexivity.
Qed.

(** What stays: lines and marks. *)
Definition ext (st st' : cstate) : Prop := (forall n g, nth_error (s_nodes st) n = Some g -> nth_error (s_nodes st') n = Some g) /\ more_marks (s_pts st) (s_pts st').
Lemma ext_refl st : ext st st.
Proof. split; [auto|intros i C; exact C]. Qed.
Lemma ext_trans a b c : ext a b -> ext b c -> ext a c.
Proof. intros (A & B) (C & D). split; [auto|]. intros i X. apply D, B, X. Qed.
Lemma ext_same st st' : s_nodes st' = s_nodes st -> s_pts st' = s_pts st -> ext st st'.
Proof. intros A B. split; rewrite ?A, ?B; [auto|intros i C; exact C]. Qed.
Lemma add_ext st a b st' : add_fb_events st a b = Some st' -> ext st st'.
Proof. intros H. apply add_form in H as (pa & pb & _ & _ & _ & ->). split; cbn [s_nodes s_pts]; [|intros i C; exact C]. intros n g N. rewrite nth_error_app1; [exact N|]. apply nth_error_Some. congruence. Qed.
Lemma split_ext st n c e st' i : split_segment st n c e = Some (st', i) -> ext st st'.
Proof.
  unfold split_segment. destruct (nth_error (s_nodes st) n) as [seg|]; [|discriminate]. destruct e; try discriminate; try (intros Q; injection Q as <- _; apply ext_refl).
  destruct c as [c|]; [|discriminate]. destruct (erase_node (s_sweep st) n) as [sweep|]; [|discriminate].
  destruct (nth_error (s_pts st) (sg_a seg)) as [pa|] eqn:NA; [|discriminate]. destruct (nth_error (s_pts st) (sg_b seg)) as [pb|] eqn:NB; [|discriminate].
  destruct (find_event _ _ _ _ _ _) as [k|]; [|discriminate]. destruct (update_at _ _ _ _) as [q|]; [|discriminate]. destruct (_ || _); [discriminate|].
  destruct (if c_next pa =? sg_b seg then (sg_a seg, sg_b seg, pa, pb) else (sg_b seg, sg_a seg, pb, pa))%nat as (((sa, sb), pa'), pb') eqn:EQ. assert (NS : nth_error (s_pts st) sa = Some pa') by (destruct (_ =? _); injection EQ as <- <- <- <-; assumption). destruct (negb _); [discriminate|].
  match goal with |- (match ?m with _ => _ end) = _ -> _ => destruct m as [st1|] eqn:A1; [|discriminate] end.
  match goal with |- (match ?m with _ => _ end) = _ -> _ => destruct m as [st2|] eqn:A2; [|discriminate] end.
  intros Q. injection Q as <- _. assert (E2 : ext st1 st2) by (destruct (px c <=? _)%Z; eapply add_ext; exact A2). eapply ext_trans; [|exact E2].
  match type of A1 with (if _ then add_fb_events ?s _ _ else _) = _ => assert (E1 : ext s st1) by (destruct (_ <=? px c)%Z; eapply add_ext; exact A1) end.
  eapply ext_trans; [|exact E1]. split; cbn [with_log with_pts s_pts s_nodes with_sweep with_events]; [auto|]. intros j (x & N & C).
  assert (L : j < length (s_pts st)) by (apply nth_error_Some; congruence). unfold chk. rewrite nth_error_app1 by (rewrite put_length; exact L).
  destruct (Nat.eq_dec sa j) as [<-|D]; [|exists x; rewrite put_other by exact D; auto]. eexists. split; [eapply put_same'; exact N|]. assert (x = pa') by congruence. subst x. exact C.
Qed.
Lemma mark_ext st i st' : mark st i = Some st' -> ext st st'.
Proof. intros H. apply mark_later in H as (pts & -> & (_ & M) & _). split; [auto|exact M]. Qed.
Section Ext.
Variable draws : cseg -> cseg -> bool.
Notation check := (check_intersection intersects draws).
Lemma check_ext st n m st' b : check st n m = Some (st', b) -> ext st st'.
Proof.
  unfold check_intersection. destruct (nth_error (s_nodes st) n) as [g|] eqn:G; [|discriminate]. destruct (nth_error (s_nodes st) m) as [h|] eqn:H; [|discriminate].
  destruct (rand_bool (s_rand st)) as (rx, r1). destruct (rand_bool r1) as (ry, r2). set (st1 := if draws g h then with_rand st r2 else st).
  assert (E : ext st st1) by (unfold st1; destruct (draws g h); [apply ext_same; reflexivity|apply ext_refl]). clearbody st1.
  destruct (intersects rx ry g h) as [((c, e1), e2)|]; [|intros Q; injection Q as <- _; exact E]. destruct (negb _); [discriminate|]. destruct (_ || _).
  - destruct (split_segment st1 n c e1) as [(st2, i1)|] eqn:P1; [|discriminate]. destruct (split_segment st2 m c e2) as [(st3, i2)|] eqn:P2; [|discriminate].
    destruct (mark st3 i1) as [st4|] eqn:M1; [|discriminate]. destruct (mark st4 i2) as [st5|] eqn:M2; [|discriminate]. intros Q. injection Q as <- _.
    eapply ext_trans; [exact E|]. eapply ext_trans; [eapply split_ext; exact P1|]. eapply ext_trans; [eapply split_ext; exact P2|]. eapply ext_trans; eapply mark_ext; eassumption.
  - destruct (at_edge_eqb e1 AEboth).
    + destruct (mark st1 (sg_a g)) as [st2|] eqn:M1; [|discriminate]. destruct (mark st2 (sg_b g)) as [st3|] eqn:M2; [|discriminate].
      destruct (mark st3 (sg_a h)) as [st4|] eqn:M3; [|discriminate]. destruct (mark st4 (sg_b h)) as [st5|] eqn:M4; [|discriminate]. intros Q. injection Q as <- _.
      eapply ext_trans; [exact E|]. eapply ext_trans; [eapply mark_ext; exact M1|]. eapply ext_trans; [eapply mark_ext; exact M2|]. eapply ext_trans; eapply mark_ext; eassumption.
    + destruct (mark st1 (if at_edge_eqb e1 AEstart then sg_a g else sg_b g)) as [st2|] eqn:M1; [|discriminate]. destruct (mark st2 _) as [st3|] eqn:M2; [|discriminate]. intros Q. injection Q as <- _.
      eapply ext_trans; [exact E|]. eapply ext_trans; eapply mark_ext; eassumption.
Qed.
Variables place : list cseg -> cseg -> nat.
Variable sort_events : list EventsModel.event -> list EventsModel.event.
Variable sort_new : list (EventsModel.event * nat) -> list (EventsModel.event * nat).
Notation step := (sweep_step intersects place sort_events sort_new draws).
Notation loop := (sweep_loop intersects place sort_events sort_new draws).
Lemma step_ext st st' : step st = Some st' -> ext st st'.
Proof.
  unfold sweep_step. destruct (EventsModel.next _ _ _ _ _) as [((e, fwd), q)|]; [|discriminate]. destruct (e_deleted e); [intros Q; injection Q as <-; apply ext_same; reflexivity|].
  assert (INS : (if fwd then
          do (sweep, r) <- insert_node place sweep_cmp (with_events st q) (e_node e);
          do (before, after) <- r;
          let st := with_sweep (with_events st q) sweep in
          do (st, split) <- match before with None => Some (st, false) | Some b => check st (e_node e) b end;
          if split then Some st
          else match after with
               | None => Some st
               | Some a => do (st, _) <- check st (e_node e) a; Some st
               end
        else do sweep <- erase_node (s_sweep (with_events st q)) (e_node e); Some (with_sweep (with_events st q) sweep)) = Some st' -> ext st st').
  { destruct fwd.
    - destruct (insert_node _ _ _ _) as [(sweep, r)|]; [|discriminate]. destruct r as [(before, after)|]; [|discriminate]. cbn zeta. set (st1 := with_sweep (with_events st q) sweep).
      assert (E : ext st st1) by (apply ext_same; reflexivity). clearbody st1.
      destruct (match before with None => Some (st1, false) | Some b => check st1 (e_node e) b end) as [(st2, sp)|] eqn:CK; [|discriminate].
      assert (L2 : ext st st2) by (eapply ext_trans; [exact E|]; destruct before as [b|]; [eapply check_ext; exact CK|injection CK as <- _; apply ext_refl]).
      destruct sp; [intros Q; injection Q as <-; exact L2|]. destruct after as [a|]; [|intros Q; injection Q as <-; exact L2].
      destruct (check st2 (e_node e) a) as [(st3, sp)|] eqn:CK2; [|discriminate]. intros Q. injection Q as <-. eapply ext_trans; [exact L2|eapply check_ext; exact CK2].
    - destruct (erase_node _ _); [|discriminate]. intros Q. injection Q as <-. apply ext_same; reflexivity. }
  assert (OUT : (if fwd then
          if in_dec Nat.eq_dec (e_node e) (s_sweep (with_events st q)) then
            let '(before, after) := around_node None (s_sweep (with_events st q)) (e_node e) in
            do sweep <- erase_node (s_sweep (with_events st q)) (e_node e);
            let st := with_sweep (with_events st q) sweep in
            match before, after with
            | Some b, Some a => do (st, _) <- check st b a; Some st
            | _, _ => Some st
            end
          else
            do q <- update_at _ (fun e => EventsModel.mk_event (e_x e) (e_a e) (e_b e) (e_node e) (e_type e) true) (Z.to_nat (q_cur _ q)) q;
            Some (with_events (with_events st q) q)
        else
          do (sweep, _) <- insert_node place sweep_cmp (with_events st q) (e_node e);
          Some (with_sweep (with_events st q) sweep)) = Some st' -> ext st st').
  { destruct fwd.
    - destruct (in_dec _ _ _).
      + destruct (around_node _ _ _) as (before, after). destruct (erase_node _ _) as [sweep|]; [|discriminate]. cbn zeta. set (st1 := with_sweep (with_events st q) sweep).
        assert (E : ext st st1) by (apply ext_same; reflexivity). clearbody st1. destruct before as [b|]; [destruct after as [a|]|]; try (intros Q; injection Q as <-; exact E).
        destruct (check st1 b a) as [(st3, sp)|] eqn:CK2; [|discriminate]. intros Q. injection Q as <-. eapply ext_trans; [exact E|eapply check_ext; exact CK2].
      + destruct (update_at _ _ _ _); [|discriminate]. intros Q. injection Q as <-. apply ext_same; reflexivity.
    - destruct (insert_node _ _ _ _) as [(sweep, r)|]; [|discriminate]. intros Q. injection Q as <-. apply ext_same; reflexivity. }
  destruct (e_type e); assumption.
Qed.
Lemma loop_ext fuel : forall st st', loop fuel st = Some st' -> ext st st'.
Proof.
  induction fuel as [|f IH]; intros st st' H; cbn [sweep_loop] in H; destruct (more _ (s_events st)); try discriminate; try (injection H as <-; apply ext_refl).
  destruct (step st) as [st1|] eqn:E; [|discriminate]. eapply ext_trans; [eapply step_ext; exact E|apply IH; exact H].
Qed.
End Ext.

Section Base.
Variable pts0 : list cpoint.
Variable T : Z.
Hypothesis GRID : grid pts0.
Variable draws : cseg -> cseg -> bool.
Notation check := (check_intersection intersects draws).
Record base (st : cstate) (s all : list ev) (u : bool) : Prop := {
  b_ok : ok pts0 st s all u;
  b_fc : fc st s all;
  b_num : num pts0 T st;
  b_shape : shape pts0 st }.
Lemma base_later st s all u pts : base st s all u -> same_skel (s_pts st) pts -> base (with_pts st pts) s all u.
Proof.
  intros [O (F & C) N S] SK. constructor.
  - apply ok_skel; assumption.
  - split; [apply full_skel; assumption|]. intros i L. cbn [with_pts s_pts s_nodes] in *. assert (LE : length pts = length (s_pts st)) by (apply skel_links, (f_equal (@length _)) in SK; unfold links in SK; rewrite !map_length in SK; congruence).
    rewrite LE in L. destruct (C i L) as (n & g & G & p & P & Q). destruct (skel_get _ _ _ _ SK P) as (p' & P' & _ & X & _). exists n, g. split; [exact G|]. exists p'. rewrite X. auto.
  - apply num_skel; assumption.
  - eapply shape_same; [| | |exact S]; [exact SK|reflexivity|reflexivity].
Qed.
Lemma base_rand st s all u r : base st s all u -> base (with_rand st r) s all u.
Proof.
  intros [O F N S]. constructor; [apply ok_rand; exact O|apply fc_rand; exact F|apply num_rand; exact N|]. eapply shape_same; [| | |exact S]; [intros i; reflexivity|reflexivity|reflexivity].
Qed.

(** * At most two lines start at a point *)
Lemma start_kind st s all u n g : ok pts0 st s all u -> nth_error (s_nodes st) n = Some g -> live (s_pts st) (s_nodes st) n ->
  exists pa pb, nth_error (s_pts st) (sg_a g) = Some pa /\ nth_error (s_pts st) (sg_b g) = Some pb /\ c_data pa = sg_pa g /\ c_data pb = sg_pb g /\ (c_next pa = sg_b g \/ c_next pb = sg_a g).
Proof.
  intros O NG (h & i & G & p & P & K). assert (h = g) by congruence. subst h. destruct (ok_nodes _ _ _ _ _ O n g NG) as (_ & pa & pb & A & DA & B & DB). exists pa, pb. repeat (split; [assumption|]). destruct K as [(<- & K)|(<- & K)]; [left|right]; congruence.
Qed.
Lemma two_starts st s all u n m k g h l : ok pts0 st s all u -> nth_error (s_nodes st) n = Some g -> nth_error (s_nodes st) m = Some h -> nth_error (s_nodes st) k = Some l ->
  live (s_pts st) (s_nodes st) n -> live (s_pts st) (s_nodes st) m -> live (s_pts st) (s_nodes st) k -> sg_a h = sg_a g -> sg_a l = sg_a g -> n = m \/ n = k \/ m = k.
Proof.
  intros O N1 N2 N3 L1 L2 L3 E1 E2. destruct (start_kind _ _ _ _ _ _ O N1 L1) as (pa & p1 & A1 & B1 & _ & _ & K1). destruct (start_kind _ _ _ _ _ _ O N2 L2) as (pa2 & p2 & A2 & B2 & _ & _ & K2). destruct (start_kind _ _ _ _ _ _ O N3 L3) as (pa3 & p3 & A3 & B3 & _ & _ & K3).
  rewrite E1 in A2, K2. rewrite E2 in A3, K3. assert (pa2 = pa) by congruence. assert (pa3 = pa) by congruence. subst pa2 pa3. pose proof (proj2 (ok_loops _ _ _ _ _ O)) as INJ.
  assert (PAIR : forall a b x y, nth_error (s_nodes st) a = Some x -> nth_error (s_nodes st) b = Some y -> sg_a x = sg_a y -> sg_b x = sg_b y -> a = b) by (intros a b x y X Y Q1 Q2; eapply (ok_pairs _ _ _ _ _ O); [exact X|exact Y|left; auto]).
  destruct K1 as [K1|K1], K2 as [K2|K2], K3 as [K3|K3];
    first [left; apply (PAIR n m g h N1 N2); [congruence|first [congruence|apply (INJ _ _ p1 p2); congruence]]
          |right; left; apply (PAIR n k g l N1 N3); [congruence|first [congruence|apply (INJ _ _ p1 p3); congruence]]
          |right; right; apply (PAIR m k h l N2 N3); [congruence|first [congruence|apply (INJ _ _ p2 p3); congruence]]].
Qed.
(** Two lines with the same start do not go the same way. *)
Lemma same_start_apart st s all u n m g h c : base st s all u -> nth_error (s_nodes st) n = Some g -> nth_error (s_nodes st) m = Some h -> live (s_pts st) (s_nodes st) n -> live (s_pts st) (s_nodes st) m -> n <> m ->
  sg_a g = sg_a h -> on_line (sg_pa g) (sg_pb g) c -> on_line (sg_pa h) (sg_pb h) c -> c = sg_pa g.
Proof.
  intros [O F N S] N1 N2 L1 L2 D E OG OH. destruct (start_kind _ _ _ _ _ _ O N1 L1) as (pa & p1 & A1 & B1 & DA & D1 & K1). destruct (start_kind _ _ _ _ _ _ O N2 L2) as (pa2 & p2 & A2 & B2 & DA2 & D2 & K2).
  rewrite <- E in A2, K2. assert (pa2 = pa) by congruence. subst pa2. pose proof (proj2 (ok_loops _ _ _ _ _ O)) as INJ.
  assert (PAIR : sg_b g <> sg_b h) by (intros Q; apply D; eapply (ok_pairs _ _ _ _ _ O); [exact N1|exact N2|left; auto]).
  assert (EP : sg_pa h = sg_pa g) by congruence. rewrite EP in OH.
  assert (PD : {c = sg_pa g} + {c <> sg_pa g}) by (repeat decide equality). destruct PD as [Q|NC]; [exact Q|exfalso].
  assert (AL : forall b, on_line (sg_pa g) b c -> along (sg_pa g) b c).
  { intros b (t & (T1 & T2) & TX & TY). unfold along, injX, injY in *. unfold Z.sub in TX, TY. rewrite inject_Z_plus, inject_Z_opp in TX, TY. exists t. split; [|rewrite TX, TY; split; ring].
    apply Qle_lteq in T1 as [T1|T1]; [exact T1|exfalso]. apply NC. rewrite <- T1 in TX, TY. apply pt_eq; apply inj_eq1; [rewrite TX|rewrite TY]; ring. }
  assert (FC : folds c (sg_pa g) c).
  { split; [unfold triangle_winding; ring|]. unfold dot. assert (px c <> px (sg_pa g) \/ py c <> py (sg_pa g))%Z as X by (destruct (Z.eq_dec (px c) (px (sg_pa g))); [right; intros Q; apply NC, pt_eq; assumption|left; assumption]). revert X. clear. generalize (px c) (px (sg_pa g)) (py c) (py (sg_pa g)). intros a b d e X. assert (A : (0 <= (a - b) * (a - b))%Z) by apply Z.square_nonneg. assert (B : (0 <= (d - e) * (d - e))%Z) by apply Z.square_nonneg. destruct X as [X|X]; [assert ((a - b) * (a - b) <> 0)%Z by (intros Q; apply Z.mul_eq_0 in Q; lia)|assert ((d - e) * (d - e) <> 0)%Z by (intros Q; apply Z.mul_eq_0 in Q; lia)]; lia. }
  assert (F2 : folds (sg_pb g) (sg_pa g) (sg_pb h)). { eapply folds_along; [apply AL; exact OH|]. apply folds_sym. eapply folds_along; [apply AL; exact OG|exact FC]. }
  destruct K1 as [K1|K1], K2 as [K2|K2].
  - congruence.
  - apply (sh_nf _ _ S (sg_b h) p2 pa p1 B2); [congruence|congruence|]. rewrite D2, DA, D1. apply folds_sym. exact F2.
  - apply (sh_nf _ _ S (sg_b g) p1 pa p2 B1); [congruence|congruence|]. rewrite D2, DA, D1. exact F2.
  - apply PAIR. apply (INJ _ _ p1 p2 B1 B2). congruence.
Qed.

(** * One split *)
Definition one (st st' : cstate) (s all s' all' : list ev) (k : nat) (k1 : nat) : Prop :=
  exists g p k2, nth_error (s_nodes st) k = Some g /\ within g p /\ parted st st' k g p s all s' all' k1 k2 /\ base st s all false /\ base st' s' all' false.
Lemma split_one st n p st' i s all g : base st s all false -> In n (s_sweep st) -> nth_error (s_nodes st) n = Some g -> within g p -> fits g (Some p) AEno -> split_segment st n (Some p) AEno = Some (st', i) ->
  exists s' all' k1, one st st' s all s' all' n k1.
Proof.
  intros Bs IN NG W FI H. pose proof Bs as [O F N S]. pose proof (n_good _ _ _ N) as GD.
  destruct (split_shape pts0 st n p st' i s all g O S GD NG W H) as (_ & s' & all' & k1 & k2 & P).
  destruct (ok_split _ _ _ _ _ _ _ _ _ O H) as (s2 & all2 & O2 & F2). specialize (F2 F).
  destruct (split_total pts0 T st n (Some p) AEno s all g O F N NG IN FI) as (st2 & i2 & H2 & N2 & _). rewrite H in H2. injection H2 as <- <-.
  pose proof (parted_shape pts0 st st' n g p s all s' all' k1 k2 O S NG (GD n g NG) W P) as S2.
  assert (P2 : parted st st' n g p s all s2 all2 k1 k2).
  { destruct P as (sa & sb & qa & qb & H1 & H2 & H3 & H4 & H5 & H6 & H7 & H8 & H9 & H10 & H11 & H12). destruct (EI_unique _ _ _ _ _ _ _ H12 (ok_q _ _ _ _ _ O2)) as (E & PE). exists sa, sb, qa, qb. cbn zeta in *. repeat (split; [assumption|]). split; [congruence|].
    split; [rewrite <- PE; exact H11|exact (ok_q _ _ _ _ _ O2)]. }
  exists s2, all2, k1, g, p, k2. split; [exact NG|]. split; [exact W|]. split; [exact P2|]. split; [exact Bs|]. constructor; assumption.
Qed.
(** A check: either only marks, or one or two splits and marks. *)
Lemma check_form st n m st' b s all : base st s all false -> In n (s_sweep st) -> In m (s_sweep st) -> n <> m -> check st n m = Some (st', b) ->
  exists g h r pts, nth_error (s_nodes st) n = Some g /\ nth_error (s_nodes st) m = Some h /\
  if b then sg_a g <> sg_a h /\ exists st2 s2 all2, st' = with_pts st2 pts /\ later (s_pts st2) pts /\ base st2 s2 all2 false /\
    ((exists k1, one (with_rand st r) st2 s all s2 all2 n k1) \/ (exists k1, one (with_rand st r) st2 s all s2 all2 m k1) \/
     (exists st1 s1 all1 k1 k1', one (with_rand st r) st1 s all s1 all1 n k1 /\ one st1 st2 s1 all1 s2 all2 m k1'))
  else st' = with_rand (with_pts st pts) r /\ later (s_pts st) pts /\ (agree g h -> wide g h -> fine (mkp pts) g h).
Proof.
  intros Bs IN IM D H. pose proof Bs as [O F N S]. pose proof (n_good _ _ _ N) as GD. pose proof (check_quiet _ _ _ _ _ _ H) as (_ & CQ).
  destruct (check_total draws pts0 T st n m s all O F N IN IM D) as (st'' & b'' & H'' & NU' & _ & CT). rewrite H in H''. injection H'' as <- <-.
  destruct b.
  2: { destruct CT as (_ & _ & _ & LE). destruct (CQ LE) as (_ & g & h & pts & r & G & GH & E & L & FN). exists g, h, r, pts. split; [exact G|]. split; [exact GH|]. split; [exact E|]. split; [exact L|]. intros A W. apply FN; auto; eapply GD; eassumption. }
  clear CQ NU' CT. unfold check_intersection in H. destruct (nth_error (s_nodes st) n) as [g|] eqn:NG; [|discriminate]. destruct (nth_error (s_nodes st) m) as [h|] eqn:NH; [|discriminate].
  destruct (rand_bool (s_rand st)) as (rx, r1). destruct (rand_bool r1) as (ry, r2). set (st1 := if draws g h then with_rand st r2 else st) in *.
  assert (S1 : exists r, st1 = with_rand st r) by (unfold st1; destruct (draws g h); [exists r2; reflexivity|exists (s_rand st); destruct st; reflexivity]). destruct S1 as (r & S1). clearbody st1.
  destruct (intersects rx ry g h) as [((c, e1), e2)|] eqn:IS; [|discriminate]. destruct (negb _); [discriminate|]. destruct (_ || _) eqn:NO.
  2: { destruct (at_edge_eqb e1 AEboth).
    - destruct (mark st1 _) as [x1|]; [|discriminate]. destruct (mark x1 _) as [x2|]; [|discriminate]. destruct (mark x2 _) as [x3|]; [|discriminate]. destruct (mark x3 _); discriminate.
    - destruct (mark st1 _) as [x1|]; [|discriminate]. destruct (mark x1 _) as [x2|]; discriminate. }
  destruct (split_segment st1 n c e1) as [(st2, i1)|] eqn:P1; [|discriminate]. destruct (split_segment st2 m c e2) as [(st3, i2)|] eqn:P2; [|discriminate].
  destruct (mark st3 i1) as [st4|] eqn:M1; [|discriminate]. destruct (mark st4 i2) as [st5|] eqn:M2; [|discriminate]. injection H as <-.
  apply mark_later in M1 as (p1 & -> & L1 & _ & _). apply mark_later in M2 as (p2 & -> & L2 & _ & _). cbn [with_pts s_pts] in L2. pose proof (later_trans _ _ _ L1 L2) as LT.
  pose proof (GD n g NG) as GG. pose proof (GD m h NH) as GH. pose proof (sh_in _ _ S n g NG) as IG. pose proof (sh_in _ _ S m h NH) as IH.
  destruct (isect_fits _ _ _ _ _ _ _ GG GH IS) as [(-> & ->)|(NB1 & NB2 & F1 & F2)]; [discriminate|].
  assert (EC : exists p, c = Some p). { apply orb_prop in NO as [NO|NO]; [destruct e1|destruct e2]; try discriminate; [destruct F1 as (p & -> & _)|destruct F2 as (p & -> & _)]; eauto. } destruct EC as (p & ->).
  destruct (isect_exact pts0 rx ry g h p e1 e2 GRID GG GH IG IH IS) as (OG & OH & K1 & K2).
  pose proof (ok_sw _ _ _ _ _ O n IN) as LN. pose proof (ok_sw _ _ _ _ _ O m IM) as LM.
  exists g, h, r, p2. split; [reflexivity|]. split; [reflexivity|]. split.
  { intros E. pose proof (same_start_apart _ _ _ _ _ _ _ _ p Bs NG NH LN LM D E OG OH) as Q. apply orb_prop in NO as [NO|NO]; [destruct e1|destruct e2]; try discriminate; cbn [edge_ok] in *; [apply (proj1 K1); exact Q|]. apply (proj1 K2). rewrite Q.
    destruct (ok_nodes _ _ _ _ _ O n g NG) as (_ & x & _ & X & DX & _). destruct (ok_nodes _ _ _ _ _ O m h NH) as (_ & y & _ & Y & DY & _). congruence. }
  assert (B1 : base st1 s all false) by (rewrite S1; apply base_rand; exact Bs). rewrite <- S1.
  assert (IN1 : In n (s_sweep st1)) by (rewrite S1; exact IN). assert (IM1 : In m (s_sweep st1)) by (rewrite S1; exact IM).
  assert (NG1 : nth_error (s_nodes st1) n = Some g) by (rewrite S1; exact NG). assert (NH1 : nth_error (s_nodes st1) m = Some h) by (rewrite S1; exact NH). clear S1.
  assert (ONE2 : forall stx sx allx, base stx sx allx false -> In m (s_sweep stx) -> nth_error (s_nodes stx) m = Some h -> split_segment stx m (Some p) e2 = Some (st3, i2) -> (e2 = AEno -> exists s' all' k1, one stx st3 sx allx s' all' m k1) /\ (e2 <> AEno -> st3 = stx)).
  { intros stx sx allx Bx IX NX HX. split.
    - intros ->. eapply split_one; [exact Bx|exact IX|exact NX|split; [exact OH|exact K2]|exact F2|exact HX].
    - intros NE. unfold split_segment in HX. rewrite NX in HX. destruct e2; try congruence. }
  assert (FIN : forall s2 all2, base st3 s2 all2 false -> ((exists k1, one st1 st3 s all s2 all2 n k1) \/ (exists k1, one st1 st3 s all s2 all2 m k1) \/
     (exists st1' s1 all1 k1 k1', one st1 st1' s all s1 all1 n k1 /\ one st1' st3 s1 all1 s2 all2 m k1')) -> exists st2 s2 all2, with_pts (with_pts st3 p1) p2 = with_pts st2 p2 /\ later (s_pts st2) p2 /\ base st2 s2 all2 false /\
    ((exists k1, one st1 st2 s all s2 all2 n k1) \/ (exists k1, one st1 st2 s all s2 all2 m k1) \/
     (exists st1' s1 all1 k1 k1', one st1 st1' s all s1 all1 n k1 /\ one st1' st2 s1 all1 s2 all2 m k1'))).
  { intros s2 all2 B2 C. exists st3, s2, all2. split; [destruct st3; reflexivity|]. split; [exact LT|]. split; [exact B2|exact C]. }
  assert (E2D : {e2 = AEno} + {e2 <> AEno}) by (destruct e2; (left; reflexivity) || (right; discriminate)).
  assert (E1D : {e1 = AEno} + {e1 <> AEno}) by (destruct e1; (left; reflexivity) || (right; discriminate)).
  destruct E1D as [E1|E1].
  - rewrite E1 in *. destruct (split_one st1 n p st2 i1 s all g B1 IN1 NG1 (conj OG K1) F1 P1) as (s1 & all1 & k1 & ON). pose proof ON as (g' & p' & k2 & _ & _ & PT & _ & B2).
    assert (IM2 : In m (s_sweep st2)). { destruct PT as (? & ? & ? & ? & _ & _ & _ & _ & _ & _ & Q & _). rewrite Q. apply in_in_remove; auto. }
    assert (NH2 : nth_error (s_nodes st2) m = Some h) by (apply (proj1 (split_ext _ _ _ _ _ _ P1)); exact NH1).
    destruct (ONE2 st2 s1 all1 B2 IM2 NH2 P2) as (Y & Z). destruct E2D as [E2|E2].
    + destruct (Y E2) as (s2 & all2 & k1' & ON2). pose proof ON2 as (_ & _ & _ & _ & _ & _ & _ & B3). apply (FIN s2 all2 B3). right. right. exists st2, s1, all1, k1, k1'. auto.
    + rewrite (Z E2) in *. apply (FIN s1 all1 B2). left. eauto.
  - assert (st2 = st1) by (unfold split_segment in P1; rewrite NG1 in P1; destruct e1; congruence). subst st2. destruct (ONE2 st1 s all B1 IM1 NH1 P2) as (Y & Z). destruct E2D as [E2|E2].
    + destruct (Y E2) as (s2 & all2 & k1' & ON2). pose proof ON2 as (_ & _ & _ & _ & _ & _ & _ & B3). apply (FIN s2 all2 B3). right. left. eauto.
    + exfalso. apply orb_prop in NO as [NO|NO]; [destruct e1|destruct e2]; try discriminate; congruence.
Qed.
End Base.
