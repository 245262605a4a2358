(** The history of a sweep over one step, when crossing points are rounded. *)
From Coq Require Import ZArith QArith List Bool Arith Permutation Sorted Lia Lqa.
From Verif Require Import GeomModel GeomSpec GeomProofs IsectProofs GeomFinal BalanceModel EventsModel EventsSpec EventsProofs OutModel PointSinkModel CycleProofs ClipModel ClipSpec ClipProofs SweepProofs
  SegOrder SegPair SegTrace SegCheck SegStep SegRun SegClean ArrangeSpec SegSpec TotalSpec TotalSplit TotalRun ExactProofs DynOrder DynTrace DynShape DynCut DynCheck DynWeak DynForm RndTrace RndCut RndCheck RndWeak RndForm.
Import ListNotations.
Local Open Scope nat_scope.

Section Step.
Variable pts0 : list cpoint.
Variable T : Z.
Variable draws : cseg -> cseg -> bool.
Notation check := (check_intersection intersects draws).
Notation base := (rbase pts0 T).
Variable v : nat -> cseg.
Variable mk : nat -> nat -> Prop.
Hypothesis mk_trans : forall i j k, mk i j -> mk j k -> mk i k.
Hypothesis mk_refl : forall i, mk i i.
Hypothesis mk_sym : forall i j, mk i j -> mk j i.
Notation ff k := (fev (v k) k false).
Notation RI := (RI v mk).
Notation sub := (sub v mk).
Notation rtr := (rtr v mk).
Notation ord := (ord v).
Notation wk := (wk v mk).
Definition rhist (all s : list ev) (R : list nat) : Prop := rtr all (alive s) R.

Definition RInv (R : list nat) (s all : list ev) : Prop := exists t s2 Rt, RI R s all t s2 Rt /\ (s2 = [] \/ pushed s all s2).
Lemma wit_all all all' t b : (forall x, In x all' <-> In x all) -> wit v all t b -> wit v all' t b.
Proof. intros E (w & x & A & B & C). exists w, x. split; [apply E; exact A|]. split; [apply E; exact B|exact C]. Qed.
Lemma RI_all R s all all' t s2 Rt : (forall x, In x all' <-> In x all) -> RI R s all t s2 Rt -> RI R s all' t s2 Rt.
Proof.
  intros E [W1 W2 W3 W4]. constructor; [exact W1|intros y x I J; apply W2; [exact I|apply E; exact J]|exact W3|]. eapply rtr_mono; [exact W4|]. intros l b _. apply wit_all. exact E.
Qed.
Lemma RInv_all R s all all' : Permutation all' all -> RInv R s all -> RInv R s all'.
Proof.
  intros P (t & s2 & Rt & W & H). assert (E : forall x, In x all' <-> In x all) by (intros x; split; apply Permutation_in; [exact P|apply Permutation_sym; exact P]).
  exists t, s2, Rt. split; [eapply RI_all; eassumption|]. destruct H as [H|(f0 & A & C & D)]; [auto|right]. exists f0. split; [apply E; exact A|auto].
Qed.

(** * Taking back an event *)
Lemma undo_RInv R R' s all e : RInv R s all -> s = e :: tl s -> (exists k, In k all /\ ~ In k s /\ event_lt e k = false) ->
  (forall t Rt, (length (alive t) < length (e :: alive (tl s))) \/ e_deleted e = true -> path v (alive t) Rt (alive s) R -> path v (alive t) Rt (alive (tl s)) R') -> RInv R' (tl s) all.
Proof.
  intros (t & s2 & Rt & [W1 W2 W3 W4] & H) SQ (k & K1 & K2 & K3) P.
  assert (NE : ~ In e t). { intros I. rewrite (W2 e k I K1) in K3; [discriminate|]. intros J. apply K2. rewrite W1. apply in_or_app. auto. }
  destruct s2 as [|y s2]; [exfalso; apply NE; cbn [app] in W1; rewrite <- W1, SQ; left; reflexivity|]. rewrite W1 in SQ. cbn [app tl] in SQ. injection SQ as ->. assert (TL : tl s = s2 ++ t) by (rewrite W1; reflexivity).
  exists t, s2, Rt. split.
  - constructor; [exact TL|exact W2| |exact W4]. apply P; [|exact W3]. left. rewrite TL, alive_app. cbn [length]. rewrite app_length. lia.
  - destruct H as [H|(f0 & F1 & F2 & F3)]; [discriminate|right]. exists f0. split; [exact F1|]. split; [intros I; apply F2; rewrite W1; rewrite TL in I; right; exact I|]. intros z I. apply F3. right. exact I.
Qed.

(** * Delivering an event *)
Lemma rdeliver_now R s all e : NoDup (map ekey all) -> (forall x, In x s -> In x all) -> RInv R s all -> (forall x, In x s -> event_lt e x = false) -> (forall x, In x all -> ~ In x s -> event_lt x e = false) ->
  rhist all s R /\ (forall y x, In y s -> In x all -> ~ In x s -> event_lt y x = true).
Proof.
  intros KEYS INC (t & s2 & Rt & [W1 W2 W3 W4] & H) BEF AFT. assert (E : s2 = []).
  { destruct H as [H|(f0 & F1 & F2 & F3)]; [exact H|]. destruct s2 as [|y s2]; [reflexivity|exfalso]. assert (IY : In y s) by (rewrite W1; left; reflexivity).
    pose proof (F3 y (or_introl eq_refl)) as X1. pose proof (AFT f0 F1 F2) as X2. pose proof (BEF y IY) as X3.
    assert (X4 : event_lt f0 y = false). { destruct (event_lt f0 y) eqn:X; [|reflexivity]. exfalso. rewrite (lt_ge_lt f0 y e X X3) in X2. discriminate. }
    apply F2. rewrite (NoDup_ekey _ _ _ KEYS F1 (INC y IY)); [exact IY|]. apply event_lt_total; assumption. }
  subst s2. cbn [app] in W1. subst t. destruct (proj2 (path_len _ _ _ _ _ W3) eq_refl) as (_ & <-). auto.
Qed.
Lemma sep_more_r s all e : NoDup (map ekey all) -> In e all -> (forall x, In x all -> ~ In x s -> event_lt x e = false) -> (forall y x, In y s -> In x all -> ~ In x s -> event_lt y x = true) ->
  forall y x, In y (e :: s) -> In x all -> ~ In x (e :: s) -> event_lt y x = true.
Proof.
  intros KEYS IE AFT SEP y x [<-|I] J N; [|apply SEP; [exact I|exact J|intros Z; apply N; right; exact Z]]. destruct (event_lt e x) eqn:X; [reflexivity|]. exfalso. apply N. left.
  apply (NoDup_ekey _ _ _ KEYS IE J). apply event_lt_total; [exact X|apply AFT; [exact J|intros Z; apply N; right; exact Z]].
Qed.
Lemma RI_now R s all : rhist all s R -> (forall y x, In y s -> In x all -> ~ In x s -> event_lt y x = true) -> RInv R s all.
Proof. intros H S. exists s, [], R. split; [|auto]. constructor; [reflexivity|exact S|apply p_nil|exact H]. Qed.
Lemma deleted_RInv R s all e : NoDup (map ekey all) -> In e all -> (forall x, In x all -> ~ In x s -> event_lt x e = false) -> e_deleted e = true -> rhist all s R ->
  (forall y x, In y s -> In x all -> ~ In x s -> event_lt y x = true) -> RInv R (e :: s) all.
Proof.
  intros KEYS IE AFT D H SEP. apply RI_now; [|apply sep_more_r; assumption]. unfold rhist. cbn [alive filter]. rewrite D. exact H.
Qed.
Lemma drop_RInv st R s all u e : base st s all u -> sub st -> In e all -> ~ In e s -> (forall x, In x all -> ~ In x s -> event_lt x e = false) -> e_deleted e = false -> is_f e = false -> ~ In (e_node e) R -> rhist all s R ->
  (forall y x, In y s -> In x all -> ~ In x s -> event_lt y x = true) -> RInv R (map (delk (ekey e)) (e :: s)) (map (delk (ekey e)) all).
Proof.
  intros B SB IE NI AFT DE0 FE NS H SEP. pose proof (ok_keys _ _ _ _ _ (r_ok _ _ _ _ _ _ B)) as KEYS. pose proof (rt_inc pts0 T st s all u B) as INC. pose proof (sep_more_r s all e KEYS IE AFT SEP) as SEP'. set (d := delk (ekey e)).
  assert (ID : forall x, In x all -> x <> e -> d x = x). { intros x I N. unfold d, delk. destruct (ekey_dec (ekey x) (ekey e)) as [Q|_]; [|reflexivity]. exfalso. apply N. exact (NoDup_ekey _ _ _ KEYS I IE Q). }
  assert (MS : map d s = s). { rewrite <- (map_id s) at 2. apply map_ext_in. intros x I. apply ID; [apply INC; exact I|]. intros ->. contradiction. }
  assert (DE : e_deleted (d e) = true) by apply delk_self.
  assert (BACK : forall x, In x (map d all) -> x = d e \/ (In x all /\ x <> e)). { intros x I. apply in_map_iff in I as (y & <- & I). destruct (ev_dec y e) as [->|N]; [auto|]. right. rewrite (ID y I N). auto. }
  cbn [map]. rewrite MS. apply RI_now.
  - unfold rhist in *. cbn [alive filter]. rewrite DE. cbn [negb]. fold (alive s). eapply rtr_mono; [exact H|]. intros l b IL (w & x & IF & IX & NX & C). exists w, x.
    assert (NF : ff w <> e) by (intros Q; rewrite <- Q, is_f_fev in FE; discriminate).
    assert (NXE : x <> e).
    { intros ->. destruct C as [(V & E & _)|(V & E & _)]; [|symmetry in E; contradiction].
      assert (W : e_node e = w) by (rewrite E; reflexivity).
      assert (IS : In (ff w) s). { destruct (in_dec ev_dec (ff w) s) as [I|N]; [exact I|]. pose proof (AFT _ IF N) as L. rewrite E in L. rewrite fev_bev in L; [discriminate|]. pose proof (rt_good pts0 T v mk st s all u B SB _ IF) as G. apply G. }
      apply NS. rewrite W. apply (r_mem _ _ _ _ _ H). split.
      + exists (ff w). split; [apply alive_in; split; [exact IS|reflexivity]|]. split; [apply is_f_fev|reflexivity].
      + intros e' I' F' Q. apply alive_in in I' as (I' & D'). pose proof (rt_bev pts0 T v mk st s all u B SB e' (INC _ I') D' F') as E'. rewrite Q, <- E in E'. subst e'. contradiction. }
    split; [rewrite <- (ID _ IF NF); apply in_map; exact IF|]. split; [rewrite <- (ID _ IX NXE); apply in_map; exact IX|]. auto.
  - intros y x I J N. destruct (BACK x J) as [->|(J2 & N2)]; [exfalso; apply N; left; reflexivity|]. assert (NX : ~ In x (e :: s)) by (intros [Q|Z]; [apply N2; symmetry; exact Q|apply N; right; exact Z]).
    destruct I as [<-|I]; [unfold d; rewrite delk_lt; apply SEP'; [left; reflexivity|exact J2|exact NX]|apply SEP'; [right; exact I|exact J2|exact NX]].
Qed.

(** At a line's event. *)
Section Deliver.
Variables (st : cstate) (s all : list ev) (u : bool) (e : ev).
Hypothesis B : base st s all u.
Hypothesis S : sub st.
Hypothesis IE : In e all.
Hypothesis NIE : ~ In e s.
Hypothesis BEF : forall x, In x s -> event_lt e x = false.
Hypothesis AFT : forall x, In x all -> ~ In x s -> event_lt x e = false.
Hypothesis D : e_deleted e = false.
Local Notation n := (e_node e).
Local Notation R := (s_sweep st).
Lemma rl_keys : NoDup (map ekey all).
Proof. exact (ok_keys _ _ _ _ _ (r_ok _ _ _ _ _ _ B)). Qed.
Lemma rl_node k : In k R -> nth_error (s_nodes st) k = Some (v k) /\ live (s_pts st) (s_nodes st) k.
Proof. intros I. pose proof (ok_sw _ _ _ _ _ (r_ok _ _ _ _ _ _ B) k I) as L. split; [|exact L]. destruct L as (g & i & G & _). rewrite (proj1 S _ _ G). exact G. Qed.
Lemma rl_self : nth_error (s_nodes st) n = Some (v n) /\ good (v n).
Proof. destruct (ok_ev _ _ _ _ _ (r_ok _ _ _ _ _ _ B) e IE) as (g & G & _). rewrite (proj1 S _ _ G). split; [exact G|]. eapply (n_good _ _ _ (r_num _ _ _ _ _ _ B)); exact G. Qed.
Lemma rl_cover k : In k R -> good (v k) /\ cover (v k) (e_x e) /\
  (vt (v k) = false -> ((px (sg_pa (v k)) < e_x e)%Z \/ 2 <= type_rank (e_type e)) /\ ((e_x e < px (sg_pb (v k)))%Z \/ type_rank (e_type e) <= 1)).
Proof.
  intros I. destruct (rl_node k I) as (G & L). pose proof (r_ok _ _ _ _ _ _ B) as O. split; [eapply (n_good _ _ _ (r_num _ _ _ _ _ _ B)); exact G|].
  destruct (rt_set pts0 T v mk st s all u B S k I) as (F & _). destruct (r_fc _ _ _ _ _ _ B) as (FL & _). destruct (f_evs _ _ _ FL k _ G) as (d & d' & _ & IB).
  assert (NB : ~ In (bev (v k) k d') s).
  { intros J. destruct d'; [exact (f_bdel _ _ _ FL k _ G IB L)|]. destruct (ok_bwd _ _ _ _ _ O _ J eq_refl (is_f_bev _ _ _)) as (_ & X). apply X. exact I. }
  pose proof (BEF _ F) as O1. pose proof (AFT _ IB NB) as O2.
  apply ev_order in O1 as (O1 & O1'), O2 as (O2 & O2'). rewrite rank_f in O1'. change (e_type (bev (v k) k d')) with (if vt (v k) then VBackward else Backward) in O2'. cbn [e_x fev bev] in *. split; [split; assumption|]. intros V. rewrite V in *. cbn [type_rank] in *. lia.
Qed.
Lemma rl_le x : In x s -> (e_x x <= e_x e)%Z.
Proof. intros I. apply BEF in I. apply ev_order in I. apply I. Qed.
Lemma rl_agree a b : nth_error (s_nodes st) a = Some (v a) -> nth_error (s_nodes st) b = Some (v b) -> agree (v a) (v b).
Proof.
  intros A1 B1. pose proof (r_ok _ _ _ _ _ _ B) as O. destruct (ok_nodes _ _ _ _ _ O a _ A1) as (_ & p1 & q1 & P1 & E1 & Q1 & F1). destruct (ok_nodes _ _ _ _ _ O b _ B1) as (_ & p2 & q2 & P2 & E2 & Q2 & F2).
  repeat split; intros Q; rewrite <- Q in *; congruence.
Qed.
Lemma rl_wit b : wit v all (alive s) b -> (e_x e <= px b)%Z /\ (2 <= type_rank (e_type e) -> (e_x e + 1 <= px b)%Z).
Proof.
  intros (w & x & IF & IX & NX & C). assert (NS : ~ In x s) by (intros I; apply NX, alive_in; split; [exact I|]; destruct C as [(_ & -> & _)|(_ & -> & _)]; reflexivity).
  pose proof (AFT x IX NS) as L. apply ev_order in L as (L1 & L2).
  destruct C as [(V & -> & ->)|(V & -> & E)].
  - rewrite rank_b, V in L2. cbn [e_x bev type_rank] in *. lia.
  - rewrite rank_f, V in L2. apply vt_true in V. assert (Q : px b = px (sg_pa (v w))) by (destruct E as [->| ->]; congruence). rewrite Q. cbn [e_x fev type_rank] in *. lia.
Qed.
Lemma rl_adj : rhist all s R -> adj (wk all (alive s) (e_x e)) R.
Proof.
  intros H. unfold rhist in H. destruct (alive s) as [|x r] eqn:E; [inversion H; subst; exact I|]. pose proof (r_adj _ _ _ _ _ _ H) as A. eapply adj_impl; [|exact A]. intros a b _ _. apply wks_later; [apply rl_le; apply (alive_in s); rewrite E; left; reflexivity|]. intros c W. rewrite <- E in W. apply rl_wit in W. apply W.
Qed.
Lemma rl_now l : (forall k, In k l -> In k R) -> adj (wk all (alive s) (e_x e)) l -> adj (fun a b => rel mk (e_x e) (v a) (v b)) l.
Proof. intros L. apply adj_impl. intros a b Ia Ib O. eapply wks_now; [exact O|apply rl_cover; auto|apply rl_cover; auto]. Qed.
(** A pair that waits for the end of a line other than the one of this event keeps waiting. *)
Lemma rl_keep P l : adj (wk all (alive s) (e_x e)) l -> (forall k, In k l -> P k) ->
  (forall a c w b, P a -> P c -> In (ff w) all -> (vt (v w) = false /\ e = bev (v w) w false /\ b = sg_pb (v w)) \/ (vt (v w) = true /\ e = ff w /\ (b = sg_pa (v w) \/ b = sg_pb (v w))) -> sep mk (e_x e) (Some (e_x e)) (v a) (v c) -> betw b (v a) (v c) -> sep mk (e_x e) None (v a) (v c)) ->
  adj (wk all (e :: alive s) (e_x e)) l.
Proof.
  intros AD IP RES. eapply adj_impl; [|exact AD]. intros a c Ia Ic [TW|[SP|(b & (w & x & IF & IX & NX & C) & L & SP & U)]]; [left; exact TW|right; left; exact SP|]. destruct (ev_dec x e) as [->|NE].
  - right. left. apply (RES a c w b); auto. intros z Z1 Z2 Z3 Z4. apply SP; auto. cbn in *. lia.
  - right. right. exists b. split; [|auto]. exists w, x. split; [exact IF|]. split; [exact IX|]. split; [intros [Q|Q]; [symmetry in Q; contradiction|contradiction]|exact C].
Qed.
(** ** A line that comes in *)
Section In_.
Hypothesis F : is_f e = true.
Lemma rl_eq : e = ff n.
Proof. exact (rt_fev pts0 T v mk st s all u B S e IE D F). Qed.
Lemma rl_x : e_x e = px (sg_pa (v n)).
Proof. rewrite rl_eq at 1. reflexivity. Qed.
Lemma rl_fresh x : In x (alive s) -> e_node x <> n.
Proof.
  intros I Q. apply alive_in in I as (I & DX). pose proof (rt_inc pts0 T st s all u B x I) as IA. destruct (is_f x) eqn:FX.
  - pose proof (rt_fev pts0 T v mk st s all u B S x IA DX FX) as E. rewrite Q, <- rl_eq in E. subst x. contradiction.
  - pose proof (rt_bev pts0 T v mk st s all u B S x IA DX FX) as E. rewrite Q in E. apply BEF in I. rewrite E, rl_eq in I. cbn [e_node fev] in I. rewrite fev_bev in I; [discriminate|]. apply rl_self.
Qed.
Lemma rl_far k : In k R -> negb (vt (v n)) = true -> vt (v k) = false -> (e_x e + 1 <= px (sg_pb (v k)))%Z.
Proof.
  intros I V VK. destruct (rl_cover k I) as (_ & _ & W). destruct (W VK) as (_ & [X|X]); [lia|]. assert (Y : e_type e = Forward) by (rewrite rl_eq, rank_f; apply negb_true_iff in V; rewrite V; reflexivity). rewrite Y in X. cbn in X. lia.
Qed.
Lemma rl_wide k : In k R -> wide (v n) (v k).
Proof.
  intros I V1 V2. destruct (rl_cover k I) as (G & (C1 & C2) & _). pose proof (rl_far k I ltac:(rewrite V1; reflexivity) V2) as W2. pose proof (vt_false _ (proj2 rl_self) V1) as W3. rewrite rl_x in *. lia.
Qed.
Variables A Bl : list nat.
Hypothesis EQ : R = A ++ Bl.
Hypothesis NR : ~ In n (A ++ Bl).
Hypothesis CA : forall a, last_of A = Some a -> sweep_cmp (v a) (v n) = true.
Hypothesis CB : forall b, hd_error Bl = Some b -> sweep_cmp (v n) (v b) = true.
Lemma rl_inR k : In k (A ++ Bl) -> In k R.
Proof. rewrite EQ. auto. Qed.
Lemma rl_conds k : In k (A ++ Bl) -> good (v k) /\ cover (v k) (e_x e) /\ (negb (vt (v n)) = true -> vt (v k) = false -> (e_x e + 1 <= px (sg_pb (v k)))%Z) /\ (sg_a (v k), sg_b (v k)) <> (sg_a (v n), sg_b (v n)).
Proof.
  intros I. pose proof (rl_inR k I) as J. destruct (rl_cover k J) as (G & C & _). split; [exact G|]. split; [exact C|]. split; [apply rl_far; exact J|]. intros Q. injection Q as Q1 Q2. apply NR.
  rewrite <- (ok_pairs _ _ _ _ _ (r_ok _ _ _ _ _ _ B) k n (v k) (v n)); [exact I|apply rl_node; exact J|apply rl_self|left; auto].
Qed.
Lemma rl_rel2 l : (forall k, In k l -> In k (A ++ Bl)) -> adj (wk all (alive s) (e_x e)) l -> adj (fun a b => rel2 mk (negb (vt (v n))) (e_x e) (v a) (v b)) l.
Proof.
  intros L. apply adj_impl. intros a b Ia Ib O. destruct (rl_conds a (L a Ia)) as (_ & C1 & F1 & _). destruct (rl_conds b (L b Ib)) as (_ & C2 & F2 & _). eapply wks_rel2; [exact O|exact C1|exact C2| |exact F1|exact F2].
  intros V c W. apply rl_wit in W. apply W. rewrite rl_eq, rank_f. apply negb_true_iff in V. rewrite V. cbn. lia.
Qed.
Lemma rl_ord_insert : ord (A ++ Bl) -> adj (wk all (alive s) (e_x e)) (A ++ Bl) -> ord (A ++ n :: Bl).
Proof.
  intros O AD. apply (ord_insert v mk mk_trans mk_refl mk_sym A n Bl (e_x e)); auto; [apply rl_self|symmetry; apply rl_x|apply rl_conds|]. apply rl_rel2; auto.
Qed.
Lemma rl_nc : good (v n) /\ cover (v n) (e_x e).
Proof. pose proof (proj2 rl_self) as G. split; [exact G|]. rewrite rl_x. destruct G; split; lia. Qed.
Lemma rl_cv k : In k (A ++ n :: Bl) -> good (v k) /\ cover (v k) (e_x e).
Proof.
  intros I. destruct (Nat.eq_dec k n) as [->|N]; [exact rl_nc|]. destruct (rl_conds k) as (G & C & _); [apply in_app_or in I; apply in_or_app; cbn in I; destruct I as [I|[I|I]]; [auto|congruence|auto]|]. auto.
Qed.
Lemma rl_new_r : (forall b, hd_error Bl = Some b -> fine mk (v n) (v b)) -> forall b, hd_error Bl = Some b -> over mk (e_x e) None (v n) (v b).
Proof.
  intros HB b Q. destruct rl_nc as (G & CV). destruct (rl_conds b) as (GB & CB' & _); [apply in_or_app; right; apply hd_error_in; exact Q|].
  apply (cmp_over mk mk_trans mk_refl mk_sym _ _ _ G GB CV CB' (or_introl (eq_sym rl_x)) (HB b Q) (CB b Q)).
Qed.
Lemma rl_new_l : (forall a, last_of A = Some a -> fine mk (v a) (v n)) -> forall a, last_of A = Some a -> over mk (e_x e) None (v a) (v n).
Proof.
  intros HA a Q. destruct rl_nc as (G & CV). destruct (rl_conds a) as (GA & CA' & _); [apply in_or_app; left; apply last_of_in; exact Q|].
  apply (cmp_over mk mk_trans mk_refl mk_sym _ _ _ GA G CA' CV (or_intror (eq_sym rl_x)) (HA a Q) (CA a Q)).
Qed.
Lemma rl_in : rhist all s R -> (forall a, last_of A = Some a -> fine mk (v a) (v n)) -> (forall b, hd_error Bl = Some b -> fine mk (v n) (v b)) -> rhist all (e :: s) (A ++ n :: Bl).
Proof.
  intros H HA HB. pose proof (rl_adj H) as AD. unfold rhist in *. pose proof (r_ord _ _ _ _ _ H) as O. rewrite EQ in H, AD, O. pose proof (rl_ord_insert O AD) as OI. cbn [alive filter]. rewrite D. cbn [negb]. fold (alive s).
  apply r_in; [exact H|exact F|apply rl_fresh| |exact OI|apply rl_cv].
  apply adj_app in AD as (A1 & A2 & _). pose proof (rl_new_l HA) as NL. pose proof (rl_new_r HB) as NR'. destruct rl_nc as (GN & CN).
  assert (RA : adj (fun a b => rel mk (e_x e) (v a) (v b)) (A ++ n :: Bl)).
  { apply adj_app. split; [apply rl_now; [intros k I; apply rl_inR, in_or_app; auto|exact A1]|]. split.
    - apply adj_cons. split; [|apply rl_now; [intros k I; apply rl_inR, in_or_app; auto|exact A2]]. intros b Q. destruct (rl_conds b) as (_ & Cb & _); [apply in_or_app; right; apply hd_error_in; exact Q|]. eapply over_rel; [apply NR'; exact Q|lia|exact I|exact CN|exact Cb].
    - intros a b Q R0. injection R0 as <-. destruct (rl_conds a) as (_ & Ca & _); [apply in_or_app; left; apply last_of_in; exact Q|]. eapply over_rel; [apply NL; exact Q|lia|exact I|exact Ca|exact CN]. }
  assert (RS : forall w b, (vt (v w) = false /\ e = bev (v w) w false /\ b = sg_pb (v w)) \/ (vt (v w) = true /\ e = ff w /\ (b = sg_pa (v w) \/ b = sg_pb (v w))) ->
    (forall k, In k (A ++ Bl) -> vt (v k) = false -> (px (sg_pa (v k)) < e_x e)%Z) /\ px (sg_pb (v n)) = e_x e /\ px b = e_x e /\ (lo (v n) (e_x e) <= injY b <= hi (v n) (e_x e))%Q).
  { intros w b [(_ & Q & _)|(V & Q & EB)]; [rewrite Q, is_f_bev in F; discriminate|]. assert (W : w = n) by (rewrite Q; reflexivity). rewrite W in V, EB. pose proof (proj1 (vt_true _) V) as VX. pose proof rl_x as XN. split; [|split; [congruence|split; [destruct EB as [->| ->]; congruence|]]].
    - intros k I VK. destruct (rl_cover k (rl_inR k I)) as (_ & _ & W'). destruct (W' VK) as ([Z|Z] & _); [exact Z|]. rewrite rl_eq, rank_f, V in Z. cbn in Z. lia.
    - destruct (vlo (v n) (e_x e) V) as (V1 & V2 & V3 & V4). unfold injY. destruct EB as [->| ->]; split; assumption. }
  apply adj_app. split; [|split; [apply adj_cons; split|]].
  - apply (rl_keep (fun k => In k A) A A1); [auto|]. intros a c w b Ia Ic _ C SP U. destruct (RS w b C) as (S1 & S2 & S3 & S4). exact (strong_a v mk mk_trans mk_refl mk_sym (e_x e) A Bl n b RA rl_cv S1 S2 S3 S4 a c Ia Ic SP U).
  - intros b Q. apply wks_over, NR', Q.
  - apply (rl_keep (fun k => In k Bl) Bl A2); [auto|]. intros a c w b Ia Ic _ C SP U. destruct (RS w b C) as (S1 & S2 & S3 & S4). exact (strong_b v mk mk_trans mk_refl mk_sym (e_x e) A Bl n b RA rl_cv S1 S2 S3 S4 a c Ia Ic SP U).
  - intros a b Q R0. injection R0 as <-. apply wks_over, NL, Q.
Qed.
End In_.
(** ** A line that goes out *)
Section Out.
Hypothesis F : is_f e = false.
Lemma rl_beq : e = bev (v n) n false.
Proof. exact (rt_bev pts0 T v mk st s all u B S e IE D F). Qed.
Lemma rl_wide_out a b : In a R -> In b R -> wide (v a) (v b).
Proof.
  intros I J V1 V2. destruct (rl_cover a I) as (_ & (A1 & A2) & WA). destruct (rl_cover b J) as (_ & (B1 & B2) & WB). specialize (WA V1). specialize (WB V2). unfold is_f in F. destruct (e_type e); try discriminate; cbn [type_rank] in *; lia.
Qed.
Variables A Bl : list nat.
Hypothesis EQ : R = A ++ n :: Bl.
Lemma rl_out : rhist all s R -> (forall a b, last_of A = Some a -> hd_error Bl = Some b -> fine mk (v a) (v b)) -> rhist all (e :: s) (A ++ Bl).
Proof.
  intros H FN. pose proof (rl_adj H) as AD. unfold rhist in *. cbn [alive filter]. rewrite D. cbn [negb]. fold (alive s). rewrite EQ in H, AD.
  assert (C : forall k, In k (A ++ n :: Bl) -> good (v k) /\ cover (v k) (e_x e)) by (intros k I; rewrite <- EQ in I; destruct (rl_cover k I) as (X & Y & _); auto).
  apply r_out; [exact H|exact F| |intros k I; apply C; apply in_app_or in I; apply in_or_app; cbn; tauto].
  assert (PB : px (sg_pb (v n)) = e_x e) by (rewrite rl_beq; reflexivity).
  assert (VT : vt (v n) = true \/ forall k, In k (A ++ Bl) -> vt (v k) = false -> (px (sg_pa (v k)) < e_x e)%Z).
  { destruct (vt (v n)) eqn:V; [auto|right]. intros x I VX. assert (I' : In x R) by (rewrite EQ; apply in_app_or in I; apply in_or_app; cbn; tauto).
    destruct (rl_cover x I') as (_ & _ & W). destruct (W VX) as (W1 & _). assert (K : e_type e = Backward) by (rewrite rl_beq, rank_b, V; reflexivity). rewrite K in W1. cbn [type_rank] in W1. lia. }
  pose proof (rl_now (A ++ n :: Bl) ltac:(rewrite EQ; auto) AD) as RA.
  assert (RS : forall w b, (vt (v w) = false /\ e = bev (v w) w false /\ b = sg_pb (v w)) \/ (vt (v w) = true /\ e = ff w /\ (b = sg_pa (v w) \/ b = sg_pb (v w))) ->
    (forall k, In k (A ++ Bl) -> vt (v k) = false -> (px (sg_pa (v k)) < e_x e)%Z) /\ px b = e_x e /\ (lo (v n) (e_x e) <= injY b <= hi (v n) (e_x e))%Q).
  { intros w b [(V & Q & EB)|(V & Q & _)]; [|rewrite Q, is_f_fev in F; discriminate]. assert (W : w = n) by (rewrite Q; reflexivity). rewrite W in V, EB. destruct VT as [V'|VT]; [congruence|]. split; [exact VT|]. split; [congruence|]. rewrite EB, <- PB. apply end_lo_hi. apply C. apply in_or_app. cbn. auto. }
  apply adj_app in AD as (A1 & A2 & A3).
  apply adj_cons in A2 as (A2 & A4). apply adj_app. split; [|split].
  { apply (rl_keep (fun k => In k A) A A1); [auto|]. intros a c w b Ia Ic _ C0 SP U. destruct (RS w b C0) as (S1 & S3 & S4). exact (strong_a v mk mk_trans mk_refl mk_sym (e_x e) A Bl n b RA C S1 PB S3 S4 a c Ia Ic SP U). }
  { apply (rl_keep (fun k => In k Bl) Bl A4); [auto|]. intros a c w b Ia Ic _ C0 SP U. destruct (RS w b C0) as (S1 & S3 & S4). exact (strong_b v mk mk_trans mk_refl mk_sym (e_x e) A Bl n b RA C S1 PB S3 S4 a c Ia Ic SP U). }
  intros a b Q R0. set (X := e_x e) in *.
  pose proof (A3 a n Q eq_refl) as N1. pose proof (A2 b R0) as N2.
  destruct (C a) as (Ga & Ca); [apply in_or_app; left; apply last_of_in; exact Q|].
  destruct (C b) as (Gb & Cb); [apply in_or_app; right; right; apply hd_error_in; exact R0|].
  destruct (C n) as (Gn & Cn); [apply in_or_app; right; left; reflexivity|].
  assert (R1 : rel mk X (v a) (v n)) by (eapply wks_now; [exact N1|exact Ca|exact Cn]).
  assert (R2 : rel mk X (v n) (v b)) by (eapply wks_now; [exact N2|exact Cn|exact Cb]).
  assert (R3 : rel mk X (v a) (v b)) by (apply (rel_trans mk mk_trans mk_sym X (v a) (v n) (v b)); assumption).
  apply wks_over. destruct R3 as [TW|PT]; [left; exact TW|]. apply rem_over; auto; [right; exact PT|]. pose proof PT as (PL & PE).
  destruct VT as [V|V].
  - destruct R1 as [T1|P1].
    { left. destruct (twin_geom mk _ _ Ga Gn T1) as (V' & _ & _). rewrite V in V'. apply vt_true in V'. destruct Ca. lia. }
    destruct R2 as [T2|P2].
    { right. left. destruct (twin_geom mk _ _ Gn Gb T2) as (V' & _ & _). rewrite V in V'. symmetry in V'. apply vt_true in V'. destruct Cb. lia. }
    right. right. destruct P1 as (P1 & _), P2 as (P2 & _). assert (LT : (lo (v n) X < hi (v n) X)%Q) by (pose proof (vt_py _ Gn V); unfold lo, hi; rewrite V; apply inj_lt; lia). lra.
  - destruct (Qlt_le_dec (hi (v b) X) (lo (v a) X)) as [LT|GE]; [auto|]. left. destruct PE as (i & j & E1 & E2 & _); [lra|].
    destruct (vt (v a)) eqn:VA; [apply vt_true in VA; destruct Ca; lia|]. specialize (V a ltac:(apply in_or_app; left; apply last_of_in; exact Q) VA). apply at_end_x in E1. fold X in V. lia.
Qed.
End Out.
End Deliver.
End Step.
