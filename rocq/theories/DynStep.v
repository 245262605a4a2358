(** The history of a sweep over one step. *)
From Coq Require Import ZArith QArith List Bool Arith Permutation Sorted Lia Lqa.
From Verif Require Import GeomModel GeomSpec GeomProofs IsectProofs GeomFinal BalanceModel EventsModel EventsSpec EventsProofs OutModel PointSinkModel CycleProofs ClipModel ClipSpec ClipProofs SweepProofs
  SegOrder SegPair SegTrace SegCheck SegStep SegRun SegClean ArrangeSpec SegSpec TotalSpec TotalSplit TotalRun ExactProofs DynOrder DynTrace DynShape DynCut DynCheck DynWeak DynForm.
Import ListNotations.
Local Open Scope nat_scope.

Section Step.
Variable pts0 : list cpoint.
Variable T : Z.
Hypothesis GRID : grid pts0.
Variable draws : cseg -> cseg -> bool.
Notation check := (check_intersection intersects draws).
Notation base := (base pts0 T).
Variable v : nat -> cseg.
Variable mk : nat -> nat -> Prop.
Hypothesis mk_trans : forall i j k, mk i j -> mk j k -> mk i k.
Hypothesis mk_refl : forall i, mk i i.
Hypothesis mk_sym : forall i j, mk i j -> mk j i.
Notation ff k := (fev (v k) k false).
Notation WI := (WI v mk).
Notation sub := (sub v mk).
Notation dtr := (dtr v mk).
Notation debt := (debt v mk).
Notation hist := (hist v mk).
Notation ord := (ord v).
Notation nb := (nb v mk).

Definition Inv (R : list nat) (s all : list ev) : Prop := exists t s2 Rt, WI R s all t s2 Rt /\ (s2 = [] \/ pushed s all s2).
Lemma WI_all R s all all' t s2 Rt : (forall x, In x all' <-> In x all) -> WI R s all t s2 Rt -> WI R s all' t s2 Rt.
Proof.
  intros E [W1 W2 W3 W4]. constructor; [exact W1|intros y x I J; apply W2; [exact I|apply E; exact J]|exact W3|]. destruct W4 as [W4|(k1 & W4 & O1 & O2 & O3)]; [left; exact W4|right]. exists k1. split; [exact W4|].
  split; [apply E; exact O1|]. split; [exact O2|]. intros x I. apply O3, E, I.
Qed.
Lemma Inv_all R s all all' : Permutation all' all -> Inv R s all -> Inv R s all'.
Proof.
  intros P (t & s2 & Rt & W & H). assert (E : forall x, In x all' <-> In x all) by (intros x; split; apply Permutation_in; [exact P|apply Permutation_sym; exact P]).
  exists t, s2, Rt. split; [eapply WI_all; eassumption|]. destruct H as [H|(f0 & A & C & D)]; [auto|right]. exists f0. split; [apply E; exact A|auto].
Qed.

(** * Taking back an event *)
Lemma undo_Inv R R' s all e : Inv R s all -> s = e :: tl s -> (exists k, In k all /\ ~ In k s /\ event_lt e k = false) ->
  (forall t Rt, (length (alive t) < length (e :: alive (tl s))) \/ e_deleted e = true -> path v (alive t) Rt (alive s) R -> path v (alive t) Rt (alive (tl s)) R') -> Inv R' (tl s) all.
Proof.
  intros (t & s2 & Rt & [W1 W2 W3 W4] & H) SQ (k & K1 & K2 & K3) P.
  assert (NE : ~ In e t). { intros I. rewrite (W2 e k I K1) in K3; [discriminate|]. intros J. apply K2. rewrite W1. apply in_or_app. auto. }
  destruct s2 as [|y s2]; [exfalso; apply NE; cbn [app] in W1; rewrite <- W1, SQ; left; reflexivity|]. rewrite W1 in SQ. cbn [app tl] in SQ. injection SQ as ->. assert (TL : tl s = s2 ++ t) by (rewrite W1; reflexivity).
  exists t, s2, Rt. split.
  - constructor; [exact TL|exact W2| |exact W4]. apply P; [|exact W3]. left. rewrite TL, alive_app. cbn [length]. rewrite app_length. lia.
  - destruct H as [H|(f0 & F1 & F2 & F3)]; [discriminate|right]. exists f0. split; [exact F1|]. split; [intros I; apply F2; rewrite W1; rewrite TL in I; right; exact I|]. intros z I. apply F3. right. exact I.
Qed.

(** * Delivering an event *)
Lemma deliver_now R s all e : NoDup (map ekey all) -> (forall x, In x s -> In x all) -> Inv R s all -> (forall x, In x s -> event_lt e x = false) -> (forall x, In x all -> ~ In x s -> event_lt x e = false) ->
  hist all s R /\ (forall y x, In y s -> In x all -> ~ In x s -> event_lt y x = true).
Proof.
  intros KEYS INC (t & s2 & Rt & [W1 W2 W3 W4] & H) BEF AFT. assert (E : s2 = []).
  { destruct H as [H|(f0 & F1 & F2 & F3)]; [exact H|]. destruct s2 as [|y s2]; [reflexivity|exfalso]. assert (IY : In y s) by (rewrite W1; left; reflexivity).
    pose proof (F3 y (or_introl eq_refl)) as X1. pose proof (AFT f0 F1 F2) as X2. pose proof (BEF y IY) as X3.
    assert (X4 : event_lt f0 y = false). { destruct (event_lt f0 y) eqn:X; [|reflexivity]. exfalso. rewrite (lt_ge_lt f0 y e X X3) in X2. discriminate. }
    apply F2. rewrite (NoDup_ekey _ _ _ KEYS F1 (INC y IY)); [exact IY|]. apply event_lt_total; assumption. }
  subst s2. cbn [app] in W1. subst t. destruct (proj2 (path_len _ _ _ _ _ W3) eq_refl) as (_ & <-). auto.
Qed.
Lemma sep_more s all e : NoDup (map ekey all) -> In e all -> (forall x, In x all -> ~ In x s -> event_lt x e = false) -> (forall y x, In y s -> In x all -> ~ In x s -> event_lt y x = true) ->
  forall y x, In y (e :: s) -> In x all -> ~ In x (e :: s) -> event_lt y x = true.
Proof.
  intros KEYS IE AFT SEP y x [<-|I] J N; [|apply SEP; [exact I|exact J|intros Z; apply N; right; exact Z]]. destruct (event_lt e x) eqn:X; [reflexivity|]. exfalso. apply N. left.
  apply (NoDup_ekey _ _ _ KEYS IE J). apply event_lt_total; [exact X|apply AFT; [exact J|intros Z; apply N; right; exact Z]].
Qed.
Lemma WI_now R s all : hist all s R -> (forall y x, In y s -> In x all -> ~ In x s -> event_lt y x = true) -> Inv R s all.
Proof. intros H S. exists s, [], R. split; [|auto]. constructor; [reflexivity|exact S|apply p_nil|exact H]. Qed.
Lemma deleted_Inv R s all e : NoDup (map ekey all) -> In e all -> (forall x, In x all -> ~ In x s -> event_lt x e = false) -> e_deleted e = true -> hist all s R ->
  (forall y x, In y s -> In x all -> ~ In x s -> event_lt y x = true) -> Inv R (e :: s) all.
Proof.
  intros KEYS IE AFT D H SEP. apply WI_now; [|apply sep_more; assumption]. unfold DynCut.hist. cbn [alive filter]. rewrite D. cbn [negb]. fold (alive s). destruct H as [H|(k1 & H & O1 & O2 & O3)]; [left; exact H|right].
  exists k1. split; [exact H|]. split; [exact O1|]. split; [intros [Q|I]; [rewrite Q in D; discriminate|contradiction]|]. intros x I N. apply O3; [exact I|]. intros J. apply N. right. exact J.
Qed.
Lemma drop_Inv R s all e : NoDup (map ekey all) -> (forall x, In x s -> In x all) -> In e all -> ~ In e s -> (forall x, In x all -> ~ In x s -> event_lt x e = false) -> is_f e = false -> hist all s R ->
  (forall y x, In y s -> In x all -> ~ In x s -> event_lt y x = true) -> Inv R (map (delk (ekey e)) (e :: s)) (map (delk (ekey e)) all).
Proof.
  intros KEYS INC IE NI AFT FE H SEP. pose proof (sep_more s all e KEYS IE AFT SEP) as SEP'. set (d := delk (ekey e)).
  assert (ID : forall x, In x all -> x <> e -> d x = x). { intros x I N. unfold d, delk. destruct (ekey_dec (ekey x) (ekey e)) as [Q|_]; [|reflexivity]. exfalso. apply N. exact (NoDup_ekey _ _ _ KEYS I IE Q). }
  assert (MS : map d s = s). { rewrite <- (map_id s) at 2. apply map_ext_in. intros x I. apply ID; [apply INC; exact I|]. intros ->. contradiction. }
  assert (DE : e_deleted (d e) = true) by apply delk_self.
  assert (BACK : forall x, In x (map d all) -> x = d e \/ (In x all /\ x <> e)). { intros x I. apply in_map_iff in I as (y & <- & I). destruct (ev_dec y e) as [->|N]; [auto|]. right. rewrite (ID y I N). auto. }
  cbn [map]. rewrite MS. apply WI_now.
  - unfold DynCut.hist. cbn [alive filter]. rewrite DE. cbn [negb]. fold (alive s). destruct H as [H|(k1 & H & O1 & O2 & O3)]; [left; exact H|right]. exists k1. split; [exact H|].
    assert (N : ff k1 <> e) by (intros Q; rewrite <- Q, is_f_fev in FE; discriminate). split; [rewrite <- (ID _ O1 N); apply in_map; exact O1|]. split; [intros [Q|I]; [rewrite Q in DE; discriminate|contradiction]|].
    intros x I NX DX. destruct (BACK x I) as [->|(J & _)]; [congruence|]. apply O3; [exact J| |exact DX]. intros Z. apply NX. right. exact Z.
  - intros y x I J N. destruct (BACK x J) as [->|(J2 & N2)]; [exfalso; apply N; left; reflexivity|]. assert (NX : ~ In x (e :: s)) by (intros [Q|Z]; [apply N2; symmetry; exact Q|apply N; right; exact Z]).
    destruct I as [<-|I]; [unfold d; rewrite delk_lt; apply SEP'; [left; reflexivity|exact J2|exact NX]|apply SEP'; [right; exact I|exact J2|exact NX]].
Qed.

(** At a line's event. *)
Section Deliver.
Variables (st : cstate) (s all : list ev) (u : bool) (e : ev).
Hypothesis B : base st s all u.
Hypothesis S : sub st.
Hypothesis IE : In e all.
Hypothesis NIE : ~ In e s.
Hypothesis BEF : forall x, In x s -> event_lt e x = false.
Hypothesis AFT : forall x, In x all -> ~ In x s -> event_lt x e = false.
Hypothesis D : e_deleted e = false.
Local Notation n := (e_node e).
Local Notation R := (s_sweep st).
Lemma dl_keys : NoDup (map ekey all).
Proof. exact (ok_keys _ _ _ _ _ (b_ok _ _ _ _ _ _ B)). Qed.
Lemma dl_node k : In k R -> nth_error (s_nodes st) k = Some (v k) /\ live (s_pts st) (s_nodes st) k.
Proof. intros I. pose proof (ok_sw _ _ _ _ _ (b_ok _ _ _ _ _ _ B) k I) as L. split; [|exact L]. destruct L as (g & i & G & _). rewrite (proj1 S _ _ G). exact G. Qed.
Lemma dl_self : nth_error (s_nodes st) n = Some (v n) /\ good (v n).
Proof. destruct (ok_ev _ _ _ _ _ (b_ok _ _ _ _ _ _ B) e IE) as (g & G & _). rewrite (proj1 S _ _ G). split; [exact G|]. eapply (n_good _ _ _ (b_num _ _ _ _ _ _ B)); exact G. Qed.
Lemma dl_cover k : In k R -> good (v k) /\ cover (v k) (e_x e) /\
  (vt (v k) = false -> ((px (sg_pa (v k)) < e_x e)%Z \/ 2 <= type_rank (e_type e)) /\ ((e_x e < px (sg_pb (v k)))%Z \/ type_rank (e_type e) <= 1)).
Proof.
  intros I. destruct (dl_node k I) as (G & L). pose proof (b_ok _ _ _ _ _ _ B) as O. split; [eapply (n_good _ _ _ (b_num _ _ _ _ _ _ B)); exact G|].
  destruct (st_set pts0 T v mk st s all u B S k I) as (F & _). destruct (b_fc _ _ _ _ _ _ B) as (FL & _). destruct (f_evs _ _ _ FL k _ G) as (d & d' & _ & IB).
  assert (NB : ~ In (bev (v k) k d') s).
  { intros J. destruct d'; [exact (f_bdel _ _ _ FL k _ G IB L)|]. destruct (ok_bwd _ _ _ _ _ O _ J eq_refl (is_f_bev _ _ _)) as (_ & X). apply X. exact I. }
  pose proof (BEF _ F) as O1. pose proof (AFT _ IB NB) as O2.
  apply ev_order in O1 as (O1 & O1'), O2 as (O2 & O2'). rewrite rank_f in O1'. change (e_type (bev (v k) k d')) with (if vt (v k) then VBackward else Backward) in O2'. cbn [e_x fev bev] in *. split; [split; assumption|]. intros V. rewrite V in *. cbn [type_rank] in *. lia.
Qed.
Lemma dl_le x : In x s -> (e_x x <= e_x e)%Z.
Proof. intros I. apply BEF in I. apply ev_order in I. apply I. Qed.
Lemma dl_agree a b : nth_error (s_nodes st) a = Some (v a) -> nth_error (s_nodes st) b = Some (v b) -> agree (v a) (v b).
Proof.
  intros A1 B1. pose proof (b_ok _ _ _ _ _ _ B) as O. destruct (ok_nodes _ _ _ _ _ O a _ A1) as (_ & p1 & q1 & P1 & E1 & Q1 & F1). destruct (ok_nodes _ _ _ _ _ O b _ B1) as (_ & p2 & q2 & P2 & E2 & Q2 & F2).
  repeat split; intros Q; rewrite <- Q in *; congruence.
Qed.
Lemma dl_adj : dtr (alive s) R -> adj (nb (e_x e)) R.
Proof.
  intros H. destruct (alive s) as [|x r] eqn:E; [inversion H; subst; exact I|]. pose proof (d_adj _ _ _ _ _ H) as A. eapply adj_impl; [|exact A]. intros a b _ _. apply over_later. apply dl_le. apply (alive_in s). rewrite E. left. reflexivity.
Qed.
(** ** A line that comes in *)
Section In_.
Hypothesis F : is_f e = true.
Lemma dl_eq : e = ff n.
Proof. exact (st_fev pts0 T v mk st s all u B S e IE D F). Qed.
Lemma dl_x : e_x e = px (sg_pa (v n)).
Proof. rewrite dl_eq at 1. reflexivity. Qed.
Lemma dl_fresh x : In x (alive s) -> e_node x <> n.
Proof.
  intros I Q. apply alive_in in I as (I & DX). pose proof (st_inc pts0 T st s all u B x I) as IA. destruct (is_f x) eqn:FX.
  - pose proof (st_fev pts0 T v mk st s all u B S x IA DX FX) as E. rewrite Q, <- dl_eq in E. subst x. contradiction.
  - pose proof (st_bev pts0 T v mk st s all u B S x IA DX FX) as E. rewrite Q in E. apply BEF in I. rewrite E, dl_eq in I. cbn [e_node fev] in I. rewrite fev_bev in I; [discriminate|]. apply dl_self.
Qed.
Lemma dl_far k : In k R -> negb (vt (v n)) = true -> vt (v k) = false -> (e_x e + 1 <= px (sg_pb (v k)))%Z.
Proof.
  intros I V VK. destruct (dl_cover k I) as (_ & _ & W). destruct (W VK) as (_ & [X|X]); [lia|]. assert (Y : e_type e = Forward) by (rewrite dl_eq, rank_f; apply negb_true_iff in V; rewrite V; reflexivity). rewrite Y in X. cbn in X. lia.
Qed.
Lemma dl_wide k : In k R -> wide (v n) (v k).
Proof.
  intros I V1 V2. destruct (dl_cover k I) as (G & (C1 & C2) & _). pose proof (dl_far k I ltac:(rewrite V1; reflexivity) V2) as W2. pose proof (vt_false _ (proj2 dl_self) V1) as W3. rewrite dl_x in *. lia.
Qed.
Variables A Bl : list nat.
Hypothesis EQ : R = A ++ Bl.
Hypothesis NR : ~ In n (A ++ Bl).
Hypothesis CA : forall a, last_of A = Some a -> sweep_cmp (v a) (v n) = true.
Hypothesis CB : forall b, hd_error Bl = Some b -> sweep_cmp (v n) (v b) = true.
Lemma dl_inR k : In k (A ++ Bl) -> In k R.
Proof. rewrite EQ. auto. Qed.
Lemma dl_conds k : In k (A ++ Bl) -> good (v k) /\ cover (v k) (e_x e) /\ (negb (vt (v n)) = true -> vt (v k) = false -> (e_x e + 1 <= px (sg_pb (v k)))%Z) /\ (sg_a (v k), sg_b (v k)) <> (sg_a (v n), sg_b (v n)).
Proof.
  intros I. pose proof (dl_inR k I) as J. destruct (dl_cover k J) as (G & C & _). split; [exact G|]. split; [exact C|]. split; [apply dl_far; exact J|]. intros Q. injection Q as Q1 Q2. apply NR.
  rewrite <- (ok_pairs _ _ _ _ _ (b_ok _ _ _ _ _ _ B) k n (v k) (v n)); [exact I|apply dl_node; exact J|apply dl_self|left; auto].
Qed.
Lemma dl_rel2 l : (forall k, In k l -> In k (A ++ Bl)) -> adj (nb (e_x e)) l -> adj (fun a b => rel2 mk (negb (vt (v n))) (e_x e) (v a) (v b)) l.
Proof.
  intros L. apply adj_impl. intros a b Ia Ib O. destruct (dl_conds a (L a Ia)) as (_ & C1 & F1 & _). destruct (dl_conds b (L b Ib)) as (_ & C2 & F2 & _). apply (over_rel2 mk _ (e_x e)); auto. lia.
Qed.
Lemma dl_ord_insert : ord (A ++ Bl) -> adj (nb (e_x e)) (A ++ Bl) -> ord (A ++ n :: Bl).
Proof.
  intros O AD. apply (ord_insert v mk mk_trans mk_refl mk_sym A n Bl (e_x e)); auto; [apply dl_self|symmetry; apply dl_x|apply dl_conds|]. apply dl_rel2; auto.
Qed.
Lemma dl_adj_insert : adj (nb (e_x e)) A -> adj (nb (e_x e)) Bl -> (forall a, last_of A = Some a -> fine mk (v a) (v n)) -> (forall b, hd_error Bl = Some b -> fine mk (v n) (v b)) -> adj (nb (e_x e)) (A ++ n :: Bl).
Proof.
  intros A1 A2 HA HB. pose proof (proj2 dl_self) as G. assert (CV : cover (v n) (e_x e)) by (rewrite dl_x; destruct G; split; lia).
  apply adj_app. split; [exact A1|]. split.
  - apply adj_cons. split; [|exact A2]. intros b Q. destruct (dl_conds b) as (GB & CB' & _); [apply in_or_app; right; apply hd_error_in; exact Q|].
    apply (cmp_over mk mk_trans mk_refl mk_sym _ _ _ G GB CV CB' (or_introl (eq_sym dl_x)) (HB b Q) (CB b Q)).
  - intros a b Q R0. injection R0 as <-. destruct (dl_conds a) as (GA & CA' & _); [apply in_or_app; left; apply last_of_in; exact Q|].
    apply (cmp_over mk mk_trans mk_refl mk_sym _ _ _ GA G CA' CV (or_intror (eq_sym dl_x)) (HA a Q) (CA a Q)).
Qed.
Lemma dl_in : dtr (alive s) R -> (forall a, last_of A = Some a -> fine mk (v a) (v n)) -> (forall b, hd_error Bl = Some b -> fine mk (v n) (v b)) -> dtr (e :: alive s) (A ++ n :: Bl).
Proof.
  intros H HA HB. pose proof (dl_adj H) as AD. pose proof (d_ord _ _ _ _ H) as O. rewrite EQ in H, AD, O. apply d_in; [exact H|exact F|apply dl_fresh| |apply dl_ord_insert; assumption].
  apply adj_app in AD as (A1 & A2 & _). apply dl_adj_insert; assumption.
Qed.
(** The line that is missing comes in. *)
Lemma dl_owed k1 : owed v all s k1 -> n = k1.
Proof.
  intros (O1 & O2 & O3). rewrite (NoDup_ekey _ _ _ dl_keys IE O1); [reflexivity|]. apply event_lt_total; [apply O3; assumption|apply AFT; assumption].
Qed.
Lemma dl_debt : debt (alive s) R n -> (forall a, last_of A = Some a -> fine mk (v a) (v n)) -> (forall b, hd_error Bl = Some b -> fine mk (v n) (v b)) -> dtr (e :: alive s) (A ++ n :: Bl).
Proof.
  intros (x & r & A0 & B0 & k0 & A' & B' & ES & ER & DR & FX & NW & EP & AD & OR & G0 & X0 & TX & EA & SA & PA & W) HA HB.
  assert (XE : e_x x = e_x e) by (rewrite X0, dl_x, PA; reflexivity). rewrite XE in AD.
  assert (CASE : dtr (alive s) R \/ (A' = A /\ B' = Bl /\ ord (A ++ n :: Bl))).
  { assert (DT : adj (nb (e_x x)) R -> dtr (alive s) R). { intros Z. rewrite ES, ER. apply d_in; [exact DR|exact FX|exact NW|rewrite <- ER; exact Z|]. rewrite <- ER, EP. eapply ord_drop. exact OR. }
    pose proof AD as AD0. apply adj_app in AD as (AD1 & AD2 & AD3). apply adj_cons in AD2 as (AD2 & AD4).
    assert (OAB : ord (A' ++ B')) by (eapply ord_drop; exact OR).
    assert (IN' : forall k, In k (A' ++ B') -> In k (A ++ Bl)) by (intros k I; rewrite <- EQ, EP; exact I).
    assert (K0 : forall k, In k (A' ++ B') -> cover (v k) (e_x e) /\ good (v k) /\ (vt (v k0) = false -> vt (v k) = false -> (e_x e + 1 <= px (sg_pb (v k)))%Z)).
    { intros k I. destruct (dl_conds k (IN' k I)) as (C1 & C2 & C3 & _). split; [exact C2|]. split; [exact C1|]. intros V. apply C3. destruct (vt (v n)) eqn:VN; [|reflexivity]. exfalso.
      (* a part of a line that is not vertical *)
      destruct (within_t _ _ W) as (t & (T1 & T2) & TXX & _). apply vt_true in VN. rewrite PA in VN. pose proof (vt_false _ G0 V) as LT. unfold injX in TXX. rewrite <- VN in TXX. apply inj_lt in LT. nra. }
    assert (C0 : cover (v k0) (e_x e)) by (rewrite <- XE, X0; destruct G0; split; lia).
    assert (PX0 : px (sg_pa (v k0)) = e_x e) by (rewrite <- XE; symmetry; exact X0).
    destruct (last_of A') as [p|] eqn:LA; [|left; apply DT; rewrite EP, XE; apply adj_app; split; [exact AD1|]; split; [exact AD4|]; intros a b Q; rewrite LA in Q; discriminate].
    destruct (hd_error B') as [q|] eqn:HB'; [|left; apply DT; rewrite EP, XE; apply adj_app; split; [exact AD1|]; split; [exact AD4|]; intros a b _ Q; rewrite HB' in Q; discriminate].
    assert (Ip : In p (A' ++ B')) by (apply in_or_app; left; apply last_of_in; exact LA). assert (Iq : In q (A' ++ B')) by (apply in_or_app; right; apply hd_error_in; exact HB').
    destruct (K0 p Ip) as (Cp & Gp & Fp). destruct (K0 q Iq) as (Cq & Gq & Fq). pose proof (AD3 p k0 eq_refl eq_refl) as Np. pose proof (AD2 q eq_refl) as Nq.
    apply ord_app in OR as (_ & (OR2 & _) & OR3). assert (Sp : sweep_cmp (v p) (v k0) = true) by (apply OR3; [apply last_of_in; exact LA|left; reflexivity]). assert (Sq : sweep_cmp (v k0) (v q) = true) by (apply OR2, hd_error_in; exact HB').
    assert (JOIN : nb (e_x e) p q -> dtr (alive s) R).
    { intros Z. apply DT. rewrite EP, XE. apply adj_app. split; [exact AD1|]. split; [exact AD4|]. intros a b Q1 Q2. rewrite LA in Q1. rewrite HB' in Q2. injection Q1 as <-. injection Q2 as <-. exact Z. }
    destruct (cut_r mk mk_trans mk_refl mk_sym (v k0) (v n) (v p) (sg_pb (v n)) (e_x e) G0 Gp W PA eq_refl PX0 Cp Fp) as [C1|TW]; [eapply over_rel; [exact Np|lia|exact I|exact Cp|exact C0]|intros Z1 Z2; eapply over_rel; [exact Np|lia|exact I|exact Z2|exact Z1]|exact Sp| |].
    2: { left. apply JOIN. apply (over_twin_l mk mk_trans mk_sym _ _ _ (v k0)); assumption. }
    destruct (cut_l mk mk_trans mk_refl mk_sym (v k0) (v n) (v q) (sg_pb (v n)) (e_x e) G0 Gq W PA eq_refl PX0 Cq Fq) as [C2|TW]; [eapply over_rel; [exact Nq|lia|exact I|exact C0|exact Cq]|intros Z1 Z2; eapply over_rel; [exact Nq|lia|exact I|exact Z1|exact Z2]|exact Sq| |].
    2: { left. apply JOIN. apply (over_twin_r mk mk_trans mk_sym _ _ _ (v k0)); assumption. }
    right. assert (OI : ord (A' ++ n :: B')).
    { apply (ord_insert v mk mk_trans mk_refl mk_sym A' n B' (e_x e)); auto; [apply dl_self|symmetry; apply dl_x|intros k I; apply dl_conds; auto| |intros a Q; rewrite LA in Q; injection Q as <-; exact C1|intros b Q; rewrite HB' in Q; injection Q as <-; exact C2].
      assert (R2 : forall l, (forall k, In k l -> In k (A' ++ B')) -> adj (nb (e_x e)) l -> adj (fun a b => rel2 mk (negb (vt (v n))) (e_x e) (v a) (v b)) l) by (intros l L; apply dl_rel2; auto).
      apply adj_app. split; [apply R2; [intros k I; apply in_or_app; auto|exact AD1]|]. split; [apply R2; [intros k I; apply in_or_app; auto|exact AD4]|].
      intros a b Q1 Q2. rewrite LA in Q1. rewrite HB' in Q2. injection Q1 as <-. injection Q2 as <-.
      assert (FK : negb (vt (v n)) = true -> vt (v k0) = false -> (e_x e + 1 <= px (sg_pb (v k0)))%Z) by (intros _ V; pose proof (vt_false _ G0 V); lia).
      destruct (dl_conds p (IN' p Ip)) as (_ & _ & FP & _). destruct (dl_conds q (IN' q Iq)) as (_ & _ & FQ & _).
      apply (rel2_trans mk mk_trans mk_sym _ _ (v p) (v k0) (v q)); auto; apply (over_rel2 mk _ (e_x e)); auto; lia. }
    destruct (ord_place v A' n B' A Bl OI) as (-> & ->); [rewrite <- EP, <- EQ; reflexivity|exact CA|exact CB|]. auto. }
  destruct CASE as [H|(-> & -> & O)]; [apply dl_in; assumption|]. apply adj_app in AD as (AD1 & AD2 & _). apply adj_cons in AD2 as (_ & AD2).
  rewrite ES. apply (d_pair v mk e x r A0 B0 A Bl); auto.
  - split; [exact XE|]. split; [|rewrite EA, <- SA, dl_eq; reflexivity]. rewrite TX, dl_eq, rank_f. change (vert (v k0)) with (vt (v k0)).
    destruct (within_t _ _ W) as (t & (T1 & T2) & TXX & _). destruct (vt (v k0)) eqn:V0; destruct (vt (v n)) eqn:VN; try reflexivity; exfalso.
    + apply vt_true in V0. unfold injX in TXX. rewrite <- V0 in TXX. pose proof (vt_false _ (proj2 dl_self) VN) as LT. rewrite PA in LT. apply inj_lt in LT. nra.
    + apply vt_true in VN. rewrite PA in VN. pose proof (vt_false _ G0 V0) as LT. unfold injX in TXX. rewrite <- VN in TXX. apply inj_lt in LT. nra.
  - intros y I. apply dl_fresh. rewrite ES. exact I.
  - rewrite <- ER, EQ. reflexivity.
  - apply dl_adj_insert; assumption.
Qed.
Lemma dl_hist_in : hist all s R -> (forall a, last_of A = Some a -> fine mk (v a) (v n)) -> (forall b, hd_error Bl = Some b -> fine mk (v n) (v b)) -> dtr (alive (e :: s)) (A ++ n :: Bl).
Proof.
  intros H HA HB. cbn [alive filter]. rewrite D. cbn [negb]. fold (alive s). destruct H as [H|(k1 & H & OW)]; [apply dl_in; assumption|]. apply dl_owed in OW. subst k1. apply dl_debt; assumption.
Qed.
End In_.
(** ** A line that goes out *)
Section Out.
Hypothesis F : is_f e = false.
Lemma dl_beq : e = bev (v n) n false.
Proof. exact (st_bev pts0 T v mk st s all u B S e IE D F). Qed.
Lemma dl_wide_out a b : In a R -> In b R -> wide (v a) (v b).
Proof.
  intros I J V1 V2. destruct (dl_cover a I) as (_ & (A1 & A2) & WA). destruct (dl_cover b J) as (_ & (B1 & B2) & WB). specialize (WA V1). specialize (WB V2). unfold is_f in F. destruct (e_type e); try discriminate; cbn [type_rank] in *; lia.
Qed.
Variables A Bl : list nat.
Hypothesis EQ : R = A ++ n :: Bl.
Lemma dl_out : dtr (alive s) R -> (forall a b, last_of A = Some a -> hd_error Bl = Some b -> fine mk (v a) (v b)) -> dtr (alive (e :: s)) (A ++ Bl).
Proof.
  intros H FN. cbn [alive filter]. rewrite D. cbn [negb]. fold (alive s). pose proof (dl_adj H) as AD. rewrite EQ in H, AD. apply d_out; [exact H|exact F|].
  assert (C : forall k, In k (A ++ n :: Bl) -> good (v k) /\ cover (v k) (e_x e)) by (intros k I; rewrite <- EQ in I; destruct (dl_cover k I) as (X & Y & _); auto).
  assert (PB : px (sg_pb (v n)) = e_x e) by (rewrite dl_beq; reflexivity).
  assert (VT : vt (v n) = true \/ forall k, In k (A ++ Bl) -> vt (v k) = false -> (px (sg_pa (v k)) < e_x e)%Z).
  { destruct (vt (v n)) eqn:V; [auto|right]. intros x I VX. assert (I' : In x R) by (rewrite EQ; apply in_app_or in I; apply in_or_app; cbn; tauto).
    destruct (dl_cover x I') as (_ & _ & W). destruct (W VX) as (W1 & _). assert (K : e_type e = Backward) by (rewrite dl_beq, rank_b, V; reflexivity). rewrite K in W1. cbn [type_rank] in W1. lia. }
  set (X := e_x e) in *. apply adj_app in AD as (A1 & A2 & A3).
  apply adj_cons in A2 as (A2 & A4). apply adj_app. split; [exact A1|]. split; [exact A4|]. intros a b Q R0.
  pose proof (A3 a n Q eq_refl) as N1. pose proof (A2 b R0) as N2.
  destruct (C a) as (Ga & Ca); [apply in_or_app; left; apply last_of_in; exact Q|].
  destruct (C b) as (Gb & Cb); [apply in_or_app; right; right; apply hd_error_in; exact R0|].
  destruct (C n) as (Gn & Cn); [apply in_or_app; right; left; reflexivity|].
  assert (R1 : rel mk X (v a) (v n)) by (eapply over_rel; [exact N1|lia|exact I|exact Ca|exact Cn]).
  assert (R2 : rel mk X (v n) (v b)) by (eapply over_rel; [exact N2|lia|exact I|exact Cn|exact Cb]).
  assert (R3 : rel mk X (v a) (v b)) by (apply (rel_trans mk mk_trans mk_sym X (v a) (v n) (v b)); assumption).
  unfold SegTrace.nb. destruct R3 as [TW|PT]; [left; exact TW|]. apply rem_over; auto; [right; exact PT|]. pose proof PT as (PL & PE).
  destruct VT as [V|V].
  - destruct R1 as [T1|P1].
    { left. destruct (twin_geom mk _ _ Ga Gn T1) as (V' & _ & _). rewrite V in V'. apply vt_true in V'. destruct Ca. lia. }
    destruct R2 as [T2|P2].
    { right. left. destruct (twin_geom mk _ _ Gn Gb T2) as (V' & _ & _). rewrite V in V'. symmetry in V'. apply vt_true in V'. destruct Cb. lia. }
    right. right. destruct P1 as (P1 & _), P2 as (P2 & _). assert (LT : (lo (v n) X < hi (v n) X)%Q) by (pose proof (vt_py _ Gn V); unfold lo, hi; rewrite V; apply inj_lt; lia). lra.
  - destruct (Qlt_le_dec (hi (v b) X) (lo (v a) X)) as [LT|GE]; [auto|]. left. destruct PE as (i & j & E1 & E2 & _); [lra|].
    destruct (vt (v a)) eqn:VA; [apply vt_true in VA; destruct Ca; lia|]. specialize (V a ltac:(apply in_or_app; left; apply last_of_in; exact Q) VA). apply at_end_x in E1. fold X in V. lia.
Qed.
Lemma dl_hist_out : hist all s R -> dtr (alive s) R.
Proof. intros [H|(k1 & _ & O1 & O2 & O3)]; [exact H|exfalso]. assert (Q : e = ff k1) by (apply (NoDup_ekey _ _ _ dl_keys IE O1), event_lt_total; [apply O3; assumption|apply AFT; assumption]). rewrite Q, is_f_fev in F. discriminate. Qed.
End Out.
End Deliver.
End Step.
