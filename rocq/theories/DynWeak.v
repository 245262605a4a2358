(** The history of a sweep over a check that splits lines. *)
From Coq Require Import ZArith QArith List Bool Arith Permutation Sorted Lia Lqa.
From Verif Require Import GeomModel GeomSpec GeomProofs IsectProofs GeomFinal BalanceModel EventsModel EventsSpec EventsProofs OutModel PointSinkModel CycleProofs ClipModel ClipSpec ClipProofs SweepProofs
  SegOrder SegPair SegTrace SegCheck SegStep SegRun SegClean ArrangeSpec SegSpec TotalSpec TotalSplit TotalRun ExactProofs DynOrder DynTrace DynShape DynCut DynCheck.
Import ListNotations.
Local Open Scope nat_scope.

Section Weak.
Variable pts0 : list cpoint.
Variable T : Z.
Hypothesis GRID : grid pts0.
Variable draws : cseg -> cseg -> bool.
Notation check := (check_intersection intersects draws).
Notation base := (base pts0 T).
Notation one := (one pts0 T).
Variable v : nat -> cseg.
Variable mk : nat -> nat -> Prop.
Notation ff k := (fev (v k) k false).
Notation WI := (WI v mk).
(** The lines and the marks of the end of the sweep contain those of the state. *)
Definition sub (st : cstate) : Prop := (forall n g, nth_error (s_nodes st) n = Some g -> v n = g) /\ (forall i j, mkp (s_pts st) i j -> mk i j).
Lemma sub_ext st st' : ext st st' -> sub st' -> sub st.
Proof. intros (A & B) (C & D). split; [auto|]. intros i j M. apply D. eapply mkp_mono; eassumption. Qed.

(** * The events of a state *)
Section State.
Variables (st : cstate) (s all : list ev) (u : bool).
Hypothesis B : base st s all u.
Hypothesis S : sub st.
Lemma st_fev x : In x all -> e_deleted x = false -> is_f x = true -> x = ff (e_node x).
Proof. intros I D F. destruct (ok_fev _ _ _ _ _ _ (b_ok _ _ _ _ _ _ B) I F) as (g & G & V). rewrite D in V. rewrite (proj1 S _ _ G). exact V. Qed.
Lemma st_bev x : In x all -> e_deleted x = false -> is_f x = false -> x = bev (v (e_node x)) (e_node x) false.
Proof. intros I D F. destruct (ok_bev _ _ _ _ _ _ (b_ok _ _ _ _ _ _ B) I F) as (g & G & V). rewrite D in V. rewrite (proj1 S _ _ G). exact V. Qed.
Lemma st_good x : In x all -> good (v (e_node x)).
Proof. intros I. destruct (ok_ev _ _ _ _ _ (b_ok _ _ _ _ _ _ B) x I) as (g & G & _). rewrite (proj1 S _ _ G). eapply (n_good _ _ _ (b_num _ _ _ _ _ _ B)); exact G. Qed.
Lemma st_inc x : In x s -> In x all.
Proof. intros I. eapply ok_s_all; [exact (b_ok _ _ _ _ _ _ B)|exact I]. Qed.
Lemma st_three x y z : In x all -> In y all -> In z all -> e_deleted x = false -> e_deleted y = false -> e_deleted z = false -> is_f x = true -> same_start x y -> same_start x z -> x = y \/ x = z \/ y = z.
Proof.
  intros IX IY IZ DX DY DZ FX SY SZ. pose proof (b_ok _ _ _ _ _ _ B) as O.
  assert (FY : is_f y = true) by (destruct SY as (_ & Q & _); unfold is_f in *; rewrite <- Q; exact FX). assert (FZ : is_f z = true) by (destruct SZ as (_ & Q & _); unfold is_f in *; rewrite <- Q; exact FX).
  pose proof (st_fev x IX DX FX) as EX. pose proof (st_fev y IY DY FY) as EY. pose proof (st_fev z IZ DZ FZ) as EZ.
  destruct (ok_ev _ _ _ _ _ O x IX) as (g & G & _). destruct (ok_ev _ _ _ _ _ O y IY) as (h & H & _). destruct (ok_ev _ _ _ _ _ O z IZ) as (l & L & _).
  pose proof (proj1 S _ _ G) as VG. pose proof (proj1 S _ _ H) as VH. pose proof (proj1 S _ _ L) as VL.
  assert (AX : e_a x = sg_a g) by (rewrite EX, VG; reflexivity). assert (AY : e_a y = sg_a h) by (rewrite EY, VH; reflexivity). assert (AZ : e_a z = sg_a l) by (rewrite EZ, VL; reflexivity).
  destruct SY as (_ & _ & SY). destruct SZ as (_ & _ & SZ).
  assert (Q1 : sg_a h = sg_a g) by congruence. assert (Q2 : sg_a l = sg_a g) by congruence.
  destruct (two_starts pts0 st s all u (e_node x) (e_node y) (e_node z) g h l O G H L (ok_fwd _ _ _ _ _ O x IX DX FX) (ok_fwd _ _ _ _ _ O y IY DY FY) (ok_fwd _ _ _ _ _ O z IZ DZ FZ) Q1 Q2) as [Q|[Q|Q]]; [left|right; left|right; right]; congruence.
Qed.
Lemma st_set n : In n (s_sweep st) -> In (ff n) s /\ (forall x, In x s -> e_deleted x = false -> e_node x = n -> x = ff n).
Proof.
  intros I. destruct (f_swf _ _ _ (proj1 (b_fc _ _ _ _ _ _ B)) n I) as (g & G & IF). rewrite (proj1 S _ _ G). split; [exact IF|]. intros x IX DX Q. destruct (is_f x) eqn:F.
  - rewrite (st_fev x (st_inc x IX) DX F), Q, (proj1 S _ _ G). reflexivity.
  - exfalso. apply (ok_bwd _ _ _ _ _ (b_ok _ _ _ _ _ _ B) x IX DX F). rewrite Q. exact I.
Qed.
Lemma st_idx x : In x all -> e_a x < length (s_pts st) /\ e_b x < length (s_pts st).
Proof.
  intros I. pose proof (b_ok _ _ _ _ _ _ B) as O. destruct (ok_ev _ _ _ _ _ O x I) as (g & G & V). destruct (ok_nodes _ _ _ _ _ O _ g G) as (_ & pa & pb & A1 & _ & A2 & _).
  assert (sg_a g < length (s_pts st)) by (apply nth_error_Some; congruence). assert (sg_b g < length (s_pts st)) by (apply nth_error_Some; congruence). destruct V as [V|V]; rewrite V; cbn; auto.
Qed.
End State.

Lemma one_WI st st' s all s' all' k k1 t s2 Rt : one st st' s all s' all' k k1 -> sub st' -> WI (s_sweep st) s all t s2 Rt ->
  let d := delk (ekey (ff k)) in
  exists t' s2' Rt', WI (s_sweep st') s' all' t' s2' Rt' /\ ((s2' = map d s2 /\ t' = map d t) \/ (forall y, In y s2' -> event_lt y (ff k1) = false)) /\
    In (ff k1) all' /\ ~ In (ff k1) s' /\ same_start (ff k) (ff k1) /\ s' = map d s /\ In (ff k) s /\ (forall x, In x all -> In (d x) all') /\ (forall x, In x all -> ~ In x s -> ~ In (d x) s').
Proof.
  intros (g & p & k2 & NG & W & P & B & B') SB WW d. pose proof P as (sa & sb & qa & qb & NSA & _ & _ & _ & EP & _ & ESW & IK & EN & ES & EA & _).
  assert (X : ext st st'). { split; [|]. - intros n h N. destruct EN as [(_ & _ & EN)|(_ & _ & EN)]; rewrite EN, nth_error_app1; try exact N; apply nth_error_Some; congruence. - rewrite EP. intros j (x & N & C).
      assert (L : j < length (s_pts st)) by (apply nth_error_Some; congruence). unfold chk. rewrite nth_error_app1 by (rewrite put_length; exact L).
      destruct (Nat.eq_dec sa j) as [<-|D]; [|exists x; rewrite put_other by exact D; auto]. eexists. split; [eapply put_same'; exact N|]. assert (x = qa) by congruence. subst x. exact C. }
  pose proof (sub_ext _ _ X SB) as SA. pose proof (proj1 SA _ _ NG) as VK. pose proof (b_ok _ _ _ _ _ _ B) as O.
  assert (V1 : v k1 = mk_cseg (sg_a g) (length (s_pts st)) (sg_pa g) p /\ v k2 = mk_cseg (length (s_pts st)) (sg_b g) p (sg_pb g)).
  { destruct EN as [(-> & -> & EN)|(-> & -> & EN)]; split; apply (proj1 SB); rewrite EN.
    - rewrite nth_error_app2, Nat.sub_diag by lia. reflexivity.
    - rewrite nth_error_app2, Nat.sub_succ_l, Nat.sub_diag by lia. reflexivity.
    - rewrite nth_error_app2, Nat.sub_succ_l, Nat.sub_diag by lia. reflexivity.
    - rewrite nth_error_app2, Nat.sub_diag by lia. reflexivity. }
  destruct V1 as (V1 & V2). pose proof V1 as V1'. pose proof V2 as V2'. rewrite <- VK in V1, V2. rewrite <- V1', <- V2', <- VK in EA. rewrite <- VK in ES, W. fold d in ES, EA.
  destruct (st_set _ _ _ _ B SA k IK) as (EKS & ONLY). pose proof (st_inc _ _ _ _ B) as INC. pose proof (EI_sorted _ _ _ _ (ok_q _ _ _ _ _ O)) as SR. pose proof (EI_NoDup _ _ _ _ (ok_q _ _ _ _ _ O) (ok_keys _ _ _ _ _ O)) as ND.
  assert (G : good (v k)) by (rewrite VK; eapply (n_good _ _ _ (b_num _ _ _ _ _ _ B)); exact NG).
  pose proof (st_idx _ _ _ _ B) as MID.
  destruct (WI_split v mk (s_sweep st) s all (st_fev _ _ _ _ B SA) (st_three _ _ _ _ B SA) (ok_keys _ _ _ _ _ O) SR INC k EKS ONLY k1 k2 (length (s_pts st)) p G W V1 V2 MID s' all' ES EA t s2 Rt WW ND) as (t' & s2' & Rt' & W' & CS).
  exists t', s2', Rt'. rewrite ESW. split; [exact W'|]. split; [exact CS|]. split; [eapply f1_in; exact EA|].
  split; [rewrite ES; exact (f1_old v mk s all (st_fev _ _ _ _ B SA) (st_three _ _ _ _ B SA) INC k ONLY k1 _ p V1 MID s INC)|]. split; [eapply (cut_start v mk k k1 k2); eassumption|]. split; [exact ES|]. split; [exact EKS|]. split.
  - intros x I. eapply old_in; [exact EA|exact I].
  - intros x I NI J. apply NI. rewrite ES in J. apply (dk_in v all (ok_keys _ _ _ _ _ O) k x s INC I J).
Qed.

(** * A check that splits *)
Lemma delk_keeps k x : ekey (delk k x) = ekey x /\ e_node (delk k x) = e_node x.
Proof. split; [apply ekey_delk|apply node_delk]. Qed.
Lemma delk_self e : e_deleted (delk (ekey e) e) = true.
Proof. unfold delk. destruct (ekey_dec (ekey e) (ekey e)) as [_|X]; [reflexivity|contradiction]. Qed.
Lemma delk_deleted k e : e_deleted e = true -> e_deleted (delk k e) = true.
Proof. unfold delk. destruct (ekey_dec (ekey e) k); [reflexivity|auto]. Qed.
Lemma delk_lt k x y : event_lt (delk k x) y = event_lt x y.
Proof. apply event_lt_key; [apply ekey_delk|reflexivity]. Qed.
Lemma same_start_delk k x y : same_start x y -> same_start x (delk k y).
Proof. intros S. pose proof (ekey_delk k y) as Q. unfold ekey in Q. injection Q as Q1 Q2 Q3 _. destruct S as (A & B & C). repeat split; congruence. Qed.
Lemma WI_sweep R R' s all t s2 Rt : R' = R -> WI R s all t s2 Rt -> WI R' s all t s2 Rt.
Proof. intros ->. auto. Qed.
Definition pushed (s all s2 : list ev) : Prop := exists f0, In f0 all /\ ~ In f0 s /\ forall y, In y s2 -> event_lt y f0 = false.
Lemma check_WI st n m st' s all t s2 Rt : base st s all false -> In n (s_sweep st) -> In m (s_sweep st) -> n <> m -> check st n m = Some (st', true) -> sub st' -> WI (s_sweep st) s all t s2 Rt ->
  exists s' all' t' s2' Rt' F, base st' s' all' false /\ WI (s_sweep st') s' all' t' s2' Rt' /\ (forall x, ekey (F x) = ekey x /\ e_node (F x) = e_node x) /\ s' = map F s /\
    ((s2' = map F s2 /\ t' = map F t) \/ pushed s' all' s2') /\ sg_a (v n) <> sg_a (v m) /\
    exists k f0, (k = n \/ k = m) /\ In (ff k) s /\ In f0 all' /\ ~ In f0 s' /\ same_start (ff k) f0 /\ e_deleted (F (ff k)) = true.
Proof.
  intros B IN IM D H SB WW. pose proof (sub_ext _ _ (check_ext _ _ _ _ _ _ H) SB) as SA.
  destruct (check_form pts0 T GRID draws st n m st' true s all B IN IM D H) as (g & h & r & pts & NG & NH & DA & st2 & s3 & all3 & E & LT & B3 & C). rewrite <- (proj1 SA _ _ NG), <- (proj1 SA _ _ NH) in DA.
  assert (S2 : sub st2). { apply (sub_ext st2 st'); [|exact SB]. rewrite E. split; [auto|exact (proj2 LT)]. }
  assert (B' : base st' s3 all3 false) by (rewrite E; apply base_later; [exact B3|exact (proj1 LT)]). assert (ESW : s_sweep st' = s_sweep st2) by (rewrite E; reflexivity).
  apply (WI_sweep _ (s_sweep (with_rand st r))) in WW; [|reflexivity].
  assert (SINGLE : forall k k1, (k = n \/ k = m) -> one (with_rand st r) st2 s all s3 all3 k k1 -> exists s' all' t' s2' Rt' F, base st' s' all' false /\ WI (s_sweep st') s' all' t' s2' Rt' /\ (forall x, ekey (F x) = ekey x /\ e_node (F x) = e_node x) /\ s' = map F s /\
    ((s2' = map F s2 /\ t' = map F t) \/ pushed s' all' s2') /\ sg_a (v n) <> sg_a (v m) /\
    exists k f0, (k = n \/ k = m) /\ In (ff k) s /\ In f0 all' /\ ~ In f0 s' /\ same_start (ff k) f0 /\ e_deleted (F (ff k)) = true).
  { intros k k1 K ON. destruct (one_WI _ _ _ _ _ _ _ _ _ _ _ ON S2 WW) as (t' & s2' & Rt' & W' & CS & IF & NF & SS & ES & EKS & _). exists s3, all3, t', s2', Rt', (delk (ekey (ff k))). rewrite ESW. split; [exact B'|]. split; [exact W'|].
    split; [apply delk_keeps|]. split; [exact ES|]. split; [destruct CS as [CS|CS]; [left; exact CS|right; exists (ff k1); auto]|]. split; [exact DA|]. exists k, (ff k1). repeat (split; [assumption|]). apply delk_self. }
  destruct C as [(k1 & ON)|[(k1 & ON)|(st1 & s1 & all1 & k1 & k1' & ON1 & ON2)]]; [apply (SINGLE n k1); auto|apply (SINGLE m k1); auto|]. clear SINGLE.
  assert (S1 : sub st1). { eapply sub_ext; [|exact S2]. destruct ON2 as (g2 & p2 & k2 & _ & _ & (sa & sb & qa & qb & NSA & _ & _ & _ & EP & _ & _ & _ & EN & _) & _). split.
    - intros i l N. destruct EN as [(_ & _ & EN)|(_ & _ & EN)]; rewrite EN, nth_error_app1; try exact N; apply nth_error_Some; congruence.
    - rewrite EP. intros j (x & N & C). assert (L : j < length (s_pts st1)) by (apply nth_error_Some; congruence). unfold chk. rewrite nth_error_app1 by (rewrite put_length; exact L).
      destruct (Nat.eq_dec sa j) as [<-|D']; [|exists x; rewrite put_other by exact D'; auto]. eexists. split; [eapply put_same'; exact N|]. assert (x = qa) by congruence. subst x. exact C. }
  destruct (one_WI _ _ _ _ _ _ _ _ _ _ _ ON1 S1 WW) as (t1 & s21 & Rt1 & W1 & CS1 & IF1 & NF1 & SS1 & ES1 & EKS1 & _ & _). destruct (one_WI _ _ _ _ _ _ _ _ _ _ _ ON2 S2 W1) as (t' & s2' & Rt' & W' & CS & IF & NF & SS & ES & EKS & OLD & NOLD).
  set (F := fun x => delk (ekey (ff m)) (delk (ekey (ff n)) x)). exists s3, all3, t', s2', Rt', F. rewrite ESW. split; [exact B'|]. split; [exact W'|].
  split; [intros x; unfold F; rewrite !(proj1 (delk_keeps _ _)), !(proj2 (delk_keeps _ _)); auto|]. split; [rewrite ES, ES1, map_map; reflexivity|]. split.
  { destruct CS as [(C1 & C2)|C]; [|right; exists (ff k1'); auto]. destruct CS1 as [(C3 & C4)|C3]; [left; rewrite C1, C2, C3, C4, !map_map; auto|]. right. exists (delk (ekey (ff m)) (ff k1)). split; [apply OLD; exact IF1|]. split; [apply NOLD; assumption|].
    intros y I. rewrite C1 in I. apply in_map_iff in I as (y0 & <- & I). rewrite (event_lt_key _ _ y0 (ff k1)) by apply ekey_delk. apply C3. exact I. }
  split; [exact DA|]. exists n, (delk (ekey (ff m)) (ff k1)). split; [auto|]. split; [exact EKS1|]. split; [apply OLD; exact IF1|]. split; [apply NOLD; assumption|]. split; [apply same_start_delk; exact SS1|]. unfold F. apply delk_deleted, delk_self.
Qed.
End Weak.
