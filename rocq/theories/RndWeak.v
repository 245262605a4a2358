(** The history of a sweep over a check that splits lines at rounded points. *)
From Coq Require Import ZArith QArith List Bool Arith Permutation Sorted Lia Lqa.
From Verif Require Import GeomModel GeomSpec GeomProofs IsectProofs GeomFinal BalanceModel EventsModel EventsSpec EventsProofs OutModel PointSinkModel CycleProofs ClipModel ClipSpec ClipProofs SweepProofs
  SegOrder SegPair SegTrace SegCheck SegStep SegRun SegClean ArrangeSpec SegSpec TotalSpec TotalSplit TotalRun ExactProofs DynOrder DynTrace DynShape DynCut DynCheck DynWeak RndTrace RndCut RndCheck.
Import ListNotations.
Local Open Scope nat_scope.

Lemma bf_false g n : good g -> event_lt (bev g n false) (fev g n false) = false.
Proof.
  intros (G & _). unfold event_lt, bev, fev. cbn [e_x e_type e_a e_b]. destruct (Z.eqb_spec (px (sg_pb g)) (px (sg_pa g))) as [E|E]; cbn [negb]; [|apply Z.ltb_ge; lia].
  unfold vert. rewrite E, Z.eqb_refl. reflexivity.
Qed.
Lemma le_trans_f a b c : event_lt a b = false -> event_lt b c = false -> event_lt a c = false.
Proof. intros H1 H2. destruct (event_lt a c) eqn:L; [|reflexivity]. pose proof (lt_ge_lt _ _ _ L H2) as Q. congruence. Qed.

Section Weak.
Variable pts0 : list cpoint.
Variable T : Z.
Variable draws : cseg -> cseg -> bool.
Notation check := (check_intersection intersects draws).
Notation rbase := (rbase pts0 T).
Notation rone := (rone pts0 T).
Variable v : nat -> cseg.
Variable mk : nat -> nat -> Prop.
Hypothesis mk_trans : forall i j k, mk i j -> mk j k -> mk i k.
Hypothesis mk_sym : forall i j, mk i j -> mk j i.
Notation ff k := (fev (v k) k false).
Notation RI := (RI v mk).
Notation sub := (sub v mk).

(** * The events of a state *)
Section State.
Variables (st : cstate) (s all : list ev) (u : bool).
Hypothesis B : rbase st s all u.
Hypothesis S : sub st.
Lemma rt_fev x : In x all -> e_deleted x = false -> is_f x = true -> x = ff (e_node x).
Proof. intros I D F. destruct (ok_fev _ _ _ _ _ _ (r_ok _ _ _ _ _ _ B) I F) as (g & G & V). rewrite D in V. rewrite (proj1 S _ _ G). exact V. Qed.
Lemma rt_bev x : In x all -> e_deleted x = false -> is_f x = false -> x = bev (v (e_node x)) (e_node x) false.
Proof. intros I D F. destruct (ok_bev _ _ _ _ _ _ (r_ok _ _ _ _ _ _ B) I F) as (g & G & V). rewrite D in V. rewrite (proj1 S _ _ G). exact V. Qed.
Lemma rt_good x : In x all -> good (v (e_node x)).
Proof. intros I. destruct (ok_ev _ _ _ _ _ (r_ok _ _ _ _ _ _ B) x I) as (g & G & _). rewrite (proj1 S _ _ G). eapply (n_good _ _ _ (r_num _ _ _ _ _ _ B)); exact G. Qed.
Lemma rt_inc x : In x s -> In x all.
Proof. intros I. eapply ok_s_all; [exact (r_ok _ _ _ _ _ _ B)|exact I]. Qed.
Lemma rt_set n : In n (s_sweep st) -> In (ff n) s /\ (forall x, In x s -> e_deleted x = false -> e_node x = n -> x = ff n).
Proof.
  intros I. destruct (f_swf _ _ _ (proj1 (r_fc _ _ _ _ _ _ B)) n I) as (g & G & IF). rewrite (proj1 S _ _ G). split; [exact IF|]. intros x IX DX Q. destruct (is_f x) eqn:F.
  - rewrite (rt_fev x (rt_inc x IX) DX F), Q, (proj1 S _ _ G). reflexivity.
  - exfalso. apply (ok_bwd _ _ _ _ _ (r_ok _ _ _ _ _ _ B) x IX DX F). rewrite Q. exact I.
Qed.
Lemma rt_idx x : In x all -> e_a x < length (s_pts st) /\ e_b x < length (s_pts st).
Proof.
  intros I. pose proof (r_ok _ _ _ _ _ _ B) as O. destruct (ok_ev _ _ _ _ _ O x I) as (g & G & V). destruct (ok_nodes _ _ _ _ _ O _ g G) as (_ & pa & pb & A1 & _ & A2 & _).
  assert (sg_a g < length (s_pts st)) by (apply nth_error_Some; congruence). assert (sg_b g < length (s_pts st)) by (apply nth_error_Some; congruence). destruct V as [V|V]; rewrite V; cbn; auto.
Qed.
End State.

Lemma one_RI st st' s all s' all' k t s2 Rt : rone st st' s all s' all' k -> sub st' -> RI (s_sweep st) s all t s2 Rt ->
  let d := delk (ekey (ff k)) in
  exists t' s2' Rt', RI (s_sweep st') s' all' t' s2' Rt' /\ ((s2' = map d s2 /\ t' = map d t) \/ pushed s' all' s2') /\
    (exists f1, In f1 all' /\ ~ In f1 s' /\ (same_start (ff k) f1 \/ event_lt f1 (ff k) = true)) /\ s' = map d s /\ In (ff k) s /\ (forall x, In x all -> In (d x) all') /\ (forall x, In x all -> ~ In x s -> ~ In (d x) s').
Proof.
  intros (g & p & K1 & K2 & k1 & k2 & NG & W & P & X & B & B') SB WW d. destruct P as (P1 & P2 & N1 & N2 & ESW & IK & ES & EA & _). cbn zeta in *. set (mid := length (s_pts st)) in *.
  pose proof (sub_ext v mk _ _ X SB) as SA. pose proof (proj1 SA _ _ NG) as VK. pose proof (r_ok _ _ _ _ _ _ B) as O.
  pose proof (proj1 SB _ _ N1) as V1. pose proof (proj1 SB _ _ N2) as V2. pose proof (n_good _ _ _ (r_num _ _ _ _ _ _ B') _ _ N1) as G1. pose proof (n_good _ _ _ (r_num _ _ _ _ _ _ B') _ _ N2) as G2.
  rewrite <- VK in ES, EA, W, P1, P2. fold d in ES, EA.
  destruct (rt_set _ _ _ _ B SA k IK) as (EKS & ONLY). pose proof (rt_inc _ _ _ _ B) as INC. pose proof (EI_sorted _ _ _ _ (ok_q _ _ _ _ _ O)) as SR. pose proof (EI_NoDup _ _ _ _ (ok_q _ _ _ _ _ O) (ok_keys _ _ _ _ _ O)) as ND.
  assert (G : good (v k)) by (rewrite VK; eapply (n_good _ _ _ (r_num _ _ _ _ _ _ B)); exact NG).
  pose proof (rt_idx _ _ _ _ B) as MID. fold mid in MID.
  set (f0 := if event_lt (fev K2 k2 false) (fev K1 k1 false) then fev K2 k2 false else fev K1 k1 false).
  assert (F1 : event_lt (fev K1 k1 false) f0 = false) by (unfold f0; destruct (event_lt (fev K2 k2 false) (fev K1 k1 false)) eqn:L; [apply ev_asym; exact L|apply event_lt_irrefl]).
  assert (F2 : event_lt (fev K2 k2 false) f0 = false) by (unfold f0; destruct (event_lt (fev K2 k2 false) (fev K1 k1 false)) eqn:L; [apply event_lt_irrefl|exact L]).
  assert (M1 : sg_a K1 = mid \/ sg_b K1 = mid) by (destruct P1 as [->|(_ & _ & ->)]; auto). assert (M2 : sg_a K2 = mid \/ sg_b K2 = mid) by (destruct P2 as [->|(_ & _ & ->)]; auto).
  set (N := [bev K1 k1 false; fev K1 k1 false; bev K2 k2 false; fev K2 k2 false]) in *.
  assert (NEW : forall x, In x N -> event_lt x f0 = false /\ mid <= Nat.max (e_a x) (e_b x)).
  { intros x [<-|[<-|[<-|[<-|[]]]]]; (split; [|cbn [fev bev e_a e_b]; lia]); try assumption; [eapply le_trans_f; [apply bf_false; exact G1|exact F1]|eapply le_trans_f; [apply bf_false; exact G2|exact F2]]. }
  assert (NA : forall x, In x N -> In x all') by (intros x I; eapply Permutation_in; [symmetry; exact EA|]; apply in_or_app; auto).
  assert (NOLD : forall x l, In x N -> (forall y, In y l -> In y all) -> ~ In x (map d l)).
  { intros x l I IL J. apply in_map_iff in J as (y & E & J). apply IL, MID in J. pose proof (proj2 (NEW x I)) as L. pose proof (ekey_delk (ekey (ff k)) y) as Q. fold d in Q. rewrite E in Q. unfold ekey in Q. injection Q as _ _ Q3 Q4. lia. }
  assert (NOL2 : forall x l, In x N -> (forall y, In y l -> In y all) -> ~ In x l).
  { intros x l I IL J. apply IL, MID in J. pose proof (proj2 (NEW x I)) as L. lia. }
  assert (I1 : In (fev K1 k1 false) N) by (right; left; reflexivity). assert (I2 : In (fev K2 k2 false) N) by (right; right; right; left; reflexivity). assert (I3 : In (bev K2 k2 false) N) by (right; right; left; reflexivity).
  assert (I0 : In f0 N) by (unfold f0; destruct (event_lt _ _); assumption).
  assert (ENDS : forall t, (forall x, In x t -> In x all) -> wit v all' t (sg_pb (v k)) /\ (vt (v k) = true -> wit v all' t (sg_pa (v k)))).
  { intros l IL. split.
    - destruct (vt K2) eqn:V.
      + exists k2, (fev K2 k2 false). rewrite V2. split; [apply NA, I2|]. split; [apply NA, I2|]. split; [apply NOL2; assumption|]. right. split; [exact V|]. split; [reflexivity|]. destruct P2 as [->|(_ & _ & ->)]; auto.
      + exists k2, (bev K2 k2 false). rewrite V2. split; [apply NA, I2|]. split; [apply NA, I3|]. split; [apply NOL2; assumption|]. left. split; [exact V|]. split; [reflexivity|]. destruct P2 as [->|(_ & E & ->)]; [reflexivity|]. unfold vt in V. cbn [sg_pa sg_pb] in V. apply Z.eqb_neq in V. congruence.
    - intros V. exists k1, (fev K1 k1 false). rewrite V1. split; [apply NA, I1|]. split; [apply NA, I1|]. split; [apply NOL2; assumption|]. right. destruct P1 as [->|(Q & _)]; [|congruence]. unfold vt in *. apply Z.eqb_eq in V. cbn [sg_pa sg_pb]. split; [apply Z.eqb_eq; lia|]. auto. }
  destruct (RI_split v mk mk_trans mk_sym (s_sweep st) s all (ok_keys _ _ _ _ _ O) SR INC k EKS ONLY mid f0 N s' all' ES EA NEW ENDS t s2 Rt WW ND) as (t' & s2' & Rt' & W' & CS).
  exists t', s2', Rt'. rewrite ESW. split; [exact W'|]. split; [destruct CS as [CS|CS]; [left; exact CS|right; exists f0; split; [apply NA, I0|]; split; [rewrite ES; apply NOLD; assumption|exact CS]]|].
  split. { exists (fev K1 k1 false). split; [apply NA, I1|]. split; [rewrite ES; apply NOLD; assumption|].
    destruct P1 as [->|(V & E & ->)].
    - destruct (vt (v k)) eqn:V; [left|].
      + unfold vt in V. apply Z.eqb_eq in V. unfold same_start, fev, vert. cbn [e_x e_type e_a sg_pa sg_pb sg_a]. rewrite V. split; [lia|]. split; [|reflexivity]. assert (E : px p = px (sg_pb (v k))) by lia. rewrite E, !Z.eqb_refl. reflexivity.
      + destruct (Z.eq_dec (px (sg_pa (v k))) (px p)) as [Q|Q]; [right|left].
        * unfold event_lt, fev, vert. cbn [e_x e_type e_a e_b sg_pa sg_pb sg_a sg_b]. rewrite Z.eqb_refl. unfold vt in V. rewrite V, (proj2 (Z.eqb_eq _ _) Q). reflexivity.
        * unfold same_start, fev, vert. cbn [e_x e_type e_a sg_pa sg_pb sg_a]. unfold vt in V. rewrite V, (proj2 (Z.eqb_neq _ _) Q). auto.
    - right. unfold event_lt, fev, vert. cbn [e_x e_type e_a e_b sg_pa sg_pb sg_a sg_b]. rewrite E, Z.eqb_refl. unfold vt in V. rewrite V. reflexivity. }
  split; [exact ES|]. split; [exact EKS|]. split.
  - intros x I. eapply Permutation_in; [symmetry; exact EA|]. apply in_or_app. right. apply in_map, I.
  - intros x I NI J. apply NI. rewrite ES in J. apply (dk_in v all (ok_keys _ _ _ _ _ O) k x s INC I J).
Qed.

(** * A check that splits *)
Lemma RI_sweep R R' s all t s2 Rt : R' = R -> RI R s all t s2 Rt -> RI R' s all t s2 Rt.
Proof. intros ->. auto. Qed.
Lemma start_delk k x y : same_start x y \/ event_lt y x = true -> same_start x (delk k y) \/ event_lt (delk k y) x = true.
Proof. intros [S|S]; [left; apply same_start_delk; exact S|right; rewrite delk_lt; exact S]. Qed.
Lemma check_RI st n m st' s all t s2 Rt : rbase st s all false -> no_fold (s_pts st) -> In n (s_sweep st) -> In m (s_sweep st) -> n <> m -> check st n m = Some (st', true) -> sub st' -> RI (s_sweep st) s all t s2 Rt ->
  exists s' all' t' s2' Rt' F, rbase st' s' all' false /\ RI (s_sweep st') s' all' t' s2' Rt' /\ (forall x, ekey (F x) = ekey x /\ e_node (F x) = e_node x) /\ s' = map F s /\
    ((s2' = map F s2 /\ t' = map F t) \/ pushed s' all' s2') /\ sg_a (v n) <> sg_a (v m) /\
    exists k f0, (k = n \/ k = m) /\ In (ff k) s /\ In f0 all' /\ ~ In f0 s' /\ (same_start (ff k) f0 \/ event_lt f0 (ff k) = true) /\ e_deleted (F (ff k)) = true.
Proof.
  intros B NF0 IN IM D H SB WW. pose proof (sub_ext v mk _ _ (check_ext _ _ _ _ _ _ H) SB) as SA.
  destruct (check_rform pts0 T draws st n m st' true s all B NF0 IN IM D H) as (g & h & r & pts & NG & NH & DA & st2 & s3 & all3 & E & LT & B3 & C). rewrite <- (proj1 SA _ _ NG), <- (proj1 SA _ _ NH) in DA.
  assert (S2 : sub st2). { apply (sub_ext v mk st2 st'); [|exact SB]. rewrite E. split; [auto|exact (proj2 LT)]. }
  assert (B' : rbase st' s3 all3 false) by (rewrite E; apply rbase_later; [exact B3|exact (proj1 LT)]). assert (ESW : s_sweep st' = s_sweep st2) by (rewrite E; reflexivity).
  apply (RI_sweep _ (s_sweep (with_rand st r))) in WW; [|reflexivity].
  assert (SINGLE : forall k, (k = n \/ k = m) -> rone (with_rand st r) st2 s all s3 all3 k -> exists s' all' t' s2' Rt' F, rbase st' s' all' false /\ RI (s_sweep st') s' all' t' s2' Rt' /\ (forall x, ekey (F x) = ekey x /\ e_node (F x) = e_node x) /\ s' = map F s /\
    ((s2' = map F s2 /\ t' = map F t) \/ pushed s' all' s2') /\ sg_a (v n) <> sg_a (v m) /\
    exists k f0, (k = n \/ k = m) /\ In (ff k) s /\ In f0 all' /\ ~ In f0 s' /\ (same_start (ff k) f0 \/ event_lt f0 (ff k) = true) /\ e_deleted (F (ff k)) = true).
  { intros k K ON. destruct (one_RI _ _ _ _ _ _ _ _ _ _ ON S2 WW) as (t' & s2' & Rt' & W' & CS & (f1 & IF & NF & SS) & ES & EKS & _). exists s3, all3, t', s2', Rt', (delk (ekey (ff k))). rewrite ESW. split; [exact B'|]. split; [exact W'|].
    split; [apply delk_keeps|]. split; [exact ES|]. split; [exact CS|]. split; [exact DA|]. exists k, f1. repeat (split; [assumption|]). apply delk_self. }
  destruct C as [ON|[ON|(st1 & s1 & all1 & ON1 & ON2)]]; [apply (SINGLE n); auto|apply (SINGLE m); auto|]. clear SINGLE.
  assert (S1 : sub st1). { destruct ON2 as (g2 & p2 & K1 & K2 & k1 & k2 & _ & _ & _ & X & _). eapply sub_ext; [exact X|exact S2]. }
  destruct (one_RI _ _ _ _ _ _ _ _ _ _ ON1 S1 WW) as (t1 & s21 & Rt1 & W1 & CS1 & (f1 & IF1 & NF1 & SS1) & ES1 & EKS1 & _ & _). destruct (one_RI _ _ _ _ _ _ _ _ _ _ ON2 S2 W1) as (t' & s2' & Rt' & W' & CS & _ & ES & EKS & OLD & NOLD).
  set (F := fun x => delk (ekey (ff m)) (delk (ekey (ff n)) x)). exists s3, all3, t', s2', Rt', F. rewrite ESW. split; [exact B'|]. split; [exact W'|].
  split; [intros x; unfold F; rewrite !(proj1 (delk_keeps _ _)), !(proj2 (delk_keeps _ _)); auto|]. split; [rewrite ES, ES1, map_map; reflexivity|]. split.
  { destruct CS as [(C1 & C2)|C]; [|right; exact C]. destruct CS1 as [(C3 & C4)|(f0 & C3 & C4 & C5)]; [left; rewrite C1, C2, C3, C4, !map_map; auto|]. right. exists (delk (ekey (ff m)) f0). split; [apply OLD; exact C3|]. split; [apply NOLD; assumption|].
    intros y I. rewrite C1 in I. apply in_map_iff in I as (y0 & <- & I). rewrite (event_lt_key _ _ y0 f0) by apply ekey_delk. apply C5. exact I. }
  split; [exact DA|]. exists n, (delk (ekey (ff m)) f1). split; [auto|]. split; [exact EKS1|]. split; [apply OLD; exact IF1|]. split; [apply NOLD; assumption|]. split; [apply start_delk; exact SS1|]. unfold F. apply delk_deleted, delk_self.
Qed.
End Weak.
