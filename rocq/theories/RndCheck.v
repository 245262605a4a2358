(** A check that splits lines at a crossing point with rounded coordinates. *)
From Coq Require Import ZArith QArith List Bool Arith Permutation Sorted Lia Lqa.
From Verif Require Import GeomModel GeomSpec GeomProofs IsectProofs GeomFinal BalanceModel EventsModel EventsSpec EventsProofs OutModel PointSinkModel CycleProofs ClipModel ClipSpec ClipProofs SweepProofs
  SegOrder SegPair SegTrace SegCheck SegStep SegRun SegClean ArrangeSpec SegSpec TotalSpec TotalSplit TotalRun ExactProofs DynOrder DynTrace DynShape DynCut DynCheck RndTrace RndCut.
Import ListNotations.
Local Open Scope nat_scope.

(** A vertical line goes the way of its loop. *)
Definition vup (st : cstate) : Prop := forall n g, nth_error (s_nodes st) n = Some g -> live (s_pts st) (s_nodes st) n -> vt g = true -> exists pa, nth_error (s_pts st) (sg_a g) = Some pa /\ c_next pa = sg_b g.
Lemma vup_same st st' : same_skel (s_pts st) (s_pts st') -> s_nodes st' = s_nodes st -> vup st -> vup st'.
Proof.
  intros SK EN S2 n g. rewrite EN. intros G LV V. destruct (S2 n g G (skel_live _ _ _ _ (skel_sym _ _ SK) LV) V) as (pa & N & X). destruct (skel_get _ _ _ _ SK N) as (pa' & N' & _ & Y & _). exists pa'. split; [exact N'|congruence].
Qed.
Lemma no_fold_same p q : same_skel p q -> no_fold p -> no_fold q.
Proof.
  intros SK S3 i a b c N1 N2 N3 F. pose proof (skel_sym _ _ SK) as SK'. destruct (skel_get _ _ _ _ SK' N1) as (p' & M1 & D1 & X1 & _). rewrite <- X1 in N2. destruct (skel_get _ _ _ _ SK' N2) as (q' & M2 & D2 & X2 & _). rewrite <- X2 in N3. destruct (skel_get _ _ _ _ SK' N3) as (r' & M3 & D3 & _).
  apply (S3 i p' q' r' M1 M2 M3). rewrite D1, D2, D3. exact F.
Qed.

(** * The two parts of a line *)
Definition part1 (g : cseg) (mid : nat) (p : point) (K : cseg) : Prop := K = mk_cseg (sg_a g) mid (sg_pa g) p \/ (vt g = false /\ px p = px (sg_pa g) /\ K = mk_cseg mid (sg_a g) p (sg_pa g)).
Definition part2 (g : cseg) (mid : nat) (p : point) (K : cseg) : Prop := K = mk_cseg mid (sg_b g) p (sg_pb g) \/ (vt g = false /\ px p = px (sg_pb g) /\ K = mk_cseg (sg_b g) mid (sg_pb g) p).
Definition rparted (st st' : cstate) (n : nat) (g : cseg) (p : point) (s all s' all' : list ev) (K1 K2 : cseg) (k1 k2 : nat) : Prop :=
  let mid := length (s_pts st) in part1 g mid p K1 /\ part2 g mid p K2 /\ nth_error (s_nodes st') k1 = Some K1 /\ nth_error (s_nodes st') k2 = Some K2 /\
    s_sweep st' = remove Nat.eq_dec n (s_sweep st) /\ In n (s_sweep st) /\
    s' = map (delk (ekey (fev g n false))) s /\ Permutation all' ([bev K1 k1 false; fev K1 k1 false; bev K2 k2 false; fev K2 k2 false] ++ map (delk (ekey (fev g n false))) all) /\ EI (s_events st') s' all' false.

Section Split.
Variable pts0 : list cpoint.
Notation ok := (ok pts0).
Lemma split_parts st n p st' i s all g : ok st s all false -> vup st -> nth_error (s_nodes st) n = Some g -> (px (sg_pa g) <= px p <= px (sg_pb g))%Z -> split_segment st n (Some p) AEno = Some (st', i) ->
  exists s' all' K1 K2 k1 k2, rparted st st' n g p s all s' all' K1 K2 k1 k2 /\ vup st'.
Proof.
  intros O SV NG (W1 & W2) H. unfold split_segment in H. rewrite NG in H. destruct (erase_node (s_sweep st) n) as [sweep|] eqn:ER; [|discriminate].
  destruct (nth_error (s_pts st) (sg_a g)) as [pa|] eqn:NA; [|discriminate]. destruct (nth_error (s_pts st) (sg_b g)) as [pb|] eqn:NB; [|discriminate].
  match type of H with match ?f with _ => _ end = _ => destruct f as [j|] eqn:FE; [|discriminate] end.
  match type of H with match ?f with _ => _ end = _ => destruct f as [q|] eqn:UP; [|discriminate] end.
  destruct (point_eqb (c_data pa) p || point_eqb (c_data pb) p); [discriminate|].
  apply find_same in FE as (y & NY & T1 & T2 & T3). cbn [e_type e_a e_b] in T1, T2, T3.
  assert (IN : In n (s_sweep st) /\ sweep = remove Nat.eq_dec n (s_sweep st)). { unfold erase_node in ER. destruct (in_dec Nat.eq_dec n (s_sweep st)); [|discriminate]. injection ER as <-. auto. } destruct IN as (IN & ->).
  destruct (ok_nodes _ _ _ _ _ O n g NG) as (LX & pa' & pb' & NA' & DA & NB' & DB). assert (pa' = pa) by congruence. assert (pb' = pb) by congruence. subst pa' pb'.
  assert (IY : In y all). { eapply Permutation_in; [symmetry; eapply EI_perm; exact (ok_q _ _ _ _ _ O)|]. eapply nth_error_In; exact NY. }
  assert (YK : ekey y = ekey (fev g n false)).
  { assert (YN : e_node y = n). { destruct (ok_ev _ _ _ _ _ O y IY) as (h & G & V). eapply (ok_pairs _ _ _ _ _ O); [exact G|exact NG|]. apply ev_pair in V. rewrite T2, T3 in V. apply same_pair_sym. exact V. }
    assert (YF : is_f y = true) by (unfold is_f; rewrite T1; destruct (_ =? _)%Z; reflexivity).
    destruct (ok_fev _ _ _ _ _ _ O IY YF) as (h & G & V). rewrite YN in G. assert (h = g) by congruence. subst h. rewrite V. reflexivity. }
  pose proof (EI_delete _ _ _ _ _ _ (ok_q _ _ _ _ _ O) (ok_keys _ _ _ _ _ O) NY UP) as E1. rewrite YK in E1. clear UP.
  pose proof (ok_sw _ _ _ _ _ O n IN) as LV. pose proof (ok_loops _ _ _ _ _ O) as PL.
  set (main := c_next pa =? sg_b g) in *. cbn [with_events with_sweep s_pts s_nodes s_events s_sweep s_rand s_log] in H.
  assert (EDGE : exists sa sb qa qb, (if main then (sg_a g, sg_b g, pa, pb) else (sg_b g, sg_a g, pb, pa)) = (sa, sb, qa, qb) /\
    nth_error (s_pts st) sa = Some qa /\ nth_error (s_pts st) sb = Some qb /\ c_next qa = sb /\
    ((sa = sg_a g /\ sb = sg_b g /\ c_data qa = sg_pa g /\ c_data qb = sg_pb g) \/ (sa = sg_b g /\ sb = sg_a g /\ c_data qa = sg_pb g /\ c_data qb = sg_pa g /\ vt g = false))).
  { unfold main. destruct (Nat.eqb_spec (c_next pa) (sg_b g)) as [Q|Q].
    - exists (sg_a g), (sg_b g), pa, pb. repeat (split; [first [reflexivity|assumption]|]). left. auto.
    - exists (sg_b g), (sg_a g), pb, pa. split; [reflexivity|]. split; [exact NB|]. split; [exact NA|]. split.
      + destruct LV as (g1 & i1 & G & p1 & N & HH). assert (g1 = g) by congruence. subst g1. destruct HH as [(H1 & H2)|(H1 & H2)]; subst i1; [congruence|]. assert (p1 = pb) by congruence. subst p1. congruence.
      + right. repeat (split; [first [reflexivity|assumption]|]). destruct (vt g) eqn:V; [|reflexivity]. destruct (SV n g NG LV V) as (pa' & N & X). congruence. }
  destruct EDGE as (sa & sb & qa & qb & EQ & Na & Nb & NX & OR). rewrite EQ in H. clear EQ main.
  destruct (negb (bset_eqb (c_set qa) (c_set qb))); [discriminate|].
  cbn [with_pts with_log with_sweep with_events s_pts s_log s_nodes s_events s_sweep s_rand] in H.
  set (mid := length (s_pts st)) in *. set (pts' := put (s_pts st) sa (c_set_next qa mid) ++ [mk_cp p sb (c_set qa) Undef]) in *.
  assert (SBA : sb <> sa) by (eapply sb_sa; eassumption). pose proof (split_sa (s_pts st) sa sb qa p Na) as Psa. pose proof (split_mid (s_pts st) sa sb qa p) as Pmid.
  pose proof (split_other (s_pts st) sa sb qa p sb qb SBA Nb) as Psb. fold mid in Psa, Pmid, Psb. fold pts' in Psa, Pmid, Psb.
  match type of H with match ?f with _ => _ end = _ => destruct f as [st3|] eqn:A1; [|discriminate] end.
  match type of H with match ?f with _ => _ end = _ => destruct f as [st4|] eqn:A2; [|discriminate] end. injection H as <- <-.
  assert (FORM : exists N1 N2, st4 = mk_cs pts' (s_nodes st ++ [N1; N2]) (add_event ev (bev N2 (S (length (s_nodes st))) false) (add_event ev (fev N2 (S (length (s_nodes st))) false) (add_event ev (bev N1 (length (s_nodes st)) false) (add_event ev (fev N1 (length (s_nodes st)) false) q)))) (remove Nat.eq_dec n (s_sweep st)) (s_rand st) (s_log st ++ [(sa, sb)]) /\
    N1 = (if (px (c_data qa) <=? px p)%Z then mk_cseg sa mid (c_data qa) p else mk_cseg mid sa p (c_data qa)) /\
    N2 = (if (px p <=? px (c_data qb))%Z then mk_cseg mid sb p (c_data qb) else mk_cseg sb mid (c_data qb) p) /\
    (forall g0, g0 = N1 \/ g0 = N2 -> vt g0 = true -> exists pa, nth_error pts' (sg_a g0) = Some pa /\ c_next pa = sg_b g0)).
  { clear -A1 A2 Psa Pmid Psb. destruct (px (c_data qa) <=? px p)%Z, (px p <=? px (c_data qb))%Z; apply add_form in A1 as (x1 & x2 & X1 & X2 & U1 & ->); apply add_form in A2 as (y1 & y2 & Y1 & Y2 & U2 & ->);
      cbn [with_log with_pts with_sweep with_events s_pts s_nodes s_events s_sweep s_rand s_log] in *; fold mid pts' in X1, X2, Y1, Y2;
      first [rewrite Psa in X1; rewrite Pmid in X2|rewrite Pmid in X1; rewrite Psa in X2]; first [rewrite Pmid in Y1; rewrite Psb in Y2|rewrite Psb in Y1; rewrite Pmid in Y2];
      injection X1 as <-; injection X2 as <-; injection Y1 as <-; injection Y2 as <-; cbn [c_data c_set_next c_next] in *; (eexists; eexists; split; [rewrite <- app_assoc, app_length, Nat.add_1_r; reflexivity|split; [reflexivity|split; [reflexivity|]]]);
      intros g0 [->| ->] V; cbn [sg_a sg_b]; unfold vt in V; cbn [sg_pa sg_pb] in V; apply Z.eqb_eq in V; first [specialize (U1 V)|specialize (U2 V)]; (eexists; split; [eassumption|]; cbn [c_next c_set_next]; first [reflexivity|assumption]). }
  destruct FORM as (N1 & N2 & -> & E4 & E5 & VN). clear A1 A2.
  assert (VUP : vup (mk_cs pts' (s_nodes st ++ [N1; N2]) (add_event ev (bev N2 (S (length (s_nodes st))) false) (add_event ev (fev N2 (S (length (s_nodes st))) false) (add_event ev (bev N1 (length (s_nodes st)) false) (add_event ev (fev N1 (length (s_nodes st)) false) q)))) (remove Nat.eq_dec n (s_sweep st)) (s_rand st) (s_log st ++ [(sa, sb)]))).
  { intros k h G L V. cbn [s_pts s_nodes] in *. destruct (Nat.lt_ge_cases k (length (s_nodes st))) as [LK|LK].
    - rewrite nth_error_app1 in G by exact LK. destruct (ok_nodes _ _ _ _ _ O k h G) as (_ & p1 & p2 & A1 & _ & B1 & _). assert (La : sg_a h < mid) by (apply nth_error_Some; congruence). assert (Lb : sg_b h < mid) by (apply nth_error_Some; congruence).
      assert (LV' : live pts' (s_nodes st) k). { destruct L as (h' & i & E & X). rewrite nth_error_app1 in E by exact LK. assert (h' = h) by congruence. subst h'. exists h, i. auto. }
      destruct (split_not_live _ sa sb qa qb p PL Na Nb NX (s_nodes st) k h LV' G La Lb) as (L0 & NP). destruct (SV k h G L0 V) as (pa0 & N & X).
      exists pa0. split; [|exact X]. apply (split_other (s_pts st) sa sb qa p); [|exact N]. intros Q. apply NP. left. split; [exact Q|]. rewrite Q in N. congruence.
    - apply VN; [|exact V]. rewrite nth_error_app2 in G by exact LK. destruct (k - length (s_nodes st)) as [|[|m]]; cbn in G; [left; congruence|right; congruence|destruct m; discriminate]. }
  assert (NT1 : nth_error (s_nodes st ++ [N1; N2]) (length (s_nodes st)) = Some N1) by (rewrite nth_error_app2, Nat.sub_diag by lia; reflexivity).
  assert (NT2 : nth_error (s_nodes st ++ [N1; N2]) (S (length (s_nodes st))) = Some N2) by (rewrite nth_error_app2, Nat.sub_succ_l, Nat.sub_diag by lia; reflexivity).
  assert (EI4 : EI (add_event ev (bev N2 (S (length (s_nodes st))) false) (add_event ev (fev N2 (S (length (s_nodes st))) false) (add_event ev (bev N1 (length (s_nodes st)) false) (add_event ev (fev N1 (length (s_nodes st)) false) q))))
    (map (delk (ekey (fev g n false))) s) (bev N2 (S (length (s_nodes st))) false :: fev N2 (S (length (s_nodes st))) false :: bev N1 (length (s_nodes st)) false :: fev N1 (length (s_nodes st)) false :: map (delk (ekey (fev g n false))) all) false) by (do 4 apply EI_add; exact E1).
  exists (map (delk (ekey (fev g n false))) s), (bev N2 (S (length (s_nodes st))) false :: fev N2 (S (length (s_nodes st))) false :: bev N1 (length (s_nodes st)) false :: fev N1 (length (s_nodes st)) false :: map (delk (ekey (fev g n false))) all).
  destruct OR as [(-> & -> & Da & Db)|(-> & -> & Da & Db & V)]; rewrite Da in E4; rewrite Db in E5.
  - destruct (Z.leb_spec (px (sg_pa g)) (px p)) as [_|X]; [|lia]. destruct (Z.leb_spec (px p) (px (sg_pb g))) as [_|X]; [|lia].
    exists N1, N2, (length (s_nodes st)), (S (length (s_nodes st))). split; [|exact VUP]. unfold rparted. cbn zeta. fold mid. cbn [s_pts s_nodes s_events s_sweep]. repeat (split; [first [left; assumption|reflexivity|assumption]|]).
    split; [|exact EI4]. exact (Permutation_app_swap_app [_; _] [_; _] _).
  - exists N2, N1, (S (length (s_nodes st))), (length (s_nodes st)). split; [|exact VUP]. unfold rparted. cbn zeta. fold mid. cbn [s_pts s_nodes s_events s_sweep].
    split; [destruct (Z.leb_spec (px p) (px (sg_pa g))) as [X|_] in E5; [right; split; [exact V|]; split; [lia|exact E5]|left; exact E5]|].
    split; [destruct (Z.leb_spec (px (sg_pb g)) (px p)) as [X|_] in E4; [right; split; [exact V|]; split; [lia|exact E4]|left; exact E4]|].
    repeat (split; [first [reflexivity|assumption]|]). exact EI4.
Qed.
End Split.

Section Base.
Variable pts0 : list cpoint.
Variable T : Z.
Variable draws : cseg -> cseg -> bool.
Notation check := (check_intersection intersects draws).
Record rbase (st : cstate) (s all : list ev) (u : bool) : Prop := {
  r_ok : ok pts0 st s all u;
  r_fc : fc st s all;
  r_num : num pts0 T st;
  r_vup : vup st }.
Lemma rbase_later st s all u pts : rbase st s all u -> same_skel (s_pts st) pts -> rbase (with_pts st pts) s all u.
Proof.
  intros [O (F & C) N S] SK. constructor.
  - apply ok_skel; assumption.
  - split; [apply full_skel; assumption|]. intros i L. cbn [with_pts s_pts s_nodes] in *. assert (LE : length pts = length (s_pts st)) by (apply skel_links, (f_equal (@length _)) in SK; unfold links in SK; rewrite !map_length in SK; congruence).
    rewrite LE in L. destruct (C i L) as (n & g & G & p & P & Q). destruct (skel_get _ _ _ _ SK P) as (p' & P' & _ & X & _). exists n, g. split; [exact G|]. exists p'. rewrite X. auto.
  - apply num_skel; assumption.
  - eapply vup_same; [| |exact S]; [exact SK|reflexivity].
Qed.
Lemma rbase_rand st s all u r : rbase st s all u -> rbase (with_rand st r) s all u.
Proof.
  intros [O F N S]. constructor; [apply ok_rand; exact O|apply fc_rand; exact F|apply num_rand; exact N|]. eapply vup_same; [| |exact S]; [intros i; reflexivity|reflexivity].
Qed.
(** Two lines with the same start do not go the same way. *)
Lemma same_start_other st s all u n m g h c : ok pts0 st s all u -> no_fold (s_pts st) -> nth_error (s_nodes st) n = Some g -> nth_error (s_nodes st) m = Some h -> live (s_pts st) (s_nodes st) n -> live (s_pts st) (s_nodes st) m -> n <> m ->
  sg_a g = sg_a h -> on_line (sg_pa g) (sg_pb g) c -> on_line (sg_pa h) (sg_pb h) c -> c = sg_pa g.
Proof.
  intros O NF N1 N2 L1 L2 D E OG OH. destruct (start_kind pts0 _ _ _ _ _ _ O N1 L1) as (pa & p1 & A1 & B1 & DA & D1 & K1). destruct (start_kind pts0 _ _ _ _ _ _ O N2 L2) as (pa2 & p2 & A2 & B2 & DA2 & D2 & K2).
  rewrite <- E in A2, K2. assert (pa2 = pa) by congruence. subst pa2. pose proof (proj2 (ok_loops _ _ _ _ _ O)) as INJ.
  assert (PAIR : sg_b g <> sg_b h) by (intros Q; apply D; eapply (ok_pairs _ _ _ _ _ O); [exact N1|exact N2|left; auto]).
  assert (EP : sg_pa h = sg_pa g) by congruence. rewrite EP in OH.
  assert (PD : {c = sg_pa g} + {c <> sg_pa g}) by (repeat decide equality). destruct PD as [Q|NC]; [exact Q|exfalso].
  assert (AL : forall b, on_line (sg_pa g) b c -> along (sg_pa g) b c).
  { intros b (t & (T1 & T2) & TX & TY). unfold along, injX, injY in *. unfold Z.sub in TX, TY. rewrite inject_Z_plus, inject_Z_opp in TX, TY. exists t. split; [|rewrite TX, TY; split; ring].
    apply Qle_lteq in T1 as [T1|T1]; [exact T1|exfalso]. apply NC. rewrite <- T1 in TX, TY. apply pt_eq; apply inj_eq1; [rewrite TX|rewrite TY]; ring. }
  assert (FC : folds c (sg_pa g) c).
  { split; [unfold triangle_winding; ring|]. unfold dot. assert (px c <> px (sg_pa g) \/ py c <> py (sg_pa g))%Z as X by (destruct (Z.eq_dec (px c) (px (sg_pa g))); [right; intros Q; apply NC, pt_eq; assumption|left; assumption]). revert X. clear. generalize (px c) (px (sg_pa g)) (py c) (py (sg_pa g)). intros a b d e X. assert (A : (0 <= (a - b) * (a - b))%Z) by apply Z.square_nonneg. assert (B : (0 <= (d - e) * (d - e))%Z) by apply Z.square_nonneg. destruct X as [X|X]; [assert ((a - b) * (a - b) <> 0)%Z by (intros Q; apply Z.mul_eq_0 in Q; lia)|assert ((d - e) * (d - e) <> 0)%Z by (intros Q; apply Z.mul_eq_0 in Q; lia)]; lia. }
  assert (F2 : folds (sg_pb g) (sg_pa g) (sg_pb h)). { eapply folds_along; [apply AL; exact OH|]. apply folds_sym. eapply folds_along; [apply AL; exact OG|exact FC]. }
  destruct K1 as [K1|K1], K2 as [K2|K2].
  - congruence.
  - apply (NF (sg_b h) p2 pa p1 B2); [congruence|congruence|]. rewrite D2, DA, D1. apply folds_sym. exact F2.
  - apply (NF (sg_b g) p1 pa p2 B1); [congruence|congruence|]. rewrite D2, DA, D1. exact F2.
  - apply PAIR. apply (INJ _ _ p1 p2 B1 B2). congruence.
Qed.

(** * One split *)
Definition rone (st st' : cstate) (s all s' all' : list ev) (k : nat) : Prop :=
  exists g p K1 K2 k1 k2, nth_error (s_nodes st) k = Some g /\ (px (sg_pa g) <= px p <= px (sg_pb g))%Z /\ rparted st st' k g p s all s' all' K1 K2 k1 k2 /\ ext st st' /\ rbase st s all false /\ rbase st' s' all' false.
Lemma split_rone st n p st' i s all g : rbase st s all false -> In n (s_sweep st) -> nth_error (s_nodes st) n = Some g -> fits g (Some p) AEno -> split_segment st n (Some p) AEno = Some (st', i) ->
  exists s' all', rone st st' s all s' all' n.
Proof.
  intros Bs IN NG FI H. pose proof Bs as [O F N S]. pose proof (n_good _ _ _ N) as GD.
  assert (W : (px (sg_pa g) <= px p <= px (sg_pb g))%Z). { destruct FI as (p0 & Q & (BX & _) & _). injection Q as <-. pose proof (proj1 (GD n g NG)). lia. }
  destruct (split_parts pts0 st n p st' i s all g O S NG W H) as (s' & all' & K1 & K2 & k1 & k2 & P & S').
  destruct (ok_split _ _ _ _ _ _ _ _ _ O H) as (s2 & all2 & O2 & F2). specialize (F2 F).
  destruct (split_total pts0 T st n (Some p) AEno s all g O F N NG IN FI) as (st2 & i2 & H2 & N2 & _). rewrite H in H2. injection H2 as <- <-.
  assert (P2 : rparted st st' n g p s all s2 all2 K1 K2 k1 k2).
  { destruct P as (H1 & H2 & H3 & H4 & H5 & H6 & H7 & H8 & H9). destruct (EI_unique _ _ _ _ _ _ _ H9 (ok_q _ _ _ _ _ O2)) as (E & PE). unfold rparted. cbn zeta in *. repeat (split; [assumption|]). split; [congruence|].
    split; [rewrite <- PE; exact H8|exact (ok_q _ _ _ _ _ O2)]. }
  exists s2, all2, g, p, K1, K2, k1, k2. split; [exact NG|]. split; [exact W|]. split; [exact P2|]. split; [eapply split_ext; exact H|]. split; [exact Bs|]. constructor; assumption.
Qed.
(** A check: either only marks, or one or two splits and marks. *)
Lemma check_rform st n m st' b s all : rbase st s all false -> no_fold (s_pts st) -> In n (s_sweep st) -> In m (s_sweep st) -> n <> m -> check st n m = Some (st', b) ->
  exists g h r pts, nth_error (s_nodes st) n = Some g /\ nth_error (s_nodes st) m = Some h /\
  if b then sg_a g <> sg_a h /\ exists st2 s2 all2, st' = with_pts st2 pts /\ later (s_pts st2) pts /\ rbase st2 s2 all2 false /\
    (rone (with_rand st r) st2 s all s2 all2 n \/ rone (with_rand st r) st2 s all s2 all2 m \/
     (exists st1 s1 all1, rone (with_rand st r) st1 s all s1 all1 n /\ rone st1 st2 s1 all1 s2 all2 m))
  else st' = with_rand (with_pts st pts) r /\ later (s_pts st) pts /\ (agree g h -> wide g h -> fine (mkp pts) g h).
Proof.
  intros Bs NF IN IM D H. pose proof Bs as [O F N S]. pose proof (n_good _ _ _ N) as GD. pose proof (check_quiet _ _ _ _ _ _ H) as (_ & CQ).
  destruct (check_total draws pts0 T st n m s all O F N IN IM D) as (st'' & b'' & H'' & NU' & _ & CT). rewrite H in H''. injection H'' as <- <-.
  destruct b.
  2: { destruct CT as (_ & _ & _ & LE). destruct (CQ LE) as (_ & g & h & pts & r & G & GH & E & L & FN). exists g, h, r, pts. split; [exact G|]. split; [exact GH|]. split; [exact E|]. split; [exact L|]. intros A W. apply FN; auto; eapply GD; eassumption. }
  clear CQ NU' CT. unfold check_intersection in H. destruct (nth_error (s_nodes st) n) as [g|] eqn:NG; [|discriminate]. destruct (nth_error (s_nodes st) m) as [h|] eqn:NH; [|discriminate].
  destruct (rand_bool (s_rand st)) as (rx, r1). destruct (rand_bool r1) as (ry, r2). set (st1 := if draws g h then with_rand st r2 else st) in *.
  assert (S1 : exists r, st1 = with_rand st r) by (unfold st1; destruct (draws g h); [exists r2; reflexivity|exists (s_rand st); destruct st; reflexivity]). destruct S1 as (r & S1). clearbody st1.
  destruct (intersects rx ry g h) as [((c, e1), e2)|] eqn:IS; [|discriminate]. destruct (negb _); [discriminate|]. destruct (_ || _) eqn:NO.
  2: { destruct (at_edge_eqb e1 AEboth).
    - destruct (mark st1 _) as [x1|]; [|discriminate]. destruct (mark x1 _) as [x2|]; [|discriminate]. destruct (mark x2 _) as [x3|]; [|discriminate]. destruct (mark x3 _); discriminate.
    - destruct (mark st1 _) as [x1|]; [|discriminate]. destruct (mark x1 _) as [x2|]; discriminate. }
  destruct (split_segment st1 n c e1) as [(st2, i1)|] eqn:P1; [|discriminate]. destruct (split_segment st2 m c e2) as [(st3, i2)|] eqn:P2; [|discriminate].
  destruct (mark st3 i1) as [st4|] eqn:M1; [|discriminate]. destruct (mark st4 i2) as [st5|] eqn:M2; [|discriminate]. injection H as <-.
  apply mark_later in M1 as (p1 & -> & L1 & _ & _). apply mark_later in M2 as (p2 & -> & L2 & _ & _). cbn [with_pts s_pts] in L2. pose proof (later_trans _ _ _ L1 L2) as LT.
  pose proof (GD n g NG) as GG. pose proof (GD m h NH) as GH.
  destruct (isect_fits _ _ _ _ _ _ _ GG GH IS) as [(-> & ->)|(NB1 & NB2 & F1 & F2)]; [discriminate|].
  assert (EC : exists p, c = Some p). { apply orb_prop in NO as [NO|NO]; [destruct e1|destruct e2]; try discriminate; [destruct F1 as (p & -> & _)|destruct F2 as (p & -> & _)]; eauto. } destruct EC as (p & ->).
  pose proof (ok_sw _ _ _ _ _ O n IN) as LN. pose proof (ok_sw _ _ _ _ _ O m IM) as LM.
  exists g, h, r, p2. split; [reflexivity|]. split; [reflexivity|]. split.
  { intros E. destruct (Z.eq_dec (dir_cross (sg_pa g) (sg_pb g) (sg_pa h) (sg_pb h)) 0) as [DC|DC].
    - destruct (parallel_final rx ry g h (proj2 GG) (proj2 GH) DC) as (_ & PT & _). destruct (PT _ _ _ IS) as (OG & OH & K1 & K2 & _).
      pose proof (same_start_other _ _ _ _ _ _ _ _ p O NF NG NH LN LM D E OG OH) as Q. apply orb_prop in NO as [NO|NO]; [destruct e1|destruct e2]; try discriminate; cbn [edge_ok] in *; [apply (proj1 K1); exact Q|]. apply (proj1 K2). rewrite Q.
      destruct (ok_nodes _ _ _ _ _ O n g NG) as (_ & x & _ & X & DX & _). destruct (ok_nodes _ _ _ _ _ O m h NH) as (_ & y & _ & Y & DY & _). congruence.
    - unfold intersects in IS. replace ((px (sg_pa g) - px (sg_pb g)) * (py (sg_pa h) - py (sg_pb h)) - (py (sg_pa g) - py (sg_pb g)) * (px (sg_pa h) - px (sg_pb h)))%Z with (dir_cross (sg_pa g) (sg_pb g) (sg_pa h) (sg_pb h)) in IS by (unfold dir_cross; ring).
      apply Z.eqb_neq in DC. rewrite DC in IS. destruct (_ || _) eqn:SH in IS; [discriminate|]. rewrite ?orb_false_iff, ?Nat.eqb_neq in SH. tauto. }
  assert (B1 : rbase st1 s all false) by (rewrite S1; apply rbase_rand; exact Bs). rewrite <- S1.
  assert (IN1 : In n (s_sweep st1)) by (rewrite S1; exact IN). assert (IM1 : In m (s_sweep st1)) by (rewrite S1; exact IM).
  assert (NG1 : nth_error (s_nodes st1) n = Some g) by (rewrite S1; exact NG). assert (NH1 : nth_error (s_nodes st1) m = Some h) by (rewrite S1; exact NH). clear S1.
  assert (ONE2 : forall stx sx allx, rbase stx sx allx false -> In m (s_sweep stx) -> nth_error (s_nodes stx) m = Some h -> split_segment stx m (Some p) e2 = Some (st3, i2) -> (e2 = AEno -> exists s' all', rone stx st3 sx allx s' all' m) /\ (e2 <> AEno -> st3 = stx)).
  { intros stx sx allx Bx IX NX HX. split.
    - intros ->. eapply split_rone; [exact Bx|exact IX|exact NX|exact F2|exact HX].
    - intros NE. unfold split_segment in HX. rewrite NX in HX. destruct e2; try congruence. }
  assert (FIN : forall s2 all2, rbase st3 s2 all2 false -> (rone st1 st3 s all s2 all2 n \/ rone st1 st3 s all s2 all2 m \/
     (exists st1' s1 all1, rone st1 st1' s all s1 all1 n /\ rone st1' st3 s1 all1 s2 all2 m)) -> exists st2 s2 all2, with_pts (with_pts st3 p1) p2 = with_pts st2 p2 /\ later (s_pts st2) p2 /\ rbase st2 s2 all2 false /\
    (rone st1 st2 s all s2 all2 n \/ rone st1 st2 s all s2 all2 m \/
     (exists st1' s1 all1, rone st1 st1' s all s1 all1 n /\ rone st1' st2 s1 all1 s2 all2 m))).
  { intros s2 all2 B2 C. exists st3, s2, all2. split; [destruct st3; reflexivity|]. split; [exact LT|]. split; [exact B2|exact C]. }
  assert (E2D : {e2 = AEno} + {e2 <> AEno}) by (destruct e2; (left; reflexivity) || (right; discriminate)).
  assert (E1D : {e1 = AEno} + {e1 <> AEno}) by (destruct e1; (left; reflexivity) || (right; discriminate)).
  destruct E1D as [E1|E1].
  - rewrite E1 in *. destruct (split_rone st1 n p st2 i1 s all g B1 IN1 NG1 F1 P1) as (s1 & all1 & ON). pose proof ON as (g' & p' & K1 & K2 & k1 & k2 & _ & _ & PT & _ & _ & B2).
    assert (IM2 : In m (s_sweep st2)). { destruct PT as (_ & _ & _ & _ & Q & _). rewrite Q. apply in_in_remove; auto. }
    assert (NH2 : nth_error (s_nodes st2) m = Some h) by (apply (proj1 (split_ext _ _ _ _ _ _ P1)); exact NH1).
    destruct (ONE2 st2 s1 all1 B2 IM2 NH2 P2) as (Y & Z). destruct E2D as [E2|E2].
    + destruct (Y E2) as (s2 & all2 & ON2). pose proof ON2 as (_ & _ & _ & _ & _ & _ & _ & _ & _ & _ & _ & B3). apply (FIN s2 all2 B3). right. right. exists st2, s1, all1. auto.
    + rewrite (Z E2) in *. apply (FIN s1 all1 B2). left. exact ON.
  - assert (st2 = st1) by (unfold split_segment in P1; rewrite NG1 in P1; destruct e1; congruence). subst st2. destruct (ONE2 st1 s all B1 IM1 NH1 P2) as (Y & Z). destruct E2D as [E2|E2].
    + destruct (Y E2) as (s2 & all2 & ON2). pose proof ON2 as (_ & _ & _ & _ & _ & _ & _ & _ & _ & _ & _ & B3). apply (FIN s2 all2 B3). right. left. exact ON2.
    + exfalso. apply orb_prop in NO as [NO|NO]; [destruct e1|destruct e2]; try discriminate; congruence.
Qed.
End Base.
