(** No check of two lines can fail: everything a split needs is there. *)
From Coq Require Import ZArith QArith List Bool Arith Permutation Sorted Lia.
From Verif Require Import GeomModel GeomSpec GeomProofs IsectProofs GeomFinal BalanceModel EventsModel EventsSpec EventsProofs OutModel PointSinkModel CycleProofs ClipModel ClipSpec ClipProofs SweepProofs
  SegOrder SegCheck SegClean SegMeet SegProgress ArrangeSpec SegSpec TotalSpec.
Import ListNotations.
Local Open Scope nat_scope.

Lemma event_lt_total x y : event_lt x y = false -> event_lt y x = false -> ekey x = ekey y.
Proof.
  unfold event_lt, type_eqb, ekey. rewrite (Z.eqb_sym (e_x y)), (Nat.eqb_sym (type_rank (e_type y))), (Nat.eqb_sym (e_a y)).
  destruct (Z.eqb_spec (e_x x) (e_x y)) as [->|]; cbn [negb]; [|rewrite !Z.ltb_ge; lia]. destruct (Nat.eqb_spec (type_rank (e_type x)) (type_rank (e_type y))) as [T|]; cbn [negb]; [|rewrite !Nat.ltb_ge; lia].
  destruct (Nat.eqb_spec (e_a x) (e_a y)) as [->|]; cbn [negb]; [|rewrite !Nat.ltb_ge; lia]. rewrite !Nat.ltb_ge. intros A B. assert (e_b x = e_b y) by lia.
  assert (e_type x = e_type y) by (destruct (e_type x), (e_type y); cbn in T; congruence). congruence.
Qed.
(** An event that was handed out is found. *)
Lemma find_ok q s all x y : EI q s all false -> In y s -> ekey y = ekey x -> exists i, find_event ev event_lt event_same q x (q_last ev q) = Some i.
Proof.
  intros I IY K. inversion I as [L J c E1 E2 S E3 E4 B E5 P|]; subst. rewrite map_id in *. unfold find_event. rewrite E1, E2, firstn_app, Nat.sub_diag, firstn_all. cbn [firstn]. rewrite app_nil_r.
  pose proof (lower_bound_spec ev ev (fun e => e) event_lt event_lt_swo L x) as LB. rewrite map_id in LB. specialize (LB S). cbn zeta in LB.
  change (lt_ev ev ev (fun e => e) event_lt) with event_lt in LB. set (r := lower_bound ev event_lt L x) in *. destruct LB as (LE & LO & HI).
  assert (IL : In y L). { rewrite <- in_rev in IY. rewrite <- (firstn_skipn c L). apply in_or_app. left. exact IY. }
  rewrite <- (firstn_skipn r L) in IL. apply in_app_or in IL as [IL|IL].
  { apply LO in IL. rewrite (event_lt_key y x x x K eq_refl), event_lt_irrefl in IL. discriminate. }
  destruct (skipn r L) as [|z l] eqn:SK; [destruct IL|].
  assert (NZ : nth_error L r = Some z). { rewrite <- (firstn_skipn r L), SK, nth_error_app2, firstn_length_le, Nat.sub_diag by (rewrite ?firstn_length_le; lia). reflexivity. }
  rewrite NZ. assert (KZ : ekey z = ekey x).
  { apply event_lt_total; [exact (HI z (or_introl eq_refl))|]. destruct IL as [->|IL]; [rewrite (event_lt_key x y y y (eq_sym K) eq_refl); apply event_lt_irrefl|].
    rewrite <- (firstn_skipn r L), SK in S. apply (srt_app ev event_lt) in S as (_ & S & _). inversion S as [|? ? _ F]; subst. rewrite Forall_forall in F. specialize (F y IL). unfold not_after in F.
    rewrite <- F. apply event_lt_key; [symmetry; exact K|reflexivity]. }
  unfold event_same, type_eqb. unfold ekey in KZ. injection KZ as _ -> -> ->. rewrite !Nat.eqb_refl. cbn. eauto.
Qed.
Lemma update_ok {A} (f : A -> A) i q x : nth_error (q_events A q) i = Some x ->
  exists ev', update_at A f i q = Some (mk_queue A ev' (q_new A q) (q_cur A q) (q_last A q)) /\ length ev' = length (q_events A q).
Proof.
  intros N. unfold update_at. rewrite N. assert (X : exists l', set_at A (q_events A q) i (f x) = Some l' /\ length l' = length (q_events A q)); [|destruct X as (l' & -> & L); eauto].
  revert i N. induction (q_events A q) as [|y l IH]; intros [|i] N; try discriminate; cbn [set_at].
  - eexists. split; [reflexivity|reflexivity].
  - destruct (IH i N) as (l' & -> & L). cbn [option_map]. eexists. split; [reflexivity|]. cbn. congruence.
Qed.
Lemma add_ok st a b pa pb : nth_error (s_pts st) a = Some pa -> nth_error (s_pts st) b = Some pb -> (px (c_data pa) = px (c_data pb) -> c_next pa = b) ->
  exists ev', add_fb_events st a b = Some (mk_cs (s_pts st) (s_nodes st ++ [mk_cseg a b (c_data pa) (c_data pb)]) (mk_queue ev ev' (q_new ev (s_events st)) (q_cur ev (s_events st)) (q_last ev (s_events st))) (s_sweep st) (s_rand st) (s_log st)) /\
    length ev' = 2 + length (q_events ev (s_events st)).
Proof.
  intros A B V. unfold add_fb_events. rewrite A, B. assert (T : (px (c_data pa) =? px (c_data pb))%Z && negb (c_next pa =? b) = false).
  { destruct (Z.eqb_spec (px (c_data pa)) (px (c_data pb))) as [Q|Q]; [|reflexivity]. rewrite (V Q), Nat.eqb_refl. reflexivity. }
  rewrite T. cbn zeta. unfold add_event. cbn [q_events q_new q_cur q_last]. eexists. split; [reflexivity|]. rewrite !app_length. cbn. lia.
Qed.

(** The length of the way around, in horizontal and vertical steps. *)
Lemma around_put (f : cpoint -> Z) l : forall i p x, nth_error l i = Some p -> sum (map f (put l i x)) = (sum (map f l) - f p + f x)%Z.
Proof.
  unfold sum. induction l as [|y l IH]; intros [|i] p x N; try discriminate; cbn [put map fold_right].
  - injection N as ->. lia.
  - rewrite (IH i p x N). lia.
Qed.
Lemma sum_app a b : sum (a ++ b) = (sum a + sum b)%Z.
Proof. unfold sum. induction a as [|x a IH]; cbn [app fold_right]; lia. Qed.
Lemma steps_between a b c : in_bbox a b c -> (steps a c + steps c b = steps a b)%Z.
Proof. unfold in_bbox, steps. lia. Qed.
Lemma steps_pos a b : a <> b -> (1 <= steps a b)%Z.
Proof. intros N. unfold steps. destruct (Z.eq_dec (px a) (px b)) as [X|X]; [|lia]. destruct (Z.eq_dec (py a) (py b)) as [Y|Y]; [|lia]. elim N. apply pt_eq; assumption. Qed.
Lemma edge_steps_ext a b p p' : c_data p = c_data p' -> c_next p = c_next p' -> (forall i, option_map c_data (nth_error a i) = option_map c_data (nth_error b i)) -> edge_steps a p = edge_steps b p'.
Proof. intros D N H. unfold edge_steps. rewrite D, N. specialize (H (c_next p')). destruct (nth_error a _), (nth_error b _); cbn in H; congruence. Qed.
Lemma around_skel a b : same_skel a b -> around a = around b.
Proof.
  intros S. unfold around. f_equal. apply nth_error_ext'. intros i. rewrite !nth_error_map. pose proof (S i) as H. destruct (nth_error a i), (nth_error b i); cbn in *; try discriminate; [|reflexivity].
  f_equal. unfold skel in H. injection H as H1 H2 H3. apply edge_steps_ext; try assumption. intros j. specialize (S j). destruct (nth_error a j), (nth_error b j); cbn in *; try discriminate; [|reflexivity]. unfold skel in S. congruence.
Qed.
Lemma around_split pts sa sb pa pb c : nth_error pts sa = Some pa -> nth_error pts sb = Some pb -> c_next pa = sb -> in_bbox (c_data pa) (c_data pb) c -> (forall i p, nth_error pts i = Some p -> c_next p < length pts) ->
  around (put pts sa (c_set_next pa (length pts)) ++ [mk_cp c sb (c_set pa) Undef]) = around pts.
Proof.
  intros A B N X R. set (mid := length pts). set (pts' := put pts sa (c_set_next pa mid) ++ [mk_cp c sb (c_set pa) Undef]).
  assert (SAM : sa < mid) by (apply nth_error_Some; congruence). assert (SBM : sb < mid) by (apply nth_error_Some; congruence).
  assert (OLD : forall i, i < mid -> option_map c_data (nth_error pts' i) = option_map c_data (nth_error pts i)).
  { intros i L. unfold pts'. rewrite nth_error_app1 by (rewrite put_length; exact L). destruct (Nat.eq_dec sa i) as [<-|D]; [rewrite (put_same' _ _ _ _ A), A; reflexivity|rewrite put_other by exact D; reflexivity]. }
  unfold around at 1. unfold pts' at 2. rewrite map_app, sum_app, (around_put _ _ _ _ _ A). cbn [map]. unfold sum at 2. cbn [fold_right].
  rewrite (map_ext_in (edge_steps pts') (edge_steps pts)).
  2: { intros p I. apply In_nth_error in I as (i & I). unfold edge_steps. pose proof (OLD (c_next p) (R i p I)) as H. destruct (nth_error pts' (c_next p)), (nth_error pts (c_next p)); cbn in H; try discriminate; [injection H as ->|]; reflexivity. }
  unfold around. assert (MID : nth_error pts' mid = Some (mk_cp c sb (c_set pa) Undef)) by (unfold pts', mid; rewrite nth_error_app2, put_length, Nat.sub_diag by (rewrite put_length; lia); reflexivity).
  unfold edge_steps at 2 3 4. cbn [c_set_next c_next c_data]. rewrite N, MID. cbn [c_data]. pose proof (OLD sb SBM) as H. rewrite B in H. destruct (nth_error pts' sb) as [b'|]; [|discriminate]. cbn in H. injection H as ->.
  pose proof (steps_between _ _ _ X). lia.
Qed.

Lemma NoDup_remove_nat n l : NoDup l -> NoDup (remove Nat.eq_dec n l).
Proof.
  induction 1 as [|x l N ND IH]; cbn [remove]; [constructor|]. destruct (Nat.eq_dec n x); [exact IH|]. constructor; [|exact IH]. intros I. apply in_remove in I as (I & _). contradiction.
Qed.

Section Split.
Variable pts0 : list cpoint.
Variable T : Z.
Notation ok := (ok pts0).
(** What stays the same: the length of the way around, and the numbers of lines and events. *)
Record num (st : cstate) : Prop := {
  n_good : forall n g, nth_error (s_nodes st) n = Some g -> good g;
  n_sweep : NoDup (s_sweep st);
  n_around : around (s_pts st) = T;
  n_nodes : length (s_nodes st) + length pts0 = 2 * length (s_pts st);
  n_events : length (q_events ev (s_events st)) = 2 * length (s_nodes st) }.
Definition grows (st st' : cstate) : Prop :=
  (forall n g, nth_error (s_nodes st) n = Some g -> nth_error (s_nodes st') n = Some g) /\ length (s_pts st) <= length (s_pts st') /\
  q_new ev (s_events st') = q_new ev (s_events st) /\ q_cur ev (s_events st') = q_cur ev (s_events st).
Lemma grows_refl st : grows st st.
Proof. split; [auto|]. split; [apply le_n|]. auto. Qed.
Lemma grows_trans a b c : grows a b -> grows b c -> grows a c.
Proof. intros (A1 & A2 & A3 & A4) (B1 & B2 & B3 & B4). split; [auto|]. split; [lia|]. split; congruence. Qed.
(** What a marker says about a point. *)
Definition fits (g : cseg) (c : option point) (e : at_edge) : Prop :=
  match e with AEboth => False | AEno => exists p, c = Some p /\ in_bbox (sg_pa g) (sg_pb g) p /\ p <> sg_pa g /\ p <> sg_pb g | _ => True end.

Lemma bbox_sym a b p : in_bbox a b p -> in_bbox b a p.
Proof. unfold in_bbox. rewrite (Z.min_comm (px b)), (Z.max_comm (px b)), (Z.min_comm (py b)), (Z.max_comm (py b)). auto. Qed.

Lemma split_total st n c e s all g : ok st s all false -> fc st s all -> num st -> nth_error (s_nodes st) n = Some g -> In n (s_sweep st) -> fits g c e ->
  exists st' i, split_segment st n c e = Some (st', i) /\ num st' /\ grows st st' /\ i < length (s_pts st') /\ (e = AEno -> length (s_pts st) < length (s_pts st')) /\
    (forall m, In m (s_sweep st) -> m <> n -> In m (s_sweep st')).
Proof.
  intros O (F & _) NU NG IN FI. unfold split_segment. rewrite NG. destruct (ok_nodes _ _ _ _ _ O n g NG) as (LX & pa & pb & NA & DA & NB & DB).
  assert (LA : sg_a g < length (s_pts st)) by (apply nth_error_Some; congruence). assert (LB : sg_b g < length (s_pts st)) by (apply nth_error_Some; congruence).
  destruct e; cbn [fits] in FI; try contradiction.
  1, 3: eexists; eexists; split; [reflexivity|]; split; [exact NU|]; split; [apply grows_refl|]; split; [assumption|]; split; [discriminate|auto].
  destruct FI as (p & -> & BB & NE1 & NE2). unfold erase_node. destruct (in_dec Nat.eq_dec n (s_sweep st)) as [_|X]; [|contradiction]. rewrite NA, NB.
  destruct (f_swf _ _ _ F n IN) as (g' & G' & IF). assert (g' = g) by congruence. subst g'.
  destruct (find_ok _ _ _ (EventsModel.mk_event (px (c_data pa)) (sg_a g) (sg_b g) 0 (if (px (c_data pa) =? px (c_data pb))%Z then VForward else Forward) false) _ (ok_q _ _ _ _ _ O) IF) as (i & FE).
  { rewrite DA, DB. reflexivity. }
  rewrite FE. destruct (find_same _ _ _ _ FE) as (y & NY & _). destruct (update_ok (fun e0 : ev => EventsModel.mk_event (e_x e0) (e_a e0) (e_b e0) (e_node e0) (e_type e0) true) _ _ _ NY) as (ev1 & UP & L1). rewrite UP.
  assert (PE : point_eqb (c_data pa) p || point_eqb (c_data pb) p = false).
  { rewrite DA, DB. apply orb_false_iff. unfold point_eqb. split; apply andb_false_iff.
    - destruct (Z.eqb_spec (px (sg_pa g)) (px p)) as [Q|Q]; [right|auto]. apply Z.eqb_neq. intros Q2. apply NE1. apply pt_eq; congruence.
    - destruct (Z.eqb_spec (px (sg_pb g)) (px p)) as [Q|Q]; [right|auto]. apply Z.eqb_neq. intros Q2. apply NE2. apply pt_eq; congruence. }
  rewrite PE. pose proof (ok_sw _ _ _ _ _ O n IN) as LV. pose proof (ok_loops _ _ _ _ _ O) as PL.
  set (main := c_next pa =? sg_b g). cbn [with_events with_sweep s_pts s_nodes s_events s_sweep s_rand s_log].
  assert (EDGE : exists sa sb qa qb, (if main then (sg_a g, sg_b g, pa, pb) else (sg_b g, sg_a g, pb, pa)) = (sa, sb, qa, qb) /\
    nth_error (s_pts st) sa = Some qa /\ nth_error (s_pts st) sb = Some qb /\ c_next qa = sb /\ in_bbox (c_data qa) (c_data qb) p /\ p <> c_data qa /\ p <> c_data qb).
  { unfold main. destruct (Nat.eqb_spec (c_next pa) (sg_b g)) as [Q|Q].
    - exists (sg_a g), (sg_b g), pa, pb. rewrite DA, DB. split; [reflexivity|]. split; [exact NA|]. split; [exact NB|]. split; [exact Q|]. auto.
    - exists (sg_b g), (sg_a g), pb, pa. rewrite DA, DB. split; [reflexivity|]. split; [exact NB|]. split; [exact NA|]. split; [|split; [apply bbox_sym; exact BB|auto]].
      destruct LV as (g1 & i1 & G & p1 & N & HH). assert (g1 = g) by congruence. subst g1. destruct HH as [(H1 & H2)|(H1 & H2)]; subst i1.
      + congruence.
      + assert (p1 = pb) by congruence. subst p1. congruence. }
  destruct EDGE as (sa & sb & qa & qb & EQ & Na & Nb & NX & BB' & NE1' & NE2'). rewrite EQ. clear EQ main.
  assert (SET : bset_eqb (c_set qa) (c_set qb) = true). { destruct (proj1 PL sa qa Na) as (q1 & _ & Q1 & _ & _ & _ & CS). rewrite NX, Nb in Q1. injection Q1 as <-. rewrite CS. destruct (c_set qa); reflexivity. }
  rewrite SET. cbn [negb]. cbn [with_pts with_log with_sweep with_events s_pts s_log s_nodes s_events s_sweep s_rand].
  set (mid := length (s_pts st)). set (pts' := put (s_pts st) sa (c_set_next qa mid) ++ [mk_cp p sb (c_set qa) Undef]).
  assert (SAM : sa < mid) by (eapply sa_mid; eassumption). assert (SBM : sb < mid) by (eapply sb_mid; eassumption). assert (SBA : sb <> sa) by (eapply sb_sa; eassumption).
  pose proof (split_sa (s_pts st) sa sb qa p Na) as Psa. pose proof (split_mid (s_pts st) sa sb qa p) as Pmid.
  pose proof (split_other (s_pts st) sa sb qa p sb qb SBA Nb) as Psb. fold mid in Psa, Pmid, Psb. fold pts' in Psa, Pmid, Psb.
  assert (LP : length pts' = S mid) by (apply split_length).
  assert (AR : around pts' = T). { rewrite <- (n_around _ NU). apply around_split with (pb := qb); try assumption. intros i0 p0 N0. destruct (proj1 PL i0 p0 N0) as (q1 & _ & Q1 & _). apply nth_error_Some. congruence. }
  set (q1 := mk_queue ev ev1 _ _ _) in *.
  set (st2 := mk_cs pts' (s_nodes st) q1 (remove Nat.eq_dec n (s_sweep st)) (s_rand st) (s_log st ++ [(sa, sb)])).
  change (with_log (with_pts (with_sweep (with_events st q1) (remove Nat.eq_dec n (s_sweep st))) pts') (s_log st ++ [(sa, sb)])) with st2.
  assert (ADD1 : exists st3 g1, (if (px (c_data qa) <=? px p)%Z then add_fb_events st2 sa mid else add_fb_events st2 mid sa) = Some st3 /\ good g1 /\ s_pts st3 = pts' /\ s_nodes st3 = s_nodes st ++ [g1] /\
    s_sweep st3 = s_sweep st2 /\ length (q_events ev (s_events st3)) = 2 + length ev1 /\ q_new ev (s_events st3) = q_new ev q1 /\ q_cur ev (s_events st3) = q_cur ev q1).
  { destruct (Z.leb_spec (px (c_data qa)) (px p)) as [LE|LE].
    - destruct (add_ok st2 sa mid _ _ Psa Pmid) as (ev2 & -> & L2); [reflexivity|]. eexists. eexists. split; [reflexivity|]. cbn [s_pts s_nodes s_events s_sweep q_events q_new q_cur st2 q1] in *. split; [|auto 10].
      split; cbn [sg_pa sg_pb c_set_next c_data]; [exact LE|congruence].
    - destruct (add_ok st2 mid sa _ _ Pmid Psa) as (ev2 & -> & L2); [cbn; lia|]. eexists. eexists. split; [reflexivity|]. cbn [s_pts s_nodes s_events s_sweep q_events q_new q_cur st2 q1] in *. split; [|auto 10].
      split; cbn [sg_pa sg_pb c_set_next c_data]; [lia|congruence]. }
  destruct ADD1 as (st3 & g1 & -> & GD1 & P3 & N3 & W3 & E3 & Q3 & C3).
  assert (ADD2 : exists st4 g2, (if (px p <=? px (c_data qb))%Z then add_fb_events st3 mid sb else add_fb_events st3 sb mid) = Some st4 /\ good g2 /\ s_pts st4 = pts' /\ s_nodes st4 = s_nodes st3 ++ [g2] /\
    s_sweep st4 = s_sweep st3 /\ length (q_events ev (s_events st4)) = 2 + length (q_events ev (s_events st3)) /\ q_new ev (s_events st4) = q_new ev q1 /\ q_cur ev (s_events st4) = q_cur ev q1).
  { rewrite <- P3 in Psb, Pmid. destruct (Z.leb_spec (px p) (px (c_data qb))) as [LE|LE].
    - destruct (add_ok st3 mid sb _ _ Pmid Psb) as (ev2 & -> & L2); [reflexivity|]. eexists. eexists. split; [reflexivity|]. cbn [s_pts s_nodes s_events s_sweep q_events q_new q_cur] in *. split; [|repeat (split; [first [assumption|reflexivity]|]); assumption].
      split; cbn [sg_pa sg_pb c_data]; [exact LE|congruence].
    - destruct (add_ok st3 sb mid _ _ Psb Pmid) as (ev2 & -> & L2); [cbn; lia|]. eexists. eexists. split; [reflexivity|]. cbn [s_pts s_nodes s_events s_sweep q_events q_new q_cur] in *. split; [|repeat (split; [first [assumption|reflexivity]|]); assumption].
      split; cbn [sg_pa sg_pb c_data]; [lia|congruence]. }
  destruct ADD2 as (st4 & g2 & -> & GD2 & P4 & N4 & W4 & E4 & Q4 & C4). exists st4, mid.
  assert (NN : s_nodes st4 = s_nodes st ++ [g1; g2]) by (rewrite N4, N3, <- app_assoc; reflexivity).
  split; [reflexivity|]. split.
  { destruct NU as [U1 U2 U3 U4 U5]. constructor.
    - intros m h H. rewrite N4 in H. apply nth_snoc in H as [H|(_ & ->)]; [|exact GD2]. rewrite N3 in H. apply nth_snoc in H as [H|(_ & ->)]; [|exact GD1]. eapply U1; exact H.
    - rewrite W4, W3. apply NoDup_remove_nat. exact U2.
    - rewrite P4. exact AR.
    - rewrite NN, P4, LP, app_length. cbn [length]. fold mid in U4. lia.
    - rewrite E4, E3, NN, app_length, L1, U5. cbn [length]. lia. }
  split; [split; [intros m h H; rewrite NN; apply nth_app_l; exact H|]; split; [rewrite P4, LP; unfold mid; lia|split; assumption]|].
  split; [rewrite P4, LP; lia|]. split; [intros _; rewrite P4, LP; unfold mid; lia|].
  intros m I D. rewrite W4, W3. cbn [st2 s_sweep]. apply in_in_remove; assumption.
Qed.
End Split.
