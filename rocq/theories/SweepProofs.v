(** Proofs about splitting the lines at their intersections: the sweep. *)
From Coq Require Import ZArith List Bool Arith Permutation Sorted Lia.
From Verif Require Import GeomModel BalanceModel EventsModel EventsSpec EventsProofs OutModel CycleProofs PointSinkModel ClipModel ClipSpec ClipProofs.
Import ListNotations.

Lemma grown_snoc l log l' a b : grown l log l' -> nth_error l' a = Some b -> grown l (log ++ [(a, b)]) (put l' a (length l') ++ [b]).
Proof. induction 1; cbn; intros N; econstructor; eauto. constructor. Qed.
Lemma map_put {A B} (f : A -> B) l : forall i x, map f (put l i x) = put (map f l) i (f x).
Proof. induction l as [|y l IH]; intros [|i] x; cbn; try reflexivity. rewrite IH. reflexivity. Qed.

(** Putting a point in the middle of an edge. *)
Section Split.
Variable pts : list cpoint.
Variables sa sb : nat.
Variables pa pb : cpoint.
Variable c : point.
Hypothesis PL : proper_loops pts.
Hypothesis NA : nth_error pts sa = Some pa.
Hypothesis NB : nth_error pts sb = Some pb.
Hypothesis NX : c_next pa = sb.
Let mid := length pts.
Let pts' := put pts sa (c_set_next pa mid) ++ [mk_cp c sb (c_set pa) Undef].

Lemma split_sa : nth_error pts' sa = Some (c_set_next pa mid).
Proof. apply nth_app_l. eapply put_same'; exact NA. Qed.
Lemma split_mid : nth_error pts' mid = Some (mk_cp c sb (c_set pa) Undef).
Proof. unfold pts'. rewrite nth_error_app2, put_length by (rewrite put_length; apply Nat.le_refl). unfold mid. rewrite Nat.sub_diag. reflexivity. Qed.
Lemma split_other i p : i <> sa -> nth_error pts i = Some p -> nth_error pts' i = Some p.
Proof. intros D N. apply nth_app_l. rewrite put_other by congruence. exact N. Qed.
Lemma split_inv i p : nth_error pts' i = Some p -> (i = sa /\ p = c_set_next pa mid) \/ (i = mid /\ p = mk_cp c sb (c_set pa) Undef) \/ (i <> sa /\ i < mid /\ nth_error pts i = Some p).
Proof.
  intros N. destruct (Nat.eq_dec i sa) as [->|D]; [left; rewrite split_sa in N; split; congruence|].
  destruct (Nat.eq_dec i mid) as [->|D2]; [right; left; rewrite split_mid in N; split; congruence|]. right; right. split; [exact D|].
  unfold pts' in N. apply nth_snoc in N as [N|(N & _)]; [|rewrite put_length in N; contradiction]. rewrite put_other in N by congruence. split; [|exact N]. apply nth_error_Some. congruence.
Qed.
Lemma sb_sa : sb <> sa.
Proof. destruct PL as (P1 & _). destruct (P1 sa pa NA) as (q & r & _ & _ & X & _). congruence. Qed.
Lemma sa_mid : sa < mid.
Proof. apply nth_error_Some. congruence. Qed.
Lemma sb_mid : sb < mid.
Proof. apply nth_error_Some. congruence. Qed.

Lemma split_loops : proper_loops pts'.
Proof.
  pose proof sb_sa as D. pose proof sa_mid as MA. pose proof sb_mid as MB. pose proof PL as (P1 & P2). split.
  - intros i p N. apply split_inv in N as [(-> & ->)|[(-> & ->)|(D1 & D2 & N)]].
    + cbn [c_set_next c_next c_set]. exists (mk_cp c sb (c_set pa) Undef), pb. cbn [c_next c_set]. split; [exact split_mid|]. split; [apply split_other; [exact D|exact NB]|]. repeat split; lia.
    + cbn [c_next c_set]. destruct (P1 sb pb NB) as (q & r & Q & R & X1 & X2 & X3). destruct (P1 sa pa NA) as (q2 & _ & Q2 & _ & _ & _ & X4). rewrite NX, NB in Q2. injection Q2 as <-.
      exists pb. assert (c_next pb < mid) by (apply nth_error_Some; congruence). destruct (Nat.eq_dec (c_next pb) sa) as [E|E].
      * exists (c_set_next pa mid). split; [apply split_other; assumption|]. rewrite E. split; [exact split_sa|]. repeat split; try lia. exact X4.
      * exists q. split; [apply split_other; assumption|]. split; [apply split_other; assumption|]. repeat split; try lia. exact X4.
    + destruct (P1 i p N) as (q & r & Q & R & X1 & X2 & X3). destruct (Nat.eq_dec (c_next p) sa) as [E|E].
      * rewrite E in Q. assert (q = pa) by congruence. subst q. exists (c_set_next pa mid), (mk_cp c sb (c_set pa) Undef). rewrite E. cbn [c_set_next c_next c_set]. split; [exact split_sa|]. split; [exact split_mid|]. repeat split; try lia. exact X3.
      * destruct (Nat.eq_dec (c_next q) sa) as [E2|E2].
        -- exists q, (c_set_next pa mid). split; [apply split_other; assumption|]. rewrite E2. split; [exact split_sa|]. repeat split; try lia. exact X3.
        -- exists q, r. split; [apply split_other; assumption|]. split; [apply split_other; assumption|]. repeat split; try lia. exact X3.
  - assert (NXT : forall i p, nth_error pts i = Some p -> c_next p < mid) by (intros i p N; destruct (P1 i p N) as (q & _ & Q & _); apply nth_error_Some; congruence).
    intros i j p q N M E. apply split_inv in N as [(-> & ->)|[(-> & ->)|(D1 & D2 & N)]]; apply split_inv in M as [(-> & ->)|[(-> & ->)|(D3 & D4 & M)]]; cbn [c_set_next c_next] in E; try reflexivity; try lia.
    + pose proof (NXT _ _ M). lia.
    + exfalso. apply D3. eapply P2; [exact M|exact NA|congruence].
    + pose proof (NXT _ _ N). lia.
    + exfalso. apply D1. eapply P2; [exact N|exact NA|congruence].
    + eapply P2; eassumption.
Qed.
Lemma split_live nodes m g : live pts nodes m -> nth_error nodes m = Some g -> ~ same_pair (sg_a g) (sg_b g) sa sb -> live pts' nodes m.
Proof.
  intros (g' & i & G & p & N & H) G2 D. assert (g' = g) by congruence. subst g'. exists g, i. split; [exact G|]. exists p. split; [|exact H]. apply split_other; [|exact N].
  intros ->. assert (p = pa) by congruence. subst p. apply D. unfold same_pair. rewrite NX in H. tauto.
Qed.
Lemma split_not_live nodes m g : live pts' nodes m -> nth_error nodes m = Some g -> sg_a g < mid -> sg_b g < mid -> live pts nodes m /\ ~ same_pair (sg_a g) (sg_b g) sa sb.
Proof.
  intros (g' & i & G & p & N & H) G2 LA LB. assert (g' = g) by congruence. subst g'. pose proof sa_mid as MA. apply split_inv in N as [(-> & ->)|[(-> & ->)|(D1 & D2 & N)]].
  - cbn [c_set_next c_next] in H. lia.
  - cbn in H. lia.
  - split; [exists g, i; split; [exact G|]; exists p; auto|]. intros P. destruct PL as (P1 & _). destruct (P1 sa pa NA) as (q & r & Q & _ & _ & X & _). rewrite NX, NB in Q. injection Q as <-.
    unfold same_pair in P. destruct H as [(<- & H)|(<- & H)]; destruct P as [(P2 & P3)|(P2 & P3)]; try congruence.
Qed.
Lemma split_covered nodes i : i < mid -> i <> sa -> covered pts nodes i -> covered pts' nodes i.
Proof. intros L D (n & g & G & p & N & H). exists n, g. split; [exact G|]. exists p. split; [apply split_other; assumption|exact H]. Qed.
Lemma split_length : length pts' = S mid.
Proof. unfold pts'. rewrite app_length, put_length. cbn [length]. rewrite Nat.add_1_r. reflexivity. Qed.
Lemma split_links : links pts' = put (links pts) sa (length (links pts)) ++ [sb].
Proof. unfold links, pts'. rewrite map_app, map_put, map_length. reflexivity. Qed.
End Split.

Lemma remove_in' n m l : In n (remove Nat.eq_dec m l) -> In n l /\ n <> m.
Proof. apply in_remove. Qed.
Lemma erase_spec l n l' : erase_node l n = Some l' -> In n l /\ (forall m, In m l' <-> In m l /\ m <> n).
Proof.
  unfold erase_node. destruct (in_dec Nat.eq_dec n l) as [I|]; [|discriminate]. intros Q. injection Q as <-. split; [exact I|].
  intros m. split; [apply in_remove|]. intros (A & B). apply in_in_remove; assumption.
Qed.

(** find_event only finds an event that is the same. *)
Lemma find_same q x upto i : find_event ev event_lt event_same q x upto = Some i -> exists y, nth_error (q_events ev q) i = Some y /\ e_type y = e_type x /\ e_a y = e_a x /\ e_b y = e_b x.
Proof.
  unfold find_event. set (j := lower_bound _ _ _ _). destruct (nth_error (firstn upto (q_events ev q)) j) as [y|] eqn:N; [|discriminate].
  destruct (event_same y x) eqn:S; [|discriminate]. intros Q. injection Q as <-. exists y. split.
  - rewrite <- (firstn_skipn upto (q_events ev q)). apply nth_app_l. exact N.
  - unfold event_same, type_eqb in S. apply andb_prop in S as (S & S3). apply andb_prop in S as (S1 & S2). apply Nat.eqb_eq in S1, S2, S3.
    split; [|auto]. destruct (e_type y), (e_type x); cbn in S1; congruence.
Qed.

Section Steps.
Variable pts0 : list cpoint.
Notation ok := (ok pts0).
Definition fc (st : cstate) (s all : list ev) : Prop := full st s all /\ all_covered st.
Lemma ok_node st s all u e : ok st s all u -> In e all -> e_node e < length (s_nodes st).
Proof. intros O I. destruct (ok_ev _ _ _ _ _ O e I) as (g & G & _). apply nth_error_Some. congruence. Qed.
Lemma ok_s_all st s all u e : ok st s all u -> In e s -> In e all.
Proof. intros O I. eapply EI_in; [exact (ok_q _ _ _ _ _ O)|exact I]. Qed.
Lemma full_more st st' s all g1 all' u : ok st s all u -> full st s all -> s_pts st' = s_pts st -> s_sweep st' = s_sweep st -> s_nodes st' = s_nodes st ++ [g1] ->
  all' = bev g1 (length (s_nodes st)) false :: fev g1 (length (s_nodes st)) false :: all -> full st' s all'.
Proof. intros O F E1 E2 E3 ->. eapply full_add; try eassumption; intros e I; [eapply ok_s_all|eapply ok_node]; eassumption. Qed.

Lemma ok_split st n c e st' i s all : ok st s all false -> split_segment st n c e = Some (st', i) ->
  exists s' all', ok st' s' all' false /\ (fc st s all -> fc st' s' all').
Proof.
  intros O H. unfold split_segment in H. destruct (nth_error (s_nodes st) n) as [seg|] eqn:NG; [|discriminate].
  destruct e; try discriminate; try (injection H as <- _; exists s, all; split; [exact O|auto]).
  destruct c as [c|]; [|discriminate]. destruct (erase_node (s_sweep st) n) as [sweep|] eqn:ER; [|discriminate].
  destruct (nth_error (s_pts st) (sg_a seg)) as [pa|] eqn:NA; [|discriminate]. destruct (nth_error (s_pts st) (sg_b seg)) as [pb|] eqn:NB; [|discriminate].
  match type of H with match ?f with _ => _ end = _ => destruct f as [j|] eqn:FE; [|discriminate] end.
  match type of H with match ?f with _ => _ end = _ => destruct f as [q|] eqn:UP; [|discriminate] end.
  destruct (point_eqb (c_data pa) c || point_eqb (c_data pb) c) eqn:NE; [discriminate|].
  apply find_same in FE as (y & NY & T1 & T2 & T3). cbn [e_type e_a e_b] in T1, T2, T3.
  destruct (erase_spec _ _ _ ER) as (INS & SW).
  assert (IY : In y all).
  { eapply Permutation_in; [symmetry; eapply EI_perm; exact (ok_q _ _ _ _ _ O)|]. eapply nth_error_In; exact NY. }
  assert (YN : e_node y = n).
  { destruct (ok_ev _ _ _ _ _ O y IY) as (g & G & V). eapply (ok_pairs _ _ _ _ _ O); [exact G|exact NG|]. apply ev_pair in V. rewrite T2, T3 in V. apply same_pair_sym. exact V. }
  assert (YF : is_f y = true) by (unfold is_f; rewrite T1; destruct (_ =? _)%Z; reflexivity).
  (* every forward event of the line has the key of y *)
  assert (YK : forall e, In e all -> e_node e = n -> is_f e = true -> ekey e = ekey y).
  { intros e I EN F. destruct (ok_ev _ _ _ _ _ O e I) as (g & G & V). destruct (ok_ev _ _ _ _ _ O y IY) as (g' & G' & V'). rewrite YN in G'. rewrite EN in G.
    assert (g' = g) by congruence. subst g'. destruct V as [V|V]; [|rewrite V, is_f_bev in F; discriminate]. destruct V' as [V'|V']; [|rewrite V', is_f_bev in YF; discriminate].
    rewrite V, V'. reflexivity. }
  pose proof (ok_delete _ _ _ _ _ _ _ O NY UP) as O1. set (s1 := map (delk (ekey y)) s) in *. set (all1 := map (delk (ekey y)) all) in *.
  assert (LV : live (s_pts st) (s_nodes st) n) by (apply (ok_sw _ _ _ _ _ O); exact INS).
  set (main := c_next pa =? sg_b seg) in *.
  assert (EDGE : exists sa sb qa qb, (if main then (sg_a seg, sg_b seg, pa, pb) else (sg_b seg, sg_a seg, pb, pa)) = (sa, sb, qa, qb) /\
    nth_error (s_pts st) sa = Some qa /\ nth_error (s_pts st) sb = Some qb /\ c_next qa = sb /\ same_pair (sg_a seg) (sg_b seg) sa sb).
  { unfold main. destruct (Nat.eqb_spec (c_next pa) (sg_b seg)) as [Q|Q].
    - exists (sg_a seg), (sg_b seg), pa, pb. split; [reflexivity|]. split; [exact NA|]. split; [exact NB|]. split; [exact Q|]. left. auto.
    - exists (sg_b seg), (sg_a seg), pb, pa. split; [reflexivity|]. split; [exact NB|]. split; [exact NA|]. split; [|unfold same_pair; auto].
      destruct LV as (g & i1 & G & p & N & HH). assert (g = seg) by congruence. subst g. destruct HH as [(H1 & H2)|(H1 & H2)]; subst i1.
      + congruence.
      + assert (p = pb) by congruence. subst p. congruence. }
  destruct EDGE as (sa & sb & qa & qb & EQ & Na & Nb & NX & SP). rewrite EQ in H. clear EQ main.
  destruct (negb (bset_eqb (c_set qa) (c_set qb))); [discriminate|].
  cbn [with_pts with_log with_sweep with_events s_pts s_log s_nodes s_events s_sweep s_rand] in H.
  set (mid := length (s_pts st)) in *. set (pts' := put (s_pts st) sa (c_set_next qa mid) ++ [mk_cp c sb (c_set qa) Undef]) in *.
  set (st2 := mk_cs pts' (s_nodes st) q sweep (s_rand st) (s_log st ++ [(sa, sb)])).
  pose proof (ok_loops _ _ _ _ _ O) as PL.
  assert (OTHER : forall m, live (s_pts st) (s_nodes st) m -> m <> n -> live pts' (s_nodes st) m).
  { intros m LM D. pose proof LM as (g & _ & G & _). eapply split_live; try eassumption. intros P. apply D. eapply (ok_pairs _ _ _ _ _ O); [exact G|exact NG|].
    unfold same_pair in *. destruct P as [(-> & ->)|(-> & ->)]; destruct SP as [(-> & ->)|(-> & ->)]; auto. }
  assert (SAM : sa < mid) by (eapply sa_mid; eassumption). assert (SBM : sb < mid) by (eapply sb_mid; eassumption). assert (SBA : sb <> sa) by (eapply sb_sa; eassumption).
  pose proof (split_sa (s_pts st) sa sb qa c Na) as Psa. pose proof (split_mid (s_pts st) sa sb qa c) as Pmid.
  pose proof (split_other (s_pts st) sa sb qa c sb qb SBA Nb) as Psb. fold mid in Psa, Pmid, Psb. fold pts' in Psa, Pmid, Psb.
  assert (O2 : ok st2 s1 all1 false).
  { destruct O as [P1 P2 P3 P4 P5 P6 P7 P8 P9 P10 P11]. destruct O1 as [Q1 Q2 Q3 Q4 Q5 Q6 Q7 Q8 Q9 Q10 Q11].
    cbn [with_events s_pts s_nodes s_events s_sweep s_log] in *.
    constructor; unfold st2; cbn [s_pts s_nodes s_events s_sweep s_log]; try assumption.
    - eapply split_loops; eassumption.
    - unfold pts', mid. rewrite (split_links _ sa sb qa c). apply grown_snoc; [exact P2|]. unfold links. rewrite nth_error_map, Na. cbn. congruence.
    - intros i1 p0 N0. destruct (P3 i1 p0 N0) as (p & N & D1 & D2). destruct (Nat.eq_dec i1 sa) as [->|D].
      + exists (c_set_next qa mid). assert (p = qa) by congruence. subst p. split; [exact Psa|]. split; assumption.
      + exists p. split; [eapply split_other; eassumption|]. split; assumption.
    - intros m g G. destruct (P7 m g G) as (L & p1 & p2 & A1 & A2 & B1 & B2). split; [exact L|].
      assert (GET : forall k p d, nth_error (s_pts st) k = Some p -> c_data p = d -> exists p', nth_error pts' k = Some p' /\ c_data p' = d).
      { intros k p d N D. destruct (Nat.eq_dec k sa) as [->|DD]; [exists (c_set_next qa mid); split; [exact Psa|]; cbn; congruence|]. exists p. split; [eapply split_other; eassumption|exact D]. }
      destruct (GET _ _ _ A1 A2) as (p1' & ? & ?). destruct (GET _ _ _ B1 B2) as (p2' & ? & ?). exists p1', p2'. auto.
    - intros e I D F. apply OTHER; [apply Q9; assumption|]. intros EN. unfold all1 in I. apply in_delk in I as (e' & I & _ & K & NQ & FQ & X).
      destruct (X D) as (-> & NK). apply NK. apply YK; assumption.
    - intros e I D F. destruct (Q10 e I D F) as (V & W). assert (e_node e <> n) by (intros EN; apply W; rewrite EN; exact INS). split; [apply OTHER; assumption|]. intros Z. apply SW in Z as (Z & _). contradiction.
    - intros m I. apply SW in I as (I & D). apply OTHER; [apply P11; exact I|exact D]. }
  assert (FRESH : forall k g, nth_error (s_nodes st) k = Some g -> sg_a g < mid /\ sg_b g < mid).
  { intros k g G. destruct (ok_nodes _ _ _ _ _ O k g G) as (_ & p1 & p2 & A1 & _ & B1 & _). split; apply nth_error_Some; congruence. }
  change (mk_cs pts' (s_nodes st) q sweep (s_rand st) (s_log st ++ [(sa, sb)])) with st2 in H.
  assert (F2 : full st s all -> full st2 s1 all1).
  { assert (KF : forall m g d, nth_error (s_nodes st) m = Some g -> In (fev g m d) all -> (ekey (fev g m d) = ekey y <-> m = n)).
    { intros m g d G I. split; [|intros ->; apply YK; [exact I|reflexivity|apply is_f_fev]]. intros K. eapply (ok_pairs _ _ _ _ _ O); [exact G|exact NG|].
      unfold ekey in K. cbn in K. assert (e_a y = sg_a g /\ e_b y = sg_b g) as (Ka & Kb) by (split; congruence). left. split; congruence. }
    assert (KB : forall m g d, ekey (bev g m d) <> ekey y) by (intros m g d K; pose proof (is_f_bev g m d) as FB; unfold is_f in FB, YF; unfold ekey in K; assert (TT : e_type (bev g m d) = e_type y) by congruence; rewrite TT, YF in FB; discriminate).
    assert (DB : forall m g d l, In (bev g m d) (map (delk (ekey y)) l) -> (forall e, In e l -> In e all) -> In (bev g m d) l).
    { intros m g d l I SUB. apply in_map_iff in I as (e & Q & I). unfold delk in Q. destruct (ekey_dec (ekey e) (ekey y)) as [K|]; [|subst e; exact I].
      exfalso. apply (KB m g d). rewrite <- Q. exact K. }
    assert (SA : forall e, In e s -> In e all) by (intros e I; eapply ok_s_all; eassumption).
    intros [F1 F2 F3 F4 F5 F6]. constructor; unfold st2; cbn [s_pts s_nodes s_events s_sweep s_log].
    - intros m g G. destruct (F1 m g G) as (d & d' & I & J). apply (in_map (delk (ekey y))) in I, J. rewrite delk_fev in I. rewrite delk_bev in J. eauto.
    - intros m g d G L I. destruct (FRESH m g G) as (La & Lb). destruct (split_not_live _ sa sb qa qb c PL Na Nb NX (s_nodes st) m g L G La Lb) as (L0 & NP).
      apply in_map_iff in I as (e & Q & I). unfold delk in Q. destruct (ekey_dec (ekey e) (ekey y)) as [K|]; [|subst e; eapply F2; eassumption].
      exfalso. apply NP. assert (Q2 : ekey (fev g m d) = ekey y) by (rewrite <- Q; exact K). unfold ekey in Q2. cbn in Q2.
      assert (e_a y = sg_a g /\ e_b y = sg_b g) as (Ka & Kb) by (split; congruence). rewrite <- Ka, <- Kb, T2, T3. exact SP.
    - intros m g G I NB'. apply in_delk in I as (e & I & _ & _ & _ & _ & X). destruct (X eq_refl) as (<- & NK).
      apply SW. split; [|intros ->; apply NK; apply (KF n g false G); [apply SA; exact I|reflexivity]]. eapply F3; [exact G|exact I|].
      intros d J. apply (NB' d). apply (in_map (delk (ekey y))) in J. rewrite delk_bev in J. destruct (ekey_dec _ _) as [K|]; [exfalso; exact (KB _ _ _ K)|exact J].
    - intros m g G I L. destruct (FRESH m g G) as (La & Lb). destruct (split_not_live _ sa sb qa qb c PL Na Nb NX (s_nodes st) m g L G La Lb) as (L0 & _).
      apply (F4 m g G); [|exact L0]. apply DB; auto.
    - intros m I. apply SW in I as (I & D). destruct (F5 m I) as (g & G & J). exists g. split; [exact G|]. pose proof J as J0. apply (in_map (delk (ekey y))) in J. rewrite delk_fev in J.
      destruct (ekey_dec _ _) as [K|]; [|exact J]. exfalso. apply D. apply (KF m g false G); [apply SA; exact J0|exact K].
    - intros m g d G I. apply DB in I; [|exact SA]. destruct (F6 m g d G I) as (d' & J). apply (in_map (delk (ekey y))) in J. rewrite delk_fev in J. eauto. }
  clearbody s1 all1.
  (* first half *)
  match type of H with match ?f with _ => _ end = _ => destruct f as [st3|] eqn:A1; [|discriminate] end.
  assert (FIRST : exists all2 g, ok st3 s1 all2 false /\ s_pts st3 = pts' /\ s_nodes st3 = s_nodes st ++ [g] /\ same_pair (sg_a g) (sg_b g) sa mid /\ (full st2 s1 all1 -> full st3 s1 all2)).
  { assert (NOP : forall k g, nth_error (s_nodes st2) k = Some g -> ~ same_pair sa mid (sg_a g) (sg_b g) /\ ~ same_pair mid sa (sg_a g) (sg_b g)).
    { intros k g G. destruct (FRESH k g G). unfold same_pair. lia. }
    destruct (Z.leb_spec (px (c_data qa)) (px c)) as [LE|LE].
    - edestruct (ok_add pts0 st2 sa mid st3 s1 all1) as (all2 & g & R1 & R2 & R3 & R4 & R5 & R6 & R7 & R8); [exact O2|exact A1| | |intros k g G; apply (NOP k g G)|].
      + intros p1 p2 E1 E2. cbn [st2 s_pts] in E1, E2. rewrite Psa in E1. rewrite Pmid in E2. injection E1 as <-. injection E2 as <-. exact LE.
      + exists sa, (c_set_next qa mid). split; [exact Psa|]. left. split; reflexivity.
      + exists all2, g. split; [exact R1|]. split; [exact R2|]. split; [exact R5|]. split; [left; auto|]. intros F. eapply full_more; [exact O2|exact F|eassumption..].
    - edestruct (ok_add pts0 st2 mid sa st3 s1 all1) as (all2 & g & R1 & R2 & R3 & R4 & R5 & R6 & R7 & R8); [exact O2|exact A1| | |intros k g G; apply (NOP k g G)|].
      + intros p1 p2 E1 E2. cbn [st2 s_pts] in E1, E2. rewrite Psa in E2. rewrite Pmid in E1. injection E1 as <-. injection E2 as <-. cbn. lia.
      + exists sa, (c_set_next qa mid). split; [exact Psa|]. right. split; reflexivity.
      + exists all2, g. split; [exact R1|]. split; [exact R2|]. split; [exact R5|]. split; [right; auto|]. intros F. eapply full_more; [exact O2|exact F|eassumption..]. }
  destruct FIRST as (all2 & g1 & O3 & SP3 & SN3 & G1 & F3).
  match type of H with match ?f with _ => _ end = _ => destruct f as [st4|] eqn:A2; [|discriminate] end. injection H as <- <-.
  assert (NOP : forall k g, nth_error (s_nodes st3) k = Some g -> ~ same_pair mid sb (sg_a g) (sg_b g) /\ ~ same_pair sb mid (sg_a g) (sg_b g)).
  { intros k g G. rewrite SN3 in G. apply nth_snoc in G as [G|(_ & ->)]; [destruct (FRESH k g G); unfold same_pair; lia|]. unfold same_pair in *. lia. }
  assert (COV : forall g nodes4, all_covered st -> nodes4 = s_nodes st3 ++ [g] -> same_pair (sg_a g) (sg_b g) mid sb -> forall k, k < length pts' -> covered pts' nodes4 k).
  { intros g nodes4 C -> G2 k L. unfold pts', mid in L. rewrite split_length in L. fold mid in L. rewrite SN3.
    destruct (Nat.eq_dec k sa) as [->|D1]; [|destruct (Nat.eq_dec k mid) as [->|D2]].
    - exists (length (s_nodes st)), g1. split; [apply nth_app_l; rewrite nth_error_app2, Nat.sub_diag by lia; reflexivity|]. eexists. split; [exact Psa|]. cbn [c_set_next c_next]. unfold same_pair in G1. tauto.
    - exists (length (s_nodes st ++ [g1])), g. split; [rewrite nth_error_app2, Nat.sub_diag by lia; reflexivity|]. eexists. split; [exact Pmid|]. cbn [c_next]. unfold same_pair in G2. tauto.
    - assert (CK : covered pts' (s_nodes st) k) by (apply (split_covered (s_pts st) sa sb qa c); [lia|exact D1|apply C; fold mid; lia]).
      destruct CK as (m & h & H1 & H2). exists m, h. split; [apply nth_app_l, nth_app_l; exact H1|exact H2]. }
  destruct (Z.leb_spec (px c) (px (c_data qb))) as [LE|LE].
  - edestruct (ok_add pts0 st3 mid sb st4 s1 all2) as (all3 & g & R1 & R2 & R3 & R4 & R5 & R6 & R7 & R8); [exact O3|exact A2| | |intros k g G; apply (NOP k g G)|
      exists s1, all3; split; [exact R1|]; intros (F & C); split; [eapply full_more; [exact O3|exact (F3 (F2 F))|eassumption..]|]; intros k L; rewrite R2, SP3 in *; eapply COV; [exact C|exact R5|left; auto|exact L]].
    + rewrite SP3. intros p1 p2 E1 E2. rewrite Pmid in E1. rewrite Psb in E2. injection E1 as <-. injection E2 as <-. exact LE.
    + rewrite SP3. eexists mid, _. split; [exact Pmid|]. left. split; reflexivity.
  - edestruct (ok_add pts0 st3 sb mid st4 s1 all2) as (all3 & g & R1 & R2 & R3 & R4 & R5 & R6 & R7 & R8); [exact O3|exact A2| | |intros k g G; apply (NOP k g G)|
      exists s1, all3; split; [exact R1|]; intros (F & C); split; [eapply full_more; [exact O3|exact (F3 (F2 F))|eassumption..]|]; intros k L; rewrite R2, SP3 in *; eapply COV; [exact C|exact R5|right; auto|exact L]].
    + rewrite SP3. intros p1 p2 E1 E2. rewrite Pmid in E2. rewrite Psb in E1. injection E1 as <-. injection E2 as <-. cbn. lia.
    + rewrite SP3. eexists mid, _. split; [exact Pmid|]. right. split; reflexivity.
Qed.

Variable isect : bool -> bool -> cseg -> cseg -> GeomModel.isect.
Variable place : list cseg -> cseg -> nat.
Variable sort_events : list ev -> list ev.
Variable sort_new : list (ev * nat) -> list (ev * nat).
Variable draws : cseg -> cseg -> bool.
Hypothesis SE : sorts event_lt sort_events.
Hypothesis SN : sorts (lt_new ev ev (fun e => e) event_lt) sort_new.

Ltac mk H := match type of H with match ?f with _ => _ end = _ => let E := fresh "E" in destruct f eqn:E; [|discriminate] end.
Lemma fc_rand st r s all : fc st s all -> fc (with_rand st r) s all.
Proof. intros (F & C). split; [apply full_rand; exact F|exact C]. Qed.
Lemma fc_mark st i st' s all : mark st i = Some st' -> fc st s all -> fc st' s all.
Proof. intros M (F & C). split; [eapply full_mark; eassumption|eapply all_covered_mark; eassumption]. Qed.
Lemma ok_check st n m st' b s all : ok st s all false -> check_intersection isect draws st n m = Some (st', b) ->
  exists s' all', ok st' s' all' false /\ (fc st s all -> fc st' s' all').
Proof.
  intros O H. unfold check_intersection in H. destruct (nth_error (s_nodes st) n) as [g1|]; [|discriminate]. destruct (nth_error (s_nodes st) m) as [g2|]; [|discriminate].
  destruct (rand_bool (s_rand st)) as (rx, r1). destruct (rand_bool r1) as (ry, r2).
  set (st1 := if draws g1 g2 then with_rand st r2 else st) in *.
  assert (O1 : ok st1 s all false) by (unfold st1; destruct (draws g1 g2); [apply ok_rand|]; exact O).
  assert (C1 : fc st s all -> fc st1 s all) by (unfold st1; destruct (draws g1 g2); [apply fc_rand|auto]). clearbody st1.
  destruct (isect rx ry g1 g2) as [((c, e1), e2)|]; [|injection H as <- _; eauto].
  destruct (negb _); [discriminate|].
  destruct (at_edge_eqb e1 AEno || at_edge_eqb e2 AEno).
  - destruct (split_segment st1 n c e1) as [(st2, i1)|] eqn:E1; [|discriminate]. destruct (ok_split _ _ _ _ _ _ _ _ O1 E1) as (s2 & all2 & O2 & C2).
    destruct (split_segment st2 m c e2) as [(st3, i2)|] eqn:E2; [|discriminate]. destruct (ok_split _ _ _ _ _ _ _ _ O2 E2) as (s3 & all3 & O3 & C3).
    do 2 mk H. injection H as <- _. exists s3, all3. split; [eapply ok_mark; [|eassumption]; eapply ok_mark; eassumption|].
    intros F. do 2 (eapply fc_mark; [eassumption|]). auto.
  - destruct (at_edge_eqb e1 AEboth).
    + do 4 mk H. injection H as <- _. exists s, all. split; [do 4 (eapply ok_mark; [|eassumption]); exact O1|]. intros F. do 4 (eapply fc_mark; [eassumption|]). auto.
    + do 2 mk H. injection H as <- _. exists s, all. split; [do 2 (eapply ok_mark; [|eassumption]); exact O1|]. intros F. do 2 (eapply fc_mark; [eassumption|]). auto.
Qed.

Lemma insert_spec cmp st n sweep r : insert_node place cmp st n = Some (sweep, r) ->
  (r = None /\ sweep = s_sweep st) \/ ((exists br, r = Some br) /\ forall m, In m sweep <-> m = n \/ In m (s_sweep st)).
Proof.
  unfold insert_node. destruct (nth_error (s_nodes st) n) as [g|]; [|discriminate]. destruct (node_values st (s_sweep st)) as [gs|]; [|discriminate].
  cbv zeta. set (k := Nat.min _ _). match goal with |- (if ?c then _ else _) = _ -> _ => destruct c end; intros H; injection H as <- <-; [right|left; auto].
  split; [eauto|]. intros m. rewrite <- (firstn_skipn k (s_sweep st)) at 3. rewrite !in_app_iff. cbn. intuition congruence.
Qed.

Lemma ok_sweep st s all u sweep : ok st s all u -> (forall m, In m sweep -> live (s_pts st) (s_nodes st) m) ->
  (forall e, In e s -> e_deleted e = false -> is_f e = false -> ~ In (e_node e) sweep) -> ok (with_sweep st sweep) s all u.
Proof.
  intros [O1 O2 O3 O4 O5 O6 O7 O8 O9 O10 O11] A B. constructor; cbn [with_sweep s_pts s_nodes s_events s_sweep s_log]; try assumption.
  intros e I D F. split; [apply O10; assumption|apply B; assumption].
Qed.
Lemma ok_events st s all u q s' u' : ok st s all u -> EI q s' all u' ->
  (forall e, In e s' -> e_deleted e = false -> is_f e = false -> live (s_pts st) (s_nodes st) (e_node e) /\ ~ In (e_node e) (s_sweep st)) -> ok (with_events st q) s' all u'.
Proof. intros [O1 O2 O3 O4 O5 O6 O7 O8 O9 O10 O11] A B. constructor; cbn [with_events s_pts s_nodes s_events s_sweep s_log]; assumption. Qed.

Lemma NoDup_ekey l e e' : NoDup (map ekey l) -> In e l -> In e' l -> ekey e = ekey e' -> e = e'.
Proof.
  induction l as [|x l IH]; cbn; [contradiction|]. intros ND I I' K. inversion ND as [|? ? N1 ND1]; subst.
  destruct I as [<-|I], I' as [<-|I']; [reflexivity|..|auto]; exfalso; apply N1; [rewrite K|rewrite <- K]; apply in_map; assumption.
Qed.

Lemma node_values_spec st : forall l gs, node_values st l = Some gs -> forall h, In h gs -> exists m, In m l /\ nth_error (s_nodes st) m = Some h.
Proof.
  induction l as [|n l IH]; intros gs H; cbn in H; [injection H as <-; intros h []|]. destruct (nth_error (s_nodes st) n) as [g|] eqn:N; [|discriminate].
  destruct (node_values st l) as [gs1|] eqn:E; [|discriminate]. injection H as <-. intros h [<-|I]; [exists n; cbn; auto|]. destruct (IH _ eq_refl h I) as (m & M1 & M2). exists m. cbn. auto.
Qed.
Lemma insert_places st n sweep r s all u : places place -> ok st s all u -> ~ In n (s_sweep st) -> insert_node place sweep_cmp st n = Some (sweep, r) -> r <> None.
Proof.
  intros PLC O NI. unfold insert_node. destruct (nth_error (s_nodes st) n) as [g|] eqn:G; [|discriminate]. destruct (node_values st (s_sweep st)) as [gs|] eqn:V; [|discriminate].
  cbv zeta. specialize (PLC gs g). cbv zeta in PLC. set (k := Nat.min _ _) in *.
  assert (D : forall h, In h gs -> (sg_a h, sg_b h) <> (sg_a g, sg_b g)).
  { intros h I Q. destruct (node_values_spec _ _ _ V h I) as (m & M1 & M2). assert (m = n); [|congruence]. eapply (ok_pairs _ _ _ _ _ O); [exact M2|exact G|]. left. split; congruence. }
  destruct (PLC D) as [->|(h & H & C)]; [intros Q; injection Q as <- <-; discriminate|].
  destruct (k =? 0); [intros Q; injection Q as <- <-; discriminate|]. rewrite H, C. intros Q; injection Q as <- <-; discriminate.
Qed.
Lemma fc_events st s all q : fc st s all -> fc (with_events st q) s all.
Proof. intros ([] & C). split; [constructor; assumption|exact C]. Qed.
Lemma EI_sorted q s all u : EI q s all u -> srt (rev s).
Proof.
  intros I. assert (exists L c, s = rev (firstn c L) /\ srt L) as (L & c & E & P).
  { inversion I as [L J c E1 E2 S E3 E4 B E5 P|L J e0 p l c E1 E2 S E3 G LJ E4 B PC E5 P]; subst; rewrite map_id in *; eauto. }
  rewrite E, rev_involutive. rewrite <- (firstn_skipn c L) in P. apply (srt_app ev event_lt) in P as (P & _). exact P.
Qed.
Lemma EI_NoDup q s all u : EI q s all u -> NoDup (map ekey all) -> NoDup s.
Proof.
  intros Q NK. apply NoDup_map_inv in NK.
  assert (exists L X c, s = rev (firstn c L) /\ Permutation all (L ++ X)) as (L & X & c & E & P).
  { inversion Q as [L J' c E1 E2 S E3 E4 B E5 P|L J' e0 p l c E1 E2 S E3 G0 LJ E4 B PC E5 P]; subst; rewrite map_id in *; eauto. }
  rewrite E. apply NoDup_rev. apply (Permutation_NoDup P) in NK. rewrite <- (firstn_skipn c L), <- app_assoc in NK. clear -NK.
  induction (firstn c L) as [|y l IH]; [constructor|]. cbn in NK. inversion NK as [|? ? N1 N2]; subst. constructor; [intros I; apply N1, in_or_app; auto|auto].
Qed.

(** What one delivery does to the invariant [full]. *)
Lemma ok_fev st s all u e : ok st s all u -> In e all -> is_f e = true -> exists g, nth_error (s_nodes st) (e_node e) = Some g /\ e = fev g (e_node e) (e_deleted e).
Proof. intros O I F. destruct (ok_ev _ _ _ _ _ O e I) as (g & G & [V|V]); [eauto|]. rewrite V, is_f_bev in F. discriminate. Qed.
Lemma ok_bev st s all u e : ok st s all u -> In e all -> is_f e = false -> exists g, nth_error (s_nodes st) (e_node e) = Some g /\ e = bev g (e_node e) (e_deleted e).
Proof. intros O I F. destruct (ok_ev _ _ _ _ _ O e I) as (g & G & [V|V]); [|eauto]. rewrite V, is_f_fev in F. discriminate. Qed.
Lemma full_fb st s all u e rest : ok st s all u -> full st s all -> srt (rev (e :: s) ++ rest) -> Permutation (rev (e :: s) ++ rest) all ->
  forall n g d, nth_error (s_nodes st) n = Some g -> In (bev g n d) (e :: s) -> exists d', In (fev g n d') (e :: s).
Proof.
  intros O F SO PR n g d G I. destruct (f_evs _ _ _ F n g G) as (d1 & d2 & I1 & _). exists d1.
  apply (Permutation_in _ (Permutation_sym PR)) in I1. apply in_app_or in I1 as [I1|I1]; [apply in_rev; exact I1|exfalso].
  apply (srt_app ev event_lt) in SO as (_ & _ & C). assert (X : event_lt (fev g n d1) (bev g n d) = false) by (apply C; [apply in_rev; rewrite rev_involutive; exact I|exact I1]).
  rewrite fev_bev in X; [discriminate|]. eapply (ok_nodes _ _ _ _ _ O); exact G.
Qed.
Lemma full_pop st s all u e t : ok st s all u -> full st s all -> s = e :: t ->
  forall n g d, nth_error (s_nodes st) n = Some g -> In (bev g n d) t -> exists d', In (fev g n d') t.
Proof.
  intros O F SQ n g d G I. pose proof (EI_sorted _ _ _ _ (ok_q _ _ _ _ _ O)) as SO. subst s. destruct (f_bf _ _ _ F n g d G) as (d1 & [Q|I1]); [right; exact I| |exists d1; exact I1].
  exfalso. cbn [rev] in SO. apply (srt_app ev event_lt) in SO as (_ & _ & C). assert (X : event_lt e (bev g n d) = false) by (apply C; [apply in_rev; rewrite rev_involutive; exact I|left; reflexivity]).
  rewrite Q, fev_bev in X; [discriminate|]. eapply (ok_nodes _ _ _ _ _ O); exact G.
Qed.
Lemma full_deleted st s all u e rest : ok st s all u -> full st s all -> srt (rev (e :: s) ++ rest) -> Permutation (rev (e :: s) ++ rest) all -> e_deleted e = true -> full st (e :: s) all.
Proof.
  intros O F SO PR D. pose proof (full_fb _ _ _ _ _ _ O F SO PR) as FB. destruct F as [F1 F2 F3 F4 F5 F6]. constructor; try assumption.
  - intros n g G [Q|I] B; [rewrite Q in D; discriminate|]. apply (F3 n g G I). intros d Z. apply (B d). right. exact Z.
  - intros n I. destruct (F5 n I) as (g & G & Z). exists g. split; [exact G|right; exact Z].
Qed.
Lemma full_insert st s all u e rest sweep : ok st s all u -> full st s all -> srt (rev (e :: s) ++ rest) -> Permutation (rev (e :: s) ++ rest) all -> e_deleted e = false -> is_f e = true ->
  In e all -> (forall m, In m sweep <-> m = e_node e \/ In m (s_sweep st)) -> full (with_sweep st sweep) (e :: s) all.
Proof.
  intros O F SO PR D FE IE SW. pose proof (full_fb _ _ _ _ _ _ O F SO PR) as FB. destruct (ok_fev _ _ _ _ _ O IE FE) as (ge & GE & VE).
  destruct F as [F1 F2 F3 F4 F5 F6]. constructor; cbn [with_sweep s_pts s_nodes s_sweep]; try assumption.
  - intros n g G [Q|I] B; apply SW; [left; rewrite Q; reflexivity|]. right. apply (F3 n g G I). intros d Z. apply (B d). right. exact Z.
  - intros n I. apply SW in I as [->|I]; [exists ge; split; [exact GE|left; rewrite VE, D; reflexivity]|]. destruct (F5 n I) as (g & G & Z). exists g. split; [exact G|right; exact Z].
Qed.
Lemma full_erase st s all u e rest sweep : ok st s all u -> full st s all -> srt (rev (e :: s) ++ rest) -> Permutation (rev (e :: s) ++ rest) all -> is_f e = false ->
  In e all -> (forall m, In m sweep <-> In m (s_sweep st) /\ m <> e_node e) -> full (with_sweep st sweep) (e :: s) all.
Proof.
  intros O F SO PR FE IE SW. pose proof (full_fb _ _ _ _ _ _ O F SO PR) as FB. destruct (ok_bev _ _ _ _ _ O IE FE) as (ge & GE & VE).
  destruct F as [F1 F2 F3 F4 F5 F6]. constructor; cbn [with_sweep s_pts s_nodes s_sweep]; try assumption.
  - intros n g G [Q|I] B; [rewrite Q, is_f_fev in FE; discriminate|]. apply SW. split; [apply (F3 n g G I); intros d Z; apply (B d); right; exact Z|].
    intros ->. assert (g = ge) by congruence. subst g. apply (B (e_deleted e)). left. exact VE.
  - intros n I. apply SW in I as (I & _). destruct (F5 n I) as (g & G & Z). exists g. split; [exact G|right; exact Z].
Qed.
Lemma is_f_key e e' : ekey e = ekey e' -> is_f e = is_f e'.
Proof. unfold ekey, is_f. intros Q. injection Q as _ -> _ _. reflexivity. Qed.
Lemma full_drop st s all u e rest q : ok st s all u -> full st s all -> srt (rev (e :: s) ++ rest) -> Permutation (rev (e :: s) ++ rest) all -> is_f e = false ->
  In e all -> ~ In (e_node e) (s_sweep st) -> full (with_events st q) (map (delk (ekey e)) (e :: s)) (map (delk (ekey e)) all).
Proof.
  intros O F SO PR FE IE NI. pose proof (full_fb _ _ _ _ _ _ O F SO PR) as FB. destruct (ok_bev _ _ _ _ _ O IE FE) as (ge & GE & VE).
  assert (SA : forall x, In x (e :: s) -> In x all) by (intros x I; eapply Permutation_in; [exact PR|]; apply in_or_app; left; apply in_rev; rewrite rev_involutive; exact I).
  assert (NDS : NoDup (e :: s)).
  { pose proof (ok_keys _ _ _ _ _ O) as NK. apply NoDup_map_inv in NK. apply (Permutation_NoDup (Permutation_sym PR)) in NK. rewrite <- (rev_involutive (e :: s)). apply NoDup_rev.
    clear -NK. induction (rev (e :: s)) as [|y l IH]; [constructor|]. cbn in NK. inversion NK as [|? ? N1 N2]; subst. constructor; [intros I; apply N1, in_or_app; auto|auto]. }
  pose proof (ok_keys _ _ _ _ _ O) as NK.
  assert (FKEEP : forall l g n d, (forall x, In x l -> In x all) -> nth_error (s_nodes st) n = Some g -> In (fev g n d) (map (delk (ekey e)) l) <-> In (fev g n d) l).
  { intros l g n d IL G. split; intros I.
    - apply in_delk in I as (e' & I & Q & K & NQ & FQ & _). rewrite Q. unfold delk. destruct (ekey_dec (ekey e') (ekey e)) as [KE|]; [|exact I].
      apply is_f_key in KE. rewrite <- FQ, is_f_fev in KE. congruence.
    - apply in_map_iff. exists (fev g n d). split; [|exact I]. unfold delk. destruct (ekey_dec (ekey (fev g n d)) (ekey e)) as [KE|]; [|reflexivity]. apply is_f_key in KE. rewrite is_f_fev in KE. congruence. }
  assert (BKEEP : forall l g n d, (forall x, In x l -> In x all) -> In (bev g n d) l -> exists d', In (bev g n d') (map (delk (ekey e)) l)).
  { intros l g n d IL I. eexists. rewrite <- (delk_bev (ekey e) g n d). apply in_map. exact I. }
  assert (BBACK : forall l g n d, (forall x, In x l -> In x all) -> nth_error (s_nodes st) n = Some g -> In (bev g n d) (map (delk (ekey e)) l) -> exists d', In (bev g n d') l /\ (d' = d \/ bev g n d' = e)).
  { intros l g n d IL G I. apply in_delk in I as (e' & I & Q & K & NQ & FQ & _). rewrite is_f_bev in FQ. destruct (ok_bev _ _ _ _ _ O (IL _ I) (eq_sym FQ)) as (g' & G' & V').
    cbn [bev e_node] in NQ. rewrite <- NQ in *. assert (g' = g) by congruence. subst g'. exists (e_deleted e'). rewrite <- V'. split; [exact I|].
    unfold delk in Q. destruct (ekey_dec (ekey e') (ekey e)) as [KE|]; [right; apply (NoDup_ekey all); auto|left; rewrite <- Q; reflexivity]. }
  destruct F as [F1 F2 F3 F4 F5 F6]. constructor; cbn [with_events s_pts s_nodes s_sweep].
  - intros n g G. destruct (F1 n g G) as (d & d' & I1 & I2). exists d. apply BKEEP in I2 as (d2 & I2); [|auto]. exists d2. split; [apply FKEEP; auto|exact I2].
  - intros n g d G L I. apply (FKEEP all) in I; [exact (F2 n g d G L I)|auto|exact G].
  - intros n g G I B. apply (FKEEP (e :: s)) in I; [|exact SA|exact G].
    destruct I as [Q|I]; [rewrite Q, is_f_fev in FE; discriminate|]. apply (F3 n g G I). intros d Z. destruct (BKEEP (e :: s) g n d SA) as (d' & Z'); [right; exact Z|]. exact (B _ Z').
  - intros n g G I L. apply BBACK in I as (d' & I & [->|Q]); [exact (F4 n g G I L)| |auto|exact G].
    assert (NE : n = e_node e) by (rewrite <- Q; reflexivity). subst n. apply NI.
    destruct (FB (e_node e) g d' G) as (d1 & I1); [left; symmetry; exact Q|]. assert (d1 = false) by (eapply F2; [exact G|exact L|apply SA; exact I1]). subst d1.
    destruct I1 as [Q1|I1]; [rewrite Q1, is_f_fev in FE; discriminate|]. apply (F3 _ g G I1). intros d Z. inversion NDS as [|? ? N1 _]; subst. apply N1.
    assert (bev g (e_node e) d = e); [|congruence]. apply (NoDup_ekey all); [exact NK|apply SA; right; exact Z|exact IE|]. rewrite <- Q at 2. reflexivity.
  - intros n I. destruct (F5 n I) as (g & G & Z). exists g. split; [exact G|]. apply FKEEP; [exact SA|exact G|right; exact Z].
  - intros n g d G I. apply BBACK in I as (d' & I & _); [|exact SA|exact G]. destruct (FB n g d' G I) as (d1 & I1). exists d1. apply FKEEP; [exact SA|exact G|exact I1].
Qed.
Lemma full_undo_deleted st s all u e t : ok st s all u -> full st s all -> s = e :: t -> e_deleted e = true -> full st t all.
Proof.
  intros O F SQ D. pose proof (full_pop _ _ _ _ _ _ O F SQ) as FP. assert (SA : forall x, In x s -> In x all) by (intros x I; eapply ok_s_all; eassumption). subst s. destruct F as [F1 F2 F3 F4 F5 F6]. constructor; try assumption.
  - intros n g G I B. apply (F3 n g G); [right; exact I|]. intros d [Q|Z]; [|exact (B d Z)]. rewrite Q in D. cbn in D. subst d.
    apply (F4 n g G); [apply SA; left; exact Q|]. apply (ok_fwd _ _ _ _ _ O (fev g n false)); [apply SA; right; exact I|reflexivity|apply is_f_fev].
  - intros n I. destruct (F5 n I) as (g & G & [Q|Z]); [rewrite Q in D; discriminate|]. exists g. auto.
Qed.
Lemma full_undo_f st s all u e t sweep : ok st s all u -> full st s all -> s = e :: t -> is_f e = true -> e_deleted e = false -> (forall m, In m sweep <-> In m (s_sweep st) /\ m <> e_node e) ->
  full (with_sweep st sweep) t all.
Proof.
  intros O F SQ FE D SW. pose proof (full_pop _ _ _ _ _ _ O F SQ) as FP. pose proof (EI_NoDup _ _ _ _ (ok_q _ _ _ _ _ O) (ok_keys _ _ _ _ _ O)) as ND. assert (SA : forall x, In x s -> In x all) by (intros x I; eapply ok_s_all; eassumption).
  subst s. destruct (ok_fev _ _ _ _ _ O (SA _ (or_introl eq_refl)) FE) as (ge & GE & VE). rewrite D in VE. inversion ND as [|? ? N1 _]; subst.
  destruct F as [F1 F2 F3 F4 F5 F6]. constructor; cbn [with_sweep s_pts s_nodes s_sweep]; try assumption.
  - intros n g G I B. apply SW. split.
    + apply (F3 n g G); [right; exact I|]. intros d [Q|Z]; [|exact (B d Z)]. rewrite Q, is_f_bev in FE. discriminate.
    + intros ->. assert (g = ge) by congruence. subst g. rewrite <- VE in I. contradiction.
  - intros n I. apply SW in I as (I & NE). destruct (F5 n I) as (g & G & [Q|Z]); [rewrite Q in NE; cbn in NE; congruence|]. exists g. auto.
Qed.
Lemma full_undo_b st s all u e t sweep : ok st s all u -> full st s all -> s = e :: t -> is_f e = false -> e_deleted e = false -> (forall m, In m sweep <-> m = e_node e \/ In m (s_sweep st)) ->
  full (with_sweep st sweep) t all.
Proof.
  intros O F SQ FE D SW. pose proof (full_pop _ _ _ _ _ _ O F SQ) as FP. assert (SA : forall x, In x s -> In x all) by (intros x I; eapply ok_s_all; eassumption).
  subst s. destruct (ok_bev _ _ _ _ _ O (SA _ (or_introl eq_refl)) FE) as (ge & GE & VE). rewrite D in VE.
  destruct (ok_bwd _ _ _ _ _ O e (or_introl eq_refl) D FE) as (LV & _).
  destruct F as [F1 F2 F3 F4 F5 F6]. constructor; cbn [with_sweep s_pts s_nodes s_sweep]; try assumption.
  - intros n g G I B. apply SW. destruct (Nat.eq_dec n (e_node e)) as [->|NE]; [auto|]. right. apply (F3 n g G); [right; exact I|]. intros d [Q|Z]; [|exact (B d Z)]. rewrite Q in NE. cbn in NE. congruence.
  - intros n I. apply SW in I as [->|I].
    + exists ge. split; [exact GE|]. destruct (F6 (e_node e) ge false GE) as (d & [Q|Z]); [left; exact VE|rewrite Q, is_f_fev in FE; discriminate|].
      assert (d = false) by (eapply F2; [exact GE|exact LV|apply SA; right; exact Z]). subst d. exact Z.
    + destruct (F5 n I) as (g & G & [Q|Z]); [rewrite Q, is_f_fev in FE; discriminate|]. exists g. auto.
Qed.

Lemma ok_step st s all u st' : ok st s all u -> more _ (s_events st) = true -> sweep_step isect place sort_events sort_new draws st = Some st' ->
  exists s' all' u', ok st' s' all' u' /\ (places place -> fc st s all -> fc st' s' all').
Proof.
  intros O M H. unfold sweep_step in H.
  destruct (next_inv ev ev (fun e => e) event_lt event_lt_swo sort_events sort_new SE SN _ _ _ _ (ok_q _ _ _ _ _ O) M) as (e & fwd & q & NX & R).
  change (EventsModel.next ev event_lt sort_events sort_new (s_events st) = Some (e, fwd, q)) in NX. rewrite NX in H.
  cbn [with_events s_events] in H. set (st1 := with_events st q) in *.
  assert (same : s_pts st1 = s_pts st /\ s_nodes st1 = s_nodes st /\ s_sweep st1 = s_sweep st) by (repeat split; reflexivity). destruct same as (S1 & S2 & S3).
  destruct fwd.
  - destruct R as (R & rest & SO & PR).
    assert (IE : In e all) by (eapply EI_in; [exact R|left; reflexivity]).
    (* nothing delivered before is after e *)
    assert (BEF : forall x, In x s -> event_lt e x = false).
    { intros x I. unfold in_order in SO. rewrite <- app_assoc in SO || cbn [rev] in SO. cbn [rev] in SO. rewrite <- app_assoc in SO. apply (srt_app ev event_lt) in SO as (_ & _ & C). apply (C x e); [rewrite <- in_rev; exact I|left; reflexivity]. }
    destruct (ok_ev _ _ _ _ _ O e IE) as (g & G & V).
    assert (NB : is_f e = true -> forall x, In x s -> is_f x = false -> e_node x <> e_node e).
    { intros F x I FX Q. destruct (ok_ev _ _ _ _ _ O x) as (g' & G' & V'); [eapply EI_in; [exact (ok_q _ _ _ _ _ O)|exact I]|]. rewrite Q in G'. assert (g' = g) by congruence. subst g'.
      destruct V as [V|V]; [|rewrite V, is_f_bev in F; discriminate]. destruct V' as [V'|V']; [rewrite V', is_f_fev in FX; discriminate|].
      pose proof (BEF x I) as B. rewrite V, V' in B. rewrite fev_bev in B; [discriminate|]. eapply (ok_nodes _ _ _ _ _ O); exact G. }
    destruct (e_deleted e) eqn:D.
    + injection H as <-. exists (e :: s), all, false. split; [eapply ok_events; [exact O|exact R|]; intros x [<-|I] DX FX; [congruence|]; apply (ok_bwd _ _ _ _ _ O); assumption|].
      intros _ (FL & CV). split; [|exact CV]. destruct (full_deleted _ _ _ _ _ _ O FL SO PR D). constructor; assumption.
    + destruct (is_f e) eqn:F.
      * assert (OF : ok st1 (e :: s) all false) by (eapply ok_events; [exact O|exact R|]; intros x [<-|I] DX FX; [congruence|apply (ok_bwd _ _ _ _ _ O); assumption]).
        assert (HF : (do (sweep, r) <- insert_node place sweep_cmp st1 (e_node e); do (before, after) <- r; let st := with_sweep st1 sweep in
          do (st, split) <- match before with None => Some (st, false) | Some b => check_intersection isect draws st (e_node e) b end;
          if split : bool then Some st else match after with None => Some st | Some a => do (st, _) <- check_intersection isect draws st (e_node e) a; Some st end) = Some st').
        { unfold is_f in F. destruct (e_type e); try discriminate; exact H. }
        clear H. destruct (insert_node place sweep_cmp st1 (e_node e)) as [(sweep, r)|] eqn:IN; [|discriminate]. destruct r as [(before, after)|]; [|discriminate].
        destruct (insert_spec _ _ _ _ _ IN) as [(? & _)|(_ & SW)]; [discriminate|].
        assert (O2 : ok (with_sweep st1 sweep) (e :: s) all false).
        { apply ok_sweep; [exact OF| |].
          - intros m I. apply SW in I as [->|I]; [apply (ok_fwd _ _ _ _ _ OF); assumption|apply (ok_sw _ _ _ _ _ OF); exact I].
          - intros x I DX FX Z. destruct I as [<-|I]; [congruence|]. apply SW in Z as [Z|Z]; [exact (NB eq_refl x I FX Z)|]. apply (ok_bwd _ _ _ _ _ O x I DX FX). exact Z. }
        assert (C2 : fc st s all -> fc (with_sweep st1 sweep) (e :: s) all).
        { intros (FL & CV). split; [|exact CV]. destruct (full_insert _ _ _ _ _ _ sweep O FL SO PR D F IE SW). constructor; assumption. }
        cbv zeta in HF. set (st2 := with_sweep st1 sweep) in *. clearbody st2.
        destruct before as [b|].
        -- destruct (check_intersection isect draws st2 (e_node e) b) as [(st3, sp)|] eqn:C1; [|discriminate]. destruct (ok_check _ _ _ _ _ _ _ O2 C1) as (s3 & all3 & O3 & C3).
           destruct sp; [injection HF as <-; eauto 7|]. destruct after as [a|]; [|injection HF as <-; eauto 7].
           destruct (check_intersection isect draws st3 (e_node e) a) as [(st4, sp)|] eqn:CC; [|discriminate]. injection HF as <-. destruct (ok_check _ _ _ _ _ _ _ O3 CC) as (s4 & all4 & O4 & C4). eauto 8.
        -- destruct after as [a|]; [|injection HF as <-; eauto 7].
           destruct (check_intersection isect draws st2 (e_node e) a) as [(st4, sp)|] eqn:CC; [|discriminate]. injection HF as <-. destruct (ok_check _ _ _ _ _ _ _ O2 CC) as (s4 & all4 & O4 & C4). eauto 8.
      * assert (HB : (if in_dec Nat.eq_dec (e_node e) (s_sweep st1) then
            let '(before, after) := around_node None (s_sweep st1) (e_node e) in
            do sweep <- erase_node (s_sweep st1) (e_node e);
            let st := with_sweep st1 sweep in
            match before, after with Some b, Some a => do (st, _) <- check_intersection isect draws st b a; Some st | _, _ => Some st end
          else do q' <- update_at _ del (Z.to_nat (q_cur _ q)) q; Some (with_events st1 q')) = Some st').
        { unfold is_f in F. destruct (e_type e); try discriminate; exact H. }
        clear H. destruct (in_dec Nat.eq_dec (e_node e) (s_sweep st1)) as [I|I].
        -- destruct (around_node None (s_sweep st1) (e_node e)) as (before, after). destruct (erase_node (s_sweep st1) (e_node e)) as [sweep|] eqn:ER; [|discriminate].
           destruct (erase_spec _ _ _ ER) as (_ & SW).
           assert (O2 : ok (with_sweep st1 sweep) (e :: s) all false).
           { assert (O1 : ok (with_sweep st sweep) s all u).
             { apply ok_sweep; [exact O| |].
               - intros m J. apply SW in J as (J & _). apply (ok_sw _ _ _ _ _ O). exact J.
               - intros x J DX FX Z. apply SW in Z as (Z & _). exact (proj2 (ok_bwd _ _ _ _ _ O x J DX FX) Z). }
             change (with_sweep st1 sweep) with (with_events (with_sweep st sweep) q). eapply ok_events; [exact O1|exact R|]. cbn [with_sweep s_pts s_nodes s_sweep].
             intros x [<-|J] DX FX; [|apply (ok_bwd _ _ _ _ _ O1); assumption]. split; [apply (ok_sw _ _ _ _ _ O); exact I|]. intros Z. apply SW in Z as (_ & Z). congruence. }
           assert (C2 : fc st s all -> fc (with_sweep st1 sweep) (e :: s) all).
           { intros (FL & CV). split; [|exact CV]. destruct (full_erase _ _ _ _ _ _ sweep O FL SO PR F IE SW). constructor; assumption. }
           cbv zeta in HB. set (st2 := with_sweep st1 sweep) in *. clearbody st2.
           destruct before as [b|]; [|injection HB as <-; eauto 7]. destruct after as [a|]; [|injection HB as <-; eauto 7].
           destruct (check_intersection isect draws st2 b a) as [(st4, sp)|] eqn:CC; [|discriminate]. injection HB as <-. destruct (ok_check _ _ _ _ _ _ _ O2 CC) as (s4 & all4 & O4 & C4). eauto 8.
        -- destruct (update_at ev del (Z.to_nat (q_cur ev q)) q) as [q'|] eqn:UP; [|discriminate]. injection HB as <-.
           pose proof (EI_current _ _ _ _ R) as CU.
           exists (map (delk (ekey e)) (e :: s)), (map (delk (ekey e)) all), false.
           (* the deleted event is the only one whose line is not in the set *)
           pose proof (EI_delete _ _ _ _ _ _ R (ok_keys _ _ _ _ _ O) CU UP) as EI2.
           split; [|intros _ (FL & CV); split; [destruct (full_drop _ _ _ _ _ _ q' O FL SO PR F IE I); constructor; assumption|exact CV]].
           destruct O as [O1 O2 O3 O4 O5 O6 O7 O8 O9 O10 O11]. constructor; cbn [st1 with_events s_pts s_nodes s_events s_sweep s_log]; try assumption.
           ++ rewrite map_map. rewrite (map_ext _ ekey) by apply ekey_delk. exact O5.
           ++ intros x J. apply in_delk in J as (e' & J & Q & K & NQ & _). destruct (O6 e' J) as (g' & G' & V'). exists g'. rewrite NQ. split; [exact G'|].
              rewrite Q. unfold delk. destruct (ekey_dec (ekey e') (ekey e)); [|exact V']. destruct V' as [->| ->]; cbn; auto.
           ++ intros x J DX FX. apply in_delk in J as (e' & J & _ & _ & _ & _ & X). destruct (X DX) as (-> & _). auto.
           ++ intros x J DX FX. apply in_delk in J as (e' & J & _ & _ & _ & _ & X). destruct (X DX) as (-> & NK). destruct J as [<-|J]; [congruence|]. auto.
  - destruct R as (SQ & R & _).
    assert (IE : In e s) by (rewrite SQ; left; reflexivity).
    assert (TL : forall x, In x (tl s) -> In x s) by (intros x I; rewrite SQ; right; exact I).
    assert (OE : ok st1 (tl s) all true) by (eapply ok_events; [exact O|exact R|]; intros x I DX FX; apply (ok_bwd _ _ _ _ _ O); auto).
    exists (tl s), all, true. destruct (e_deleted e) eqn:D.
    { injection H as <-. split; [exact OE|]. intros _ (FL & CV). split; [|exact CV]. destruct (full_undo_deleted _ _ _ _ _ _ O FL SQ D). constructor; assumption. }
    destruct (is_f e) eqn:F.
    + assert (HF : (do sweep <- erase_node (s_sweep st1) (e_node e); Some (with_sweep st1 sweep)) = Some st').
      { unfold is_f in F. destruct (e_type e); try discriminate; exact H. }
      clear H. destruct (erase_node (s_sweep st1) (e_node e)) as [sweep|] eqn:ER; [|discriminate]. injection HF as <-. destruct (erase_spec _ _ _ ER) as (_ & SW).
      split; [|intros _ (FL & CV); split; [destruct (full_undo_f _ _ _ _ _ _ sweep O FL SQ F D SW); constructor; assumption|exact CV]].
      apply ok_sweep; [exact OE| |].
      * intros m J. apply SW in J as (J & _). apply (ok_sw _ _ _ _ _ OE). exact J.
      * intros x J DX FX Z. apply SW in Z as (Z & _). exact (proj2 (ok_bwd _ _ _ _ _ OE x J DX FX) Z).
    + assert (HB : (do (sweep, _) <- insert_node place sweep_cmp st1 (e_node e); Some (with_sweep st1 sweep)) = Some st').
      { unfold is_f in F. destruct (e_type e); try discriminate; exact H. }
      clear H. destruct (insert_node place sweep_cmp st1 (e_node e)) as [(sweep, r)|] eqn:IN; [|discriminate]. injection HB as <-.
      assert (SW : forall m, In m sweep -> m = e_node e \/ In m (s_sweep st)).
      { destruct (insert_spec _ _ _ _ _ IN) as [(_ & ->)|(_ & SW)]; [auto|]. intros m. apply SW. }
      destruct (ok_bwd _ _ _ _ _ O e IE D F) as (LV & NSW).
      split; [|intros PLC (FL & CV); split; [|exact CV]].
      2: { destruct (insert_spec _ _ _ _ _ IN) as [(RN & _)|(_ & SW')]; [exfalso; exact (insert_places _ _ _ _ _ _ _ PLC OE NSW IN RN)|].
           destruct (full_undo_b _ _ _ _ _ _ sweep O FL SQ F D SW'). constructor; assumption. }
      apply ok_sweep; [exact OE| |].
      * intros m J. apply SW in J as [->|J]; [exact LV|apply (ok_sw _ _ _ _ _ OE); exact J].
      * intros x J DX FX Z. apply SW in Z as [Z|Z]; [|exact (proj2 (ok_bwd _ _ _ _ _ OE x J DX FX) Z)].
        (* both are the backward event of the line *)
        assert (SQ2 : s = e :: tl s) by exact SQ.
        destruct (ok_ev _ _ _ _ _ O e) as (g & G & V); [eapply EI_in; [exact (ok_q _ _ _ _ _ O)|exact IE]|].
        destruct (ok_ev _ _ _ _ _ O x) as (g' & G' & V'); [eapply EI_in; [exact (ok_q _ _ _ _ _ O)|apply TL; exact J]|].
        rewrite Z in G'. assert (g' = g) by congruence. subst g'.
        destruct V as [V|V]; [rewrite V, is_f_fev in F; discriminate|]. destruct V' as [V'|V']; [rewrite V', is_f_fev in FX; discriminate|].
        assert (x = e) by (rewrite V, V', D, DX, Z; reflexivity). subst x.
        (* the delivered events are distinct *)
        pose proof (EI_NoDup _ _ _ _ (ok_q _ _ _ _ _ O) (ok_keys _ _ _ _ _ O)) as ND.
        rewrite SQ2 in ND. inversion ND as [|? ? N1 _]; subst. contradiction.
Qed.
Lemma ok_loop fuel : forall st s all u st', ok st s all u -> sweep_loop isect place sort_events sort_new draws fuel st = Some st' ->
  exists s' all' u', ok st' s' all' u' /\ more _ (s_events st') = false /\ (places place -> fc st s all -> fc st' s' all').
Proof.
  induction fuel as [|f IH]; intros st s all u st' O H; cbn [sweep_loop] in H; destruct (more ev (s_events st)) eqn:M; try discriminate; try (injection H as <-; eauto 6).
  destruct (sweep_step isect place sort_events sort_new draws st) as [st1|] eqn:E; [|discriminate].
  destruct (ok_step _ _ _ _ _ O M E) as (s1 & all1 & u1 & O1 & C1). destruct (IH _ _ _ _ _ O1 H) as (s2 & all2 & u2 & O2 & M2 & C2). exists s2, all2, u2. auto 6.
Qed.

(** The lines of the input. *)
Lemma add_lines_ok k : forall st i all st', s_pts st = pts0 -> s_log st = [] -> s_sweep st = [] -> ok st [] all false ->
  (forall j g, nth_error (s_nodes st) j = Some g -> exists h p, h < i /\ nth_error pts0 h = Some p /\ same_pair (sg_a g) (sg_b g) h (c_next p)) ->
  full st [] all -> (forall j, j < i -> covered pts0 (s_nodes st) j) -> i + k = length pts0 ->
  add_lines st k i = Some st' -> exists all', ok st' [] all' false /\ fc st' [] all'.
Proof.
  induction k as [|k IH]; intros st i all st' SP SL SS O ND FL CV IK H; cbn [add_lines] in H.
  { injection H as <-. exists all. split; [exact O|]. split; [exact FL|]. intros j L. rewrite SP in *. apply CV. rewrite Nat.add_0_r in IK. rewrite IK. exact L. }
  destruct (nth_error (s_pts st) i) as [p|] eqn:NP; [|discriminate]. destruct (nth_error (s_pts st) (c_next p)) as [q|] eqn:NQ; [|discriminate].
  match type of H with match ?f with _ => _ end = _ => destruct f as [st1|] eqn:A1; [|discriminate] end.
  pose proof (ok_loops _ _ _ _ _ O) as (P1 & P2).
  assert (NEW : forall n g, nth_error (s_nodes st) n = Some g -> ~ same_pair i (c_next p) (sg_a g) (sg_b g)).
  { intros n g G P. destruct (ND n g G) as (h & ph & L & Nh & Q). rewrite <- SP in Nh.
    assert (same_pair i (c_next p) h (c_next ph)) as [(A & _)|(A & B)] by (unfold same_pair in *; destruct P as [(-> & ->)|(-> & ->)]; destruct Q as [(-> & ->)|(-> & ->)]; auto); [lia|].
    destruct (P1 h ph Nh) as (q1 & _ & Q1 & _ & _ & X & _). rewrite <- A, NP in Q1. injection Q1 as <-. congruence. }
  assert (STEP : exists all' g, ok st1 [] all' false /\ full st1 [] all' /\ s_pts st1 = s_pts st /\ s_log st1 = s_log st /\ s_sweep st1 = s_sweep st /\ s_nodes st1 = s_nodes st ++ [g] /\ same_pair (sg_a g) (sg_b g) i (c_next p)).
  { destruct (Z.ltb_spec (px (c_data q)) (px (c_data p))) as [LT|GE].
    - edestruct (ok_add pts0 st (c_next p) i st1 [] all) as (all2 & g & R1 & R2 & R3 & R4 & R5 & R6 & R7 & R8); [exact O|exact A1| | | |].
      + intros p1 p2 E1 E2. assert (p1 = q) by congruence. assert (p2 = p) by congruence. subst. lia.
      + exists i, p. split; [exact NP|]. right. auto.
      + intros n g G P. apply (NEW n g G). unfold same_pair in *. tauto.
      + exists all2, g. split; [exact R1|]. split; [eapply full_more; [exact O|exact FL|eassumption..]|]. repeat (split; [assumption|]). right. auto.
    - edestruct (ok_add pts0 st i (c_next p) st1 [] all) as (all2 & g & R1 & R2 & R3 & R4 & R5 & R6 & R7 & R8); [exact O|exact A1| | | |].
      + intros p1 p2 E1 E2. assert (p2 = q) by congruence. assert (p1 = p) by congruence. subst. lia.
      + exists i, p. split; [exact NP|]. left. auto.
      + exact NEW.
      + exists all2, g. split; [exact R1|]. split; [eapply full_more; [exact O|exact FL|eassumption..]|]. repeat (split; [assumption|]). left. auto. }
  destruct STEP as (all1 & g & O1 & FL1 & R2 & R3 & R4 & R5 & R6).
  apply (IH st1 (S i) all1 st'); [congruence|congruence|congruence|exact O1| |exact FL1| |rewrite <- IK, Nat.add_succ_comm; reflexivity|exact H].
  - intros j g' G. rewrite R5 in G. apply nth_snoc in G as [G|(_ & ->)].
    + destruct (ND j g' G) as (h & ph & L & X). exists h, ph. split; [apply Nat.lt_lt_succ_r; exact L|exact X].
    + exists i, p. split; [apply Nat.lt_succ_diag_r|]. split; [rewrite <- SP; exact NP|exact R6].
  - intros j L. rewrite R5. apply Nat.lt_succ_r, Nat.lt_eq_cases in L as [L| ->].
    + destruct (CV j L) as (n & h & N1 & N2). exists n, h. split; [apply nth_app_l; exact N1|exact N2].
    + exists (length (s_nodes st)), g. split; [rewrite nth_error_app2, Nat.sub_diag by apply Nat.le_refl; reflexivity|]. exists p. split; [rewrite <- SP; exact NP|]. unfold same_pair in R6. tauto.
Qed.
Lemma self_intersection_ok fuel rand st : proper_loops pts0 -> self_intersection isect place sort_events sort_new draws fuel pts0 rand = Some st ->
  exists s all u, ok st s all u /\ more _ (s_events st) = false /\ (places place -> fc st s all).
Proof.
  intros PL H. unfold self_intersection in H. destruct (add_lines _ _ _) as [st1|] eqn:A; [|discriminate].
  destruct (add_lines_ok (length pts0) (mk_cs pts0 [] (q_empty ev) [] rand []) 0 [] st1) as (all1 & O1 & C1); try reflexivity; [| | | |exact A|].
  - constructor; cbn [s_pts s_nodes s_events s_sweep s_log].
    + exact PL.
    + constructor.
    + intros i p0 N. exists p0. auto.
    + apply (inv_normal _ _ _ _ _ _ _ [] [] 0); try reflexivity. constructor.
    + constructor.
    + intros e [].
    + intros [|n] g X; discriminate.
    + intros [|n] m g h X; discriminate.
    + intros e [].
    + intros e [].
    + intros n [].
  - intros [|j] g X; discriminate.
  - constructor; cbn [s_pts s_nodes s_sweep]; try (intros [|j] g; discriminate); try (intros [|j] g d; discriminate). intros n [].
  - intros j L. destruct (Nat.nlt_0_r _ L).
  - destruct (ok_loop _ _ _ _ _ _ O1 H) as (s & all & u & O & M & C). exists s, all, u. auto.
Qed.
End Steps.

(** Every original edge becomes a path, and every new point is on exactly one. *)
Lemma chain_app l p1 : forall n p2 e, chain l p1 n -> chain l (n :: p2) e -> chain l (p1 ++ n :: p2) e.
Proof.
  induction p1 as [|a p1 IH]; intros n p2 e C1 C2; cbn [app chain] in *; [exact C2|]. destruct C1 as (X & C1). split; [|apply IH; assumption].
  destruct p1; exact X.
Qed.
Lemma grown_length l log l' : grown l log l' -> length l' = length l + length log.
Proof. induction 1; cbn; [lia|]. rewrite IHgrown, app_length, put_length. cbn. lia. Qed.
Lemma flat_map_split {A B} (f g : A -> list B) (l : list A) x extra : In x l -> NoDup l -> (forall y, y <> x -> g y = f y) -> Permutation (g x) (f x ++ extra) ->
  Permutation (flat_map g l) (flat_map f l ++ extra).
Proof.
  intros I ND E P. apply in_split in I as (l1 & l2 & ->). rewrite !flat_map_concat_map, !map_app, !concat_app. cbn [map concat].
  assert (SAME : forall l', ~ In x l' -> map g l' = map f l') by (intros l' N; apply map_ext_in; intros y Y; apply E; intros ->; contradiction).
  apply NoDup_remove_2 in ND. rewrite (SAME l1), (SAME l2) by (intros Z; apply ND, in_or_app; auto).
  rewrite P. rewrite <- !app_assoc. apply Permutation_app_head. apply Permutation_app_head. apply Permutation_app_comm.
Qed.
Lemma grown_paths l log l' : grown l log l' -> exists m, (forall i b, nth_error l i = Some b -> chain l' (i :: m i) b) /\
  Permutation (flat_map m (seq 0 (length l))) (seq (length l) (length log)).
Proof.
  induction 1 as [l|l a b log l' N G (m & C & P)].
  - exists (fun _ => []). split; [intros i b N; cbn; rewrite N; auto|]. cbn. induction (seq 0 (length l)); cbn; auto.
  - set (n := length l) in *. rewrite app_length, put_length in P. cbn [length] in P. fold n in P. rewrite Nat.add_1_r in P.
    assert (AN : a < n) by (apply nth_error_Some; congruence).
    assert (NA : nth_error (put l a n ++ [b]) a = Some n) by (apply nth_app_l; eapply put_same'; exact N).
    assert (NN : nth_error (put l a n ++ [b]) n = Some b) by (rewrite nth_error_app2, put_length by (rewrite put_length; apply Nat.le_refl); unfold n; rewrite Nat.sub_diag; reflexivity).
    exists (fun i => if i =? a then m a ++ n :: m n else m i). split.
    + intros i c NI. destruct (Nat.eqb_spec i a) as [->|D].
      * assert (c = b) by congruence. subst c. apply (chain_app l' (a :: m a) n (m n) b); [apply C; exact NA|apply C; exact NN].
      * apply C. apply nth_app_l. rewrite put_other by congruence. exact NI.
    + cbn [length seq]. rewrite (flat_map_split m _ (seq 0 n) a (n :: m n)).
      * rewrite seq_S in P. rewrite flat_map_concat_map, map_app, concat_app in P. cbn [map concat] in P. rewrite Nat.add_0_l, app_nil_r in P.
        rewrite <- Permutation_middle. constructor. rewrite flat_map_concat_map. exact P.
      * apply in_seq. lia.
      * apply seq_NoDup.
      * intros y D. destruct (Nat.eqb_spec y a); [contradiction|reflexivity].
      * rewrite Nat.eqb_refl. reflexivity.
Qed.
