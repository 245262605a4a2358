(** Proofs about the second sweep, which judges the lines. *)
From Coq Require Import ZArith List Bool Arith Permutation Sorted Lia.
From Verif Require Import GeomModel GeomSpec BalanceModel EventsModel EventsSpec EventsProofs OutModel OutSpec CycleProofs PointSinkModel ClipModel WindSpec ClipSpec ClipProofs SweepProofs.
Import ListNotations.

Notation on_edge := ClipProofs.on_edge.
(** The events of the final queue. *)
Record final (pts : list cpoint) (nodes : list cseg) (L : list ev) : Prop := {
  n_srt : in_order _ event_lt L;
  n_keys : NoDup (map ekey L);
  n_ev : forall e, In e L -> e_deleted e = false -> exists g, nth_error nodes (e_node e) = Some g /\ live pts nodes (e_node e) /\ (e = fev g (e_node e) false \/ e = bev g (e_node e) false);
  n_live : forall n g, nth_error nodes n = Some g -> live pts nodes n -> In (fev g n false) L /\ In (bev g n false) L;
  n_loops : proper_loops pts;
  n_nodes : forall n g, nth_error nodes n = Some g -> (px (sg_pa g) <= px (sg_pb g))%Z /\
    exists pa pb, nth_error pts (sg_a g) = Some pa /\ c_data pa = sg_pa g /\ nth_error pts (sg_b g) = Some pb /\ c_data pb = sg_pb g;
  n_pairs : forall n m g h, nth_error nodes n = Some g -> nth_error nodes m = Some h -> same_pair (sg_a g) (sg_b g) (sg_a h) (sg_b h) -> n = m;
  n_cov : forall i, i < length pts -> covered pts nodes i }.

Lemma final_of pts0 st s all u : ok pts0 st s all u -> fc st s all -> more _ (s_events st) = false ->
  exists L, final (s_pts st) (s_nodes st) L /\ rewind _ (s_events st) = Some (mk_queue _ L [] (-1) (length L)).
Proof.
  intros O (F & C) M. pose proof (ok_q _ _ _ _ _ O) as Q. unfold more in M. apply orb_false_iff in M as (M1 & M2). apply Z.ltb_ge in M1.
  inversion Q as [L J c E1 E2 S E3 E4 B E5 P|L J e p l c E1 E2 S E3 G1 LJ E4 B PC E5 P]; [|rewrite E3 in M2; discriminate].
  rewrite E1, app_length, E4 in M1. assert (J = []) by (destruct J; [reflexivity|cbn in M1; lia]). assert (c = length L) by (subst J; cbn in M1; lia). subst J c.
  rewrite map_id, ?app_nil_r in *. rewrite firstn_all in E5.
  exists L. split; [|unfold rewind; rewrite E3, E1, E2, ?app_nil_r; reflexivity].
  assert (IA : forall e, In e L <-> In e all) by (intros e; split; apply Permutation_in; [symmetry|]; exact P).
  constructor; try (apply O || exact C).
  - exact S.
  - eapply Permutation_NoDup; [apply Permutation_map; exact P|apply O].
  - intros e I D. apply IA in I. destruct (ok_ev _ _ _ _ _ O e I) as (g & G & V). rewrite D in V. exists g. split; [exact G|]. split; [|exact V].
    destruct (is_f e) eqn:FE; [apply (ok_fwd _ _ _ _ _ O); assumption|]. apply (ok_bwd _ _ _ _ _ O); try assumption. rewrite E5, <- in_rev. apply IA. exact I.
  - intros n g G LV. destruct (f_evs _ _ _ F n g G) as (d & d' & I1 & I2). pose proof (f_live _ _ _ F n g d G LV I1). subst d.
    destruct d'; [exfalso; exact (f_bdel _ _ _ F n g G I2 LV)|]. split; apply IA; assumption.
Qed.

(** Taking the events at one abscissa. *)
Lemma take_x_asc x l : StronglySorted (fun a b => (e_x a <= e_x b)%Z) l -> Forall (fun e => (x <= e_x e)%Z) l -> forall e, In e (take_x x l) <-> In e l /\ e_x e = x.
Proof.
  induction 1 as [|a l S IH F]; intros A e; cbn [take_x]; [cbn; tauto|]. inversion A as [|? ? A1 A2]; subst. destruct (Z.eqb_spec (e_x a) x) as [Q|Q].
  - cbn [In]. rewrite IH by exact A2. intuition congruence.
  - split; [intros []|]. intros ([->|I] & E); [congruence|]. rewrite Forall_forall in F. specialize (F e I). lia.
Qed.
Lemma take_x_desc x l : StronglySorted (fun a b => (e_x b <= e_x a)%Z) l -> Forall (fun e => (e_x e <= x)%Z) l -> forall e, In e (take_x x l) <-> In e l /\ e_x e = x.
Proof.
  induction 1 as [|a l S IH F]; intros A e; cbn [take_x]; [cbn; tauto|]. inversion A as [|? ? A1 A2]; subst. destruct (Z.eqb_spec (e_x a) x) as [Q|Q].
  - cbn [In]. rewrite IH by exact A2. intuition congruence.
  - split; [intros []|]. intros ([->|I] & E); [congruence|]. rewrite Forall_forall in F. specialize (F e I). lia.
Qed.
Lemma take_x_NoDup x (l : list ev) : NoDup l -> NoDup (take_x x l).
Proof.
  induction l as [|a l IH]; intros N; cbn [take_x]; [constructor|]. inversion N as [|? ? N1 N2]; subst. destruct (e_x a =? x)%Z; [|constructor]. constructor; [|auto].
  intros I. apply N1. clear -I. induction l as [|b l IH]; cbn [take_x] in I; [contradiction|]. destruct (e_x b =? x)%Z; [|contradiction]. destruct I as [->|I]; [left; reflexivity|right; auto].
Qed.
Lemma filter_sorted {A} (R : A -> A -> Prop) f l : StronglySorted R l -> StronglySorted R (filter f l).
Proof.
  induction 1 as [|a l S IH F]; cbn; [constructor|]. destruct (f a); [|exact IH]. constructor; [exact IH|]. rewrite Forall_forall in *. intros b I. apply filter_In in I as (I & _). auto.
Qed.
Lemma rev_sorted {A} (R : A -> A -> Prop) l : StronglySorted R l -> StronglySorted (fun a b => R b a) (rev l).
Proof.
  induction 1 as [|a l S IH F]; cbn; [constructor|]. clear S. assert (F' : Forall (fun b => R a b) (rev l)) by (rewrite Forall_forall in *; intros b I; apply F, in_rev, I).
  clear F. induction IH as [|b m S IH2 F]; cbn; [constructor; constructor|]. inversion F' as [|? ? F1 F2]; subst. constructor; [apply IH2; exact F2|]. apply Forall_app. split; [exact F|]. constructor; [exact F1|constructor].
Qed.
Lemma order_x L : in_order _ event_lt L -> StronglySorted (fun a b => (e_x a <= e_x b)%Z) L.
Proof.
  unfold in_order. induction 1 as [|a l S IH F]; constructor; [exact IH|]. eapply Forall_impl; [|exact F]. cbn beta. intros b Q. unfold not_after, event_lt in Q.
  destruct (Z.eqb_spec (e_x b) (e_x a)); cbn [negb] in Q; [lia|]. apply Z.ltb_ge in Q. lia.
Qed.
Lemma NoDup_app_r {A} (l l' : list A) : NoDup (l ++ l') -> NoDup l'.
Proof. induction l; cbn; [auto|]. intros N. inversion N; auto. Qed.
Lemma NoDup_app_l {A} (l l' : list A) : NoDup (l ++ l') -> NoDup l.
Proof. induction l; cbn; [constructor|]. intros N. inversion N as [|? ? N1 N2]; subst. constructor; [intros I; apply N1, in_or_app; auto|auto]. Qed.
Lemma NoDup_map_on {A B} (f : A -> B) l : NoDup l -> (forall x y, In x l -> In y l -> f x = f y -> x = y) -> NoDup (map f l).
Proof.
  induction 1 as [|a l N ND IH]; intros I; cbn; [constructor|]. constructor; [|apply IH; intros x y X Y; apply I; right; assumption].
  intros Z. apply in_map_iff in Z as (b & Q & Z). apply N. rewrite <- (I b a); [exact Z|right; exact Z|left; reflexivity|exact Q].
Qed.

Lemma ev_dec (a b : ev) : {a = b} + {a <> b}.
Proof. repeat decide equality. Defined.

Section Bal.
Variables (pts : list cpoint) (nodes : list cseg) (L : list ev).
Hypothesis FIN : final pts nodes L.

(** The lines with a vertical line through abscissa x. *)
Definition across (x : Z) (n : nat) : Prop := live pts nodes n /\ exists g, nth_error nodes n = Some g /\ (px (sg_pa g) <= x <= px (sg_pb g))%Z.
(** The set of lines after the events [front] were handled, with [f] those of which the forward event may be handled too. *)
Definition open_at (fs bs : list ev) (n : nat) : Prop := exists g, nth_error nodes n = Some g /\ In (fev g n false) fs /\ ~ In (bev g n false) bs.

Lemma fin_NoDup : NoDup L.
Proof. eapply NoDup_map_inv, (n_keys _ _ _ FIN). Qed.
Lemma fin_f e : In e L -> is_fwd e = true -> exists g, nth_error nodes (e_node e) = Some g /\ live pts nodes (e_node e) /\ e = fev g (e_node e) false.
Proof.
  intros I F. assert (D : e_deleted e = false) by (unfold is_fwd in F; destruct (e_type e), (e_deleted e); cbn in F; congruence).
  destruct (n_ev _ _ _ FIN e I D) as (g & G & LV & [V|V]); [eauto|]. exfalso. assert (X : is_f e = true) by (unfold is_fwd in F; unfold is_f; destruct (e_type e); congruence). rewrite V, is_f_bev in X. discriminate.
Qed.
Lemma fin_b e : In e L -> is_back e = true -> exists g, nth_error nodes (e_node e) = Some g /\ live pts nodes (e_node e) /\ e = bev g (e_node e) false.
Proof.
  intros I F. assert (D : e_deleted e = false) by (unfold is_back in F; destruct (e_type e), (e_deleted e); cbn in F; congruence).
  destruct (n_ev _ _ _ FIN e I D) as (g & G & LV & [V|V]); [|eauto]. exfalso. assert (X : is_f e = false) by (unfold is_back in F; unfold is_f; destruct (e_type e); congruence). rewrite V, is_f_fev in X. discriminate.
Qed.
Lemma is_fwd_fev g n : is_fwd (fev g n false) = true.
Proof. unfold is_fwd, fev. cbn. destruct (vert g); reflexivity. Qed.
Lemma is_back_bev g n : is_back (bev g n false) = true.
Proof. unfold is_back, bev. cbn. destruct (vert g); reflexivity. Qed.

Section At.
Variables (front rest : list ev) (e : ev).
Hypothesis SPLIT : L = front ++ e :: rest.
Hypothesis DEL : e_deleted e = false.
Notation x := (e_x e).
Definition removed : list ev := take_x x (filter is_back (rev front)).
Definition pending : list ev := take_x x (filter is_fwd rest).

Lemma at_sorted : StronglySorted (fun a b => (e_x a <= e_x b)%Z) front /\ StronglySorted (fun a b => (e_x a <= e_x b)%Z) rest /\
  Forall (fun a => (e_x a <= x)%Z) front /\ Forall (fun a => (x <= e_x a)%Z) rest.
Proof.
  pose proof (n_srt _ _ _ FIN) as S. rewrite SPLIT in S. pose proof S as S0. apply (srt_app ev event_lt) in S as (S1 & S2 & S3). apply order_x in S0.
  split; [apply order_x; exact S1|]. inversion S2 as [|? ? S4 S5]; subst. split; [apply order_x; exact S4|].
  split; rewrite Forall_forall; intros a I.
  - clear -S0 I. induction front as [|b l IH]; [contradiction|]. cbn in S0. inversion S0 as [|? ? A B]; subst. destruct I as [->|I]; [|auto]. rewrite Forall_forall in B. apply B. apply in_or_app. right. left. reflexivity.
  - apply order_x in S2. inversion S2 as [|? ? A B]; subst. rewrite Forall_forall in B. auto.
Qed.
Lemma in_removed a : In a removed <-> In a front /\ is_back a = true /\ e_x a = x.
Proof.
  destruct at_sorted as (A & _ & B & _). unfold removed. rewrite take_x_desc.
  - rewrite filter_In, <- in_rev. tauto.
  - apply filter_sorted, rev_sorted. exact A.
  - rewrite Forall_forall in *. intros b I. apply filter_In in I as (I & _). apply B. apply in_rev. exact I.
Qed.
Lemma in_pending a : In a pending <-> In a rest /\ is_fwd a = true /\ e_x a = x.
Proof.
  destruct at_sorted as (_ & A & _ & B). unfold pending. rewrite take_x_asc.
  - rewrite filter_In. tauto.
  - apply filter_sorted. exact A.
  - rewrite Forall_forall in *. intros b I. apply filter_In in I as (I & _). auto.
Qed.
Lemma in_L a : In a L <-> In a front \/ a = e \/ In a rest.
Proof. rewrite SPLIT, in_app_iff. cbn. intuition congruence. Qed.
Lemma front_not a : In a front -> a <> e /\ ~ In a rest.
Proof.
  intros I. pose proof fin_NoDup as N. rewrite SPLIT in N. apply in_split in I as (l1 & l2 & ->). rewrite <- app_assoc in N. cbn in N. apply NoDup_remove_2 in N.
  split; [intros ->|intros R]; apply N; rewrite !in_app_iff; cbn; auto.
Qed.
Lemma rest_not_e : ~ In e rest.
Proof. intros I. pose proof fin_NoDup as N. rewrite SPLIT in N. apply NoDup_remove_2 in N. apply N, in_or_app. auto. Qed.

Lemma same_node a b : In a L -> In b L -> e_deleted a = false -> e_deleted b = false -> is_f a = is_f b -> e_node a = e_node b -> a = b.
Proof.
  intros I J D1 D2 F Q. destruct (n_ev _ _ _ FIN a I D1) as (g & G & _ & V). destruct (n_ev _ _ _ FIN b J D2) as (h & H & _ & W). rewrite Q in *. assert (g = h) by congruence. subst h.
  destruct V as [V|V], W as [W|W]; rewrite V, W in *; rewrite ?is_f_fev, ?is_f_bev in F; congruence.
Qed.
Lemma fwd_f a : is_fwd a = true -> is_f a = true /\ e_deleted a = false.
Proof. unfold is_fwd, is_f. destruct (e_type a), (e_deleted a); cbn; intuition congruence. Qed.
Lemma back_f a : is_back a = true -> is_f a = false /\ e_deleted a = false.
Proof. unfold is_back, is_f. destruct (e_type a), (e_deleted a); cbn; intuition congruence. Qed.
(** The lines looked at. *)
Lemma looked_at sweep : NoDup sweep -> (forall n, In n sweep <-> open_at (front ++ [e]) front n) ->
  let ns := sweep ++ map e_node removed ++ map e_node pending in
  NoDup ns /\ forall n, In n ns <-> across x n.
Proof.
  intros ND SW ns.
  assert (XL : forall a, In a front -> (e_x a <= x)%Z) by (destruct at_sorted as (_ & _ & B & _); rewrite Forall_forall in B; exact B).
  assert (XR : forall a, In a rest -> (x <= e_x a)%Z) by (destruct at_sorted as (_ & _ & _ & B); rewrite Forall_forall in B; exact B).
  assert (FB : forall n g, nth_error nodes n = Some g -> In (bev g n false) (front ++ [e]) -> In (fev g n false) L -> In (fev g n false) (front ++ [e])).
  { intros n g G I J. rewrite SPLIT in J. change (e :: rest) with ([e] ++ rest) in J. rewrite app_assoc in J. apply in_app_or in J as [J|J]; [exact J|exfalso].
    pose proof (n_srt _ _ _ FIN) as S. rewrite SPLIT in S. change (e :: rest) with ([e] ++ rest) in S. rewrite app_assoc in S. apply (srt_app ev event_lt) in S as (_ & _ & C).
    assert (X : event_lt (fev g n false) (bev g n false) = false) by (apply C; assumption). rewrite fev_bev in X; [discriminate|]. apply (n_nodes _ _ _ FIN n g G). }
  assert (RIN : forall n, In n (map e_node removed) <-> live pts nodes n /\ exists g, nth_error nodes n = Some g /\ In (bev g n false) front /\ px (sg_pb g) = x).
  { intros n. rewrite in_map_iff. split.
    - intros (a & <- & I). apply in_removed in I as (I & B & X). destruct (fin_b a) as (g & G & LV & V); [apply in_L; auto|exact B|]. split; [exact LV|]. exists g. rewrite <- V. split; [exact G|]. split; [exact I|]. rewrite <- X, V. reflexivity.
    - intros (LV & g & G & I & X). exists (bev g n false). split; [reflexivity|]. apply in_removed. split; [exact I|]. split; [apply is_back_bev|exact X]. }
  assert (PIN : forall n, In n (map e_node pending) <-> live pts nodes n /\ exists g, nth_error nodes n = Some g /\ In (fev g n false) rest /\ px (sg_pa g) = x).
  { intros n. rewrite in_map_iff. split.
    - intros (a & <- & I). apply in_pending in I as (I & B & X). destruct (fin_f a) as (g & G & LV & V); [apply in_L; auto|exact B|]. split; [exact LV|]. exists g. rewrite <- V. split; [exact G|]. split; [exact I|]. rewrite <- X, V. reflexivity.
    - intros (LV & g & G & I & X). exists (fev g n false). split; [reflexivity|]. apply in_pending. split; [exact I|]. split; [apply is_fwd_fev|exact X]. }
  split.
  - unfold ns. apply NoDup_app'; [exact ND| |].
    + apply NoDup_app'.
      * apply NoDup_map_on; [apply take_x_NoDup, NoDup_filter, NoDup_rev; pose proof fin_NoDup as N; rewrite SPLIT in N; apply NoDup_app_l in N; exact N|].
        intros a b I J Q. apply in_removed in I as (I & B1 & _). apply in_removed in J as (J & B2 & _). destruct (back_f a B1), (back_f b B2). apply same_node; try congruence; apply in_L; auto.
      * apply NoDup_map_on; [apply take_x_NoDup, NoDup_filter; pose proof fin_NoDup as N; rewrite SPLIT in N; apply NoDup_app_r in N; inversion N; assumption|].
        intros a b I J Q. apply in_pending in I as (I & B1 & _). apply in_pending in J as (J & B2 & _). destruct (fwd_f a B1), (fwd_f b B2). apply same_node; try congruence; apply in_L; auto.
      * intros n R P. apply RIN in R as (LV & g & G & R & _). apply PIN in P as (_ & h & H & P & _). assert (h = g) by congruence. subst h.
        assert (I : In (fev g n false) (front ++ [e])) by (apply FB; [exact G|apply in_or_app; auto|apply in_L; auto]). apply in_app_or in I as [I|[I|[]]]; [apply front_not in I; tauto|rewrite <- I in P; exact (rest_not_e P)].
    + intros n I R. apply SW in I as (g & G & I & NB). apply in_app_or in R as [R|R].
      * apply RIN in R as (_ & h & H & R & _). assert (h = g) by congruence. subst h. contradiction.
      * apply PIN in R as (_ & h & H & R & _). assert (h = g) by congruence. subst h. apply in_app_or in I as [I|[I|[]]]; [apply front_not in I; tauto|rewrite <- I in R; exact (rest_not_e R)].
  - intros n. unfold ns. rewrite !in_app_iff, SW, RIN, PIN. unfold across. split.
    + intros [(g & G & I & NB)|[(LV & g & G & I & X)|(LV & g & G & I & X)]].
      * assert (IL : In (fev g n false) L) by (apply in_L; apply in_app_or in I as [I|[I|[]]]; auto).
        destruct (fin_f _ IL (is_fwd_fev g n)) as (_ & _ & LV & _). cbn [fev e_node] in LV. split; [exact LV|]. exists g. split; [exact G|].
        destruct (n_live _ _ _ FIN n g G LV) as (_ & IB). apply in_L in IB. split.
        -- change (px (sg_pa g)) with (e_x (fev g n false)). apply in_app_or in I as [I|[I|[]]]; [apply XL; exact I|rewrite I; lia].
        -- change (px (sg_pb g)) with (e_x (bev g n false)). destruct IB as [IB|[IB|IB]]; [contradiction|rewrite IB; lia|apply XR; exact IB].
      * split; [exact LV|]. exists g. split; [exact G|]. pose proof (proj1 (n_nodes _ _ _ FIN n g G)). lia.
      * split; [exact LV|]. exists g. split; [exact G|]. pose proof (proj1 (n_nodes _ _ _ FIN n g G)). lia.
    + intros (LV & g & G & X1 & X2). destruct (n_live _ _ _ FIN n g G LV) as (IF & IB). pose proof IF as IF0. apply in_L in IF.
      assert (K : In (fev g n false) (front ++ [e]) \/ In (fev g n false) rest) by (rewrite in_app_iff; cbn; intuition congruence). destruct K as [K|K].
      * destruct (in_dec ev_dec (bev g n false) front) as [J|J].
        -- right. left. split; [exact LV|]. exists g. split; [exact G|]. split; [exact J|]. apply XL in J. cbn [bev e_x] in J. lia.
        -- left. exists g. auto.
      * right. right. split; [exact LV|]. exists g. split; [exact G|]. split; [exact K|]. apply XR in K. cbn [fev e_x] in K. lia.
Qed.
End At.

(** The lines of the nodes. *)
Lemma nth_combine_seq {A} (l : list A) : forall k i p, In (i, p) (combine (seq k (length l)) l) <-> exists j, i = k + j /\ nth_error l j = Some p.
Proof.
  induction l as [|a l IH]; intros k i p; cbn [length seq combine In].
  - split; [contradiction|]. intros (j & _ & H). destruct j; discriminate.
  - rewrite IH. split.
    + intros [H|(j & -> & H)]; [injection H as <- <-; exists 0; split; [lia|reflexivity]|exists (S j); split; [lia|exact H]].
    + intros ([|j] & -> & H); [left; cbn in H; injection H as ->; f_equal; lia|right; exists j; split; [lia|exact H]].
Qed.
Lemma in_lines l : In l (lines pts) <-> exists p q, nth_error pts (ln_i l) = Some p /\ nth_error pts (c_next p) = Some q /\ l = mk_line (ln_i l) (c_data p, c_data q) (c_set p).
Proof.
  unfold lines. rewrite in_map_iff. split.
  - intros ((i, p) & <- & I). apply nth_combine_seq in I as (j & -> & N). cbn [fst snd ln_i]. destruct (proj1 (n_loops _ _ _ FIN) _ _ N) as (q & _ & Q & _). exists p, q. cbn [Nat.add]. rewrite Q. auto.
  - intros (p & q & N & Q & E). exists (ln_i l, p). split; [cbn [fst snd]; rewrite Q; symmetry; exact E|]. apply nth_combine_seq. exists (ln_i l). auto.
Qed.
Lemma lines_inj l l' : In l (lines pts) -> In l' (lines pts) -> ln_i l = ln_i l' -> l = l'.
Proof. intros I J Q. apply in_lines in I as (p & q & N & M & E1). apply in_lines in J as (p' & q' & N' & M' & E2). rewrite <- Q in N', E2. rewrite N in N'. injection N' as <-. rewrite M in M'. injection M' as <-. rewrite E1, E2. reflexivity. Qed.
Lemma line_at_lines pts' i p : same_skel pts pts' -> nth_error pts i = Some p -> exists l, line_at pts' i = Some l /\ In l (lines pts) /\ ln_i l = i.
Proof.
  intros SK N. destruct (proj1 (n_loops _ _ _ FIN) _ _ N) as (q & _ & Q & _). destruct (skel_get _ _ _ _ SK N) as (p' & N' & D1 & D2 & D3). destruct (skel_get _ _ _ _ SK Q) as (q' & Q' & E1 & _).
  unfold line_at. rewrite N', D2, Q', D1, D3, E1. eexists. split; [reflexivity|]. split; [|reflexivity]. apply in_lines. exists p, q. auto.
Qed.
Definition pair_of (n : nat) : nat * nat := match nth_error nodes n with Some g => (sg_a g, sg_b g) | None => (0, 0) end.
Definition node_line (n : nat) (l : line) : Prop := In l (lines pts) /\ exists g, nth_error nodes n = Some g /\ on_edge pts g (ln_i l).
Lemma seg_line_live pts' n : same_skel pts pts' -> live pts nodes n -> exists l, seg_line pts' (pair_of n) = Some l /\ node_line n l.
Proof.
  intros SK (g & i & G & E). unfold pair_of. rewrite G. destruct (n_nodes _ _ _ FIN n g G) as (LE & pa & pb & NA & DA & NB & DB).
  destruct (skel_get _ _ _ _ SK NA) as (pa' & NA' & A1 & A2 & _). destruct (skel_get _ _ _ _ SK NB) as (pb' & NB' & B1 & B2 & _).
  unfold seg_line. cbn [fst snd]. rewrite NA', NB', A1, B1, DA, DB. destruct (Z.ltb_spec (px (sg_pb g)) (px (sg_pa g))); [lia|]. rewrite A2.
  destruct E as (p & NP & [(E1 & E2)|(E1 & E2)]).
  - rewrite E1 in *. assert (p = pa) by congruence. subst p. rewrite E2, Nat.eqb_refl. destruct (line_at_lines pts' i pa SK NP) as (l & LA & I & Q). exists l. split; [exact LA|]. split; [exact I|]. exists g. split; [exact G|]. exists pa. rewrite Q. auto.
  - rewrite E1 in *. assert (p = pb) by congruence. subst p. destruct (Nat.eqb_spec (c_next pa) i) as [Z|Z].
    + exfalso. destruct (proj1 (n_loops _ _ _ FIN) _ _ NP) as (q & _ & Q & _ & _ & X & _). rewrite <- E2, NA in Q. injection Q as <-. contradiction.
    + destruct (line_at_lines pts' i pb SK NP) as (l & LA & I & Q). exists l. split; [exact LA|]. split; [exact I|]. exists g. split; [exact G|]. exists pb. rewrite Q. auto.
Qed.
Lemma seg_lines_live pts' ns : same_skel pts pts' -> (forall n, In n ns -> live pts nodes n) -> exists ck, seg_lines pts' (map pair_of ns) = Some ck /\ Forall2 node_line ns ck.
Proof.
  intros SK. induction ns as [|n ns IH]; intros LV; cbn [map seg_lines]; [exists []; auto|].
  destruct (seg_line_live pts' n SK (LV n (or_introl eq_refl))) as (l & E & NL). rewrite E. destruct IH as (ck & C & F); [intros m I; apply LV; right; exact I|]. rewrite C. exists (l :: ck). auto.
Qed.
Lemma node_line_inj n m l : node_line n l -> node_line m l -> n = m.
Proof.
  intros (_ & g & G & p & NP & E) (_ & h & H & q & NQ & F). assert (q = p) by congruence. subst q. eapply (n_pairs _ _ _ FIN); [exact G|exact H|]. unfold same_pair. intuition congruence.
Qed.
Lemma node_line_fun n l l' : node_line n l -> node_line n l' -> l = l'.
Proof.
  intros (I & g & G & p & NP & E) (J & h & H & q & NQ & F). assert (h = g) by congruence. subst h. apply lines_inj; [exact I|exact J|].
  destruct E as [(E1 & E2)|(E1 & E2)], F as [(F1 & F2)|(F1 & F2)]; try congruence; exfalso;
  destruct (proj1 (n_loops _ _ _ FIN) _ _ NP) as (r & _ & R & _ & _ & X & _); assert (r = q) by congruence; subst r; apply X; congruence.
Qed.
Lemma node_line_spans x n l : node_line n l -> (across x n <-> spans x (ln_e l)).
Proof.
  intros (I & g & G & p & NP & E). assert (LV : live pts nodes n) by (exists g, (ln_i l); split; [exact G|]; exists p; auto).
  apply in_lines in I as (p' & q & N & Q & V). assert (p' = p) by congruence. subst p'. rewrite V. cbn [ln_e]. unfold spans. cbn [fst snd].
  destruct (n_nodes _ _ _ FIN n g G) as (LE & pa & pb & NA & DA & NB & DB).
  assert (C : (c_data p = sg_pa g /\ c_data q = sg_pb g) \/ (c_data p = sg_pb g /\ c_data q = sg_pa g)).
  { destruct E as [(E1 & E2)|(E1 & E2)]; [left|right]; rewrite E1, E2 in *; split; congruence. }
  unfold across. split.
  - intros (_ & h & H & X). assert (h = g) by congruence. subst h. destruct C as [(-> & ->)|(-> & ->)]; lia.
  - intros X. split; [exact LV|]. exists g. split; [exact G|]. destruct C as [(C1 & C2)|(C1 & C2)]; rewrite C1, C2 in X; lia.
Qed.
Lemma line_node l : In l (lines pts) -> exists n, node_line n l /\ live pts nodes n.
Proof.
  intros I. assert (B : ln_i l < length pts) by (apply in_lines in I as (p & q & N & _); apply nth_error_Some; congruence).
  destruct (n_cov _ _ _ FIN _ B) as (n & g & G & E). exists n. split; [split; [exact I|]; exists g; auto|]. exists g, (ln_i l). auto.
Qed.
Lemma Forall2_in_r {A B} (R : A -> B -> Prop) l m : Forall2 R l m -> forall b, In b m -> exists a, In a l /\ R a b.
Proof. induction 1 as [|a b l m H F IH]; [intros ? []|]. intros c [<-|I]; [exists a; cbn; auto|]. destruct (IH c I) as (d & D1 & D2). exists d. cbn. auto. Qed.
Lemma Forall2_in_l {A B} (R : A -> B -> Prop) l m : Forall2 R l m -> forall a, In a l -> exists b, In b m /\ R a b.
Proof. induction 1 as [|a b l m H F IH]; [intros ? []|]. intros c [<-|I]; [exists b; cbn; auto|]. destruct (IH c I) as (d & D1 & D2). exists d. cbn. auto. Qed.
Lemma across_lines x ns ck : NoDup ns -> (forall n, In n ns <-> across x n) -> Forall2 node_line ns ck -> NoDup ck /\ forall l, In l ck <-> In l (lines pts) /\ spans x (ln_e l).
Proof.
  intros ND AC F. split.
  - clear AC. induction F as [|n l ns ck H F IH]; [constructor|]. inversion ND as [|? ? N1 N2]; subst. constructor; [|auto]. intros I. destruct (Forall2_in_r _ _ _ F l I) as (m & M1 & M2).
    apply N1. rewrite (node_line_inj n m l H M2). exact M1.
  - intros l. split.
    + intros I. destruct (Forall2_in_r _ _ _ F l I) as (n & I1 & NL). split; [apply NL|]. apply (node_line_spans x n l NL). apply AC. exact I1.
    + intros (I & S). destruct (line_node l I) as (n & NL & LV). apply (node_line_spans x n l NL) in S. apply AC in S. destruct (Forall2_in_l _ _ _ F n S) as (l' & I' & NL'). rewrite (node_line_fun n l l' NL NL'). exact I'.
Qed.

(** One event of the sweep. *)
Variable place : list cseg -> cseg -> nat.
Variable sort_events : list ev -> list ev.
Variable sort_new : list (ev * nat) -> list (ev * nat).
Variable op : bool_op.
Definition good (pts' : list cpoint) (i : nat) (hits : list nat) : Prop := exists l1 ck p', In l1 (lines pts) /\ ln_i l1 = i /\
  NoDup ck /\ (forall l, In l ck <-> In l (lines pts) /\ spans (px (fst (ln_e l1))) (ln_e l)) /\
  nth_error pts' i = Some p' /\ c_state p' = Res (line_result op l1 ck) /\ hits = snd (line_balance l1 ck).
Record jinv (front : list ev) (pts' : list cpoint) (ss : list sample) : Prop := {
  j_skel : same_skel pts pts';
  j_nodup : NoDup (map fst ss);
  j_in : forall i, In i (map fst ss) <-> (exists p, nth_error pts i = Some p /\ c_state p = Check) /\ exists e, In e front /\ e_deleted e = false /\ e_a e = i;
  j_same : forall i p p', nth_error pts i = Some p -> nth_error pts' i = Some p' -> ~ In i (map fst ss) -> c_state p' = c_state p;
  j_good : forall i hits, In (i, hits) ss -> good pts' i hits }.

Lemma node_values_live cs ns : s_nodes cs = nodes -> (forall n, In n ns -> live pts nodes n) -> exists gs, node_values cs ns = Some gs /\ length gs = length ns /\ map (fun g => (sg_a g, sg_b g)) gs = map pair_of ns.
Proof.
  intros E. induction ns as [|n ns IH]; intros LV; cbn [node_values]; [exists []; auto|]. destruct (LV n (or_introl eq_refl)) as (g & i & G & _). rewrite E, G.
  destruct IH as (gs & A & B & C); [intros m I; apply LV; right; exact I|]. rewrite A. exists (g :: gs). cbn [map length]. unfold pair_of at 1. rewrite G, B, C. auto.
Qed.
Lemma open_live fs bs n : (forall a, In a fs -> In a L) -> open_at fs bs n -> live pts nodes n.
Proof. intros S (g & G & I & _). destruct (fin_f _ (S _ I) (is_fwd_fev g n)) as (_ & _ & LV & _). exact LV. Qed.

Lemma jinv_more front e pts' ss : jinv front pts' ss -> (e_deleted e = true \/ forall p, nth_error pts (e_a e) = Some p -> c_state p = Check -> In (e_a e) (map fst ss)) -> jinv (front ++ [e]) pts' ss.
Proof.
  intros [A B C D E] H. constructor; try assumption. intros i. rewrite C. split; intros (X & a & I & Y & Z).
  - split; [exact X|]. exists a. split; [apply in_or_app; auto|auto].
  - apply in_app_or in I as [I|[<-|[]]]; [split; [exact X|]; exists a; auto|]. destruct H as [H|H]; [congruence|]. destruct X as (p & N & K). subst i. apply C. eapply H; eassumption.
Qed.

Lemma scan_ok front rest e sweep gs pts' ss : L = front ++ e :: rest -> e_deleted e = false -> NoDup sweep -> (forall n, In n sweep <-> open_at (front ++ [e]) front n) ->
  map (fun g => (sg_a g, sg_b g)) gs = map pair_of sweep -> jinv front pts' ss ->
  exists pts'' ss', scan op (mk_queue _ L [] (Z.of_nat (length front)) (length L)) (e_x e) gs (e_a e) pts' ss = Some (pts'', ss') /\ jinv (front ++ [e]) pts'' ss'.
Proof.
  intros SP DEL ND SW VG J. assert (IE : In e L) by (rewrite SP; apply in_or_app; right; left; reflexivity).
  destruct (n_ev _ _ _ FIN e IE DEL) as (g & G & LV & V). destruct (n_nodes _ _ _ FIN _ g G) as (LE & pa & pb & NA & DA & NB & DB).
  assert (P : exists p, nth_error pts (e_a e) = Some p /\ px (c_data p) = e_x e) by (destruct V as [V|V]; rewrite V; cbn [fev bev e_a e_x]; [exists pa|exists pb]; split; congruence). destruct P as (p & NP & DX).
  pose proof (j_skel _ _ _ J) as SK. destruct (skel_get _ _ _ _ SK NP) as (p' & NP' & D1 & D2 & D3).
  unfold scan. rewrite NP'.
  destruct (in_dec Nat.eq_dec (e_a e) (map fst ss)) as [SM|SM].
  { assert (NC : c_state p' <> Check). { apply in_map_iff in SM as ((i, hits) & Q & SM). cbn in Q. subst i. destruct (j_good _ _ _ J _ _ SM) as (l1 & ck & p2 & _ & _ & _ & _ & N2 & R & _). rewrite NP' in N2. injection N2 as <-. congruence. }
    exists pts', ss. split; [destruct (c_state p'); congruence|]. apply jinv_more; [exact J|]. right. auto. }
  pose proof (j_same _ _ _ J _ _ _ NP NP' SM) as ST.
  assert (NOT : c_state p <> Check -> exists pts'' ss', Some (pts', ss) = Some (pts'', ss') /\ jinv (front ++ [e]) pts'' ss').
  { intros NC. exists pts', ss. split; [reflexivity|]. apply jinv_more; [exact J|]. right. intros p0 N0. rewrite NP in N0. injection N0 as <-. contradiction. }
  rewrite ST. destruct (c_state p) eqn:CS; try (apply NOT; discriminate). clear NOT.
  destruct (line_at_lines pts' _ _ SK NP) as (l1 & LA & I1 & Q1). rewrite LA.
  destruct (looked_at front rest e SP sweep ND SW) as (NDN & AC).
  set (ns := sweep ++ map e_node (removed front e) ++ map e_node (pending rest e)) in *.
  destruct (seg_lines_live pts' ns SK) as (ck & CK & F2); [intros n I; apply AC in I; apply I|].
  assert (SEG : map (fun g0 => (sg_a g0, sg_b g0)) gs ++ touching_removed (mk_queue _ L [] (Z.of_nat (length front)) (length L)) (e_x e) ++ touching_pending (mk_queue _ L [] (Z.of_nat (length front)) (length L)) (e_x e) = map pair_of ns).
  { unfold ns. rewrite !map_app, VG. f_equal. unfold touching_removed, touching_pending. cbn [q_cur q_events]. rewrite Nat2Z.id.
    replace (firstn (length front) L) with front by (rewrite SP, firstn_app, Nat.sub_diag, firstn_all, app_nil_r; reflexivity).
    replace (skipn (S (length front)) L) with rest by (rewrite SP; clear; induction front; cbn in *; auto).
    fold (removed front e) (pending rest e). rewrite !map_map. f_equal; apply map_ext_in; intros a I.
    - apply (in_removed front rest e SP) in I as (I & B & _). destruct (fin_b a) as (h & H & _ & V'); [apply (in_L front rest e SP); auto|exact B|]. unfold pair_of. rewrite H, V'. reflexivity.
    - apply (in_pending front rest e SP) in I as (I & B & _). destruct (fin_f a) as (h & H & _ & V'); [apply (in_L front rest e SP); auto|exact B|]. unfold pair_of. rewrite H, V'. reflexivity. }
  rewrite SEG, CK. eexists _, _. split; [reflexivity|].
  destruct (across_lines _ _ _ NDN AC F2) as (NCK & ICK).
  assert (X1 : px (fst (ln_e l1)) = e_x e).
  { pose proof I1 as I2. apply in_lines in I2 as (p2 & q2 & N2 & _ & E2). rewrite Q1, NP in N2. injection N2 as <-. rewrite E2. exact DX. }
  destruct J as [A B C D E]. constructor.
  - intros i. destruct (Nat.eq_dec (e_a e) i) as [<-|NE]; [|rewrite put_other by exact NE; apply SK]. rewrite (put_same' _ _ _ _ NP'). rewrite (SK (e_a e)), NP'. reflexivity.
  - rewrite map_app. cbn [map fst]. apply NoDup_app'; [exact B|constructor; [intros []|constructor]|]. intros i I [<-|[]]. contradiction.
  - intros i. rewrite map_app, in_app_iff, C. cbn [map fst In]. split.
    + intros [(X & a & I & Y)|[<-|[]]]; [split; [exact X|]; exists a; split; [apply in_or_app; auto|exact Y]|]. split; [exists p; auto|]. exists e. split; [apply in_or_app; right; left; reflexivity|auto].
    + intros (X & a & I & Y & Z). apply in_app_or in I as [I|[<-|[]]]; [left; split; [exact X|]; exists a; auto|right; left; exact Z].
  - intros i p0 p1 N0 N1 NI. rewrite map_app, in_app_iff in NI. cbn [map fst In] in NI. rewrite put_other in N1 by tauto. apply (D i); tauto.
  - intros i hits I. apply in_app_or in I as [I|[I|[]]].
    + destruct (E i hits I) as (l2 & ck2 & p2 & R1 & R2 & R3 & R4 & R5 & R6). exists l2, ck2, p2. repeat (split; [assumption|]). split; [|exact R6].
      rewrite put_other; [exact R5|]. intros <-. apply SM. apply in_map_iff. exists (e_a e, hits). auto.
    + injection I as <- <-. exists l1, ck, (c_set_state p' (Res (line_result op l1 ck))). split; [exact I1|]. split; [exact Q1|]. split; [exact NCK|]. split; [rewrite X1; exact ICK|]. split; [eapply put_same'; exact NP'|]. split; reflexivity.
Qed.

Lemma NoDup_remove' n l : NoDup l -> NoDup (remove Nat.eq_dec n l).
Proof. induction 1 as [|a l N ND IH]; cbn; [constructor|]. destruct (Nat.eq_dec n a); [exact IH|]. constructor; [|exact IH]. intros I. apply in_remove in I as (I & _). contradiction. Qed.

Lemma bal_step_ok front rest e sweep pts' ss : L = front ++ e :: rest -> NoDup sweep -> (forall n, In n sweep <-> open_at front front n) -> jinv front pts' ss ->
  exists sweep' pts'' ss', bal_step place sort_events sort_new op nodes (mk_queue _ L [] (Z.of_nat (length front) - 1) (length L), sweep, pts', ss) =
      Some (mk_queue _ L [] (Z.of_nat (length front)) (length L), sweep', pts'', ss') /\
    NoDup sweep' /\ (forall n, In n sweep' <-> open_at (front ++ [e]) (front ++ [e]) n) /\ jinv (front ++ [e]) pts'' ss'.
Proof.
  intros SP ND SW J. unfold bal_step.
  assert (NX : next _ event_lt sort_events sort_new (mk_queue _ L [] (Z.of_nat (length front) - 1) (length L)) = Some (e, true, mk_queue _ L [] (Z.of_nat (length front)) (length L))).
  { unfold next. cbn [q_events q_cur q_new q_last]. assert (LN : length L = length front + S (length rest)) by (rewrite SP, app_length; reflexivity).
    destruct (Z.leb_spec (Z.of_nat (length L)) (Z.of_nat (length front) - 1)); [lia|]. rewrite Nat.ltb_irrefl. unfold deliver, at_cur. cbn [q_events q_cur q_new q_last]. rewrite Z.sub_add.
    destruct (Z.ltb_spec (Z.of_nat (length front)) 0); [lia|]. rewrite Nat2Z.id, SP, nth_error_app2, Nat.sub_diag by lia. reflexivity. }
  rewrite NX. cbn [negb]. assert (IE : In e L) by (rewrite SP; apply in_or_app; right; left; reflexivity).
  assert (SL : forall a, In a (front ++ [e]) -> In a L) by (intros a I; rewrite SP; apply in_app_or in I as [I|[<-|[]]]; apply in_or_app; [auto|right; left; reflexivity]).
  destruct (e_deleted e) eqn:DEL.
  { exists sweep, pts', ss. split; [reflexivity|]. split; [exact ND|]. split; [|apply jinv_more; [exact J|auto]]. intros n. rewrite SW. unfold open_at. split; intros (g & G & I & NI).
    - exists g. split; [exact G|]. split; [apply in_or_app; auto|]. intros Z. apply in_app_or in Z as [Z|[Z|[]]]; [contradiction|]. rewrite Z in DEL. discriminate.
    - exists g. split; [exact G|]. split; [apply in_app_or in I as [I|[I|[]]]; [exact I|rewrite I in DEL; discriminate]|]. intros Z. apply NI, in_or_app. auto. }
  destruct (n_ev _ _ _ FIN e IE DEL) as (ge & GE & LV & V).
  destruct (is_f e) eqn:F.
  - destruct V as [V|V]; [|rewrite V, is_f_bev in F; discriminate].
    assert (SW1 : forall m, m = e_node e \/ In m sweep <-> open_at (front ++ [e]) front m).
    { intros m. rewrite SW. unfold open_at. split.
      - intros [->|(g & G & I & NI)]; [|exists g; split; [exact G|]; split; [apply in_or_app; auto|exact NI]]. exists ge. split; [exact GE|]. rewrite <- V. split; [apply in_or_app; right; left; reflexivity|].
        intros Z. pose proof (n_srt _ _ _ FIN) as S. rewrite SP in S. apply (srt_app ev event_lt) in S as (_ & _ & C).
        assert (X : event_lt e (bev ge (e_node e) false) = false) by (apply C; [exact Z|left; reflexivity]). rewrite V, fev_bev in X; [discriminate|]. apply (n_nodes _ _ _ FIN _ _ GE).
      - intros (g & G & I & NI). apply in_app_or in I as [I|[I|[]]]; [right; exists g; auto|left; rewrite I; reflexivity]. }
    assert (NN : ~ In (e_node e) sweep).
    { intros Z. apply SW in Z as (g & G & I & _). assert (g = ge) by congruence. subst g. rewrite <- V in I. apply (front_not front rest e SP) in I. tauto. }
    assert (HF : forall A (X Y : A), match e_type e with Forward | VForward => X | _ => Y end = X) by (intros A X Y; unfold is_f in F; destruct (e_type e); congruence).
    destruct (node_values_live (mk_cs pts' nodes (mk_queue _ L [] (Z.of_nat (length front)) (length L)) [] 0 []) sweep eq_refl) as (gs & VG & LG & MG).
    { intros n I. apply SW in I. eapply open_live; [|exact I]. intros a I'. apply SL, in_or_app. auto. }
    match goal with |- exists s1 p2 s2, ?M = _ /\ _ => assert (HH : M = let k := Nat.min (place gs ge) (length gs) in
        let sweep := firstn k sweep ++ e_node e :: skipn k sweep in
        do gs <- node_values (mk_cs pts' nodes (mk_queue _ L [] (Z.of_nat (length front)) (length L)) [] 0 []) sweep;
        do (pts, ss) <- scan op (mk_queue _ L [] (Z.of_nat (length front)) (length L)) (e_x e) gs (e_a e) pts' ss;
        Some (mk_queue _ L [] (Z.of_nat (length front)) (length L), sweep, pts, ss)) end.
    { rewrite GE, VG. unfold is_f in F. destruct (e_type e); try discriminate; reflexivity. }
    rewrite HH. clear HH. cbv zeta. set (k := Nat.min (place gs ge) (length gs)). set (sweep' := firstn k sweep ++ e_node e :: skipn k sweep).
    assert (PS : Permutation sweep' (e_node e :: sweep)) by (unfold sweep'; rewrite <- Permutation_middle, firstn_skipn; reflexivity).
    assert (SW2 : forall m, In m sweep' <-> open_at (front ++ [e]) front m).
    { intros m. rewrite <- SW1. split; intros I; [apply (Permutation_in _ PS) in I; destruct I; auto|apply (Permutation_in _ (Permutation_sym PS)); destruct I; [left; auto|right; auto]]. }
    assert (ND2 : NoDup sweep') by (eapply Permutation_NoDup; [symmetry; exact PS|constructor; assumption]).
    destruct (node_values_live (mk_cs pts' nodes (mk_queue _ L [] (Z.of_nat (length front)) (length L)) [] 0 []) sweep' eq_refl) as (gs2 & VG2 & LG2 & MG2).
    { intros n I. apply SW2 in I. eapply open_live; [exact SL|exact I]. }
    rewrite VG2. destruct (scan_ok front rest e sweep' gs2 pts' ss SP DEL ND2 SW2 MG2 J) as (pts'' & ss' & SC & J'). rewrite SC.
    exists sweep', pts'', ss'. split; [reflexivity|]. split; [exact ND2|]. split; [|exact J'].
    intros m. rewrite SW2. unfold open_at. split; intros (g & G & I & NI); exists g; (split; [exact G|]); (split; [exact I|]); intros Z.
    + apply in_app_or in Z as [Z|[Z|[]]]; [contradiction|]. rewrite Z, is_f_bev in F. discriminate.
    + apply NI, in_or_app. auto.
  - destruct V as [V|V]; [rewrite V, is_f_fev in F; discriminate|].
    assert (SW1 : forall m, In m sweep <-> open_at (front ++ [e]) front m).
    { intros m. rewrite SW. unfold open_at. split; intros (g & G & I & NI); exists g; (split; [exact G|]); (split; [|exact NI]); [apply in_or_app; auto|].
      apply in_app_or in I as [I|[I|[]]]; [exact I|]. rewrite I, is_f_fev in F. discriminate. }
    destruct (node_values_live (mk_cs pts' nodes (mk_queue _ L [] (Z.of_nat (length front)) (length L)) [] 0 []) sweep eq_refl) as (gs & VG & LG & MG).
    { intros n I. apply SW in I. eapply open_live; [|exact I]. intros a I'. apply SL, in_or_app. auto. }
    destruct (scan_ok front rest e sweep gs pts' ss SP DEL ND SW1 MG J) as (pts'' & ss' & SC & J').
    assert (IS : In (e_node e) sweep).
    { apply SW. exists ge. split; [exact GE|]. destruct (n_live _ _ _ FIN _ _ GE LV) as (IF & _). split.
      - apply (in_L front rest e SP) in IF as [IF|[IF|IF]]; [exact IF|rewrite <- IF, is_f_fev in F; discriminate|]. exfalso.
        pose proof (n_srt _ _ _ FIN) as S. rewrite SP in S. apply (srt_app ev event_lt) in S as (_ & S & _). inversion S as [|? ? _ C]; subst. rewrite Forall_forall in C.
        assert (X : event_lt (fev ge (e_node e) false) e = false) by (apply C; exact IF). rewrite V in X at 2. rewrite fev_bev in X; [discriminate|]. apply (n_nodes _ _ _ FIN _ _ GE).
      - intros Z. rewrite <- V in Z. apply (front_not front rest e SP) in Z. tauto. }
    match goal with |- exists s1 p2 s2, ?M = _ /\ _ => assert (HH : M = 
        do (pts, ss) <- scan op (mk_queue _ L [] (Z.of_nat (length front)) (length L)) (e_x e) gs (e_a e) pts' ss;
        do sweep <- erase_node sweep (e_node e);
        Some (mk_queue _ L [] (Z.of_nat (length front)) (length L), sweep, pts, ss)) end.
    { rewrite VG. unfold is_f in F. destruct (e_type e); try discriminate; reflexivity. }
    rewrite HH, SC. clear HH. unfold erase_node. destruct (in_dec Nat.eq_dec (e_node e) sweep); [|contradiction].
    eexists _, pts'', ss'. split; [reflexivity|]. split; [apply NoDup_remove'; exact ND|]. split; [|exact J'].
    intros m. transitivity (In m sweep /\ m <> e_node e).
    { split; [intros I; apply in_remove in I; exact I|intros (I & N); apply in_in_remove; assumption]. }
    rewrite SW1. unfold open_at. split.
    + intros ((g & G & I & NI) & N). exists g. split; [exact G|]. split; [exact I|]. intros Z. apply in_app_or in Z as [Z|[Z|[]]]; [contradiction|]. rewrite Z in N. cbn in N. congruence.
    + intros (g & G & I & NI). split; [exists g; split; [exact G|]; split; [exact I|]; intros Z; apply NI, in_or_app; auto|]. intros ->. assert (g = ge) by congruence. subst g. apply NI. rewrite <- V. apply in_or_app. right. left. reflexivity.
Qed.
Lemma bal_loop_ok rest : forall front fuel sweep pts' ss, L = front ++ rest -> length rest <= fuel -> NoDup sweep -> (forall n, In n sweep <-> open_at front front n) -> jinv front pts' ss ->
  exists q sweep' pts'' ss', bal_loop place sort_events sort_new fuel op nodes (mk_queue _ L [] (Z.of_nat (length front) - 1) (length L), sweep, pts', ss) = Some (q, sweep', pts'', ss') /\ jinv L pts'' ss'.
Proof.
  induction rest as [|e rest IH]; intros front fuel sweep pts' ss SP LF ND SW J.
  - rewrite app_nil_r in SP. assert (M : more _ (mk_queue _ L [] (Z.of_nat (length front) - 1) (length L)) = false).
    { unfold more. cbn [q_cur q_events q_new]. rewrite SP. destruct (Z.ltb_spec (Z.of_nat (length front) - 1 + 1) (Z.of_nat (length front))); [lia|reflexivity]. }
    exists (mk_queue _ L [] (Z.of_nat (length front) - 1) (length L)), sweep, pts', ss. split; [|rewrite SP; exact J]. destruct fuel; cbn [bal_loop fst snd]; rewrite M; reflexivity.
  - assert (M : more _ (mk_queue _ L [] (Z.of_nat (length front) - 1) (length L)) = true).
    { unfold more. cbn [q_cur q_events q_new]. rewrite SP, app_length. cbn [length]. destruct (Z.ltb_spec (Z.of_nat (length front) - 1 + 1) (Z.of_nat (length front + S (length rest)))); [reflexivity|lia]. }
    destruct fuel as [|fuel]; [cbn in LF; lia|]. cbn [bal_loop fst snd]. rewrite M.
    destruct (bal_step_ok front rest e sweep pts' ss SP ND SW J) as (sweep' & pts'' & ss' & ST & ND' & SW' & J'). rewrite ST.
    assert (SP' : L = (front ++ [e]) ++ rest) by (rewrite <- app_assoc; exact SP).
    destruct (IH (front ++ [e]) fuel sweep' pts'' ss' SP') as (q & sw & p3 & s3 & E & J3); try assumption; [cbn in LF; lia|].
    exists q, sw, p3, s3. split; [|exact J3]. rewrite <- E. rewrite app_length. cbn [length]. rewrite Nat.add_1_r, Nat2Z.inj_succ, <- Z.add_1_r, Z.add_simpl_r. reflexivity.
Qed.
Lemma bal_loop_any rest : forall front fuel sweep pts' ss r, L = front ++ rest -> NoDup sweep -> (forall n, In n sweep <-> open_at front front n) -> jinv front pts' ss ->
  bal_loop place sort_events sort_new fuel op nodes (mk_queue _ L [] (Z.of_nat (length front) - 1) (length L), sweep, pts', ss) = Some r -> length rest <= fuel.
Proof.
  induction rest as [|e rest IH]; intros front fuel sweep pts' ss r SP ND SW J E; [cbn; lia|].
  assert (M : more _ (mk_queue _ L [] (Z.of_nat (length front) - 1) (length L)) = true).
  { unfold more. cbn [q_cur q_events q_new]. rewrite SP, app_length. cbn [length]. destruct (Z.ltb_spec (Z.of_nat (length front) - 1 + 1) (Z.of_nat (length front + S (length rest)))); [reflexivity|lia]. }
  destruct fuel as [|fuel]; cbn [bal_loop fst snd] in E; rewrite M in E; [discriminate|].
  destruct (bal_step_ok front rest e sweep pts' ss SP ND SW J) as (sweep' & pts'' & ss' & ST & ND' & SW' & J'). rewrite ST in E.
  assert (SP' : L = (front ++ [e]) ++ rest) by (rewrite <- app_assoc; exact SP). cbn [length]. apply le_n_S. eapply (IH (front ++ [e]) fuel sweep' pts'' ss'); try eassumption.
  rewrite app_length. cbn [length]. rewrite Nat.add_1_r, Nat2Z.inj_succ, <- Z.add_1_r, Z.add_simpl_r. exact E.
Qed.
Lemma jinv_start : jinv [] pts [].
Proof.
  constructor; [intros i; reflexivity|constructor| |intros i p p' N N' _; congruence|intros i h []].
  intros i. split; [intros []|]. intros (_ & e & [] & _).
Qed.
Lemma jinv_done pts' ss : jinv L pts' ss -> judged op pts pts' ss.
Proof.
  intros [A B C D E]. split; [|split; [|split; [exact B|split; [|exact E]]]].
  - pose proof (f_equal (@length nat) (skel_links _ _ A)) as Q. unfold links in Q. rewrite !map_length in Q. symmetry. exact Q.
  - intros i p N. destruct (skel_get _ _ _ _ A N) as (p' & N' & D1 & D2 & D3). exists p'. repeat (split; [assumption|]). intros NC. eapply D; [exact N|exact N'|]. intros I. apply C in I as ((p0 & N0 & K) & _). congruence.
  - intros i. rewrite C. split; [intros (X & _); exact X|]. intros (p & N & K). split; [exists p; auto|].
    destruct (n_cov _ _ _ FIN i) as (n & g & G & EG); [apply nth_error_Some; congruence|].
    assert (LV : live pts nodes n) by (exists g, i; auto). destruct (n_live _ _ _ FIN n g G LV) as (I1 & I2).
    destruct EG as (p0 & _ & [(X & _)|(X & _)]); [exists (fev g n false)|exists (bev g n false)]; auto.
Qed.
End Bal.

Lemma calc_ok pts0 st s all u place se sn op : ok pts0 st s all u -> fc st s all -> more _ (s_events st) = false ->
  forall fuel, (length (q_events _ (s_events st)) <= fuel <-> calc_line_bal place se sn fuel op st <> None) /\
    forall pts' ss, calc_line_bal place se sn fuel op st = Some (pts', ss) -> judged op (s_pts st) pts' ss.
Proof.
  intros O C M fuel. destruct (final_of _ _ _ _ _ O C M) as (L & FIN & RW). unfold calc_line_bal. rewrite RW.
  assert (LQ : q_events _ (s_events st) = L) by (unfold rewind in RW; destruct (q_new _ (s_events st)); [injection RW as ->; reflexivity|discriminate]). rewrite LQ.
  assert (S0 : forall n, In n [] <-> open_at (s_nodes st) [] [] n) by (intros n; split; [intros []|intros (g & _ & [] & _)]).
  pose proof (bal_loop_ok (s_pts st) (s_nodes st) L FIN place se sn op L [] fuel [] (s_pts st) [] eq_refl) as OK.
  pose proof (fun r => bal_loop_any (s_pts st) (s_nodes st) L FIN place se sn op L [] fuel [] (s_pts st) [] r eq_refl (NoDup_nil _) S0 (jinv_start _ _)) as ANY.
  cbn [length Z.of_nat Z.sub Z.add Z.opp] in OK, ANY. change (0 - 1)%Z with (-1)%Z in *.
  split; [split|].
  - intros LE. destruct (OK LE (NoDup_nil _) S0 (jinv_start _ _)) as (q & sw & p2 & s2 & E & _). rewrite E. discriminate.
  - destruct (bal_loop _ _ _ _ _ _ _) as [r|] eqn:E; [|intros Z; exfalso; apply Z; reflexivity]. intros _. eapply ANY. reflexivity.
  - intros pts' ss H. destruct (bal_loop _ _ _ _ _ _ _) as [r|] eqn:E; [|discriminate]. injection H as <- <-.
    destruct (OK (ANY r eq_refl) (NoDup_nil _) S0 (jinv_start _ _)) as (q & sw & p2 & s2 & E2 & J). injection E2 as ->. cbn [fst snd]. eapply jinv_done; eassumption.
Qed.

(** The loops of the points, as polygons. *)
Lemma filter_true {A} (l : list A) : filter (fun _ => true) l = l.
Proof. induction l; cbn; congruence. Qed.
Lemma proper_family pts : proper_loops pts -> exists F, Permutation (map (fun l => (ln_set l, ln_e l)) (lines pts)) (family_edges F).
Proof.
  intros (P1 & P2).
  set (fp := map (fun p => mk_fp (c_data p) (c_next p) (-1)) pts).
  assert (NF : forall i, nth_error fp i = option_map (fun p => mk_fp (c_data p) (c_next p) (-1)) (nth_error pts i)) by (intros i; apply nth_error_map).
  assert (LK : links_ok fp).
  { split.
    - intros i p N _. rewrite NF in N. destruct (nth_error pts i) as [c|] eqn:NC; [|discriminate]. injection N as <-. destruct (P1 i c NC) as (q & _ & Q & _). exists (mk_fp (c_data q) (c_next q) (-1)). cbn [f_next]. rewrite NF, Q. split; [reflexivity|left; reflexivity].
    - intros i j p q N M _ _ E. rewrite NF in N, M. destruct (nth_error pts i) as [c|] eqn:NC; [|discriminate]. destruct (nth_error pts j) as [d|] eqn:ND; [|discriminate]. injection N as <-. injection M as <-. eapply P2; eassumption. }
  destruct (find_loops_ok fp LK) as (fps & locs & Ls & _ & F2 & PM & CY & _).
  assert (ORD : ordinary fp = seq 0 (length pts)).
  { unfold ordinary, fp. rewrite map_length. rewrite <- (filter_true (seq 0 (length pts))) at 2. apply filter_ext_in. intros i I. apply in_seq in I. fold fp. rewrite NF. destruct (nth_error pts i) eqn:N; [reflexivity|]. apply nth_error_None in N. lia. }
  rewrite ORD in PM.
  set (d0 := mk_cp (0, 0)%Z 0 Subject Undef). set (at_ := fun i => nth i pts d0).
  assert (AT : forall i p, nth_error pts i = Some p -> at_ i = p) by (intros i p N; unfold at_; eapply nth_error_nth; exact N).
  assert (IN : forall L a, In L Ls -> In a L -> a < length pts).
  { intros L a I J. assert (K : In a (concat Ls)) by (apply in_concat; eauto). apply (Permutation_in _ PM) in K. apply in_seq in K. lia. }
  assert (STEP : forall L a b, In L Ls -> cyclic_next L a b -> b = c_next (at_ a)).
  { intros L a b I C. destruct (CY L a b I C) as (LT & _). destruct LT as [i p q N M _|i p q j N M X _].
    - rewrite NF in N. destruct (nth_error pts i) as [c|] eqn:NC; [|discriminate]. injection N as <-. rewrite (AT _ _ NC). reflexivity.
    - rewrite NF in M. destruct (nth_error pts (f_next p)); [|discriminate]. injection M as <-. discriminate X. }
  assert (NX : forall L f r, In L Ls -> L = f :: r -> map (fun a => c_next (at_ a)) L = r ++ [f]).
  { intros L f r I EL. apply nth_error_ext'. intros k. rewrite nth_error_map. destruct (Nat.lt_ge_cases k (length L)) as [B|B].
    - destruct (nth_error L k) as [a|] eqn:N; [|apply nth_error_None in N; lia]. cbn [option_map].
      assert (C : nth_error L (S k mod length L) = nth_error (r ++ [f]) k).
      { rewrite EL in *. cbn [length] in *. destruct (Nat.eq_dec k (length r)) as [->|NE].
        - rewrite Nat.mod_same by lia. rewrite nth_error_app2, Nat.sub_diag by lia. reflexivity.
        - rewrite Nat.mod_small by lia. rewrite nth_error_app1 by lia. reflexivity. }
      rewrite <- C. destruct (nth_error L (S k mod length L)) as [b|] eqn:NB; [|apply nth_error_None in NB; exfalso; assert (S k mod length L < length L) by (apply Nat.mod_upper_bound; lia); lia].
      rewrite (STEP L a b I); [reflexivity|]. exists k. auto.
    - rewrite (proj2 (nth_error_None L k)) by lia. symmetry. apply nth_error_None. rewrite app_length. rewrite EL in B. cbn in *. lia. }
  assert (SET : forall L f r, In L Ls -> L = f :: r -> forall a, In a L -> c_set (at_ a) = c_set (at_ f)).
  { intros L f r I EL. assert (G : forall k a, nth_error L k = Some a -> c_set (at_ a) = c_set (at_ f)).
    { induction k as [|k IH]; intros a N; [rewrite EL in N; injection N as ->; reflexivity|].
      destruct (nth_error L k) as [b|] eqn:NB; [|apply nth_error_None in NB; assert (S k < length L) by (apply nth_error_Some; congruence); lia].
      rewrite <- (IH b eq_refl). assert (B : S k < length L) by (apply nth_error_Some; congruence).
      assert (Q : a = c_next (at_ b)) by (apply (STEP L); [exact I|]; exists k; split; [exact NB|]; rewrite Nat.mod_small by exact B; exact N).
      destruct (nth_error pts b) as [p|] eqn:NP; [|apply nth_error_None in NP; assert (b < length pts) by (apply (IN L); [exact I|eapply nth_error_In; exact NB]); lia].
      rewrite Q, (AT _ _ NP). destruct (P1 b p NP) as (q & _ & NQ & _ & _ & _ & S). rewrite (AT _ _ NQ). exact S. }
    intros a J. apply In_nth_error in J as (k & J). eapply G; exact J. }
  exists (map (fun L => (c_set (at_ (hd 0 L)), map (fun a => c_data (at_ a)) L)) Ls).
  set (edge := fun a => (c_set (at_ a), (c_data (at_ a), c_data (at_ (c_next (at_ a)))))).
  assert (EF : family_edges (map (fun L => (c_set (at_ (hd 0 L)), map (fun a => c_data (at_ a)) L)) Ls) = map edge (concat Ls)).
  { unfold family_edges. clear PM CY F2. assert (SUB : forall L, In L Ls -> In L Ls) by auto. revert SUB. generalize Ls at 1 3 4. intros M. induction M as [|L M IH]; intros SUB; [reflexivity|].
    cbn [map flat_map concat]. rewrite map_app, IH by (intros L' I; apply SUB; right; exact I). f_equal. cbn [fst snd]. specialize (SUB L (or_introl eq_refl)).
    destruct L as [|f r]; [reflexivity|]. pose proof (NX _ f r SUB eq_refl) as NX1. pose proof (SET _ f r SUB eq_refl) as SET1. cbn [hd].
    unfold closed_edges. cbn [map]. rewrite <- (map_cons (fun a => c_data (at_ a)) f r). change [c_data (at_ f)] with (map (fun a => c_data (at_ a)) [f]). rewrite <- map_app, <- NX1, map_map.
    assert (G : forall l, (forall a, In a l -> c_set (at_ a) = c_set (at_ f)) -> map (pair (c_set (at_ f))) (combine (map (fun a => c_data (at_ a)) l) (map (fun a => c_data (at_ (c_next (at_ a)))) l)) = map edge l).
    { induction l as [|a l IH2]; intros S1; [reflexivity|]. cbn [map combine]. rewrite IH2 by (intros b J; apply S1; right; exact J). unfold edge at 2. rewrite (S1 a (or_introl eq_refl)). reflexivity. }
    apply G. exact SET1. }
  rewrite EF. transitivity (map edge (seq 0 (length pts))); [|apply Permutation_map, Permutation_sym; exact PM]. match goal with |- Permutation ?a ?b => assert (E : a = b); [|rewrite E; apply Permutation_refl] end. unfold lines. rewrite map_map. clear -AT P1. cbn [fst snd ln_set ln_e].
  assert (G : forall l k, (forall j p, nth_error l j = Some p -> nth_error pts (k + j) = Some p) ->
    map (fun ip => (c_set (snd ip), (c_data (snd ip), match nth_error pts (c_next (snd ip)) with Some q => c_data q | None => c_data (snd ip) end))) (combine (seq k (length l)) l) = map edge (seq k (length l))).
  { induction l as [|p l IH]; intros k H; [reflexivity|]. cbn [length seq combine map fst snd]. rewrite IH.
    - f_equal. specialize (H 0 p eq_refl). rewrite Nat.add_0_r in H. unfold edge. rewrite (AT _ _ H). destruct (P1 _ _ H) as (q & _ & Q & _). rewrite Q, (AT _ _ Q). reflexivity.
    - intros j q N. rewrite Nat.add_succ_comm. exact (H (S j) q N). }
  apply G. intros j p N. exact N.
Qed.
