(** Proofs about splitting the lines at their intersections. *)
From Coq Require Import ZArith List Bool Arith Permutation Sorted Lia.
From Verif Require Import GeomModel BalanceModel EventsModel EventsSpec EventsProofs OutModel CycleProofs PointSinkModel ClipModel ClipSpec.
Import ListNotations.

Notation ev := EventsModel.event.
Definition ekey (e : ev) : Z * event_type * nat * nat := (e_x e, e_type e, e_a e, e_b e).
Definition del (e : ev) : ev := EventsModel.mk_event (e_x e) (e_a e) (e_b e) (e_node e) (e_type e) true.
Lemma ekey_dec (k1 k2 : Z * event_type * nat * nat) : {k1 = k2} + {k1 <> k2}.
Proof. repeat decide equality. Defined.
Definition delk k (e : ev) : ev := if ekey_dec (ekey e) k then del e else e.

Lemma event_lt_swo : strict_weak_order ev event_lt.
Proof.
  split.
  - intros x y. unfold event_lt, type_eqb.
    repeat match goal with |- context [if negb (?a =? ?b) then _ else _] => destruct (Nat.eqb_spec a b); cbn [negb] | |- context [if negb (?a =? ?b)%Z then _ else _] => destruct (Z.eqb_spec a b); cbn [negb] end; rewrite ?Z.ltb_lt, ?Z.ltb_ge, ?Nat.ltb_lt, ?Nat.ltb_ge; intros; lia.
  - intros x y z. unfold event_lt, type_eqb.
    repeat match goal with |- context [if negb (?a =? ?b) then _ else _] => destruct (Nat.eqb_spec a b); cbn [negb] | |- context [if negb (?a =? ?b)%Z then _ else _] => destruct (Z.eqb_spec a b); cbn [negb] end; rewrite ?Z.ltb_lt, ?Z.ltb_ge, ?Nat.ltb_lt, ?Nat.ltb_ge; intros; lia.
Qed.
Lemma ekey_delk k e : ekey (delk k e) = ekey e.
Proof. unfold delk. destruct (ekey_dec (ekey e) k); reflexivity. Qed.
Lemma node_delk k e : e_node (delk k e) = e_node e.
Proof. unfold delk. destruct (ekey_dec (ekey e) k); reflexivity. Qed.
Lemma event_lt_key x y x' y' : ekey x = ekey x' -> ekey y = ekey y' -> event_lt x y = event_lt x' y'.
Proof. unfold ekey, event_lt. intros H1 H2. injection H1 as -> -> -> ->. injection H2 as -> -> -> ->. reflexivity. Qed.
Lemma event_lt_irrefl x : event_lt x x = false.
Proof. unfold event_lt, type_eqb. rewrite Z.eqb_refl, !Nat.eqb_refl. cbn. apply Nat.ltb_irrefl. Qed.

Notation EI := (EventsProofs.inv ev ev (fun e => e) event_lt).
Notation srt := (in_order ev event_lt).

Lemma srt_delk k l : srt l -> srt (map (delk k) l).
Proof.
  unfold in_order. induction 1 as [|x l S IH F]; cbn; constructor; [exact IH|]. rewrite Forall_map. eapply Forall_impl; [|exact F].
  intros y Y. unfold not_after in *. rewrite <- Y. apply event_lt_key; apply ekey_delk.
Qed.
Lemma set_at_delk l : forall i x l', NoDup (map ekey l) -> nth_error l i = Some x -> set_at ev l i (del x) = Some l' -> l' = map (delk (ekey x)) l.
Proof.
  induction l as [|y l IH]; intros [|i] x l' ND N S; cbn in *; try discriminate; inversion ND as [|? ? N1 ND1]; subst.
  - injection N as ->. injection S as <-. unfold delk at 1. destruct (ekey_dec (ekey x) (ekey x)) as [_|X]; [|congruence]. f_equal.
    rewrite <- (map_id l) at 1. apply map_ext_in. intros e I. unfold delk. destruct (ekey_dec (ekey e) (ekey x)) as [Q|]; [|reflexivity]. exfalso. apply N1. rewrite <- Q. apply in_map. exact I.
  - destruct (set_at ev l i (del x)) as [l1|] eqn:G; [|discriminate]. injection S as <-. f_equal; [|eapply IH; eassumption].
    unfold delk. destruct (ekey_dec (ekey y) (ekey x)) as [Q|]; [|reflexivity]. exfalso. apply N1. rewrite Q. apply in_map. eapply nth_error_In; exact N.
Qed.
Lemma EI_perm q s all : EI q s all false -> Permutation all (q_events ev q).
Proof. inversion 1 as [L J c E1 E2 S E3 E4 B E5 P|]; subst. rewrite E1. rewrite map_id in P. exact P. Qed.
Lemma EI_delete q s all i x q' : EI q s all false -> NoDup (map ekey all) -> nth_error (q_events ev q) i = Some x ->
  update_at ev del i q = Some q' -> EI q' (map (delk (ekey x)) s) (map (delk (ekey x)) all) false.
Proof.
  intros I ND N U. assert (ND' : NoDup (map ekey (q_events ev q))) by (eapply Permutation_NoDup; [apply Permutation_map; eapply EI_perm; exact I|exact ND]).
  unfold update_at in U. rewrite N in U. destruct (set_at ev (q_events ev q) i (del x)) as [l'|] eqn:S; [|discriminate]. injection U as <-.
  apply (set_at_delk _ _ _ _ ND' N) in S. subst l'.
  inversion I as [L J c E1 E2 S E3 E4 B E5 P|]; subst.
  apply (inv_normal _ _ _ _ _ _ _ (map (delk (ekey x)) L) (map (delk (ekey x)) J) c); cbn [q_events q_last q_new q_cur]; try assumption.
  - rewrite E1, map_app. reflexivity.
  - rewrite map_length. exact E2.
  - rewrite map_id in *. apply srt_delk. exact S.
  - rewrite map_length. exact B.
  - rewrite !map_id. rewrite map_rev, firstn_map. reflexivity.
  - rewrite map_id in *. rewrite <- map_app. apply Permutation_map. exact P.
Qed.
Lemma EI_add q s all e : EI q s all false -> EI (add_event ev e q) s (e :: all) false.
Proof.
  inversion 1 as [L J c E1 E2 S E3 E4 B E5 P|]; subst. apply (inv_normal _ _ _ _ _ _ _ L (J ++ [e]) c); cbn; try assumption; try reflexivity.
  - rewrite E1, app_assoc. reflexivity.
  - rewrite P. rewrite app_assoc, (map_app _ (L ++ J)). cbn. apply Permutation_cons_append.
Qed.
Lemma EI_in q s all u e : EI q s all u -> In e s -> In e all.
Proof.
  intros I Q. assert (exists L X c, s = rev (firstn c L) /\ Permutation all (L ++ X)) as (L & X & c & E & P).
  { inversion I as [L J c E1 E2 S E3 E4 B E5 P|L J e0 p l c E1 E2 S E3 G LJ E4 B PC E5 P]; subst; rewrite map_id in *; eauto. }
  rewrite P. apply in_or_app. left. rewrite E, <- in_rev in Q. rewrite <- (firstn_skipn c L). apply in_or_app. left. exact Q.
Qed.
Lemma EI_current q e s all : EI q (e :: s) all false -> nth_error (q_events ev q) (Z.to_nat (q_cur ev q)) = Some e.
Proof.
  inversion 1 as [L J c E1 E2 S E3 E4 B E5 P|]; subst. rewrite map_id in *. rewrite E4, E1. destruct c as [|c]; [discriminate|].
  replace (Z.to_nat (Z.of_nat (Datatypes.S c) - 1)) with c by lia. rewrite nth_error_app1 by lia.
  destruct (nth_error L c) as [x|] eqn:N; [|apply nth_error_None in N; lia]. rewrite (rev_firstn_S _ _ _ N) in E5. injection E5 as -> _. reflexivity.
Qed.

(** The events of a line. *)
Definition vert (g : cseg) : bool := (px (sg_pa g) =? px (sg_pb g))%Z.
Definition fev (g : cseg) n d := EventsModel.mk_event (px (sg_pa g)) (sg_a g) (sg_b g) n (if vert g then VForward else Forward) d.
Definition bev (g : cseg) n d := EventsModel.mk_event (px (sg_pb g)) (sg_b g) (sg_a g) n (if vert g then VBackward else Backward) d.
Lemma fev_bev g n d n' d' : (px (sg_pa g) <= px (sg_pb g))%Z -> event_lt (fev g n d) (bev g n' d') = true.
Proof.
  intros L. unfold event_lt, fev, bev, vert. cbn [e_x e_type e_a e_b]. destruct (Z.eqb_spec (px (sg_pa g)) (px (sg_pb g))) as [Q|Q]; cbn [negb]; [reflexivity|].
  apply Z.ltb_lt. lia.
Qed.

(** A line stands for the edge that starts at point i. *)
Definition on_edge (pts : list cpoint) (g : cseg) (i : nat) : Prop :=
  exists p, nth_error pts i = Some p /\ ((sg_a g = i /\ sg_b g = c_next p) \/ (sg_b g = i /\ sg_a g = c_next p)).
Definition live (pts : list cpoint) (nodes : list cseg) (n : nat) : Prop := exists g i, nth_error nodes n = Some g /\ on_edge pts g i.
Definition same_pair (a b c d : nat) : Prop := (a = c /\ b = d) \/ (a = d /\ b = c).
Definition is_f (e : ev) : bool := match e_type e with Forward | VForward => true | _ => false end.
Lemma is_f_fev g n d : is_f (fev g n d) = true.
Proof. unfold is_f, fev, vert. cbn [e_type]. destruct (_ =? _)%Z; reflexivity. Qed.
Lemma is_f_bev g n d : is_f (bev g n d) = false.
Proof. unfold is_f, bev, vert. cbn [e_type]. destruct (_ =? _)%Z; reflexivity. Qed.

Section Inv.
Variable pts0 : list cpoint.
Record ok (st : cstate) (s all : list ev) (u : bool) : Prop := {
  ok_loops : proper_loops (s_pts st);
  ok_log : grown (links pts0) (s_log st) (links (s_pts st));
  ok_orig : forall i p0, nth_error pts0 i = Some p0 -> exists p, nth_error (s_pts st) i = Some p /\ c_data p = c_data p0 /\ c_set p = c_set p0;
  ok_q : EI (s_events st) s all u;
  ok_keys : NoDup (map ekey all);
  ok_ev : forall e, In e all -> exists g, nth_error (s_nodes st) (e_node e) = Some g /\ (e = fev g (e_node e) (e_deleted e) \/ e = bev g (e_node e) (e_deleted e));
  ok_nodes : forall n g, nth_error (s_nodes st) n = Some g -> (px (sg_pa g) <= px (sg_pb g))%Z /\
    exists pa pb, nth_error (s_pts st) (sg_a g) = Some pa /\ c_data pa = sg_pa g /\ nth_error (s_pts st) (sg_b g) = Some pb /\ c_data pb = sg_pb g;
  ok_pairs : forall n m g h, nth_error (s_nodes st) n = Some g -> nth_error (s_nodes st) m = Some h -> same_pair (sg_a g) (sg_b g) (sg_a h) (sg_b h) -> n = m;
  ok_fwd : forall e, In e all -> e_deleted e = false -> is_f e = true -> live (s_pts st) (s_nodes st) (e_node e);
  ok_bwd : forall e, In e s -> e_deleted e = false -> is_f e = false -> live (s_pts st) (s_nodes st) (e_node e) /\ ~ In (e_node e) (s_sweep st);
  ok_sw : forall n, In n (s_sweep st) -> live (s_pts st) (s_nodes st) n }.

Lemma ok_rand st s all u r : ok st s all u -> ok (with_rand st r) s all u.
Proof. intros []; constructor; assumption. Qed.

Definition skel (p : cpoint) := (c_data p, c_next p, c_set p).
Definition same_skel (a b : list cpoint) : Prop := forall i, option_map skel (nth_error a i) = option_map skel (nth_error b i).
Lemma skel_get a b i p : same_skel a b -> nth_error a i = Some p -> exists q, nth_error b i = Some q /\ c_data q = c_data p /\ c_next q = c_next p /\ c_set q = c_set p.
Proof.
  intros S N. specialize (S i). rewrite N in S. cbn in S. destruct (nth_error b i) as [q|]; [|discriminate]. unfold skel in S. cbn in S. injection S as S1 S2 S3. exists q. auto.
Qed.
Lemma skel_sym a b : same_skel a b -> same_skel b a.
Proof. intros S i. symmetry. apply S. Qed.
Lemma skel_links a b : same_skel a b -> links a = links b.
Proof.
  intros S. apply nth_error_ext'. intros i. unfold links. rewrite !nth_error_map. specialize (S i). destruct (nth_error a i), (nth_error b i); cbn in *; try discriminate; [|reflexivity].
  unfold skel in S. congruence.
Qed.
Lemma skel_loops a b : same_skel a b -> proper_loops a -> proper_loops b.
Proof.
  intros S (P1 & P2). pose proof (skel_sym _ _ S) as S'. split.
  - intros i p N. destruct (skel_get _ _ _ _ S' N) as (p' & N' & _ & X2 & X3). destruct (P1 i p' N') as (q & r & Q & R & Y1 & Y2 & Y3).
    destruct (skel_get _ _ _ _ S Q) as (q' & Q' & _ & Z2 & Z3). destruct (skel_get _ _ _ _ S R) as (r' & R' & _).
    exists q', r'. rewrite <- X2, Z2. split; [exact Q'|]. split; [exact R'|]. split; [exact Y1|]. split; [exact Y2|]. congruence.
  - intros i j p q N M E. destruct (skel_get _ _ _ _ S' N) as (p' & N' & _ & X2 & X3). destruct (skel_get _ _ _ _ S' M) as (q' & M' & _ & Z2 & Z3).
    eapply P2; [exact N'|exact M'|congruence].
Qed.
Lemma skel_live a b nodes n : same_skel a b -> live a nodes n -> live b nodes n.
Proof.
  intros S (g & i & G & p & N & H). destruct (skel_get _ _ _ _ S N) as (q & Q & _ & X & _). exists g, i. split; [exact G|]. exists q. rewrite X. auto.
Qed.
Lemma ok_skel st s all u pts : ok st s all u -> same_skel (s_pts st) pts -> ok (with_pts st pts) s all u.
Proof.
  intros O S. destruct O as [O1 O2 O3 O4 O5 O6 O7 O8 O9 O10 O11]. constructor; cbn [with_pts s_pts s_nodes s_events s_sweep s_log]; try assumption.
  - eapply skel_loops; eassumption.
  - rewrite <- (skel_links _ _ S). exact O2.
  - intros i p0 N. destruct (O3 i p0 N) as (p & P & D1 & D2). destruct (skel_get _ _ _ _ S P) as (q & Q & X1 & X2 & X3). exists q. split; [exact Q|]. split; congruence.
  - intros n g G. destruct (O7 n g G) as (L & pa & pb & A1 & A2 & B1 & B2). split; [exact L|].
    destruct (skel_get _ _ _ _ S A1) as (pa' & A1' & A3 & _). destruct (skel_get _ _ _ _ S B1) as (pb' & B1' & B3 & _). exists pa', pb'. split; [exact A1'|]. split; [congruence|]. split; [exact B1'|congruence].
  - intros e I D F. eapply skel_live; [exact S|]. auto.
  - intros e I D F. destruct (O10 e I D F) as (V & W). split; [|exact W]. eapply skel_live; [exact S|exact V].
  - intros n I. eapply skel_live; [exact S|]. auto.
Qed.
Lemma mark_skel st i st' : mark st i = Some st' -> exists pts, st' = with_pts st pts /\ same_skel (s_pts st) pts.
Proof.
  unfold mark. destruct (nth_error (s_pts st) i) as [p|] eqn:N; [|discriminate]. intros Q. injection Q as <-. eexists. split; [reflexivity|].
  intros j. destruct (Nat.eq_dec i j) as [<-|D]; [rewrite (put_same' _ _ _ _ N), N; reflexivity|rewrite put_other by exact D; reflexivity].
Qed.
Lemma ok_mark st i st' s all u : ok st s all u -> mark st i = Some st' -> ok st' s all u.
Proof. intros O M. apply mark_skel in M as (pts & -> & S). apply ok_skel; assumption. Qed.

(** Adding the events of a new line. *)
Lemma same_pair_sym a b c d : same_pair a b c d -> same_pair c d a b.
Proof. unfold same_pair. intros [(-> & ->)|(-> & ->)]; auto. Qed.
Lemma ev_pair e g : e = fev g (e_node e) (e_deleted e) \/ e = bev g (e_node e) (e_deleted e) -> same_pair (e_a e) (e_b e) (sg_a g) (sg_b g).
Proof. unfold same_pair. intros [->| ->]; cbn; auto. Qed.
Lemma nth_snoc {A} (l : list A) x n y : nth_error (l ++ [x]) n = Some y -> nth_error l n = Some y \/ (n = length l /\ y = x).
Proof.
  intros N. destruct (Nat.lt_ge_cases n (length l)) as [L|L]; [left; rewrite nth_error_app1 in N by exact L; exact N|].
  right. rewrite nth_error_app2 in N by exact L. destruct (n - length l) as [|k] eqn:E; cbn in N; [split; [lia|congruence]|destruct k; discriminate].
Qed.
Lemma nth_app_l {A} (l l' : list A) n y : nth_error l n = Some y -> nth_error (l ++ l') n = Some y.
Proof. intros N. rewrite nth_error_app1; [exact N|]. apply nth_error_Some. congruence. Qed.
Lemma live_app pts nodes n l : live pts nodes n -> live pts (nodes ++ l) n.
Proof. intros (g & i & G & E). exists g, i. split; [apply nth_app_l; exact G|exact E]. Qed.

Lemma ok_add st sa sb st' s all : ok st s all false -> add_fb_events st sa sb = Some st' ->
  (forall pa pb, nth_error (s_pts st) sa = Some pa -> nth_error (s_pts st) sb = Some pb -> (px (c_data pa) <= px (c_data pb))%Z) ->
  (exists i p, nth_error (s_pts st) i = Some p /\ same_pair sa sb i (c_next p)) ->
  (forall n g, nth_error (s_nodes st) n = Some g -> ~ same_pair sa sb (sg_a g) (sg_b g)) ->
  exists all' g, ok st' s all' false /\ s_pts st' = s_pts st /\ s_log st' = s_log st /\ s_sweep st' = s_sweep st /\ s_nodes st' = s_nodes st ++ [g] /\ sg_a g = sa /\ sg_b g = sb /\
    all' = bev g (length (s_nodes st)) false :: fev g (length (s_nodes st)) false :: all.
Proof.
  intros O A PX ED FR. unfold add_fb_events in A. destruct (nth_error (s_pts st) sa) as [pa|] eqn:NA; [|discriminate].
  destruct (nth_error (s_pts st) sb) as [pb|] eqn:NB; [|discriminate]. specialize (PX _ _ eq_refl eq_refl).
  set (g := mk_cseg sa sb (c_data pa) (c_data pb)) in *. set (n := length (s_nodes st)) in *.
  destruct (_ && _); [discriminate|].
  assert (Q : st' = mk_cs (s_pts st) (s_nodes st ++ [g]) (add_event ev (bev g n false) (add_event ev (fev g n false) (s_events st))) (s_sweep st) (s_rand st) (s_log st)) by (injection A as <-; reflexivity).
  subst st'. clear A. exists (bev g n false :: fev g n false :: all), g.
  split; [|repeat split; reflexivity].
  destruct O as [O1 O2 O3 O4 O5 O6 O7 O8 O9 O10 O11]. assert (NN : forall e, In e all -> e_node e < n).
  { intros e I. destruct (O6 e I) as (h & H & _). apply nth_error_Some. congruence. }
  assert (FK : forall e, In e all -> ~ same_pair sa sb (e_a e) (e_b e)).
  { intros e I P. destruct (O6 e I) as (h & H & V). apply (FR _ _ H). apply ev_pair in V. unfold same_pair in *.
    destruct P as [(-> & ->)|(-> & ->)]; destruct V as [(-> & ->)|(-> & ->)]; auto. }
  assert (LV : live (s_pts st) (s_nodes st ++ [g]) n).
  { destruct ED as (i & p & N & P). exists g, i. split; [unfold n; rewrite nth_error_app2, Nat.sub_diag by lia; reflexivity|]. exists p. split; [exact N|]. unfold same_pair in P. cbn. tauto. }
  constructor; cbn [s_pts s_nodes s_events s_sweep s_log]; try assumption.
  - apply EI_add, EI_add. exact O4.
  - cbn [map]. constructor; [|constructor].
    + intros [Q|Q]; [unfold ekey, fev, bev in Q; cbn in Q; destruct (vert g); discriminate|].
      apply in_map_iff in Q as (e & Q & I). apply (FK e I). unfold ekey, bev in Q. cbn in Q. injection Q as _ _ -> ->. right. auto.
    + intros Q. apply in_map_iff in Q as (e & Q & I). apply (FK e I). unfold ekey, fev in Q. cbn in Q. injection Q as _ _ -> ->. left. auto.
    + exact O5.
  - intros e [<-|[<-|I]].
    + exists g. cbn [e_node bev e_deleted]. split; [unfold n; rewrite nth_error_app2, Nat.sub_diag by lia; reflexivity|]. right. reflexivity.
    + exists g. cbn [e_node fev e_deleted]. split; [unfold n; rewrite nth_error_app2, Nat.sub_diag by lia; reflexivity|]. left. reflexivity.
    + destruct (O6 e I) as (h & H & V). exists h. split; [apply nth_app_l; exact H|exact V].
  - intros m h H. apply nth_snoc in H as [H|(-> & ->)]; [eapply O7; exact H|]. split; [exact PX|]. exists pa, pb. auto.
  - intros m1 m2 h1 h2 H1 H2 P. apply nth_snoc in H1 as [H1|(-> & ->)]; apply nth_snoc in H2 as [H2|(-> & ->)]; try reflexivity.
    + eapply O8; eassumption.
    + exfalso. apply (FR _ _ H1). apply same_pair_sym. exact P.
    + exfalso. apply (FR _ _ H2). exact P.
  - intros e [<-|[<-|I]] D F; [rewrite is_f_bev in F; discriminate|exact LV|]. apply live_app. auto.
  - intros e I D F. destruct (O10 e I D F) as (V & W). split; [apply live_app; exact V|exact W].
  - intros m I. apply live_app. auto.
Qed.

(** Deleting events. *)
Lemma in_delk k e l : In e (map (delk k) l) -> exists e', In e' l /\ e = delk k e' /\ ekey e = ekey e' /\ e_node e = e_node e' /\ is_f e = is_f e' /\ (e_deleted e = false -> e = e' /\ ekey e' <> k).
Proof.
  intros I. apply in_map_iff in I as (e' & <- & I). exists e'. split; [exact I|]. split; [reflexivity|]. split; [apply ekey_delk|]. split; [apply node_delk|].
  unfold delk. destruct (ekey_dec (ekey e') k) as [Q|Q]; split; auto. cbn. discriminate.
Qed.
Lemma ok_delete st s all i x q' : ok st s all false -> nth_error (q_events ev (s_events st)) i = Some x ->
  update_at ev del i (s_events st) = Some q' -> ok (with_events st q') (map (delk (ekey x)) s) (map (delk (ekey x)) all) false.
Proof.
  intros [O1 O2 O3 O4 O5 O6 O7 O8 O9 O10 O11] N U. constructor; cbn [with_events s_pts s_nodes s_events s_sweep s_log]; try assumption.
  - eapply EI_delete; eassumption.
  - rewrite map_map. rewrite (map_ext _ ekey) by apply ekey_delk. exact O5.
  - intros e I. apply in_delk in I as (e' & I & Q & K & NQ & _). destruct (O6 e' I) as (g & G & V). exists g. rewrite NQ. split; [exact G|].
    rewrite Q. unfold delk. destruct (ekey_dec (ekey e') (ekey x)); [|exact V]. destruct V as [->| ->]; cbn; auto.
  - intros e I D F. apply in_delk in I as (e' & I & _ & _ & _ & _ & X). destruct (X D) as (-> & _). auto.
  - intros e I D F. apply in_delk in I as (e' & I & _ & _ & _ & _ & X). destruct (X D) as (-> & _). auto.
Qed.
End Inv.

(** What holds as well if every line put back finds its place. *)
Record full (st : cstate) (s all : list ev) : Prop := {
  f_evs : forall n g, nth_error (s_nodes st) n = Some g -> exists d d', In (fev g n d) all /\ In (bev g n d') all;
  f_live : forall n g d, nth_error (s_nodes st) n = Some g -> live (s_pts st) (s_nodes st) n -> In (fev g n d) all -> d = false;
  f_sw : forall n g, nth_error (s_nodes st) n = Some g -> In (fev g n false) s -> (forall d, ~ In (bev g n d) s) -> In n (s_sweep st);
  f_bdel : forall n g, nth_error (s_nodes st) n = Some g -> In (bev g n true) all -> ~ live (s_pts st) (s_nodes st) n;
  f_swf : forall n, In n (s_sweep st) -> exists g, nth_error (s_nodes st) n = Some g /\ In (fev g n false) s;
  f_bf : forall n g d, nth_error (s_nodes st) n = Some g -> In (bev g n d) s -> exists d', In (fev g n d') s }.
(** Every edge has a line. *)
Definition covered (pts : list cpoint) (nodes : list cseg) (i : nat) : Prop := exists n g, nth_error nodes n = Some g /\ on_edge pts g i.

Lemma fev_neq_bev g n d g' n' d' : fev g n d <> bev g' n' d'.
Proof. intros Q. pose proof (f_equal is_f Q) as F. rewrite is_f_fev, is_f_bev in F. discriminate. Qed.
Lemma live_snoc pts nodes g n : live pts (nodes ++ [g]) n -> n <> length nodes -> live pts nodes n.
Proof. intros (h & i & H & E) D. apply nth_snoc in H as [H|(H & _)]; [|contradiction]. exists h, i. auto. Qed.

Lemma full_add st st' s all g : full st s all -> (forall e, In e s -> In e all) -> (forall e, In e all -> e_node e < length (s_nodes st)) ->
  s_pts st' = s_pts st -> s_sweep st' = s_sweep st -> s_nodes st' = s_nodes st ++ [g] ->
  full st' s (bev g (length (s_nodes st)) false :: fev g (length (s_nodes st)) false :: all).
Proof.
  intros [F1 F2 F3 F4 F5 F6] SA NL E1 E2 E3. set (n := length (s_nodes st)) in *.
  assert (NS : forall e, In e s -> e_node e < n) by (intros e I; apply NL, SA, I).
  constructor; rewrite ?E1, ?E2, ?E3.
  - intros m h H. apply nth_snoc in H as [H|(-> & ->)]; [destruct (F1 m h H) as (d & d' & A & B); exists d, d'; cbn; auto|]. exists false, false. cbn. auto.
  - intros m h d H L I. apply nth_snoc in H as [H|(-> & ->)].
    + assert (m < n) by (apply nth_error_Some; congruence). destruct I as [I|[I|I]]; [exfalso; symmetry in I; exact (fev_neq_bev _ _ _ _ _ _ I)|apply (f_equal e_node) in I; cbn in I; lia|].
      apply (F2 m h d H); [eapply live_snoc; [exact L|unfold n in *; lia]|exact I].
    + destruct I as [I|[I|I]]; [exfalso; symmetry in I; exact (fev_neq_bev _ _ _ _ _ _ I)|apply (f_equal e_deleted) in I; cbn in I; auto|]. apply NL in I. cbn in I. unfold n in *. lia.
  - intros m h H I J. apply nth_snoc in H as [H|(-> & ->)]; [eapply F3; eassumption|]. apply NS in I. cbn in I. unfold n in *. lia.
  - intros m h H I. apply nth_snoc in H as [H|(-> & ->)].
    + assert (m < n) by (apply nth_error_Some; congruence). destruct I as [I|[I|I]]; [apply (f_equal e_node) in I; cbn in I; lia|exfalso; exact (fev_neq_bev _ _ _ _ _ _ I)|].
      intros L. apply (F4 m h H I). eapply live_snoc; [exact L|unfold n in *; lia].
    + destruct I as [I|[I|I]]; [apply (f_equal e_deleted) in I; discriminate|exfalso; exact (fev_neq_bev _ _ _ _ _ _ I)|]. apply NL in I. cbn in I. unfold n in *. lia.
  - intros m I. destruct (F5 m I) as (h & H & J). exists h. split; [apply nth_app_l; exact H|exact J].
  - intros m h d H I. apply nth_snoc in H as [H|(-> & ->)]; [eapply F6; eassumption|]. apply NS in I. cbn in I. unfold n in *. lia.
Qed.
Lemma full_skel st s all pts : full st s all -> same_skel (s_pts st) pts -> full (with_pts st pts) s all.
Proof.
  intros [F1 F2 F3 F4 F5 F6] S. constructor; cbn [with_pts s_pts s_nodes s_events s_sweep s_log]; try assumption.
  - intros n g d G L I. eapply F2; [exact G| |exact I]. eapply skel_live; [apply skel_sym; exact S|exact L].
  - intros n g G I L. apply (F4 n g G I). eapply skel_live; [apply skel_sym; exact S|exact L].
Qed.
Lemma covered_skel a b nodes i : same_skel a b -> covered a nodes i -> covered b nodes i.
Proof. intros S (n & g & G & p & N & H). destruct (skel_get _ _ _ _ S N) as (q & Q & _ & X & _). exists n, g. split; [exact G|]. exists q. rewrite X. auto. Qed.
Lemma full_mark st i st' s all : full st s all -> mark st i = Some st' -> full st' s all.
Proof. intros F M. apply mark_skel in M as (pts & -> & S). apply full_skel; assumption. Qed.
Lemma full_rand st r s all : full st s all -> full (with_rand st r) s all.
Proof. intros []; constructor; assumption. Qed.
Definition all_covered (st : cstate) : Prop := forall i, i < length (s_pts st) -> covered (s_pts st) (s_nodes st) i.
Lemma all_covered_mark st i st' : all_covered st -> mark st i = Some st' -> all_covered st'.
Proof.
  intros C M. unfold mark in M. destruct (nth_error (s_pts st) i) as [p|] eqn:N; [|discriminate]. injection M as <-. intros j L. cbn [with_pts s_pts s_nodes] in *. rewrite put_length in L.
  eapply covered_skel; [|apply C; exact L]. intros k. destruct (Nat.eq_dec i k) as [<-|D]; [rewrite (put_same' _ _ _ _ N), N; reflexivity|rewrite put_other by exact D; reflexivity].
Qed.
Lemma delk_fev k g n d : delk k (fev g n d) = fev g n (if ekey_dec (ekey (fev g n d)) k then true else d).
Proof. unfold delk. destruct (ekey_dec (ekey (fev g n d)) k); reflexivity. Qed.
Lemma delk_bev k g n d : delk k (bev g n d) = bev g n (if ekey_dec (ekey (bev g n d)) k then true else d).
Proof. unfold delk. destruct (ekey_dec (ekey (bev g n d)) k); reflexivity. Qed.
