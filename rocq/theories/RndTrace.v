(** The history of a sweep in which crossing points are rounded: two neighbours are in order
    from now on, or at least up to a point between them where a line ends that is still to
    come. *)
From Coq Require Import ZArith QArith List Bool Arith Lia Lqa.
From Verif Require Import GeomModel GeomSpec GeomProofs EventsModel EventsSpec EventsProofs ClipModel ClipProofs SegOrder SegPair SegTrace DynOrder DynTrace.
Import ListNotations.
Local Open Scope Z_scope.

Section Rnd.
Variable v : nat -> cseg.
Variable mk : nat -> nat -> Prop.
Hypothesis mk_trans : forall i j k, mk i j -> mk j k -> mk i k.
Hypothesis mk_refl : forall i, mk i i.
Hypothesis mk_sym : forall i j, mk i j -> mk j i.
Notation ff k := (fev (v k) k false).
Notation bb k := (bev (v k) k false).
Notation ord := (ord v).

(** An end [b] of a line whose event [x] has not been delivered. *)
Definition wit (all t : list ev) (b : point) : Prop := exists w x, In (ff w) all /\ In x all /\ ~ In x t /\
  ((vt (v w) = false /\ x = bb w /\ b = sg_pb (v w)) \/ (vt (v w) = true /\ x = ff w /\ (b = sg_pa (v w) \/ b = sg_pb (v w)))).
(** The point is between the two lines. *)
Definition betw (b : point) (g h : cseg) : Prop := (cover g (px b) -> injY b <= lo g (px b))%Q /\ (cover h (px b) -> hi h (px b) <= injY b)%Q.
Definition wks (W : point -> Prop) (X : Z) (g h : cseg) : Prop := twin mk g h \/ sep mk X None g h \/ exists b, W b /\ X <= px b /\ sep mk X (Some (px b)) g h /\ betw b g h.
Definition wk (all t : list ev) (X : Z) (n m : nat) : Prop := wks (wit all t) X (v n) (v m).

Lemma wks_over W X g h : over mk X None g h -> wks W X g h.
Proof. intros [T|S]; [left|right; left]; assumption. Qed.
Lemma wks_mono (W W' : point -> Prop) X g h : (forall b, W b -> W' b) -> wks W X g h -> wks W' X g h.
Proof. intros H [T|[S|(b & B & R)]]; [left|right; left|right; right; exists b]; auto. Qed.
Lemma wks_later (W : point -> Prop) X X' g h : X <= X' -> (forall b, W b -> X' <= px b) -> wks W X g h -> wks W X' g h.
Proof.
  intros L H [T|[S|(b & B & R & S & U)]]; [left; exact T|right; left; intros x A; apply S; lia|right; right]. exists b. split; [exact B|]. split; [apply H; exact B|]. split; [|exact U]. intros x A. apply S. lia.
Qed.
Lemma wks_rel (W : point -> Prop) X y g h : wks W X g h -> X <= y -> (forall b, W b -> y <= px b) -> cover g y -> cover h y -> rel mk y g h.
Proof. intros [T|[S|(b & B & R & S & U)]] L H Cg Ch; [left; exact T|right; apply S; auto; exact I|right; apply S; auto; apply H; exact B]. Qed.
Lemma wks_now (W : point -> Prop) X g h : wks W X g h -> cover g X -> cover h X -> rel mk X g h.
Proof. intros [T|[S|(b & B & R & S & U)]] Cg Ch; [left; exact T|right; apply S; auto; [lia|exact I]|right; apply S; auto; lia]. Qed.
Lemma wks_rel2 (W : point -> Prop) far X g h : wks W X g h -> cover g X -> cover h X -> (far = true -> forall b, W b -> X + 1 <= px b) -> (far = true -> vt g = false -> X + 1 <= px (sg_pb g)) -> (far = true -> vt h = false -> X + 1 <= px (sg_pb h)) -> rel2 mk far X g h.
Proof.
  intros K Cg Ch WB Fg Fh. split; [apply (wks_now W); assumption|]. intros F Vg Vh _. apply (wks_rel W X); auto; [lia| |]; unfold cover in *; [specialize (Fg F Vg)|specialize (Fh F Vh)]; lia.
Qed.
Lemma end_lo_hi n : good n -> (lo n (px (sg_pb n)) <= injY (sg_pb n) <= hi n (px (sg_pb n)))%Q.
Proof.
  intros G. destruct (vt n) eqn:V.
  - pose proof (vlo n (px (sg_pb n)) V) as (A & B & C & D). unfold injY. split; assumption.
  - destruct (nlo n (px (sg_pb n)) V) as (-> & ->). pose proof (yq_pb n G V) as E. unfold injX in E. rewrite E. split; apply Qle_refl.
Qed.
(** Taking away the line in the middle. *)
Lemma wks_join (W : point -> Prop) X p n q : good p -> good n -> good q -> cover n X -> W (sg_pb n) -> wks W X p n -> wks W X n q -> wks W X p q.
Proof.
  intros Gp Gn Gq Cn WB A B. pose proof Cn as (C1 & C2). pose proof (end_lo_hi n Gn) as (E1 & E2).
  destruct A as [T|A].
  { destruct (twin_geom mk p n Gp Gn T) as (_ & TC & TL & _). destruct B as [T'|[S|(b & Wb & R & S & U1 & U2)]].
    - left. eapply twin_trans; eauto.
    - right. left. intros x X1 X2 X3 X4. eapply pt_twin_l; [exact mk_trans|exact Gp|exact Gn|exact T|]. apply S; auto. apply TC. exact X3.
    - right. right. exists b. split; [exact Wb|]. split; [exact R|]. split.
      + intros x X1 X2 X3 X4. eapply pt_twin_l; [exact mk_trans|exact Gp|exact Gn|exact T|]. apply S; auto. apply TC. exact X3.
      + split; [intros H; rewrite TL; apply U1, TC, H|exact U2]. }
  destruct B as [T|B].
  { destruct (twin_geom mk n q Gn Gq T) as (_ & TC & _ & TH). destruct A as [S|(b & Wb & R & S & U1 & U2)].
    - right. left. intros x X1 X2 X3 X4. eapply pt_twin_r; [exact mk_trans|exact Gn|exact Gq| |exact T]. apply S; auto. apply TC. exact X4.
    - right. right. exists b. split; [exact Wb|]. split; [exact R|]. split.
      + intros x X1 X2 X3 X4. eapply pt_twin_r; [exact mk_trans|exact Gn|exact Gq| |exact T]. apply S; auto. apply TC. exact X4.
      + split; [exact U1|intros H; rewrite <- TH; apply U2, TC, H]. }
  right. right.
  assert (PTS : forall l, l <= px (sg_pb n) -> sep mk X (Some l) p n -> sep mk X (Some l) n q -> sep mk X (Some l) p q).
  { intros l L S1 S2 x X1 X2 X3 X4. cbn in X2. assert (Cx : cover n x) by (unfold cover; lia). eapply pt_trans; [exact mk_trans|exact Gn|apply S1; auto|apply S2; auto]. }
  assert (LESS : forall L l g h, sep mk X L g h -> upto L l -> sep mk X (Some l) g h).
  { intros L l g h S U x X1 X2. cbn in X2. apply S; [exact X1|]. destruct L; cbn in *; [lia|exact I]. }
  assert (CA : exists L, sep mk X L p n /\ (L = None \/ exists b, L = Some (px b) /\ W b /\ X <= px b /\ betw b p n)) by (destruct A as [S|(b & Wb & R & S & U)]; [exists None; auto|exists (Some (px b)); split; [exact S|right; exists b; auto]]).
  assert (CB : exists L, sep mk X L n q /\ (L = None \/ exists b, L = Some (px b) /\ W b /\ X <= px b /\ betw b n q)) by (destruct B as [S|(b & Wb & R & S & U)]; [exists None; auto|exists (Some (px b)); split; [exact S|right; exists b; auto]]).
  destruct CA as (LA & SA & CA). destruct CB as (LB & SB & CB). clear A B.
  assert (MID : upto LA (px (sg_pb n)) -> upto LB (px (sg_pb n)) -> exists b, W b /\ X <= px b /\ sep mk X (Some (px b)) p q /\ betw b p q).
  { intros UA UB. exists (sg_pb n). split; [exact WB|]. split; [exact C2|]. split; [apply PTS; [lia|eapply LESS; eassumption|eapply LESS; eassumption]|].
    assert (Ce : cover n (px (sg_pb n))) by (unfold cover; lia). split; intros H.
    - destruct (SA (px (sg_pb n)) C2 UA H Ce) as (Q & _). lra.
    - destruct (SB (px (sg_pb n)) C2 UB Ce H) as (Q & _). lra. }
  assert (LEFT : forall b, LA = Some (px b) -> W b -> X <= px b -> betw b p n -> px b <= px (sg_pb n) -> upto LB (px b) -> exists b, W b /\ X <= px b /\ sep mk X (Some (px b)) p q /\ betw b p q).
  { intros b -> Wb R (U1 & U2) L UB. exists b. split; [exact Wb|]. split; [exact R|]. split; [apply PTS; [exact L|exact SA|eapply LESS; eassumption]|].
    assert (Ce : cover n (px b)) by (unfold cover; lia). split; [exact U1|]. intros H. destruct (SB (px b) R UB Ce H) as (Q & _). pose proof (lo_hi n (px b)). specialize (U2 Ce). lra. }
  assert (RIGHT : forall b, LB = Some (px b) -> W b -> X <= px b -> betw b n q -> px b <= px (sg_pb n) -> upto LA (px b) -> exists b, W b /\ X <= px b /\ sep mk X (Some (px b)) p q /\ betw b p q).
  { intros b -> Wb R (U1 & U2) L UA. exists b. split; [exact Wb|]. split; [exact R|]. split; [apply PTS; [exact L|eapply LESS; eassumption|exact SB]|].
    assert (Ce : cover n (px b)) by (unfold cover; lia). split; [|exact U2]. intros H. destruct (SA (px b) R UA H Ce) as (Q & _). pose proof (lo_hi n (px b)). specialize (U1 Ce). lra. }
  destruct CA as [->|(b1 & EA & W1 & R1 & U1)], CB as [->|(b2 & EB & W2 & R2 & U2)].
  - apply MID; exact I.
  - destruct (Z_le_gt_dec (px b2) (px (sg_pb n))) as [L|L]; [apply (RIGHT b2); auto; exact I|apply MID; [exact I|rewrite EB; cbn; lia]].
  - destruct (Z_le_gt_dec (px b1) (px (sg_pb n))) as [L|L]; [apply (LEFT b1); auto; exact I|apply MID; [rewrite EA; cbn; lia|exact I]].
  - destruct (Z_le_gt_dec (px b1) (px (sg_pb n))) as [L|L]; destruct (Z_le_gt_dec (px b2) (px (sg_pb n))) as [L'|L'].
    + destruct (Z_le_gt_dec (px b1) (px b2)) as [K|K]; [apply (LEFT b1); auto; rewrite EB; cbn; lia|apply (RIGHT b2); auto; rewrite EA; cbn; lia].
    + apply (LEFT b1); auto. rewrite EB. cbn. lia.
    + apply (RIGHT b2); auto. rewrite EA. cbn. lia.
    + apply MID; [rewrite EA|rewrite EB]; cbn; lia.
Qed.

(** * The history *)
Section All.
Variable all : list ev.
Inductive rtr : list ev -> list nat -> Prop :=
| r_nil : rtr [] []
| r_in e s A B : rtr s (A ++ B) -> is_f e = true -> (forall e', In e' s -> e_node e' <> e_node e) -> adj (wk all (e :: s) (e_x e)) (A ++ e_node e :: B) -> ord (A ++ e_node e :: B) ->
    (forall k, In k (A ++ e_node e :: B) -> good (v k) /\ cover (v k) (e_x e)) -> rtr (e :: s) (A ++ e_node e :: B)
| r_out e s A B : rtr s (A ++ e_node e :: B) -> is_f e = false -> adj (wk all (e :: s) (e_x e)) (A ++ B) -> (forall k, In k (A ++ B) -> good (v k) /\ cover (v k) (e_x e)) -> rtr (e :: s) (A ++ B).
Lemma r_mem s R : rtr s R -> NoDup R /\ forall n, In n R <-> (exists e, In e s /\ is_f e = true /\ e_node e = n) /\ (forall e, In e s -> is_f e = false -> e_node e <> n).
Proof.
  induction 1 as [|e s A B T IH F NEW AD O CV|e s A B T (ND & IH) F AD CV].
  - split; [constructor|]. intros n. cbn. split; [intros []|]. intros ((e & [] & _) & _).
  - apply mem_in; assumption.
  - pose proof ND as ND'. apply NoDup_remove in ND' as (ND1 & NI). split; [exact ND1|]. intros n. split.
    + intros I. assert (J : In n (A ++ e_node e :: B)) by (apply in_app_or in I; apply in_or_app; cbn; tauto). apply IH in J as ((e' & I2 & F2 & Q) & W).
      split; [exists e'; cbn; auto|]. intros e2 [<-|I3] F3; [|apply W; assumption]. intros Q2. apply NI. rewrite Q2. exact I.
    + intros ((e' & [<-|I] & F2 & Q) & W); [congruence|]. assert (J : In n (A ++ e_node e :: B)) by (apply IH; split; [eauto|intros e2 I2; apply W; cbn; auto]).
      apply in_app_or in J as [J|[J|J]]; [apply in_or_app; auto| |apply in_or_app; auto]. exfalso. apply (W e); cbn; auto.
Qed.
Lemma r_adj e t R : rtr (e :: t) R -> adj (wk all (e :: t) (e_x e)) R.
Proof. inversion 1; subst; assumption. Qed.
Lemma r_ord s R : rtr s R -> ord R.
Proof. induction 1; try assumption; [exact I|]. eapply ord_drop; eassumption. Qed.
Lemma r_cover e t R : rtr (e :: t) R -> forall k, In k R -> good (v k) /\ cover (v k) (e_x e).
Proof. inversion 1; subst; assumption. Qed.
Lemma rtr_suffix s2 t : forall R, rtr (s2 ++ t) R -> exists Rt, rtr t Rt /\ path v t Rt (s2 ++ t) R.
Proof.
  induction s2 as [|e s2 IH]; intros R D; [exists R; split; [exact D|constructor]|]. cbn [app] in *. inversion D as [|? ? A B D' F NEW AD O CV E1 E2|? ? A B D' F AD CV E1 E2]; subst; destruct (IH _ D') as (Rt & T & P); exists Rt; (split; [exact T|]).
  - apply p_in; assumption.
  - apply p_out; [exact P|exact F|]. eapply r_ord; exact D'.
Qed.
End All.
Lemma rtr_mono all all' s R : rtr all s R -> (forall t b, incl t s -> wit all t b -> wit all' t b) -> rtr all' s R.
Proof.
  induction 1 as [|e s A B T IH F NEW AD O CV|e s A B T IH F AD CV]; intros H; [constructor|apply r_in|apply r_out]; auto.
  - apply IH. intros t b I. apply H. intros x J. right. apply I, J.
  - eapply adj_impl; [|exact AD]. intros a b _ _. apply wks_mono. intros c. apply H. intros x J. exact J.
  - apply IH. intros t b I. apply H. intros x J. right. apply I, J.
  - eapply adj_impl; [|exact AD]. intros a b _ _. apply wks_mono. intros c. apply H. intros x J. exact J.
Qed.
(** Taking away a line. *)
Lemma adj_remove (P P' : nat -> nat -> Prop) n R : NoDup R -> (forall a b, In a R -> In b R -> P a b -> P' a b) -> (forall a b, In a R -> In n R -> In b R -> P a n -> P n b -> P' a b) -> adj P R -> adj P' (remove Nat.eq_dec n R).
Proof.
  intros ND M J AD. destruct (in_dec Nat.eq_dec n R) as [I|NI]; [|rewrite notin_remove by exact NI; eapply adj_impl; [|exact AD]; auto].
  apply in_split in I as (A & B & ->). rewrite remove_mid by exact ND. apply adj_app in AD as (AA & AB & C). apply adj_cons in AB as (C2 & AB). apply adj_app.
  assert (IA : forall x, In x A -> In x (A ++ n :: B)) by (intros; apply in_or_app; auto). assert (IB : forall x, In x B -> In x (A ++ n :: B)) by (intros; apply in_or_app; right; right; auto). assert (IN : In n (A ++ n :: B)) by (apply in_or_app; right; left; reflexivity).
  split; [eapply adj_impl; [|exact AA]; intros; apply M; auto|]. split; [eapply adj_impl; [|exact AB]; intros; apply M; auto|]. intros a b La Hb. apply J; [apply IA, last_of_in, La|exact IN|apply IB, hd_error_in, Hb|apply C; [exact La|reflexivity]|apply C2, Hb].
Qed.
Lemma rtr_rm all all' n s R : rtr all s R -> (forall t b, incl t s -> wit all t b -> wit all' (rme n t) b) -> (forall t, incl t s -> wit all' (rme n t) (sg_pb (v n))) -> rtr all' (rme n s) (remove Nat.eq_dec n R).
Proof.
  induction 1 as [|e s A B T IH F NEW AD O CV|e s A B T IH F AD CV]; intros H1 H2; [constructor| |].
  - assert (IH' : rtr all' (rme n s) (remove Nat.eq_dec n (A ++ B))) by (apply IH; [intros t b I; apply H1; intros x J; right; apply I, J|intros t I; apply H2; intros x J; right; apply I, J]). clear IH.
    pose proof (mem_in v e s A B F NEW (r_mem _ _ _ T)) as (ND & _).
    destruct (Nat.eq_dec (e_node e) n) as [Q|Q].
    + assert (E : rme n (e :: s) = rme n s) by (unfold rme; cbn [filter]; rewrite Q, Nat.eqb_refl; reflexivity). rewrite E. rewrite remove_app', remove_cons. destruct (Nat.eq_dec n (e_node e)); [|congruence]. rewrite <- remove_app'. exact IH'.
    + assert (E : rme n (e :: s) = e :: rme n s) by (unfold rme; cbn [filter]; destruct (Nat.eqb_spec (e_node e) n); [contradiction|reflexivity]). rewrite E.
      assert (ER : remove Nat.eq_dec n (A ++ e_node e :: B) = remove Nat.eq_dec n A ++ e_node e :: remove Nat.eq_dec n B) by (rewrite remove_app', remove_cons; destruct (Nat.eq_dec n (e_node e)); [congruence|reflexivity]).
      rewrite ER. apply r_in; [rewrite <- remove_app'; exact IH'|exact F|intros e' I; apply rme_in in I as (I & _); apply NEW, I| | |].
      * rewrite <- ER, <- E. apply (adj_remove (wk all (e :: s) (e_x e))); [exact ND| | |exact AD].
        -- intros a b _ _. apply wks_mono. intros c. apply H1. intros x J. exact J.
        -- intros a b Ia In Ib P1 P2. destruct (CV a Ia) as (Ga & _). destruct (CV b Ib) as (Gb & _). destruct (CV n In) as (Gn & Cn). apply (wks_join _ _ _ (v n)); auto.
           ++ apply H2. intros x J. exact J.
           ++ eapply wks_mono; [|exact P1]. intros c. apply H1. intros x J. exact J.
           ++ eapply wks_mono; [|exact P2]. intros c. apply H1. intros x J. exact J.
      * rewrite <- ER. apply ord_remove, O.
      * rewrite <- ER. intros k I. apply in_remove in I as (I & _). apply CV, I.
  - assert (IH' : rtr all' (rme n s) (remove Nat.eq_dec n (A ++ e_node e :: B))) by (apply IH; [intros t b I; apply H1; intros x J; right; apply I, J|intros t I; apply H2; intros x J; right; apply I, J]). clear IH.
    pose proof (r_mem _ _ _ T) as (ND & _). apply NoDup_remove_1 in ND.
    destruct (Nat.eq_dec (e_node e) n) as [Q|Q].
    + assert (E : rme n (e :: s) = rme n s) by (unfold rme; cbn [filter]; rewrite Q, Nat.eqb_refl; reflexivity). rewrite E. rewrite remove_app', remove_cons in IH'. destruct (Nat.eq_dec n (e_node e)); [|congruence]. rewrite <- remove_app' in IH'. exact IH'.
    + assert (E : rme n (e :: s) = e :: rme n s) by (unfold rme; cbn [filter]; destruct (Nat.eqb_spec (e_node e) n); [contradiction|reflexivity]). rewrite E, remove_app'.
      apply r_out; [|exact F| |].
      * rewrite remove_app', remove_cons in IH'. destruct (Nat.eq_dec n (e_node e)); [congruence|exact IH'].
      * rewrite <- remove_app', <- E. apply (adj_remove (wk all (e :: s) (e_x e))); [exact ND| | |exact AD].
        -- intros a b _ _. apply wks_mono. intros c. apply H1. intros x J. exact J.
        -- intros a b Ia In Ib P1 P2. destruct (CV a Ia) as (Ga & _). destruct (CV b Ib) as (Gb & _). destruct (CV n In) as (Gn & Cn). apply (wks_join _ _ _ (v n)); auto.
           ++ apply H2. intros x J. exact J.
           ++ eapply wks_mono; [|exact P1]. intros c. apply H1. intros x J. exact J.
           ++ eapply wks_mono; [|exact P2]. intros c. apply H1. intros x J. exact J.
      * rewrite <- remove_app'. intros k I. apply in_remove in I as (I & _). apply CV, I.
Qed.

(** * The line whose end it is *)
Lemma past_end X b g h : sep mk X (Some X) g h -> (px (sg_pb g) = X \/ px (sg_pb h) = X) -> b = None -> sep mk X b g h.
Proof. intros S E -> x X1 _ Cg Ch. assert (x = X) by (unfold cover in *; lia). subst x. apply S; auto; cbn; lia. Qed.
Section Resolve.
Variables (X : Z) (A B : list nat) (w : nat) (b : point).
Hypothesis AD : adj (fun n m => rel mk X (v n) (v m)) (A ++ w :: B).
Hypothesis CV : forall k, In k (A ++ w :: B) -> good (v k) /\ cover (v k) X.
Hypothesis ST : forall k, In k (A ++ B) -> vt (v k) = false -> px (sg_pa (v k)) < X.
Hypothesis WE : px (sg_pb (v w)) = X.
Hypothesis BX : px b = X.
Hypothesis BW : (lo (v w) X <= injY b <= hi (v w) X)%Q.
Lemma above_w h : In h A -> (hi (v h) X <= injY b)%Q -> px (sg_pb (v h)) = X.
Proof.
  intros I L. destruct (CV h) as (Gh & Ch); [apply in_or_app; auto|]. destruct (CV w) as (Gw & Cw); [apply in_or_app; right; left; reflexivity|].
  assert (RL : rel mk X (v h) (v w)).
  { apply in_split in I as (l1 & l2 & ->). rewrite <- app_assoc in AD. apply (adj_trans (fun n m => rel mk X (v n) (v m)) (fun k => good (v k)) (l1 ++ h :: l2 ++ w :: B)) with (l1 := l1) (l2 := l2) (l3 := B); auto.
    - intros x y z Gx Gy Gz. apply (rel_trans mk mk_trans mk_sym X); assumption.
    - intros k J. apply CV. rewrite <- app_assoc. exact J. }
  destruct RL as [T|(R1 & R2)]; [destruct (twin_geom mk _ _ Gh Gw T) as (_ & TC & _); pose proof (proj1 (TC X) Ch) as (Z1 & Z2); assert (Ce : cover (v w) X) by exact Cw; destruct (vt (v h)) eqn:V; [apply vt_true in V; unfold cover in *; lia|]|].
  - assert (Q : cover (v w) (px (sg_pb (v h)))) by (apply TC; destruct Gh; unfold cover; lia). unfold cover in *. lia.
  - pose proof (lo_hi (v h) X). assert (E1 : (lo (v h) X == hi (v h) X)%Q) by lra. pose proof (flat_nv (v h) X Gh E1) as V. destruct R2 as (i & j & Ai & _); [lra|]. apply at_end_x in Ai as [Q|Q]; [|congruence]. exfalso. assert (px (sg_pa (v h)) < X) by (apply ST; [apply in_or_app; auto|exact V]). lia.
Qed.
Lemma below_w g : In g B -> (injY b <= lo (v g) X)%Q -> px (sg_pb (v g)) = X.
Proof.
  intros I L. destruct (CV g) as (Gg & Cg); [apply in_or_app; right; right; auto|]. destruct (CV w) as (Gw & Cw); [apply in_or_app; right; left; reflexivity|].
  assert (RL : rel mk X (v w) (v g)).
  { apply in_split in I as (l1 & l2 & ->). apply (adj_trans (fun n m => rel mk X (v n) (v m)) (fun k => good (v k)) (A ++ w :: l1 ++ g :: l2)) with (l1 := A) (l2 := l1) (l3 := l2); auto.
    - intros x y z Gx Gy Gz. apply (rel_trans mk mk_trans mk_sym X); assumption.
    - intros k J. apply CV. exact J. }
  destruct RL as [T|(R1 & R2)]; [destruct (twin_geom mk _ _ Gw Gg T) as (_ & TC & _)|].
  - assert (Q : cover (v w) (px (sg_pb (v g)))) by (apply TC; destruct Gg; unfold cover; lia). unfold cover in *. lia.
  - pose proof (lo_hi (v g) X). assert (E1 : (lo (v g) X == hi (v g) X)%Q) by lra. pose proof (flat_nv (v g) X Gg E1) as V. destruct R2 as (i & j & _ & Aj & _); [lra|]. apply at_end_x in Aj as [Q|Q]; [|congruence]. exfalso. assert (px (sg_pa (v g)) < X) by (apply ST; [apply in_or_app; auto|exact V]). lia.
Qed.
Lemma strong_a g h : In g A -> In h A -> sep mk X (Some X) (v g) (v h) -> betw b (v g) (v h) -> sep mk X None (v g) (v h).
Proof.
  intros Ig Ih S (_ & U). eapply past_end; [exact S| |reflexivity]. right. apply above_w; [exact Ih|]. rewrite BX in U. apply U. apply CV. apply in_or_app. auto.
Qed.
Lemma strong_b g h : In g B -> In h B -> sep mk X (Some X) (v g) (v h) -> betw b (v g) (v h) -> sep mk X None (v g) (v h).
Proof.
  intros Ig Ih S (U & _). eapply past_end; [exact S| |reflexivity]. left. apply below_w; [exact Ig|]. rewrite BX in U. apply U. apply CV. apply in_or_app. right. right. auto.
Qed.
End Resolve.
End Rnd.
