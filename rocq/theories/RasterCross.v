(** Proofs that the rasteriser finishes and is right for crossing edges, if crossings are
    not at whole heights and at most two edges pass through each. *)
From Coq Require Import List Bool Arith ZArith QArith Qround Permutation Sorted Lia Lqa.
From Verif Require Import GeomModel GeomSpec RasterModel RasterSpec RasterArith RasterOrder RasterRun RasterSpans RasterFinal RasterInput RasterEnds RasterGap.
Import ListNotations.
Local Open Scope Z_scope.

(** ** The order of events *)
Definition ev_ok (e : revent) : Prop := is_swap e = true -> proper (re_intr e).
Definition lt_e (a b : revent) : Prop := lt_k (key a) (key b) = true.
Definition le_e (a b : revent) : Prop := lt_k (key b) (key a) = false.
Lemma lt_e_iff a b : lt_e a b <-> cmp_k (key a) (key b) = Lt.
Proof. unfold lt_e, lt_k. destruct (cmp_k (key a) (key b)); split; congruence. Qed.
Lemma le_e_iff a b : le_e a b <-> cmp_k (key a) (key b) <> Gt.
Proof. unfold le_e, lt_k. rewrite (gc_sym _ cmp_k_good (key a) (key b)). destruct (cmp_k (key a) (key b)); cbn; split; congruence. Qed.
Lemma le_e_refl a : le_e a a.
Proof. rewrite le_e_iff. pose proof (gc_sym _ cmp_k_good (key a) (key a)) as G. destruct (cmp_k (key a) (key a)); cbn in G; congruence. Qed.
Lemma le_e_trans a b c : le_e a b -> le_e b c -> le_e a c.
Proof. rewrite !le_e_iff. apply (gc_trans _ cmp_k_good). Qed.
Lemma lt_le_e a b c : lt_e a b -> le_e b c -> lt_e a c.
Proof. rewrite !lt_e_iff, le_e_iff. apply gc_mixed. exact cmp_k_good. Qed.
Lemma le_lt_e a b c : le_e a b -> lt_e b c -> lt_e a c.
Proof. rewrite !lt_e_iff, le_e_iff. apply gc_mixed'. exact cmp_k_good. Qed.
Lemma lt_e_le a b : lt_e a b -> le_e a b.
Proof. rewrite lt_e_iff, le_e_iff. congruence. Qed.
Lemma not_lt_e a b : ~ lt_e a b <-> le_e b a.
Proof. unfold lt_e, le_e. destruct (lt_k (key a) (key b)); split; congruence. Qed.
Lemma lt_e_dec a b : {lt_e a b} + {le_e b a}.
Proof. unfold lt_e, le_e. destruct (lt_k (key a) (key b)); auto. Qed.

Local Open Scope Q_scope.
Lemma cmp_h_order a b fx fy : 0 <= fx -> fx < 1 -> 0 <= fy -> fy < 1 -> same_order (cmp_h (a, fx) (b, fy)) (inject_Z a + fx) (inject_Z b + fy).
Proof.
  intros A1 A2 B1 B2. unfold cmp_h, lex. cbn [fst snd]. destruct (Z.compare_spec a b) as [E|E|E].
  - subst b. pose proof (same_order_compare fx fy) as S. unfold same_order in *. destruct (fx ?= fy); lra.
  - cbn. assert (inject_Z a + 1 <= inject_Z b) by (change 1 with (inject_Z 1); rewrite <- inject_Z_plus, <- Zle_Qle; lia). lra.
  - cbn. assert (inject_Z b + 1 <= inject_Z a) by (change 1 with (inject_Z 1); rewrite <- inject_Z_plus, <- Zle_Qle; lia). lra.
Qed.
Lemma ev_parts e : ev_ok e -> 0 <= snd (ev_h e) /\ snd (ev_h e) < 1 /\ ev_height e == inject_Z (fst (ev_h e)) + snd (ev_h e).
Proof.
  unfold ev_ok, ev_h, ev_height. destruct (is_swap e); cbn [fst snd]; [|intros _; split; [lra|split; [lra|lra]]]. intros H. destruct (H eq_refl) as (V & B).
  destruct (frac_proper_bounds _ V B) as (B1 & B2). unfold wf_h, wf_val. cbn [fst snd]. split; [exact B1|]. split; [exact B2|reflexivity].
Qed.
Lemma ev_h_order x y : ev_ok x -> ev_ok y -> same_order (cmp_h (ev_h x) (ev_h y)) (ev_height x) (ev_height y).
Proof.
  intros X Y. destruct (ev_parts x X) as (X1 & X2 & X3). destruct (ev_parts y Y) as (Y1 & Y2 & Y3). destruct (ev_h x) as (a, fx), (ev_h y) as (b, fy). cbn [fst snd] in *.
  pose proof (cmp_h_order a b fx fy X1 X2 Y1 Y2) as S. unfold same_order in *. destruct (cmp_h (a, fx) (b, fy)); lra.
Qed.
Lemma le_e_height x y : ev_ok x -> ev_ok y -> le_e x y -> ev_height x <= ev_height y.
Proof.
  intros X Y. rewrite le_e_iff. unfold cmp_k, lex at 1, key. cbn [fst snd]. pose proof (ev_h_order x y X Y) as S. unfold same_order in S.
  destruct (cmp_h (ev_h x) (ev_h y)); [lra|lra|congruence].
Qed.
Lemma height_lt_e x y : ev_ok x -> ev_ok y -> ev_height x < ev_height y -> lt_e x y.
Proof.
  intros X Y H. rewrite lt_e_iff. unfold cmp_k, lex at 1, key. cbn [fst snd]. pose proof (ev_h_order x y X Y) as S. unfold same_order in S.
  destruct (cmp_h (ev_h x) (ev_h y)); [lra|reflexivity|lra].
Qed.
Lemma same_key i j w x : cmp_k (key (swap_event i j w)) (key x) = Eq -> re_type x = RSwap /\ re_a x = i /\ re_b x = j.
Proof.
  unfold cmp_k, key. unfold lex at 1. cbn [fst snd]. destruct (cmp_h (ev_h (swap_event i j w)) (ev_h x)); try discriminate. unfold lex. cbn [fst snd swap_event re_type re_a re_b].
  destruct (Nat.compare_spec (rrank RSwap) (rrank (re_type x))) as [E|E|E]; try discriminate. destruct (Nat.compare_spec i (re_a x)); try discriminate. destruct (Nat.compare_spec j (re_b x)); try discriminate.
  intros _. split; [|auto]. destruct (re_type x); try discriminate; reflexivity.
Qed.
Lemma e_eq a b : le_e a b -> le_e b a -> cmp_k (key a) (key b) = Eq.
Proof. rewrite !le_e_iff. rewrite (gc_sym _ cmp_k_good (key a) (key b)). destruct (cmp_k (key a) (key b)); cbn; congruence. Qed.
Local Open Scope Z_scope.

(** ** Lists *)
Lemma ss_app {A} (R : A -> A -> Prop) l m : StronglySorted R (l ++ m) <-> StronglySorted R l /\ StronglySorted R m /\ forall a b, In a l -> In b m -> R a b.
Proof.
  induction l as [|x l IH]; cbn [app]; [split; [intros H; repeat split; [constructor|exact H|intros ? ? []]|tauto]|]. split.
  - intros H. apply StronglySorted_inv in H as (H & F). apply IH in H as (H1 & H2 & H3). rewrite Forall_forall in F. repeat split; [|exact H2|].
    + constructor; [exact H1|]. apply Forall_forall. intros y Y. apply F. apply in_or_app. auto.
    + intros a b [<-|I] J; [apply F; apply in_or_app; auto|auto].
  - intros (H1 & H2 & H3). apply StronglySorted_inv in H1 as (H1 & F). constructor; [apply IH; repeat split; auto; intros a b I; apply H3; right; exact I|].
    rewrite Forall_forall in F |- *. intros y Y. apply in_app_or in Y as [Y|Y]; [auto|]. apply H3; [left; reflexivity|exact Y].
Qed.
Lemma ss_cons {A} (R : A -> A -> Prop) a l : StronglySorted R (a :: l) <-> StronglySorted R l /\ forall b, In b l -> R a b.
Proof. split; [intros H; apply StronglySorted_inv in H as (H & F); rewrite Forall_forall in F; auto|intros (H & F); constructor; [exact H|apply Forall_forall; exact F]]. Qed.
Lemma next_of_app A i j B : ~ In i A -> next_of i (A ++ i :: j :: B) = Some j.
Proof.
  induction A as [|a A IH]; intros N; [cbn; rewrite Nat.eqb_refl; reflexivity|]. assert (NE : (a =? i)%nat = false) by (apply Nat.eqb_neq; intros ->; apply N; left; reflexivity).
  destruct A as [|b A]; cbn [app next_of] in *; rewrite NE; [rewrite Nat.eqb_refl; reflexivity|]. apply IH. intros I. apply N. right. exact I.
Qed.
Lemma next_of_last A i : ~ In i A -> next_of i (A ++ [i]) = None.
Proof.
  induction A as [|a A IH]; intros N; [reflexivity|]. assert (NE : (a =? i)%nat = false) by (apply Nat.eqb_neq; intros ->; apply N; left; reflexivity).
  destruct A as [|b A]; cbn [app next_of] in *; rewrite NE; [reflexivity|]. apply IH. intros I. apply N. right. exact I.
Qed.
Lemma next_of_split i l j : next_of i l = Some j -> exists A B, l = A ++ i :: j :: B.
Proof.
  induction l as [|a [|b l] IH]; cbn [next_of]; try discriminate. destruct (Nat.eqb_spec a i) as [->|NE]; [intros E; injection E as ->; exists [], l; reflexivity|].
  intros E. destruct (IH E) as (A & B & ->). exists (a :: A), B. reflexivity.
Qed.
Lemma prev_of_app A p i B : ~ In i (A ++ [p]) -> prev_of i (A ++ p :: i :: B) = Some p.
Proof.
  induction A as [|a A IH]; intros N; [cbn; rewrite Nat.eqb_refl; reflexivity|]. destruct A as [|b A]; cbn [app prev_of] in *.
  - destruct (Nat.eqb_spec p i) as [->|NE]; [exfalso; apply N; right; left; reflexivity|]. rewrite Nat.eqb_refl. reflexivity.
  - destruct (Nat.eqb_spec b i) as [->|NE]; [exfalso; apply N; right; left; reflexivity|]. apply IH. intros I. apply N. right. exact I.
Qed.
Lemma prev_of_first i B : ~ In i B -> prev_of i (i :: B) = None.
Proof.
  intros N. assert (G : forall a l, ~ In i l -> prev_of i (a :: l) = None); [|apply G; exact N]. intros a l. revert a. induction l as [|b l IH]; intros a M; [reflexivity|].
  cbn [prev_of]. destruct (Nat.eqb_spec b i) as [->|NE]; [exfalso; apply M; left; reflexivity|]. apply (IH b). intros I. apply M. right. exact I.
Qed.
Lemma erase_none n l : ~ In n l -> erase_node n l = l.
Proof. unfold erase_node. induction l as [|a l IH]; intros N; [reflexivity|]. cbn. destruct (Nat.eqb_spec a n) as [->|NE]; [exfalso; apply N; left; reflexivity|]. cbn. f_equal. apply IH. intros I. apply N. right. exact I. Qed.
Lemma erase_app n l m : erase_node n (l ++ m) = erase_node n l ++ erase_node n m.
Proof. apply filter_app. Qed.
Lemma erase_mid A n B : ~ In n A -> ~ In n B -> erase_node n (A ++ n :: B) = A ++ B.
Proof. intros NA NB. rewrite erase_app, (erase_none n A NA). f_equal. unfold erase_node. cbn. rewrite Nat.eqb_refl. cbn. apply (erase_none n B NB). Qed.
Lemma put_before_app A i j B : ~ In i A -> put_before i j (A ++ i :: B) = A ++ j :: i :: B.
Proof. induction A as [|a A IH]; intros N; cbn; [rewrite Nat.eqb_refl; reflexivity|]. destruct (Nat.eqb_spec a i) as [->|NE]; [exfalso; apply N; left; reflexivity|]. f_equal. apply IH. intros I. apply N. right. exact I. Qed.
Lemma insert_split nodes y n s l : forall l', insert_sorted nodes y n s l = Some l' -> exists A B, l = A ++ B /\ l' = A ++ n :: B.
Proof.
  induction l as [|x l IH]; intros l'; cbn [insert_sorted]; [intros E; injection E as <-; exists [], []; auto|]. destruct (nth_error nodes x) as [ex|]; [|discriminate].
  destruct (rsweep_cmp y s ex); [intros E; injection E as <-; exists [], (x :: l); auto|]. destruct (insert_sorted nodes y n s l) as [l0|]; [|discriminate]. cbn. intros E. injection E as <-.
  destruct (IH l0 eq_refl) as (A & B & -> & ->). exists (x :: A), B. auto.
Qed.
(** Neighbours in a list with one element taken out or put in. *)
Lemma adj_app {T} (A B C D : list T) a b : A ++ B = C ++ a :: b :: D ->
  (exists D', A = C ++ a :: b :: D') \/ (exists C', B = C' ++ a :: b :: D) \/ (exists A' B', A = A' ++ [a] /\ B = b :: B').
Proof.
  revert A. induction C as [|x C IH]; intros A E; cbn [app] in E.
  - destruct A as [|x A]; cbn [app] in E; [right; left; exists []; exact E|]. injection E as -> E. destruct A as [|y A]; cbn [app] in E; [right; right; exists [], D; auto|]. injection E as -> E. left. exists A. reflexivity.
  - destruct A as [|z A]; cbn [app] in E; [right; left; exists (x :: C); exact E|]. injection E as -> E. destruct (IH A E) as [(D' & ->)|[(C' & ->)|(A' & B' & -> & ->)]]; [left; exists D'; reflexivity|right; left; exists C'; reflexivity|right; right; exists (x :: A'), B'; auto].
Qed.
Lemma nodup_app {T} (l m : list T) : NoDup (l ++ m) <-> NoDup l /\ NoDup m /\ forall a, In a l -> ~ In a m.
Proof.
  induction l as [|x l IH]; cbn [app]; [split; [intros H; repeat split; [constructor|exact H|intros ? []]|tauto]|]. rewrite !NoDup_cons_iff, IH, in_app_iff. split.
  - intros (N & H1 & H2 & H3). repeat split; try tauto. intros a [<-|I]; [tauto|auto].
  - intros ((N & H1) & H2 & H3). repeat split; try tauto. intros [I|I]; [tauto|]. exact (H3 x (or_introl eq_refl) I). intros a I. apply H3. right. exact I.
Qed.
Lemma last_split {T} (A : list T) : A = [] \/ exists A' p, A = A' ++ [p].
Proof. induction A as [|p A IH] using rev_ind; eauto. Qed.
Lemma filter_le {T} (f g : T -> bool) l : (forall x, f x = true -> g x = true) -> (length (filter f l) <= length (filter g l))%nat.
Proof. intros H. induction l as [|x l IH]; [auto|]. cbn. destruct (f x) eqn:F; [rewrite (H x F); cbn; lia|]. destruct (g x); cbn; lia. Qed.
Lemma filter_lt {T} (f g : T -> bool) l a : (forall x, f x = true -> g x = true) -> In a l -> f a = false -> g a = true -> (length (filter f l) < length (filter g l))%nat.
Proof.
  intros H I FA GA. induction l as [|x l IH]; [destruct I|]. cbn. destruct I as [->|I].
  - rewrite FA, GA. cbn. pose proof (filter_le f g l H). lia.
  - specialize (IH I). destruct (f x) eqn:F; [rewrite (H x F); cbn; lia|]. destruct (g x); cbn; lia.
Qed.

(** ** Two edges over time *)
Section Cross.
Variable sort_events : list revent -> list revent.
Variable sort_new : list (revent * nat) -> list (revent * nat).
Hypothesis SE : sorts_valid valid revent_lt sort_events.
Hypothesis SN : sorts_valid (fun en => valid (fst en)) new_lt sort_new.
Variable pts : list rpoint.
Variable wbits width height : Z.
Variable es : list cseg.
Hypothesis ES : Forall (fun s => py (sg_pa s) < py (sg_pb s)) es.
Hypothesis EP : edges_from pts 0 pts = Some es.
Hypothesis GD : forall s, In s es -> exists m, goes_down pts s = Some m.
Notation edge_at := (edge_at es).
Notation settled := (settled es).
Notation rnext := (rnext sort_events sort_new).
Notation event_loop := (event_loop sort_events sort_new).
(** No crossing at a whole height, and no third edge through a crossing. *)
Hypothesis WH : forall s t X Y z, In s es -> In t es -> cross_at s t X Y -> ~ (Y == inject_Z z)%Q.
Hypothesis TH : forall i j m s t u X Y, edge_at i = Some s -> edge_at j = Some t -> edge_at m = Some u -> m <> i -> m <> j ->
  cross_at s t X Y -> spans Y u -> ~ (lineQ u Y == X * tallQ u)%Q.

Definition crossing (s t : cseg) (w : wfrac) : Prop := rintersects s t = Some w /\ det s t < 0.
Lemma agree s t : In s es -> In t es -> ends_agree s t.
Proof. apply (edges_agree pts es EP). Qed.
Lemma in_edge n s : edge_at n = Some s -> In s es.
Proof. apply edge_in. Qed.
Lemma in_down s : In s es -> down s.
Proof. intros I. rewrite Forall_forall in ES. exact (ES s I). Qed.
Lemma inter_whole s t w z : In s es -> In t es -> rintersects s t = Some w -> ~ (wf_val w == inject_Z z)%Q.
Proof. intros I J R. destruct (meets_cross s t w R) as (X & C). exact (WH s t X _ z I J C). Qed.
Lemma inter_proper s t w : In s es -> In t es -> rintersects s t = Some w -> proper w.
Proof.
  intros I J R. destruct (rintersects_shape s t w R) as (D & B). split; [exact D|]. destruct (Z.eq_dec (fr_num (wf_frac w)) (fr_den (wf_frac w))) as [E|NE]; [exfalso|lia].
  apply (inter_whole s t w (wf_whole w + 1) I J R). unfold wf_val. rewrite inject_Z_plus. rewrite frac_val_div by exact D. rewrite E.
  assert (~ (inject_Z (fr_den (wf_frac w)) == 0)%Q) by (apply inject_neq; lia). change (inject_Z 1) with 1%Q. field. assumption.
Qed.
Lemma swap_ev_ok s t w i j : In s es -> In t es -> rintersects s t = Some w -> ev_ok (swap_event i j w).
Proof. intros I J R _. exact (inter_proper s t w I J R). Qed.
Lemma swap_height i j w : ev_height (swap_event i j w) = wf_val w.
Proof. reflexivity. Qed.
(** A pair crosses one way, or the other way, or not at all. *)
Lemma three s t : In s es -> In t es -> (exists w, crossing s t w) \/ (exists w, crossing t s w) \/ (forall X Y, ~ cross_at s t X Y).
Proof.
  intros I J. pose proof (agree s t I J) as G. destruct (rintersects s t) as [w|] eqn:R.
  - destruct (meets s t w (in_down s I) (in_down t J) R) as (D & _). destruct (Z_lt_le_dec (det s t) 0) as [L|L]; [left; exists w; split; assumption|].
    right; left. destruct (meets_sym s t w G R) as (w' & R' & _). exists w'. split; [exact R'|]. rewrite det_sym. lia.
  - right; right. intros X Y C. destruct (proj2 (rintersects_iff s t G)) as (w & R'); [eauto|]. congruence.
Qed.
Lemma gap_before s t w h : In s es -> In t es -> crossing s t w -> (h < wf_val w -> 0 < gapQ s t h)%Q /\ (wf_val w < h -> gapQ s t h < 0)%Q.
Proof.
  intros I J (R & D). destruct (meets s t w (in_down s I) (in_down t J) R) as (_ & Z & _). rewrite Zlt_Qlt in D. change (inject_Z 0) with 0%Q in D.
  pose proof (gapQ_at s t (wf_val w) h) as E. rewrite Z in E. split; intros H; rewrite E.
  - assert (0 < (wf_val w - h) * - inject_Z (det s t))%Q by (apply Qmult_lt_0_compat; lra). lra.
  - assert (0 < (h - wf_val w) * - inject_Z (det s t))%Q by (apply Qmult_lt_0_compat; lra). lra.
Qed.
Lemma cross_in s t w : In s es -> In t es -> crossing s t w -> spans (wf_val w) s /\ spans (wf_val w) t.
Proof. intros I J (R & _). destruct (meets s t w (in_down s I) (in_down t J) R) as (_ & _ & H). exact H. Qed.

(** s is before t in the sweep after event e0. *)
Definition bef_s (e0 : revent) (i j : nat) (s t : cseg) : Prop :=
  (forall w, crossing s t w -> lt_e e0 (swap_event i j w)) /\ (forall w, crossing t s w -> le_e (swap_event j i w) e0) /\
  ((forall X Y, ~ cross_at s t X Y) -> forall z, active z s = true -> active z t = true -> rsweep_cmp z t s = false).
Definition bef (e0 : revent) (i j : nat) : Prop := forall s t, edge_at i = Some s -> edge_at j = Some t -> bef_s e0 i j s t.

Lemma cross_sym_no s t : (forall X Y, ~ cross_at s t X Y) -> forall X Y, ~ cross_at t s X Y.
Proof. intros H X Y C. apply (H X Y). apply cross_sym. exact C. Qed.
(** At a height after e0, being on the wrong side means that the crossing is past. *)
Lemma side e0 i j s t h : In s es -> In t es -> ev_ok e0 -> bef_s e0 i j s t -> (ev_height e0 <= h)%Q -> (forall z, ~ h == inject_Z z)%Q -> spans h s -> spans h t ->
  (gapQ s t h < 0)%Q -> exists w, crossing s t w /\ (wf_val w < h)%Q.
Proof.
  intros I J OE (B1 & B2 & B3) H0 NZ (S1 & S2) (T1 & T2) G. destruct (three s t I J) as [(w & C)|[(w & C)|NC]].
  - exists w. split; [exact C|]. destruct (gap_before s t w h I J C) as (P & _). destruct (Qlt_le_dec (wf_val w) h) as [?|L]; [assumption|exfalso].
    destruct (Qlt_le_dec h (wf_val w)) as [L'|L']; [specialize (P L'); lra|]. destruct C as (R & D). destruct (meets s t w (in_down s I) (in_down t J) R) as (_ & Z & _).
    assert (E : (h == wf_val w)%Q) by lra. rewrite (gapQ_comp s t _ _ E) in G. lra.
  - exfalso. pose proof (B2 w C) as LE. apply le_e_height in LE; [|apply (swap_ev_ok t s w j i J I (proj1 C))|exact OE]. rewrite swap_height in LE.
    rewrite (gapQ_sym t s h) in G. destruct (gap_before t s w h J I C) as (_ & P). destruct (Qlt_le_dec (wf_val w) h) as [L'|L']; [specialize (P L'); lra|].
    destruct C as (R & D). destruct (meets t s w (in_down t J) (in_down s I) R) as (_ & Z & _). assert (E : (h == wf_val w)%Q) by lra. rewrite (gapQ_comp t s _ _ E) in G. lra.
  - exfalso. pose proof (Qfloor_le h) as F1. pose proof (Qlt_floor h) as F2. set (z := Qfloor h) in *.
    assert (F1' : (inject_Z z < h)%Q) by (pose proof (NZ z); destruct (Qlt_le_dec (inject_Z z) h); [assumption|exfalso; apply H; lra]).
    unfold injY in *. assert (AS : active z s = true).
    { unfold active. rewrite andb_true_iff, Z.leb_le, Z.ltb_lt. split; [|apply injZ_lt; lra]. assert (py (sg_pa s) < z + 1); [apply injZ_lt; lra|lia]. }
    assert (AT : active z t = true).
    { unfold active. rewrite andb_true_iff, Z.leb_le, Z.ltb_lt. split; [|apply injZ_lt; lra]. assert (py (sg_pa t) < z + 1); [apply injZ_lt; lra|lia]. }
    pose proof (B3 NC z AS AT) as C. apply (cmp_side z s t (in_down s I) (in_down t J)) in C as (G0 & G1).
    unfold active in AS, AT. rewrite andb_true_iff, Z.leb_le, Z.ltb_lt in AS, AT.
    destruct (Z_lt_le_dec 0 (gap s t z)) as [P|P].
    + destruct (sign_cross s t (inject_Z z) h) as (X & Y & C); try apply in_down; try assumption; unfold injY; try lra; try (rewrite <- Zle_Qle; lia).
      * rewrite gapQ_int. change 0%Q with (inject_Z 0). rewrite <- Zlt_Qlt. exact P.
      * exact (NC X Y C).
    + assert (E0 : gap s t z = 0) by lia. specialize (G1 E0). rewrite gap_line, E0 in G1. assert (D : (0 <= inject_Z (det s t))%Q) by (change 0%Q with (inject_Z 0); rewrite <- Zle_Qle; lia).
      pose proof (gapQ_at s t (inject_Z z) h) as E. rewrite gapQ_int, E0 in E. change (inject_Z 0) with 0%Q in E.
      assert (0 <= (h - inject_Z z) * inject_Z (det s t))%Q by (apply Qmult_le_0_compat; lra). lra.
Qed.
(** An edge between two edges that are about to cross. *)
Lemma between e0 i m j s u t w : edge_at i = Some s -> edge_at m = Some u -> edge_at j = Some t -> m <> i -> m <> j -> ev_ok e0 ->
  bef_s e0 i m s u -> bef_s e0 m j u t -> crossing s t w -> (ev_height e0 <= wf_val w)%Q -> spans (wf_val w) u ->
  (exists w', crossing s u w' /\ (wf_val w' < wf_val w)%Q) \/ (exists w', crossing u t w' /\ (wf_val w' < wf_val w)%Q).
Proof.
  intros EI EM EJ NI NJ OE B1 B2 C H0 SU. pose proof (in_edge _ _ EI) as II. pose proof (in_edge _ _ EM) as IM. pose proof (in_edge _ _ EJ) as IJ.
  destruct (cross_in s t w II IJ C) as (SS & ST). pose proof C as (R & D). pose proof (fun z => inter_whole s t w z II IJ R) as NZ.
  destruct (Qlt_le_dec (gapQ s u (wf_val w)) 0) as [G1|G1]; [left; exact (side e0 i m s u _ II IM OE B1 H0 NZ SS SU G1)|].
  destruct (Qlt_le_dec (gapQ u t (wf_val w)) 0) as [G2|G2]; [right; exact (side e0 m j u t _ IM IJ OE B2 H0 NZ SU ST G2)|].
  exfalso. destruct (meets_cross s t w R) as (X & CR). apply (TH i j m s t u X _ EI EJ EM NI NJ CR SU).
  destruct CR as (_ & a & b & _ & _ & _ & _ & X1 & Y1 & X2 & Y2). set (h := wf_val w) in *.
  assert (E1 : (lineQ s h == tallQ s * X)%Q) by (unfold lineQ, tallQ; rewrite X1, Y1; ring). assert (E2 : (lineQ t h == tallQ t * X)%Q) by (unfold lineQ, tallQ; rewrite X2, Y2; ring).
  pose proof (tall_pos s (in_down s II)) as PS. pose proof (tall_pos t (in_down t IJ)) as PT.
  unfold gapQ in G1, G2. rewrite E1 in G1. rewrite E2 in G2.
  assert (A : (0 <= X * tallQ u - lineQ u h)%Q).
  { apply Qmult_lt_0_le_reg_r with (tallQ s); [exact PS|]. lra. }
  assert (B : (0 <= lineQ u h - X * tallQ u)%Q).
  { apply Qmult_lt_0_le_reg_r with (tallQ t); [exact PT|]. lra. }
  lra.
Qed.

(** ** The state between events *)
Record good (st : rstate) (L : list revent) (c : nat) (e0 : revent) : Prop := {
  g_set : settled st L c;
  g_swaps : forall e, In e L -> is_swap e = true -> exists i j w s t, e = swap_event i j w /\ edge_at i = Some s /\ edge_at j = Some t /\ crossing s t w;
  g_past : forall e, In e (firstn c L) -> le_e e e0;
  g_rest : forall e, In e (skipn c L) -> le_e e0 e;
  g_ev : ev_ok e0;
  g_sorted : StronglySorted (bef e0) (rs_sweep st);
  g_pend : forall A a b B s t w, rs_sweep st = A ++ a :: b :: B -> edge_at a = Some s -> edge_at b = Some t -> crossing s t w -> In (swap_event a b w) (skipn c L);
  g_ok : rs_ok st = true }.

Lemma rest_in {T} c (L : list T) e : In e (skipn c L) -> In e L.
Proof. intros I. rewrite <- (firstn_skipn c L). apply in_or_app. auto. Qed.
Lemma past_in {T} c (L : list T) e : In e (firstn c L) -> In e L.
Proof. intros I. rewrite <- (firstn_skipn c L). apply in_or_app. auto. Qed.
Lemma queue_ev st L c e0 e : good st L c e0 -> In e L -> ev_ok e.
Proof. intros G I SW. destruct (g_swaps _ _ _ _ G e I SW) as (i & j & w & s & t & -> & EI & EJ & (R & _)). exact (inter_proper s t w (in_edge _ _ EI) (in_edge _ _ EJ) R). Qed.
Lemma sweep_member st L c n : settled st L c -> In n (rs_sweep st) -> exists s, edge_at n = Some s /\ In (fwd n s) (firstn c L) /\ In (bwd n s) (skipn c L).
Proof. intros ST I. apply (se_in _ _ _ _ ST) in I as (s & E & F & NB). exists s. split; [exact E|]. split; [exact F|]. apply (where_rest es st L c n s ST E NB). Qed.
Lemma member_spans st L c e0 x n u i j s t w : good st L c e0 -> ev_ok x -> (forall e, In e (skipn c L) -> le_e x e) -> In n (rs_sweep st) -> edge_at n = Some u ->
  In s es -> In t es -> crossing s t w -> le_e e0 (swap_event i j w) -> le_e (swap_event i j w) x -> spans (wf_val w) u.
Proof.
  intros G OX RX I E IS IT (R & D) L0 L1. destruct (sweep_member st L c n (g_set _ _ _ _ G) I) as (u' & E' & F & B). rewrite E in E'. injection E' as <-.
  pose proof (swap_ev_ok s t w i j IS IT R) as OW. pose proof (fun z => inter_whole s t w z IS IT R) as NZ.
  pose proof (le_e_trans _ _ _ (g_past _ _ _ _ G _ F) L0) as A1. apply le_e_height in A1; [|intros H; discriminate|exact OW].
  pose proof (le_e_trans _ _ _ L1 (RX _ B)) as A2. apply le_e_height in A2; [|exact OW|intros H; discriminate].
  unfold ev_height in A1, A2. cbn [is_swap fwd bwd swap_event re_type re_intr re_y] in A1, A2. unfold spans, injY.
  pose proof (NZ (py (sg_pa u))) as N1. pose proof (NZ (py (sg_pb u))) as N2. split; lra.
Qed.

Lemma no_skip st L c e0 x : good st L c e0 -> ev_ok x -> (forall e, In e (skipn c L) -> le_e x e) ->
  forall n M A i j B s t w, (length M <= n)%nat -> rs_sweep st = A ++ i :: M ++ j :: B -> edge_at i = Some s -> edge_at j = Some t -> crossing s t w -> le_e x (swap_event i j w).
Proof.
  intros G OX RX. induction n as [|n IH]; intros M A i j B s t w LM EQ EI EJ C.
  { destruct M as [|m M]; [|cbn in LM; lia]. apply RX. apply (g_pend _ _ _ _ G A i j B s t w EQ EI EJ C). }
  destruct (lt_e_dec (swap_event i j w) x) as [LT|LE]; [exfalso|exact LE].
  destruct M as [|m M]. { pose proof (RX _ (g_pend _ _ _ _ G A i j B s t w EQ EI EJ C)) as LE. apply not_lt_e in LE. exact (LE LT). }
  assert (IM : In m (rs_sweep st)) by (rewrite EQ; apply in_or_app; right; right; left; reflexivity).
  destruct (sweep_member st L c m (g_set _ _ _ _ G) IM) as (u & EM & _).
  pose proof (g_sorted _ _ _ _ G) as SO. pose proof (se_nodup _ _ _ _ (g_set _ _ _ _ G)) as ND. rewrite EQ in SO, ND. apply ss_app in SO as (_ & SO & _). apply ss_cons in SO as (SO & B1). cbn [app] in SO, B1. apply ss_cons in SO as (_ & B2).
  assert (BIJ : bef e0 i j) by (apply B1; right; apply in_or_app; right; left; reflexivity). assert (BIM : bef e0 i m) by (apply B1; left; reflexivity). assert (BMJ : bef e0 m j) by (apply B2; apply in_or_app; right; left; reflexivity).
  assert (NI : m <> i /\ m <> j).
  { apply nodup_app in ND as (_ & ND & _). split; intros ->.
    - apply NoDup_cons_iff in ND as (N & _). apply N. left. reflexivity.
    - apply NoDup_cons_iff in ND as (_ & ND). cbn [app] in ND. apply NoDup_cons_iff in ND as (N & _). apply N. apply in_or_app. right. left. reflexivity. }
  destruct (BIJ s t EI EJ) as (F1 & _). specialize (F1 w C).
  assert (SU : spans (wf_val w) u) by (eapply (member_spans st L c e0 x m u i j s t w); try eassumption; try (eapply in_edge; eassumption); apply lt_e_le; assumption).
  assert (OW : ev_ok (swap_event i j w)) by (apply (swap_ev_ok s t); [eapply in_edge; eassumption|eapply in_edge; eassumption|apply C]).
  assert (H0 : (ev_height e0 <= wf_val w)%Q) by (rewrite <- (swap_height i j w); apply le_e_height; [apply G|exact OW|apply lt_e_le; exact F1]).
  destruct (between e0 i m j s u t w EI EM EJ (proj1 NI) (proj2 NI) (g_ev _ _ _ _ G) (BIM s u EI EM) (BMJ u t EM EJ) C H0 SU) as [(w' & C' & H')|(w' & C' & H')].
  - pose proof (IH [] A i m (M ++ j :: B) s u w' ltac:(cbn; lia) EQ EI EM C') as LE. apply not_lt_e in LE. apply LE. apply lt_le_e with (swap_event i j w); [|apply lt_e_le; exact LT].
    apply height_lt_e; [apply (swap_ev_ok s u); [eapply in_edge; eassumption|eapply in_edge; eassumption|apply C']|exact OW|exact H'].
  - pose proof (IH M (A ++ [i]) m j B u t w' ltac:(cbn in LM; lia)) as LE. rewrite <- app_assoc in LE. specialize (LE EQ EM EJ C'). apply not_lt_e in LE. apply LE. apply lt_le_e with (swap_event i j w); [|apply lt_e_le; exact LT].
    apply height_lt_e; [apply (swap_ev_ok u t); [eapply in_edge; eassumption|eapply in_edge; eassumption|apply C']|exact OW|exact H'].
Qed.
(** Moving on to the next event. *)
Lemma shift st L c e0 x : good st L c e0 -> ev_ok x -> (forall e, In e (skipn c L) -> le_e x e) -> le_e e0 x ->
  forall M A i j B s t, rs_sweep st = A ++ i :: M ++ j :: B -> edge_at i = Some s -> edge_at j = Some t -> (forall w, crossing s t w -> cmp_k (key (swap_event i j w)) (key x) <> Eq) -> bef_s x i j s t.
Proof.
  intros G OX RX LX M A i j B s t EQ EI EJ NE. pose proof (g_sorted _ _ _ _ G) as SO. rewrite EQ in SO. apply ss_app in SO as (_ & SO & _). apply ss_cons in SO as (_ & B1).
  assert (BIJ : bef e0 i j) by (apply B1; apply in_or_app; right; left; reflexivity). destruct (BIJ s t EI EJ) as (F1 & F2 & F3). split; [|split; [|exact F3]].
  - intros w C. pose proof (no_skip st L c e0 x G OX RX (length M) M A i j B s t w (le_n _) EQ EI EJ C) as LE. destruct (lt_e_dec x (swap_event i j w)) as [LT|LE']; [exact LT|exfalso]. exact (NE w C (e_eq _ _ LE' LE)).
  - intros w C. exact (le_e_trans _ _ _ (F2 w C) LX).
Qed.
Lemma ss_lift {T} (R R' : T -> T -> Prop) l : StronglySorted R l -> (forall A i M j B, l = A ++ i :: M ++ j :: B -> R' i j) -> StronglySorted R' l.
Proof.
  induction 1 as [|i l H IH F]; intros G; constructor.
  - apply IH. intros A a M b B EQ. apply (G (i :: A) a M b B). cbn. f_equal. exact EQ.
  - apply Forall_forall. intros j J. apply in_split in J as (M & B & ->). apply (G [] i M j B). reflexivity.
Qed.
Lemma shift_all st L c e0 x : good st L c e0 -> ev_ok x -> (forall e, In e (skipn c L) -> le_e x e) -> le_e e0 x ->
  (forall i j s t w, edge_at i = Some s -> edge_at j = Some t -> crossing s t w -> cmp_k (key (swap_event i j w)) (key x) <> Eq) -> StronglySorted (bef x) (rs_sweep st).
Proof.
  intros G OX RX LX NE. apply (ss_lift (bef e0)); [apply G|]. intros A i M j B EQ s t EI EJ. apply (shift st L c e0 x G OX RX LX M A i j B s t EQ EI EJ). intros w C. exact (NE i j s t w EI EJ C).
Qed.
(** The order on a row. *)
Lemma row_order x y i j s t : In s es -> In t es -> ev_ok x -> (ev_height x == inject_Z y)%Q -> bef_s x i j s t -> active y s = true -> active y t = true -> rsweep_cmp y t s = false.
Proof.
  intros I J OX HX (B1 & B2 & B3) AS AT. assert (P : (0 < gapQ s t (inject_Z y))%Q -> rsweep_cmp y t s = false).
  { intros P. rewrite gapQ_int in P. change 0%Q with (inject_Z 0) in P. apply injZ_lt in P. apply not_true_is_false. intros H. apply (cmp_gap y s t (in_down s I) (in_down t J)) in H. lia. }
  destruct (three s t I J) as [(w & C)|[(w & C)|NC]].
  - apply P. destruct (gap_before s t w (inject_Z y) I J C) as (G & _). apply G. pose proof (B1 w C) as LT. apply lt_e_le, le_e_height in LT; [|exact OX|apply (swap_ev_ok s t w i j I J (proj1 C))].
    rewrite swap_height in LT. pose proof (inter_whole s t w y I J (proj1 C)) as NZ. lra.
  - apply P. rewrite gapQ_sym. destruct (gap_before t s w (inject_Z y) J I C) as (_ & G). pose proof (B2 w C) as LT. apply le_e_height in LT; [|apply (swap_ev_ok t s w j i J I (proj1 C))|exact OX].
    rewrite swap_height in LT. pose proof (inter_whole t s w y J I (proj1 C)) as NZ. assert (gapQ t s (inject_Z y) < 0)%Q by (apply G; lra). lra.
  - apply B3; assumption.
Qed.
(** The order of an edge that starts on a row. *)
Lemma start_order x y i j s t : In s es -> In t es -> ev_ok x -> (ev_height x == inject_Z y)%Q -> active y s = true -> active y t = true -> py (sg_pa s) = y \/ py (sg_pa t) = y ->
  rsweep_cmp y t s = false -> bef_s x i j s t.
Proof.
  intros I J OX HX AS AT ST C. pose proof (cmp_side y s t (in_down s I) (in_down t J) C) as (G0 & _).
  assert (UP : forall w, spans w s -> spans w t -> (inject_Z y < w)%Q). { intros w (S1 & _) (T1 & _). unfold injY in *. destruct ST as [<-|<-]; assumption. }
  split; [|split].
  - intros w CR. apply height_lt_e; [exact OX|apply (swap_ev_ok s t w i j I J (proj1 CR))|]. rewrite swap_height, HX. destruct (cross_in s t w I J CR). auto.
  - intros w CR. exfalso. destruct (cross_in t s w J I CR) as (S1 & S2). destruct (gap_before t s w (inject_Z y) J I CR) as (G & _). specialize (G (UP _ S2 S1)).
    rewrite gapQ_sym, gapQ_int in G. assert (0 <= inject_Z (gap s t y))%Q by (change 0%Q with (inject_Z 0); rewrite <- Zle_Qle; exact G0). lra.
  - intros NC z AZ AZ'. assert (y <= z) by (unfold active in AZ, AZ'; rewrite andb_true_iff, Z.leb_le in AZ, AZ'; destruct ST; lia).
    pose proof (keep_rows s t y (in_down s I) (in_down t J) NC AS AT C (Z.to_nat (z - y))) as K. rewrite Z2Nat.id in K by lia. replace (y + (z - y)) with z in K by ring. auto.
Qed.

(** ** Counting *)
Definition weight (e : revent) : nat := if is_swap e then 1 else 3.
Definition later (e0 : revent) (ij : nat * nat) : bool :=
  match edge_at (fst ij), edge_at (snd ij) with
  | Some s, Some t => match rintersects s t with Some w => (det s t <? 0) && lt_k (key e0) (key (swap_event (fst ij) (snd ij) w)) | None => false end
  | _, _ => false end.
Definition all_pairs : list (nat * nat) := list_prod (seq 1 (length es)) (seq 1 (length es)).
Definition sum_weight (l : list revent) : nat := list_sum (map weight l).
Definition left_over (L : list revent) (c : nat) (e0 : revent) : nat := sum_weight (skipn c L) + 2 * length (filter (later e0) all_pairs).
Lemma sum_weight_app l m : sum_weight (l ++ m) = (sum_weight l + sum_weight m)%nat.
Proof. unfold sum_weight. rewrite map_app, list_sum_app. reflexivity. Qed.
Lemma sum_weight_perm l m : Permutation l m -> sum_weight l = sum_weight m.
Proof. unfold sum_weight, list_sum. induction 1; cbn [map fold_right]; lia. Qed.
Lemma sum_weight_swaps l : Forall (fun e => is_swap e = true) l -> sum_weight l = length l.
Proof. unfold sum_weight, list_sum. induction 1 as [|e l H F IH]; [reflexivity|]. cbn [map fold_right length]. unfold weight at 1. rewrite H. lia. Qed.
Lemma later_mono e0 e1 ij : le_e e0 e1 -> later e1 ij = true -> later e0 ij = true.
Proof.
  intros LE. unfold later. destruct (edge_at (fst ij)) as [s|]; [|auto]. destruct (edge_at (snd ij)) as [t|]; [|auto]. destruct (rintersects s t) as [w|]; [|auto]. rewrite !andb_true_iff.
  intros (A & B). split; [exact A|]. exact (le_lt_e _ _ _ LE B).
Qed.
Lemma node_range n s : edge_at n = Some s -> In n (seq 1 (length es)).
Proof. destruct n as [|n]; [discriminate|]. cbn. intros E. apply in_seq. assert (n < length es)%nat by (apply nth_error_Some; congruence). lia. Qed.

(** ** The next event *)
Lemma rnext_true st L J c x st' : queue_ok st L J c -> nth_error L c = Some x -> rs_ok st = true -> rnext st = Some st' -> rs_ok st' = true.
Proof.
  intros Q N OK. assert (CL : (c < length L)%nat) by (apply nth_error_Some; congruence).
  unfold RasterModel.rnext. cbv zeta. unfold check, with_events. cbn [rs_events rs_last rs_cur rs_sweep rs_nodes rs_ok]. rewrite (qo_events _ _ _ _ Q), (qo_last _ _ _ _ Q).
  pose proof (qo_valid _ _ _ _ Q) as V. pose proof (qo_sorted _ _ _ _ Q) as SRT. rewrite OK, (qo_cur _ _ _ _ Q), app_length.
  assert (C1 : Z.of_nat c <? Z.of_nat (length L + length J) = true) by (apply Z.ltb_lt; lia). rewrite C1. cbn [andb].
  destruct (Nat.ltb_spec (length L) (length L + length J)); [|intros E; injection E as <-; reflexivity]. destruct (Nat.eqb_spec (length L) 0); [lia|].
  rewrite firstn_app, firstn_all, Nat.sub_diag, firstn_O, app_nil_r. rewrite skipn_app, skipn_all, Nat.sub_diag. cbn [app skipn].
  set (found := map (fun e => (e, EventsModel.lower_bound revent revent_lt L e)) J). apply Forall_app in V as (VL & VJ).
  assert (VF : Forall (fun en => valid (fst en)) found).
  { unfold found. rewrite Forall_forall in *. intros y Y. apply in_map_iff in Y as (e & <- & Y). cbn. auto. }
  destruct (SN found VF) as (PN & _). set (l := sort_new found) in *.
  assert (FL : forall en, In en l -> snd en = EventsModel.lower_bound revent (EventsSpec.lt_ev revent RasterOrder.rkey key lt_k) L (fst en) /\ In (fst en) J).
  { intros en I. apply (Permutation_in _ (Permutation_sym PN)) in I. unfold found in I. apply in_map_iff in I as (e & <- & I). cbn. rewrite Forall_forall in VJ. split; [apply lower_bound_valid; auto|exact I]. }
  match goal with |- match ?q with _ => _ end = _ -> _ => destruct q; [|discriminate] end. intros E. injection E as <-. cbn [rs_ok].
  destruct l as [|(e, p) l']; [reflexivity|]. cbn [EventsModel.renumber]. destruct (FL (e, p) (or_introl eq_refl)) as (P & I). cbn [fst snd] in P, I.
  pose proof (qo_ahead _ _ _ _ Q) as AH. rewrite Forall_forall in AH. destruct (AH e I) as (x' & N' & LT). pose proof (new_ahead L e c x' SRT N' LT) as LE. apply Z.ltb_lt. lia.
Qed.
Lemma advance st L c e0 x st1 J e1 : good st L c e0 -> nth_error L c = Some x -> queue_ok st1 L J c -> rs_nodes st1 = rs_nodes st -> NoDup (rs_sweep st1) ->
  (forall n, In n (rs_sweep st1) <-> exists s, edge_at n = Some s /\ In (fwd n s) (firstn (S c) L) /\ ~ In (bwd n s) (firstn (S c) L)) -> rs_ok st1 = true ->
  (forall e, In e J -> exists i j w s t, e = swap_event i j w /\ edge_at i = Some s /\ edge_at j = Some t /\ crossing s t w) ->
  ev_ok e1 -> le_e x e1 -> le_e e0 e1 -> (forall e, In e (skipn (S c) L ++ J) -> le_e e1 e) -> StronglySorted (bef e1) (rs_sweep st1) ->
  (forall A a b B s t w, rs_sweep st1 = A ++ a :: b :: B -> edge_at a = Some s -> edge_at b = Some t -> crossing s t w -> In (swap_event a b w) (skipn (S c) L ++ J)) ->
  exists st2 L', rnext st1 = Some st2 /\ good st2 L' (S c) e1 /\ Permutation (skipn (S c) L') (skipn (S c) L ++ J) /\ rs_sweep st2 = rs_sweep st1.
Proof.
  intros G N Q NO ND IN OK SJ O1 LX L0 RS SO PE. destruct (rnext_ok sort_events sort_new SN st1 L J c x Q N) as (st2 & L' & R & Q' & F & P & SW & NO' & _).
  destruct (finish sort_events sort_new SN es st st1 L J c x (g_set _ _ _ _ G) N Q NO ND IN st2 R) as (L2 & ST & _ & _ & _).
  assert (L2 = L') as ->. { pose proof (qo_events _ _ _ _ (se_queue _ _ _ _ ST)) as A. pose proof (qo_events _ _ _ _ Q') as B. rewrite app_nil_r in A, B. congruence. }
  exists st2, L'. split; [exact R|]. assert (PS : Permutation (skipn (S c) L') (skipn (S c) L ++ J)).
  { apply (Permutation_app_inv_l (firstn (S c) L)). rewrite <- F at 1. rewrite firstn_skipn, app_assoc, firstn_skipn. exact P. }
  split; [|split; [exact PS|exact SW]]. constructor.
  - exact ST.
  - intros e I S. apply (Permutation_in _ P) in I. apply in_app_or in I as [I|I]; [exact (g_swaps _ _ _ _ G e I S)|exact (SJ e I)].
  - intros e I. rewrite F, (firstn_S_nth L c x N) in I. apply in_app_or in I as [I|[<-|[]]]; [|exact LX]. exact (le_e_trans _ _ _ (g_past _ _ _ _ G e I) L0).
  - intros e I. apply RS. apply (Permutation_in _ PS). exact I.
  - exact O1.
  - rewrite SW. exact SO.
  - intros A a b B s t w EQ EA EB C. rewrite SW in EQ. apply (Permutation_in _ (Permutation_sym PS)). eapply PE; eassumption.
  - exact (rnext_true st1 L J c x st2 Q N OK R).
Qed.

(** ** Looking for crossings *)
Definition pushes (x : revent) (st st' : rstate) (L J J' : list revent) (c : nat) : Prop :=
  queue_ok st' L (J ++ J') c /\ rs_sweep st' = rs_sweep st /\ rs_nodes st' = rs_nodes st /\ rs_ok st' = true /\ (length J' <= 1)%nat /\
  forall e, In e J' -> (exists i j w s t, e = swap_event i j w /\ edge_at i = Some s /\ edge_at j = Some t /\ crossing s t w) /\ lt_e x e.
Definition chk_ok (x : revent) (chk : rstate -> nat -> nat -> option rstate) : Prop :=
  forall st L J c p q s t, queue_ok st L J c -> nth_error L c = Some x -> rs_nodes st = dummy_node :: es -> rs_ok st = true -> edge_at p = Some s -> edge_at q = Some t ->
  bef_s x p q s t -> (forall w, rintersects s t = Some w -> ~ (wf_val w == ev_height x)%Q) ->
  exists st' J', chk st p q = Some st' /\ pushes x st st' L J J' c /\ forall w, crossing s t w -> In (swap_event p q w) J'.

Lemma pushes_none x st L J c : queue_ok st L J c -> rs_ok st = true -> pushes x st st L J [] c.
Proof. intros Q OK. unfold pushes. rewrite app_nil_r. split; [exact Q|]. split; [reflexivity|]. split; [reflexivity|]. split; [exact OK|]. split; [cbn; lia|]. intros e []. Qed.
Lemma later_crossing x p q s t w : In s es -> In t es -> ev_ok x -> bef_s x p q s t -> rintersects s t = Some w -> (ev_height x < wf_val w)%Q -> crossing s t w.
Proof.
  intros I J OX (_ & B2 & _) R H. split; [exact R|]. destruct (meets s t w (in_down s I) (in_down t J) R) as (D & _). destruct (Z_lt_le_dec (det s t) 0) as [?|G]; [assumption|exfalso].
  destruct (meets_sym s t w (agree s t I J) R) as (w' & R' & V). assert (C : crossing t s w') by (split; [exact R'|rewrite det_sym; lia]).
  pose proof (B2 w' C) as LE. apply le_e_height in LE; [|apply (swap_ev_ok t s w' q p J I R')|exact OX]. rewrite swap_height in LE. lra.
Qed.
Lemma push_step x st L J c p q s t w : queue_ok st L J c -> nth_error L c = Some x -> rs_ok st = true -> edge_at p = Some s -> edge_at q = Some t -> ev_ok x -> crossing s t w -> (ev_height x < wf_val w)%Q ->
  pushes x st (push_event st (swap_event p q w)) L J [swap_event p q w] c.
Proof.
  intros Q N OK EI EJ OX C H. pose proof (in_edge _ _ EI) as I. pose proof (in_edge _ _ EJ) as IJ. pose proof (swap_ev_ok s t w p q I IJ (proj1 C)) as OW.
  assert (LT : lt_e x (swap_event p q w)) by (apply height_lt_e; assumption). assert (V : valid (swap_event p q w)) by (intros _; apply (OW eq_refl)).
  assert (Vx : valid x). { pose proof (qo_valid _ _ _ _ Q) as V0. rewrite Forall_forall in V0. apply V0. apply in_or_app. left. eapply nth_error_In. exact N. }
  destruct (push_ok st L J c x (swap_event p q w) Q N eq_refl V LT) as (P1 & P2 & P3 & _).
  split; [exact P1|]. split; [exact P2|]. split; [exact P3|]. split.
  - unfold push_event, check. cbn [rs_ok with_events]. rewrite OK. cbn [andb].
    assert (CU : current (with_events st (rs_events st ++ [swap_event p q w]) (rs_last st) (rs_cur st)) = Some x).
    { unfold current, with_events. cbn [rs_cur rs_events]. rewrite (qo_cur _ _ _ _ Q), (qo_events _ _ _ _ Q). destruct (Z.ltb_spec (Z.of_nat c) 0); [lia|]. rewrite Nat2Z.id, <- app_assoc, nth_error_app1; [exact N|]. apply nth_error_Some. congruence. }
    first [rewrite (current_at st L J c x Q N)|rewrite CU]. rewrite revent_lt_key by assumption. exact LT.
  - split; [cbn; lia|]. intros e [<-|[]]. split; [|exact LT]. exists p, q, w, s, t. auto.
Qed.
Lemma check_chk x : is_swap x = false -> chk_ok x (fun st p q => check_intersection st p q (re_y x)).
Proof.
  intros SX st L J c p q s t Q N NO OK EI EJ B NE. pose proof (in_edge _ _ EI) as I. pose proof (in_edge _ _ EJ) as IJ. assert (OX : ev_ok x) by (intros H; congruence).
  assert (HX : ev_height x = inject_Z (re_y x)) by (unfold ev_height; rewrite SX; reflexivity).
  unfold check_intersection. rewrite NO, (edge_node _ _ _ EI), (edge_node _ _ _ EJ). destruct (rintersects s t) as [w|] eqn:R.
  2:{ exists st, []. split; [reflexivity|]. split; [apply pushes_none; assumption|]. intros w (R' & _). congruence. }
  pose proof (wf_cmp_int_val w (re_y x) (inter_proper s t w I IJ R)) as S. unfold same_order in S. specialize (NE w eq_refl). rewrite HX in NE. destruct (wf_cmp_int w (re_y x)); cbn [not_before].
  - contradiction.
  - exists st, []. split; [reflexivity|]. split; [apply pushes_none; assumption|]. intros w' C. exfalso. destruct B as (B1 & _). assert (w' = w) as -> by (destruct C as (R' & _); congruence).
    pose proof (B1 w C) as LT. apply lt_e_le, le_e_height in LT; [|exact OX|apply (swap_ev_ok s t w p q I IJ R)]. rewrite swap_height, HX in LT. lra.
  - assert (H : (ev_height x < wf_val w)%Q) by (rewrite HX; exact S). pose proof (later_crossing x p q s t w I IJ OX B R H) as C.
    exists (push_event st (swap_event p q w)), [swap_event p q w]. split; [reflexivity|]. split; [apply (push_step x st L J c p q s t w); assumption|]. intros w' (R' & _). assert (w' = w) as -> by congruence. left. reflexivity.
Qed.
Definition after (f : nat) (y : wfrac) (st : rstate) (s1 s2 : nat) : option rstate :=
  match nth_error (rs_nodes st) s1, nth_error (rs_nodes st) s2 with
  | Some e1, Some e2 =>
      match rintersects e1 e2 with
      | Some w => if not_before w (wf_cmp w y) then if wf_eqb w y then swap_and_check f st s1 s2 y else Some (push_event st (swap_event s1 s2 w)) else Some st
      | None => Some st
      end
  | _, _ => None
  end.
Lemma swap_unfold f st s1 s2 y : swap_and_check (S f) st s1 s2 y =
  if negb (existsb (Nat.eqb s1) (rs_sweep st) && existsb (Nat.eqb s2) (rs_sweep st)) then None
  else if negb (opt_nat_eqb (next_of s1 (rs_sweep st)) (Some s2)) then Some st
  else
    let st := with_sweep st (put_before s1 s2 (erase_node s2 (rs_sweep st))) in
    match (match prev_of s2 (rs_sweep st) with Some p => after f y st p s2 | None => Some st end) with
    | None => None
    | Some st => match next_of s1 (rs_sweep st) with Some n => after f y st s1 n | None => Some st end
    end.
Proof. reflexivity. Qed.
Lemma after_chk x f : is_swap x = true -> ev_ok x -> chk_ok x (after f (re_intr x)).
Proof.
  intros SX OX st L J c p q s t Q N NO OK EI EJ B NE. pose proof (in_edge _ _ EI) as I. pose proof (in_edge _ _ EJ) as IJ.
  assert (HX : ev_height x = wf_val (re_intr x)) by (unfold ev_height; rewrite SX; reflexivity).
  unfold after. rewrite NO, (edge_node _ _ _ EI), (edge_node _ _ _ EJ). destruct (rintersects s t) as [w|] eqn:R.
  2:{ exists st, []. split; [reflexivity|]. split; [apply pushes_none; assumption|]. intros w (R' & _). congruence. }
  pose proof (inter_proper s t w I IJ R) as PW. pose proof (wf_cmp_val w (re_intr x) PW (OX SX)) as S. unfold same_order in S. specialize (NE w eq_refl). rewrite HX in NE.
  assert (EQ : wf_eqb w (re_intr x) = false). { apply not_true_is_false. intros E. apply NE. apply (wf_eqb_val w (re_intr x) PW (OX SX)). exact E. }
  rewrite EQ. destruct (wf_cmp w (re_intr x)); cbn [not_before].
  - contradiction.
  - exists st, []. split; [reflexivity|]. split; [apply pushes_none; assumption|]. intros w' C. exfalso. destruct B as (B1 & _). assert (w' = w) as -> by (destruct C as (R' & _); congruence).
    pose proof (B1 w C) as LT. apply lt_e_le, le_e_height in LT; [|exact OX|apply (swap_ev_ok s t w p q I IJ R)]. rewrite swap_height, HX in LT. lra.
  - assert (H : (ev_height x < wf_val w)%Q) by (rewrite HX; exact S). pose proof (later_crossing x p q s t w I IJ OX B R H) as C.
    exists (push_event st (swap_event p q w)), [swap_event p q w]. split; [reflexivity|]. split; [apply (push_step x st L J c p q s t w); assumption|]. intros w' (R' & _). assert (w' = w) as -> by congruence. left. reflexivity.
Qed.
(** The neighbour before and the neighbour after. *)
Lemma left_ok x chk st L J c n A B : chk_ok x chk -> queue_ok st L J c -> nth_error L c = Some x -> rs_nodes st = dummy_node :: es -> rs_ok st = true -> ~ In n A -> ~ In n B ->
  (forall A' p, A = A' ++ [p] -> exists s u, edge_at p = Some s /\ edge_at n = Some u /\ bef_s x p n s u /\ forall w, rintersects s u = Some w -> ~ (wf_val w == ev_height x)%Q) ->
  exists st' J', match prev_of n (A ++ n :: B) with Some p => chk st p n | None => Some st end = Some st' /\ pushes x st st' L J J' c /\
    forall A' p s u w, A = A' ++ [p] -> edge_at p = Some s -> edge_at n = Some u -> crossing s u w -> In (swap_event p n w) J'.
Proof.
  intros K Q N NO OK NA NB H. destruct (last_split A) as [->|(A' & p & ->)].
  - cbn [app]. rewrite prev_of_first by exact NB. exists st, []. split; [reflexivity|]. split; [apply pushes_none; assumption|]. intros [|? ?] p s u w E; discriminate.
  - rewrite <- app_assoc. cbn [app]. rewrite prev_of_app by exact NA. destruct (H A' p eq_refl) as (s & u & EP' & EN & BB & NE). destruct (K st L J c p n s u Q N NO OK EP' EN BB NE) as (st' & J' & E & P & CR).
    exists st', J'. split; [exact E|]. split; [exact P|]. intros A2 p2 s2 u2 w E2 EP2 EN2 C. apply app_inj_tail in E2 as (-> & <-). apply CR. assert (s2 = s) as -> by congruence. assert (u2 = u) as -> by congruence. exact C.
Qed.
Lemma right_ok x chk st L J c n A B : chk_ok x chk -> queue_ok st L J c -> nth_error L c = Some x -> rs_nodes st = dummy_node :: es -> rs_ok st = true -> ~ In n A ->
  (forall q B', B = q :: B' -> exists s u, edge_at q = Some s /\ edge_at n = Some u /\ bef_s x n q u s /\ forall w, rintersects u s = Some w -> ~ (wf_val w == ev_height x)%Q) ->
  exists st' J', match next_of n (A ++ n :: B) with Some q => chk st n q | None => Some st end = Some st' /\ pushes x st st' L J J' c /\
    forall q B' s u w, B = q :: B' -> edge_at q = Some s -> edge_at n = Some u -> crossing u s w -> In (swap_event n q w) J'.
Proof.
  intros K Q N NO OK NA H. destruct B as [|q B].
  - rewrite next_of_last by exact NA. exists st, []. split; [reflexivity|]. split; [apply pushes_none; assumption|]. intros; discriminate.
  - rewrite next_of_app by exact NA. destruct (H q B eq_refl) as (s & u & EQ & EN & BB & NE). destruct (K st L J c n q u s Q N NO OK EN EQ BB NE) as (st' & J' & E & P & CR).
    exists st', J'. split; [exact E|]. split; [exact P|]. intros q2 B2 s2 u2 w E2 EP2 EN2 C. injection E2 as <- <-. apply CR. assert (s2 = s) as -> by congruence. assert (u2 = u) as -> by congruence. exact C.
Qed.

(** ** One event *)
Definition step_ok (t : rtype) (h : rstate -> revent -> option rstate) (y : Z) : Prop :=
  forall st L c e0 x, good st L c e0 -> nth_error L c = Some x -> re_type x = t -> (is_swap x = false -> re_y x = y) ->
  exists st1 st2 L' e1, h st x = Some st1 /\ rnext st1 = Some st2 /\ good st2 L' (S c) e1 /\ (left_over L' (S c) e1 < left_over L c e0)%nat /\ (e1 = x \/ e1 = e0) /\
    forall e, In e (skipn (S c) L') -> is_swap e = false -> In e (skipn c L).
Lemma rest_after st L c e0 x : good st L c e0 -> nth_error L c = Some x -> forall e, In e (skipn c L) -> le_e x e.
Proof.
  intros G N e I. apply In_nth_error in I as (k & I). rewrite nth_skipn in I. exact (sorted_nth L c (c + k) x e (qo_sorted _ _ _ _ (se_queue _ _ _ _ (g_set _ _ _ _ G))) ltac:(lia) N I).
Qed.
Lemma done_step st L c e0 x st2 L' J e1 : good st L c e0 -> nth_error L c = Some x -> good st2 L' (S c) e1 -> Permutation (skipn (S c) L') (skipn (S c) L ++ J) -> Forall (fun e => is_swap e = true) J ->
  (length J + 2 * length (filter (later e1) all_pairs) < weight x + 2 * length (filter (later e0) all_pairs))%nat ->
  (left_over L' (S c) e1 < left_over L c e0)%nat /\ forall e, In e (skipn (S c) L') -> is_swap e = false -> In e (skipn c L).
Proof.
  intros G N G2 P FJ LT. split.
  - unfold left_over. rewrite (sum_weight_perm _ _ P), sum_weight_app, (sum_weight_swaps J FJ), (skipn_S_nth L c x N). unfold sum_weight at 2. cbn [map list_sum fold_right].
    change (fold_right Init.Nat.add 0%nat (map weight (skipn (S c) L))) with (sum_weight (skipn (S c) L)). lia.
  - intros e I S. apply (Permutation_in _ P) in I. apply in_app_or in I as [I|I]; [apply skipn_S_in; exact I|]. rewrite Forall_forall in FJ. specialize (FJ e I). congruence.
Qed.
Lemma whole_ne x s t w : is_swap x = false -> In s es -> In t es -> rintersects s t = Some w -> ~ (wf_val w == ev_height x)%Q.
Proof. intros SX I J R. unfold ev_height. rewrite SX. exact (inter_whole s t w _ I J R). Qed.
Lemma base_shift st L c e0 x : good st L c e0 -> nth_error L c = Some x -> is_swap x = false -> StronglySorted (bef x) (rs_sweep st).
Proof.
  intros G N SX. apply (shift_all st L c e0 x G); [intros H; congruence|apply (rest_after st L c e0 x G N)|apply (g_rest _ _ _ _ G); apply cur_in_skip; exact N|].
  intros i j s t w _ _ _ E. apply same_key in E as (T & _). unfold is_swap in SX. rewrite T in SX. discriminate.
Qed.
Lemma pushes_swaps x st st' L J J' c : pushes x st st' L J J' c -> Forall (fun e => is_swap e = true) J'.
Proof. intros (_ & _ & _ & _ & _ & H). apply Forall_forall. intros e I. destruct (H e I) as ((i & j & w & s & t & -> & _) & _). reflexivity. Qed.

Lemma back_step y : step_ok RBackward on_backward y.
Proof.
  intros st L c e0 x G N T _. assert (SX : is_swap x = false) by (unfold is_swap; rewrite T; reflexivity). pose proof (g_set _ _ _ _ G) as ST. pose proof (se_queue _ _ _ _ ST) as Q.
  assert (OX : ev_ok x) by (intros H; congruence). pose proof (base_shift st L c e0 x G N SX) as SO. pose proof (rest_after st L c e0 x G N) as RX.
  assert (IB : In x (base es)) by (apply (in_base_nonswap es L); [apply ST|eapply nth_error_In; exact N|exact SX]).
  apply base_edge in IB as (s & E & [X|X]); [exfalso; rewrite X in T; discriminate|]. set (n := re_node x) in *.
  assert (IN : In n (rs_sweep st)).
  { apply (se_in _ _ _ _ ST). exists s. split; [exact E|]. split.
    - destruct (edge_fwd es n s E) as (IF & _). apply (Permutation_in _ (Permutation_sym (se_base _ _ _ _ ST))) in IF. apply filter_In in IF as (IF & _).
      rewrite <- (firstn_skipn c L) in IF. apply in_app_or in IF as [IF|IF]; [exact IF|exfalso]. apply RX in IF. apply le_e_height in IF; [|exact OX|intros H; discriminate].
      rewrite X in IF. unfold ev_height in IF. cbn [is_swap fwd bwd re_type re_y] in IF. rewrite <- Zle_Qle in IF. pose proof (in_down s (in_edge _ _ E)) as D. unfold down in D. lia.
    - intros I. apply (nodup_split es L c (se_base _ _ _ _ ST) (bwd n s) eq_refl I). rewrite <- X. apply cur_in_skip. exact N. }
  apply in_split in IN as (A & B & EQ). pose proof (se_nodup _ _ _ _ ST) as ND. rewrite EQ in ND, SO. pose proof ND as ND'. apply nodup_app in ND' as (_ & ND2 & ND3). apply NoDup_cons_iff in ND2 as (NB & _).
  assert (NA : ~ In n A) by (intros I; apply (ND3 n I); left; reflexivity).
  set (st0 := with_sweep st (A ++ B)). assert (Q0 : queue_ok st0 L [] c) by (destruct Q; constructor; assumption).
  assert (H : exists st1 J, on_backward st x = Some st1 /\ pushes x st0 st1 L [] J c /\
    forall A' p B' q sp sq w, A = A' ++ [p] -> B = q :: B' -> edge_at p = Some sp -> edge_at q = Some sq -> crossing sp sq w -> In (swap_event p q w) J).
  { unfold on_backward. fold n. rewrite (proj2 (existsb_in n (rs_sweep st))) by (rewrite EQ; apply in_or_app; right; left; reflexivity). cbn [negb]. rewrite EQ, (erase_mid A n B NA NB). fold st0.
    destruct (last_split A) as [->|(A' & p & ->)].
    - cbn [app]. rewrite prev_of_first by exact NB. exists st0, []. split; [reflexivity|]. split; [apply pushes_none; [exact Q0|apply G]|]. intros [|? ?] ? ? ? ? ? ? H; discriminate.
    - rewrite <- !app_assoc. cbn [app]. rewrite prev_of_app by exact NA. destruct B as [|q B].
      + replace (A' ++ [p; n]) with ((A' ++ [p]) ++ [n]) by (rewrite <- app_assoc; reflexivity). rewrite next_of_last by exact NA. exists st0, []. split; [reflexivity|]. split; [apply pushes_none; [exact Q0|apply G]|]. intros; discriminate.
      + replace (A' ++ p :: n :: q :: B) with ((A' ++ [p]) ++ n :: q :: B) by (rewrite <- app_assoc; reflexivity). rewrite next_of_app by exact NA.
        destruct (sweep_member st L c p ST) as (sp & EP' & _); [rewrite EQ, <- app_assoc; apply in_or_app; right; left; reflexivity|].
        destruct (sweep_member st L c q ST) as (sq & EQ' & _); [rewrite EQ; apply in_or_app; right; right; left; reflexivity|].
        assert (BB : bef x p q). { apply ss_app in SO as (_ & _ & SO). apply SO; [apply in_or_app; right; left; reflexivity|right; left; reflexivity]. }
        destruct (check_chk x SX st0 L [] c p q sp sq Q0 N (se_nodes _ _ _ _ ST) (g_ok _ _ _ _ G) EP' EQ' (BB sp sq EP' EQ')) as (st1 & J & E1 & P & CR); [intros w; apply whole_ne; [exact SX|eapply in_edge; eassumption|eapply in_edge; eassumption]|].
        exists st1, J. split; [exact E1|]. split; [exact P|]. intros A2 p2 B2 q2 sp2 sq2 w E2 E3 EP2 EQ2 C. apply app_inj_tail in E2 as (_ & <-). injection E3 as <- _. apply CR. assert (sp2 = sp) as -> by congruence. assert (sq2 = sq) as -> by congruence. exact C. }
  destruct H as (st1 & J & E1 & P & CR). destruct (back_handler es st L c x st1 ST N T E1) as (_ & _ & NO & ND1 & _ & IN1). pose proof (pushes_swaps _ _ _ _ _ _ _ P) as FJ. destruct P as (Q1 & SW1 & _ & OK1 & LJ & HJ). cbn [app] in Q1.
  assert (SWE : rs_sweep st1 = A ++ B) by exact SW1.
  destruct (advance st L c e0 x st1 J x G N Q1 NO ND1 IN1 OK1) as (st2 & L' & E2 & G2 & P2 & _).
  - intros e I. exact (proj1 (HJ e I)).
  - exact OX.
  - apply le_e_refl.
  - apply (g_rest _ _ _ _ G). apply cur_in_skip. exact N.
  - intros e I. apply in_app_or in I as [I|I]; [apply RX; apply skipn_S_in; exact I|apply lt_e_le; exact (proj2 (HJ e I))].
  - rewrite SWE. apply ss_app in SO as (S1 & S2 & S3). apply ss_cons in S2 as (S2 & _). apply ss_app. split; [exact S1|]. split; [exact S2|]. intros a b Ia Ib. apply S3; [exact Ia|right; exact Ib].
  - intros A1 a b B1 sa sb w E0 EA EB C. rewrite SWE in E0. apply in_or_app. assert (OLD : forall X Y, rs_sweep st = X ++ a :: b :: Y -> In (swap_event a b w) (skipn (S c) L)).
    { intros X0 Y0 H. pose proof (g_pend _ _ _ _ G X0 a b Y0 sa sb w H EA EB C) as I. rewrite (skipn_S_nth L c x N) in I. destruct I as [I|I]; [rewrite I in SX; discriminate|exact I]. }
    apply adj_app in E0 as [(D & ->)|[(D & ->)|(A2 & B2 & -> & ->)]].
    + left. apply (OLD A1 (D ++ n :: B)). rewrite EQ, <- app_assoc. reflexivity.
    + left. apply (OLD (A ++ n :: D) B1). rewrite EQ, <- app_assoc. reflexivity.
    + right. eapply CR; eauto.
  - exists st1, st2, L', x. split; [exact E1|]. split; [exact E2|]. split; [exact G2|]. destruct (done_step st L c e0 x st2 L' J x G N G2 P2 FJ) as (M1 & M2); [|auto].
    pose proof (filter_le (later x) (later e0) all_pairs (fun ij => later_mono e0 x ij (g_rest _ _ _ _ G x (cur_in_skip _ _ _ N)))). unfold weight. rewrite SX. lia.
Qed.
Lemma fwd_step y : step_ok RForward (on_forward y) y.
Proof.
  intros st L c e0 x G N T RY. assert (SX : is_swap x = false) by (unfold is_swap; rewrite T; reflexivity). specialize (RY SX). pose proof (g_set _ _ _ _ G) as ST. pose proof (se_queue _ _ _ _ ST) as Q.
  assert (OX : ev_ok x) by (intros H; congruence). assert (HX : (ev_height x == inject_Z y)%Q) by (unfold ev_height; rewrite SX, RY; reflexivity).
  pose proof (base_shift st L c e0 x G N SX) as SO. pose proof (rest_after st L c e0 x G N) as RX.
  assert (IB : In x (base es)) by (apply (in_base_nonswap es L); [apply ST|eapply nth_error_In; exact N|exact SX]).
  apply base_edge in IB as (s & E & [X|X]); [|exfalso; rewrite X in T; discriminate]. set (n := re_node x) in *. pose proof (in_edge _ _ E) as IS.
  assert (YS : py (sg_pa s) = y) by (rewrite <- RY, X; reflexivity).
  assert (AN : active y s = true) by (unfold active; rewrite andb_true_iff, Z.leb_le, Z.ltb_lt; pose proof (in_down s IS) as D; unfold down in D; lia).
  assert (M : members es (rs_sweep st)) by (intros k K; destruct (sweep_member st L c k ST K) as (u & EU & _); eauto).
  assert (AM : forall k u, In k (rs_sweep st) -> edge_at k = Some u -> active y u = true).
  { intros k u K EU. destruct (sweep_member st L c k ST K) as (u' & EU' & F & B). rewrite EU in EU'. injection EU' as <-. unfold active. rewrite andb_true_iff, Z.leb_le, Z.ltb_lt. split.
    - pose proof (le_e_trans _ _ _ (g_past _ _ _ _ G _ F) (g_rest _ _ _ _ G x (cur_in_skip _ _ _ N))) as LE. apply le_e_height in LE; [|intros H; discriminate|exact OX]. rewrite HX in LE. unfold ev_height in LE. cbn [is_swap fwd re_type re_y] in LE. rewrite <- Zle_Qle in LE. exact LE.
    - pose proof (RX _ B) as LE. apply le_k_lex in LE. assert (EH : ev_h x = (y, 0%Q)) by (unfold ev_h; rewrite SX, RY; reflexivity). rewrite EH, T in LE. apply lex_ns in LE; [|reflexivity]. cbn in LE. lia. }
  assert (NI : ~ In n (rs_sweep st)).
  { intros I. apply (se_in _ _ _ _ ST) in I as (s' & E' & F & _). rewrite E in E'. injection E' as <-. apply (nodup_split es L c (se_base _ _ _ _ ST) (fwd n s) eq_refl F). rewrite <- X. apply cur_in_skip. exact N. }
  destruct (insert_exists es y n s (rs_sweep st) M) as (sw & IS').
  assert (ORD : ordered es y (rs_sweep st)).
  { unfold ordered. apply (ss_lift (bef x) _ _ SO). intros A i M' j B EQ a b EA EB. pose proof SO as SO'. rewrite EQ in SO'. apply ss_app in SO' as (_ & SO' & _). apply ss_cons in SO' as (_ & BB).
    assert (BIJ : bef x i j) by (apply BB; apply in_or_app; right; left; reflexivity).
    apply (row_order x y i j a b); [eapply in_edge; eassumption|eapply in_edge; eassumption|exact OX|exact HX|exact (BIJ a b EA EB)| |].
    - apply (AM i); [rewrite EQ; apply in_or_app; right; left; reflexivity|exact EA].
    - apply (AM j); [rewrite EQ; apply in_or_app; right; right; apply in_or_app; right; left; reflexivity|exact EB]. }
  pose proof (insert_ordered es ES y n s E _ _ M ORD IS') as ORD'. destruct (insert_split _ _ _ _ _ _ IS') as (A & B & EQ & SWE). rewrite SWE in ORD'. unfold ordered in ORD'. apply ss_app in ORD' as (_ & OR2 & OR3). apply ss_cons in OR2 as (_ & OR2).
  assert (NA : ~ In n A) by (intros I; apply NI; rewrite EQ; apply in_or_app; auto). assert (NB : ~ In n B) by (intros I; apply NI; rewrite EQ; apply in_or_app; auto).
  assert (BA : forall p, In p A -> bef x p n).
  { intros p I a b EA EB. rewrite E in EB. injection EB as <-. apply (start_order x y p n a s (in_edge _ _ EA) IS OX HX); [apply (AM p); [rewrite EQ; apply in_or_app; auto|exact EA]|exact AN|auto|]. exact (OR3 p n I (or_introl eq_refl) a s EA E). }
  assert (BB : forall q, In q B -> bef x n q).
  { intros q I a b EA EB. rewrite E in EA. injection EA as <-. apply (start_order x y n q s b IS (in_edge _ _ EB) OX HX); [exact AN|apply (AM q); [rewrite EQ; apply in_or_app; auto|exact EB]|auto|]. exact (OR2 q I s b E EB). }
  set (st0 := with_sweep st sw). assert (Q0 : queue_ok st0 L [] c) by (destruct Q; constructor; assumption).
  destruct (left_ok x (fun st p q => check_intersection st p q (re_y x)) st0 L [] c n A B (check_chk x SX) Q0 N (se_nodes _ _ _ _ ST) (g_ok _ _ _ _ G) NA NB) as (sl & JL & EL & PL & CL).
  { intros A' p ->. destruct (sweep_member st L c p ST) as (u & EU & _); [rewrite EQ; apply in_or_app; left; apply in_or_app; right; left; reflexivity|]. exists u, s. split; [exact EU|]. split; [exact E|]. split; [apply BA; [apply in_or_app; right; left; reflexivity|exact EU|exact E]|].
    intros w. apply whole_ne; [exact SX|eapply in_edge; eassumption|exact IS]. }
  pose proof (pushes_swaps _ _ _ _ _ _ _ PL) as FL. destruct PL as (QL & SWL & NOL & OKL & LL & HL).
  destruct (right_ok x (fun st p q => check_intersection st p q (re_y x)) sl L ([] ++ JL) c n A B (check_chk x SX) QL N) as (sr & JR & ER & PR & CR); [rewrite NOL; exact (se_nodes _ _ _ _ ST)|exact OKL|exact NA| |].
  { intros q B' ->. destruct (sweep_member st L c q ST) as (u & EU & _); [rewrite EQ; apply in_or_app; right; left; reflexivity|]. exists u, s. split; [exact EU|]. split; [exact E|]. split; [apply BB; [left; reflexivity|exact E|exact EU]|].
    intros w. apply whole_ne; [exact SX|exact IS|eapply in_edge; eassumption]. }
  pose proof (pushes_swaps _ _ _ _ _ _ _ PR) as FR. destruct PR as (QR & SWR & NOR & OKR & LR & HR). cbn [app] in QR.
  assert (E1 : on_forward y st x = Some sr).
  { unfold on_forward. fold n. rewrite (se_nodes _ _ _ _ ST), (edge_node _ _ _ E), IS'. fold st0. rewrite SWE. cbv beta in EL, ER. rewrite EL. exact ER. }
  destruct (fwd_handler es ES y st L c x sr ST N T E1) as (_ & _ & NO & ND1 & _ & IN1).
  assert (SWF : rs_sweep sr = A ++ n :: B) by (rewrite SWR, SWL; exact SWE).
  destruct (advance st L c e0 x sr (JL ++ JR) x G N QR NO ND1 IN1 OKR) as (st2 & L' & E2 & G2 & P2 & _).
  - intros e I. apply in_app_or in I as [I|I]; [exact (proj1 (HL e I))|exact (proj1 (HR e I))].
  - exact OX.
  - apply le_e_refl.
  - apply (g_rest _ _ _ _ G). apply cur_in_skip. exact N.
  - intros e I. apply in_app_or in I as [I|I]; [apply RX; apply skipn_S_in; exact I|]. apply lt_e_le. apply in_app_or in I as [I|I]; [exact (proj2 (HL e I))|exact (proj2 (HR e I))].
  - rewrite SWF. rewrite EQ in SO. apply ss_app in SO as (S1 & S2 & S3). apply ss_app. split; [exact S1|]. split; [apply ss_cons; split; [exact S2|exact BB]|].
    intros a b Ia [<-|Ib]; [apply BA; exact Ia|apply S3; assumption].
  - intros A1 a b B1 sa sb w E0 EA EB C. rewrite SWF in E0. assert (OLD : forall X Y, rs_sweep st = X ++ a :: b :: Y -> In (swap_event a b w) (skipn (S c) L)).
    { intros X0 Y0 H. pose proof (g_pend _ _ _ _ G X0 a b Y0 sa sb w H EA EB C) as I. rewrite (skipn_S_nth L c x N) in I. destruct I as [I|I]; [rewrite I in SX; discriminate|exact I]. }
    rewrite !in_app_iff. apply adj_app in E0 as [(D & ->)|[(D & E0)|(A2 & B2 & -> & E0)]].
    + left. apply (OLD A1 (D ++ B)). rewrite EQ, <- app_assoc. reflexivity.
    + destruct D as [|d D]; cbn [app] in E0; injection E0 as H1 H2.
      * subst a. right. right. rewrite H2 in CR. eapply CR; eauto.
      * left. apply (OLD (A ++ D) B1). rewrite EQ, H2, <- app_assoc. reflexivity.
    + injection E0 as H1 H2. subst b. right. left. eapply CL; eauto.
  - exists sr, st2, L', x. split; [exact E1|]. split; [exact E2|]. split; [exact G2|]. assert (FJ : Forall (fun e => is_swap e = true) (JL ++ JR)) by (apply Forall_app; auto).
    destruct (done_step st L c e0 x st2 L' (JL ++ JR) x G N G2 P2 FJ) as (M1 & M2); [|auto].
    pose proof (filter_le (later x) (later e0) all_pairs (fun ij => later_mono e0 x ij (g_rest _ _ _ _ G x (cur_in_skip _ _ _ N)))). unfold weight. rewrite SX, app_length. lia.
Qed.

(** A third edge does not cross at the same height. *)
Lemma third_t i j m s t u w w' : edge_at i = Some s -> edge_at j = Some t -> edge_at m = Some u -> m <> i -> m <> j -> crossing s t w -> rintersects u t = Some w' -> ~ (wf_val w' == wf_val w)%Q.
Proof.
  intros EI EJ EM NI NJ (R & _) R' V. destruct (meets_cross s t w R) as (X & C). destruct (meets_cross u t w' R') as (X' & C').
  destruct (cross_spans u t _ _ (in_down u (in_edge _ _ EM)) (in_down t (in_edge _ _ EJ)) C') as (SU & _). pose proof (tall_pos t (in_down t (in_edge _ _ EJ))) as PT.
  apply (TH i j m s t u X (wf_val w) EI EJ EM NI NJ C); [unfold spans in *; lra|].
  destruct C as (_ & a & b & _ & _ & _ & _ & _ & _ & X2 & Y2). destruct C' as (_ & a' & b' & _ & _ & _ & _ & X1' & Y1' & X2' & Y2').
  assert (F1 : (lineQ u (wf_val w) == tallQ u * X')%Q).
  { assert (F4 : (lineQ u (wf_val w') == tallQ u * X')%Q) by (unfold lineQ, tallQ; rewrite X1', Y1'; ring). rewrite <- F4. unfold lineQ. rewrite V. reflexivity. }
  assert (F2 : (lineQ t (wf_val w) == tallQ t * X)%Q) by (unfold lineQ, tallQ; rewrite X2, Y2; ring).
  assert (F3 : (lineQ t (wf_val w) == tallQ t * X')%Q).
  { assert (F4 : (lineQ t (wf_val w') == tallQ t * X')%Q) by (unfold lineQ, tallQ; rewrite X2', Y2'; ring). rewrite <- F4. unfold lineQ. rewrite V. reflexivity. }
  assert (EX : (X == X')%Q). { apply (Qmult_inj_l _ _ (tallQ t)); [lra|]. rewrite <- F2, F3. reflexivity. }
  rewrite F1, EX. ring.
Qed.
Lemma third_s i j m s t u w w' : edge_at i = Some s -> edge_at j = Some t -> edge_at m = Some u -> m <> i -> m <> j -> crossing s t w -> rintersects s u = Some w' -> ~ (wf_val w' == wf_val w)%Q.
Proof.
  intros EI EJ EM NI NJ (R & _) R' V. destruct (meets_cross s t w R) as (X & C). destruct (meets_cross s u w' R') as (X' & C').
  destruct (cross_spans s u _ _ (in_down s (in_edge _ _ EI)) (in_down u (in_edge _ _ EM)) C') as (_ & SU). pose proof (tall_pos s (in_down s (in_edge _ _ EI))) as PT.
  apply (TH i j m s t u X (wf_val w) EI EJ EM NI NJ C); [unfold spans in *; lra|].
  destruct C as (_ & a & b & _ & _ & _ & _ & X2 & Y2 & _ & _). destruct C' as (_ & a' & b' & _ & _ & _ & _ & X2' & Y2' & X1' & Y1').
  assert (F1 : (lineQ u (wf_val w) == tallQ u * X')%Q).
  { assert (F4 : (lineQ u (wf_val w') == tallQ u * X')%Q) by (unfold lineQ, tallQ; rewrite X1', Y1'; ring). rewrite <- F4. unfold lineQ. rewrite V. reflexivity. }
  assert (F2 : (lineQ s (wf_val w) == tallQ s * X)%Q) by (unfold lineQ, tallQ; rewrite X2, Y2; ring).
  assert (F3 : (lineQ s (wf_val w) == tallQ s * X')%Q).
  { assert (F4 : (lineQ s (wf_val w') == tallQ s * X')%Q) by (unfold lineQ, tallQ; rewrite X2', Y2'; ring). rewrite <- F4. unfold lineQ. rewrite V. reflexivity. }
  assert (EX : (X == X')%Q). { apply (Qmult_inj_l _ _ (tallQ s)); [lra|]. rewrite <- F2, F3. reflexivity. }
  rewrite F1, EX. ring.
Qed.
Lemma next_none i j l : NoDup l -> next_of i l <> Some j -> opt_nat_eqb (next_of i l) (Some j) = false.
Proof. intros _ H. destruct (next_of i l) as [k|]; [|reflexivity]. cbn. apply Nat.eqb_neq. congruence. Qed.
Lemma swap_members st L c e0 i j s t w : good st L c e0 -> nth_error L c = Some (swap_event i j w) -> edge_at i = Some s -> edge_at j = Some t -> crossing s t w ->
  forall n u, edge_at n = Some u -> spans (wf_val w) u -> In n (rs_sweep st).
Proof.
  intros G N EI EJ C n u EN (S1 & S2). pose proof (g_set _ _ _ _ G) as ST. pose proof (rest_after st L c e0 _ G N) as RX.
  pose proof (swap_ev_ok s t w i j (in_edge _ _ EI) (in_edge _ _ EJ) (proj1 C)) as OW. unfold injY in S1, S2.
  apply (se_in _ _ _ _ ST). exists u. split; [exact EN|]. split.
  - destruct (edge_fwd es n u EN) as (IF & _). apply (Permutation_in _ (Permutation_sym (se_base _ _ _ _ ST))) in IF. apply filter_In in IF as (IF & _).
    rewrite <- (firstn_skipn c L) in IF. apply in_app_or in IF as [IF|IF]; [exact IF|exfalso]. apply RX in IF. apply le_e_height in IF; [|exact OW|intros H; discriminate].
    rewrite swap_height in IF. unfold ev_height in IF. cbn [is_swap fwd re_type re_y] in IF. lra.
  - intros I. pose proof (le_e_trans _ _ _ (g_past _ _ _ _ G _ I) (g_rest _ _ _ _ G _ (cur_in_skip _ _ _ N))) as LE. apply le_e_height in LE; [|intros H; discriminate|exact OW].
    rewrite swap_height in LE. unfold ev_height in LE. cbn [is_swap bwd re_type re_y] in LE. lra.
Qed.
(** At its event, a pair that still has to cross is adjacent. *)
Lemma swap_adjacent st L c e0 i j s t w : good st L c e0 -> nth_error L c = Some (swap_event i j w) -> edge_at i = Some s -> edge_at j = Some t -> crossing s t w -> lt_e e0 (swap_event i j w) ->
  exists A B, rs_sweep st = A ++ i :: j :: B.
Proof.
  intros G N EI EJ C LT. pose proof (in_edge _ _ EI) as II. pose proof (in_edge _ _ EJ) as IJ. destruct (cross_in s t w II IJ C) as (SS & SP).
  pose proof (rest_after st L c e0 _ G N) as RX. pose proof (swap_ev_ok s t w i j II IJ (proj1 C)) as OW.
  pose proof (swap_members st L c e0 i j s t w G N EI EJ C i s EI SS) as I1. pose proof (swap_members st L c e0 i j s t w G N EI EJ C j t EJ SP) as I2.
  assert (NIJ : i <> j). { intros <-. rewrite EI in EJ. injection EJ as <-. destruct C as (_ & D). unfold det in D. lia. }
  pose proof (g_sorted _ _ _ _ G) as SO. pose proof (se_nodup _ _ _ _ (g_set _ _ _ _ G)) as ND.
  apply in_split in I1 as (A & R & EQ). rewrite EQ in I2, SO, ND. apply in_app_or in I2 as [I2|[I2|I2]]; [exfalso|contradiction|].
  - apply ss_app in SO as (_ & _ & SO). destruct (SO j i I2 (or_introl eq_refl) t s EJ EI) as (_ & B2 & _). specialize (B2 w C). apply not_lt_e in B2. exact (B2 LT).
  - apply in_split in I2 as (M & B & ->). destruct M as [|m M]; [exists A, B; exact EQ|exfalso].
    assert (IM : In m (rs_sweep st)) by (rewrite EQ; apply in_or_app; right; right; left; reflexivity).
    destruct (sweep_member st L c m (g_set _ _ _ _ G) IM) as (u & EM & _).
    apply ss_app in SO as (_ & SO & _). apply ss_cons in SO as (SO & B1). cbn [app] in SO, B1. apply ss_cons in SO as (_ & B2).
    assert (BIM : bef e0 i m) by (apply B1; left; reflexivity). assert (BMJ : bef e0 m j) by (apply B2; apply in_or_app; right; left; reflexivity).
    assert (NI : m <> i /\ m <> j).
    { apply nodup_app in ND as (_ & ND & _). split; intros ->.
      - apply NoDup_cons_iff in ND as (N0 & _). apply N0. left. reflexivity.
      - apply NoDup_cons_iff in ND as (_ & ND). cbn [app] in ND. apply NoDup_cons_iff in ND as (N0 & _). apply N0. apply in_or_app. right. left. reflexivity. }
    assert (SU : spans (wf_val w) u) by (eapply (member_spans st L c e0 (swap_event i j w) m u i j s t w); try eassumption; [apply lt_e_le; exact LT|apply le_e_refl]).
    assert (H0 : (ev_height e0 <= wf_val w)%Q) by (rewrite <- (swap_height i j w); apply le_e_height; [apply G|exact OW|apply lt_e_le; exact LT]).
    destruct (between e0 i m j s u t w EI EM EJ (proj1 NI) (proj2 NI) (g_ev _ _ _ _ G) (BIM s u EI EM) (BMJ u t EM EJ) C H0 SU) as [(w' & C' & H')|(w' & C' & H')].
    + pose proof (no_skip st L c e0 _ G OW RX 0 [] A i m (M ++ j :: B) s u w' (le_n _) EQ EI EM C') as LE. apply not_lt_e in LE. apply LE.
      apply height_lt_e; [apply (swap_ev_ok s u); [exact II|eapply in_edge; eassumption|apply C']|exact OW|exact H'].
    + pose proof (no_skip st L c e0 _ G OW RX (length M) M (A ++ [i]) m j B u t w' (le_n _)) as LE. rewrite <- app_assoc in LE. specialize (LE EQ EM EJ C'). apply not_lt_e in LE. apply LE.
      apply height_lt_e; [apply (swap_ev_ok u t); [eapply in_edge; eassumption|exact IJ|apply C']|exact OW|exact H'].
Qed.
Lemma swap_step F y : step_ok RSwap (on_swap (S F)) y.
Proof.
  intros st L c e0 x G N T _. assert (SX : is_swap x = true) by (unfold is_swap; rewrite T; reflexivity). pose proof (g_set _ _ _ _ G) as ST. pose proof (se_queue _ _ _ _ ST) as Q.
  destruct (g_swaps _ _ _ _ G x (nth_error_In _ _ N) SX) as (i & j & w & s & t & X & EI & EJ & C). subst x. clear T SX. set (x := swap_event i j w) in *.
  pose proof (in_edge _ _ EI) as II. pose proof (in_edge _ _ EJ) as IJ. pose proof (swap_ev_ok s t w i j II IJ (proj1 C)) as OX. fold x in OX. pose proof (rest_after st L c e0 x G N) as RX.
  pose proof (g_rest _ _ _ _ G x (cur_in_skip _ _ _ N)) as LX. destruct (cross_in s t w II IJ C) as (SS & SP).
  pose proof (swap_members st L c e0 i j s t w G N EI EJ C i s EI SS) as I1. pose proof (swap_members st L c e0 i j s t w G N EI EJ C j t EJ SP) as I2.
  pose proof (se_nodup _ _ _ _ ST) as ND. destruct (lt_e_dec e0 x) as [LT|LE].
  - destruct (swap_adjacent st L c e0 i j s t w G N EI EJ C LT) as (A & B & EQ). rewrite EQ in ND. pose proof ND as ND'. apply nodup_app in ND' as (_ & ND2 & ND3). apply NoDup_cons_iff in ND2 as (NB & ND2). apply NoDup_cons_iff in ND2 as (NJB & _).
    assert (NA : ~ In i A) by (intros I; apply (ND3 i I); left; reflexivity). assert (NJA : ~ In j A) by (intros I; apply (ND3 j I); right; left; reflexivity).
    assert (NIJ : i <> j) by (intros ->; apply NB; left; reflexivity). assert (NIB : ~ In i B) by (intros I; apply NB; right; exact I).
    assert (SH : StronglySorted (fun a b => ~ (a = i /\ b = j) -> bef x a b) (rs_sweep st)).
    { apply (ss_lift (bef e0)); [apply G|]. intros A1 a M b B1 E1 NE sa sb EA EB. apply (shift st L c e0 x G OX RX LX M A1 a b B1 sa sb E1 EA EB). intros w' _ K. apply same_key in K as (_ & <- & <-). apply NE. auto. }
    rewrite EQ in SH. apply ss_app in SH as (H1 & H2 & H3). apply ss_cons in H2 as (H2 & H4). apply ss_cons in H2 as (H2 & H5).
    assert (BAJ : forall a, In a A -> bef x a j) by (intros a I; apply H3; [exact I|right; left; reflexivity|intros (-> & _); contradiction]).
    assert (BAI : forall a, In a A -> bef x a i) by (intros a I; apply H3; [exact I|left; reflexivity|intros (_ & Z); congruence]).
    assert (BAB : forall a b, In a A -> In b B -> bef x a b) by (intros a b I J; apply H3; [exact I|right; right; exact J|intros (-> & _); contradiction]).
    assert (BIB : forall b, In b B -> bef x i b) by (intros b J; apply H4; [right; exact J|intros (_ & ->); contradiction]).
    assert (BJB : forall b, In b B -> bef x j b) by (intros b J; apply H5; [exact J|intros (Z & _); congruence]).
    assert (BJI : bef x j i).
    { intros a b EA EB. rewrite EJ in EA. injection EA as <-. rewrite EI in EB. injection EB as <-. split; [|split].
      - intros w' (_ & D). destruct C as (_ & D'). rewrite det_sym in D. lia.
      - intros w' (R' & _). destruct C as (R & _). assert (w' = w) as -> by congruence. apply le_e_refl.
      - intros NC. exfalso. destruct (meets_cross s t w (proj1 C)) as (X0 & CR). apply (NC _ _ (cross_sym _ _ _ _ CR)). }
    set (sw := A ++ j :: i :: B). set (st0 := with_sweep st sw). assert (Q0 : queue_ok st0 L [] c) by (destruct Q; constructor; assumption).
    assert (SXX : is_swap x = true) by reflexivity.
    destruct (left_ok x (after F w) st0 L [] c j A (i :: B) (after_chk x F SXX OX) Q0 N (se_nodes _ _ _ _ ST) (g_ok _ _ _ _ G) NJA) as (sl & JL & EL & PL & CL).
    { intros [Z|Z]; [congruence|contradiction]. }
    { intros A' p ->. assert (IP : In p (A' ++ [p])) by (apply in_or_app; right; left; reflexivity). destruct (sweep_member st L c p ST) as (u & EU & _); [rewrite EQ; apply in_or_app; left; exact IP|].
      exists u, t. split; [exact EU|]. split; [exact EJ|]. split; [exact (BAJ p IP u t EU EJ)|]. intros w' R'. apply (third_t i j p s t u w w' EI EJ EU); try assumption; intros ->; contradiction. }
    pose proof (pushes_swaps _ _ _ _ _ _ _ PL) as FL. destruct PL as (QL & SWL & NOL & OKL & LL & HL).
    destruct (right_ok x (after F w) sl L ([] ++ JL) c i (A ++ [j]) B (after_chk x F SXX OX) QL N) as (sr & JR & ER & PR & CR); [rewrite NOL; exact (se_nodes _ _ _ _ ST)|exact OKL| | |].
    { intros I. apply in_app_or in I as [I|[I|[]]]; [contradiction|congruence]. }
    { intros q B' ->. destruct (sweep_member st L c q ST) as (u & EU & _); [rewrite EQ; apply in_or_app; right; right; right; left; reflexivity|]. exists u, s. split; [exact EU|]. split; [exact EI|]. split; [exact (BIB q (or_introl eq_refl) s u EI EU)|].
      intros w' R'. apply (third_s i j q s t u w w' EI EJ EU); try assumption; intros ->; [apply NIB|apply NJB]; left; reflexivity. }
    pose proof (pushes_swaps _ _ _ _ _ _ _ PR) as FR. destruct PR as (QR & SWR & NOR & OKR & LR & HR). cbn [app] in QR.
    assert (E1 : on_swap (S F) st x = Some sr).
    { unfold on_swap. change (re_a x) with i. change (re_b x) with j. rewrite swap_unfold. rewrite (proj2 (existsb_in i _) I1), (proj2 (existsb_in j _) I2). cbn [andb negb].
      rewrite EQ, next_of_app by exact NA. cbn [opt_nat_eqb]. rewrite Nat.eqb_refl. cbn [negb]. cbv zeta.
      assert (PB : put_before i j (erase_node j (A ++ i :: j :: B)) = sw).
      { replace (A ++ i :: j :: B) with ((A ++ [i]) ++ j :: B) by (rewrite <- app_assoc; reflexivity). rewrite erase_mid; [|intros I; apply in_app_or in I as [I|[I|[]]]; [contradiction|congruence]|exact NJB].
        rewrite <- app_assoc. cbn [app]. apply put_before_app. exact NA. }
      rewrite PB. fold st0. change (re_intr x) with w. change (rs_sweep st0) with (A ++ j :: i :: B). rewrite EL. rewrite SWL. change (rs_sweep st0) with sw. unfold sw. replace (A ++ j :: i :: B) with ((A ++ [j]) ++ i :: B) by (rewrite <- app_assoc; reflexivity). exact ER. }
    destruct (swap_handler es (S F) st L c x sr ST N eq_refl E1) as (_ & _ & NO & ND1 & _ & IN1).
    assert (SWF : rs_sweep sr = sw) by (rewrite SWR, SWL; reflexivity).
    destruct (advance st L c e0 x sr (JL ++ JR) x G N QR NO ND1 IN1 OKR) as (st2 & L' & E2 & G2 & P2 & _).
    + intros e I. apply in_app_or in I as [I|I]; [exact (proj1 (HL e I))|exact (proj1 (HR e I))].
    + exact OX.
    + apply le_e_refl.
    + exact LX.
    + intros e I. apply in_app_or in I as [I|I]; [apply RX; apply skipn_S_in; exact I|]. apply lt_e_le. apply in_app_or in I as [I|I]; [exact (proj2 (HL e I))|exact (proj2 (HR e I))].
    + rewrite SWF. unfold sw. apply ss_app. split; [|split].
      * apply (ss_lift _ _ _ H1). intros A1 a M b B1 EA. subst A. apply ss_app in H1 as (_ & H1 & _). apply ss_cons in H1 as (_ & H1). apply H1; [apply in_or_app; right; left; reflexivity|]. intros (-> & _). apply NA. apply in_or_app. right. left. reflexivity.
      * apply ss_cons. split; [apply ss_cons; split; [|exact BIB]|intros b [<-|I]; auto].
        apply (ss_lift _ _ _ H2). intros A1 a M b B1 EA. subst B. apply ss_app in H2 as (_ & H2 & _). apply ss_cons in H2 as (_ & H2). apply H2; [apply in_or_app; right; left; reflexivity|]. intros (-> & _). apply NIB. apply in_or_app. right. left. reflexivity.
      * intros a b I [<-|[<-|J]]; auto.
    + intros A1 a b B1 sa sb w1 E0 EA EB C1. rewrite SWF in E0. unfold sw in E0. assert (OLD : forall X Y, rs_sweep st = X ++ a :: b :: Y -> ~ (a = i /\ b = j) -> In (swap_event a b w1) (skipn (S c) L)).
      { intros X0 Y0 H NE. pose proof (g_pend _ _ _ _ G X0 a b Y0 sa sb w1 H EA EB C1) as I. rewrite (skipn_S_nth L c x N) in I. destruct I as [I|I]; [exfalso; apply NE; unfold x, swap_event in I; injection I; auto|exact I]. }
      rewrite !in_app_iff. apply adj_app in E0 as [(D & ->)|[(D & E0)|(A2 & B2 & -> & E0)]].
      * left. apply (OLD A1 (D ++ i :: j :: B)); [rewrite EQ, <- app_assoc; reflexivity|]. intros (-> & _). apply NA. apply in_or_app. right. left. reflexivity.
      * destruct D as [|d [|d' D]]; cbn [app] in E0; injection E0 as K1 K2 K3.
        -- subst a. exfalso. subst b. destruct C as (_ & D1), C1 as (_ & D2). rewrite EJ in EA. injection EA as <-. rewrite EI in EB. injection EB as <-. rewrite det_sym in D2. lia.
        -- subst a. right. right. rewrite K3 in CR. eapply CR; eauto.
        -- left. apply (OLD (A ++ i :: j :: D) B1); [rewrite EQ, K3, <- app_assoc; reflexivity|]. intros (-> & _). apply NIB. rewrite K3. apply in_or_app. right. left. reflexivity.
      * injection E0 as K1 K2. subst b. right. left. eapply CL; eauto.
    + exists sr, st2, L', x. split; [exact E1|]. split; [exact E2|]. split; [exact G2|]. assert (FJ : Forall (fun e => is_swap e = true) (JL ++ JR)) by (apply Forall_app; auto).
      destruct (done_step st L c e0 x st2 L' (JL ++ JR) x G N G2 P2 FJ) as (M1 & M2); [|auto].
      assert (IP : In (i, j) all_pairs) by (apply in_prod; eapply node_range; eassumption).
      assert (K0 : later e0 (i, j) = true). { unfold later. cbn [fst snd]. rewrite EI, EJ. destruct C as (R & D). rewrite R. apply andb_true_iff. split; [apply Z.ltb_lt; exact D|exact LT]. }
      assert (K1 : later x (i, j) = false). { unfold later. cbn [fst snd]. rewrite EI, EJ. destruct C as (R & D). rewrite R. apply andb_false_iff. right. apply le_e_refl. }
      pose proof (filter_lt (later x) (later e0) all_pairs (i, j) (fun ij => later_mono e0 x ij LX) IP K1 K0). unfold weight. change (is_swap x) with true. rewrite app_length. lia.
  - assert (E1 : on_swap (S F) st x = Some st).
    { unfold on_swap. change (re_a x) with i. change (re_b x) with j. rewrite swap_unfold. rewrite (proj2 (existsb_in i _) I1), (proj2 (existsb_in j _) I2). cbn [andb negb].
      rewrite next_none; [reflexivity|exact ND|]. intros NX. apply next_of_split in NX as (A & B & EQ). pose proof (g_sorted _ _ _ _ G) as SO. rewrite EQ in SO. apply ss_app in SO as (_ & SO & _). apply ss_cons in SO as (_ & BB).
      destruct (BB j (or_introl eq_refl) s t EI EJ) as (B1 & _). specialize (B1 w C). exact (proj2 (not_lt_e _ _) LE B1). }
    destruct (swap_handler es (S F) st L c x st ST N eq_refl E1) as (_ & _ & NO & ND1 & _ & IN1).
    destruct (advance st L c e0 x st [] e0 G N Q NO ND1 IN1 (g_ok _ _ _ _ G)) as (st2 & L' & E2 & G2 & P2 & _).
    + intros e [].
    + apply G.
    + exact LE.
    + apply le_e_refl.
    + intros e I. rewrite app_nil_r in I. apply (g_rest _ _ _ _ G). apply skipn_S_in. exact I.
    + apply G.
    + intros A a b B sa sb w1 E0 EA EB C1. rewrite app_nil_r. pose proof (g_pend _ _ _ _ G A a b B sa sb w1 E0 EA EB C1) as I. rewrite (skipn_S_nth L c x N) in I. destruct I as [I|I]; [exfalso|exact I].
      pose proof (g_sorted _ _ _ _ G) as SO. rewrite E0 in SO. apply ss_app in SO as (_ & SO & _). apply ss_cons in SO as (_ & BB). destruct (BB b (or_introl eq_refl) sa sb EA EB) as (B1 & _). specialize (B1 w1 C1). rewrite <- I in B1. exact (proj2 (not_lt_e _ _) LE B1).
    + exists st, st2, L', e0. split; [exact E1|]. split; [exact E2|]. split; [exact G2|]. destruct (done_step st L c e0 x st2 L' [] e0 G N G2 P2 (Forall_nil _)) as (M1 & M2); [|auto]. unfold weight. change (is_swap x) with true. cbn. lia.
Qed.
(** ** The loops of a row *)
Lemma height_vs e y : ev_ok e -> same_order (cmp_h (ev_h e) (y, 0%Q)) (ev_height e) (inject_Z y).
Proof.
  intros OE. destruct (ev_parts e OE) as (X1 & X2 & X3). destruct (ev_h e) as (a, fx). cbn [fst snd] in *. pose proof (cmp_h_order a y fx 0 X1 X2 (Qle_refl 0) eq_refl) as S.
  unfold same_order in *. destruct (cmp_h (a, fx) (y, 0%Q)); lra.
Qed.
Lemma before_height e y : valid e -> ev_ok e -> at_or_before e y = true -> (ev_height e <= inject_Z y)%Q.
Proof. intros V OE A. apply (at_or_before_h e y V) in A. pose proof (height_vs e y OE) as S. unfold same_order in S. destruct (cmp_h (ev_h e) (y, 0%Q)); [lra|lra|congruence]. Qed.
Lemma after_height e y : valid e -> ev_ok e -> (inject_Z y < ev_height e)%Q <-> at_or_before e y = false.
Proof.
  intros V OE. pose proof (height_vs e y OE) as S. pose proof (at_or_before_h e y V) as (A & B). unfold same_order in S. split.
  - intros H. destruct (at_or_before e y); [|reflexivity]. specialize (A eq_refl). destruct (cmp_h (ev_h e) (y, 0%Q)); [lra|lra|congruence].
  - intros H. destruct (cmp_h (ev_h e) (y, 0%Q)); [exfalso|exfalso|lra]; (assert (X : at_or_before e y = true) by (apply B; congruence)); congruence.
Qed.
Definition nw (e : revent) : Prop := is_swap e = true -> forall z, ~ (ev_height e == inject_Z z)%Q.
Lemma queue_nw st L c e0 e : good st L c e0 -> In e L -> nw e.
Proof. intros G I SW z. destruct (g_swaps _ _ _ _ G e I SW) as (i & j & w & s & t & -> & EI & EJ & C). rewrite swap_height. apply (inter_whole s t); [eapply in_edge; eassumption|eapply in_edge; eassumption|apply C]. Qed.
Lemma no_more st L c e0 : good st L c e0 -> (left_over L c e0 <= 0)%nat -> at_end st = true.
Proof.
  intros G H. pose proof (se_queue _ _ _ _ (g_set _ _ _ _ G)) as Q. unfold at_end. rewrite (qo_events _ _ _ _ Q), (qo_cur _ _ _ _ Q), app_nil_r. apply Z.leb_le.
  destruct (nth_error L c) as [x|] eqn:N; [exfalso|apply nth_error_None in N; lia]. unfold left_over in H. rewrite (skipn_S_nth L c x N) in H. unfold sum_weight, list_sum in H. cbn [map fold_right] in H.
  unfold weight at 1 in H. destruct (is_swap x); lia.
Qed.
Lemma loop_good t h y : step_ok t h y -> forall f st L c e0, good st L c e0 -> from y L c -> (left_over L c e0 <= f)%nat -> (ev_height e0 <= inject_Z y)%Q -> nw e0 ->
  exists st' L' c' e1, event_loop t h y f st = Some st' /\ good st' L' c' e1 /\ (left_over L' c' e1 <= left_over L c e0)%nat /\ (ev_height e1 <= inject_Z y)%Q /\ nw e1.
Proof.
  intros H. induction f as [|f IH]; intros st L c e0 G FR LF HE NW; cbn [RasterModel.event_loop].
  { rewrite (no_more st L c e0 G LF). exists st, L, c, e0. auto. }
  destruct (at_end st) eqn:AE; [exists st, L, c, e0; auto|]. pose proof (g_set _ _ _ _ G) as ST. pose proof (se_queue _ _ _ _ ST) as Q.
  unfold at_end in AE. rewrite (qo_events _ _ _ _ Q), (qo_cur _ _ _ _ Q), app_nil_r in AE. apply Z.leb_gt in AE.
  destruct (nth_error L c) as [x|] eqn:N; [|apply nth_error_None in N; lia]. rewrite (current_at st L [] c x Q N).
  destruct (at_or_before x y && is_type t x) eqn:C; [|exists st, L, c, e0; auto].
  apply andb_true_iff in C as (C1 & C2). assert (T : re_type x = t) by (unfold is_type, rtype_eqb in C2; apply Nat.eqb_eq in C2; destruct (re_type x), t; cbn in C2; congruence).
  pose proof (nth_error_In _ _ N) as IX. pose proof (before_height x y (cur_valid es st L c x ST N) (queue_ev st L c e0 x G IX) C1) as HX.
  destruct (H st L c e0 x G N T) as (st1 & st2 & L' & e1 & E1 & E2 & G2 & M & EE & R).
  { intros SW. pose proof (FR x (cur_in_skip _ _ _ N) SW). unfold at_or_before in C1. rewrite SW in C1. apply Z.leb_le in C1. lia. }
  rewrite E1, E2. destruct (IH st2 L' (S c) e1 G2) as (st' & L2 & c2 & e2 & A1 & A2 & A3 & A4 & A5).
  - intros e I SW. apply FR; [apply R; assumption|exact SW].
  - lia.
  - destruct EE as [->| ->]; assumption.
  - destruct EE as [->| ->]; [exact (queue_nw st L c e0 x G IX)|assumption].
  - exists st', L2, c2, e2. split; [exact A1|]. split; [exact A2|]. split; [lia|]. auto.
Qed.
Lemma above_start y st L c e0 : good st L c e0 -> from y L c -> (at_end st = true \/ exists e, nth_error L c = Some e /\ (at_or_before e y = false \/ re_type e <> RSwap)) -> above y 0 L c.
Proof.
  intros G FR END. pose proof (g_set _ _ _ _ G) as ST. destruct END as [AE|(e & N & H)].
  - intros e I. rewrite (at_end_rest es _ _ _ ST AE) in I. destruct I.
  - apply (above_next y 0 L c e (qo_sorted _ _ _ _ (se_queue _ _ _ _ ST)) N). pose proof (nth_error_In _ _ N) as IE. pose proof (height_vs e y (queue_ev st L c e0 e G IE)) as S.
    assert (HE : (inject_Z y <= ev_height e)%Q).
    { destruct H as [H|H].
      - apply (after_height e y (cur_valid es st L c e ST N) (queue_ev st L c e0 e G IE)) in H. lra.
      - assert (SW : is_swap e = false) by (unfold is_swap; destruct (re_type e); congruence). pose proof (FR e (cur_in_skip _ _ _ N) SW) as Y. unfold ev_height. rewrite SW. rewrite <- Zle_Qle. exact Y. }
    unfold lex. cbn [fst snd]. rewrite (gc_sym _ cmp_h_good (ev_h e) (y, 0%Q)). unfold same_order in S. destruct (cmp_h (ev_h e) (y, 0%Q)); cbn [CompOpp]; [|lra|discriminate].
    destruct (rrank (re_type e)); discriminate.
Qed.
Lemma above_swap y st L c e0 : good st L c e0 -> above y 0 L c -> forall e, In e (skipn c L) -> is_swap e = true -> (inject_Z y < ev_height e)%Q.
Proof.
  intros G A e I SW. specialize (A e I). pose proof (queue_ev st L c e0 e G (rest_in _ _ _ I)) as OE. pose proof (height_vs e y OE) as S. pose proof (queue_nw st L c e0 e G (rest_in _ _ _ I) SW y) as NW.
  unfold lex in A. cbn [fst snd] in A. rewrite (gc_sym _ cmp_h_good (ev_h e) (y, 0%Q)) in A. unfold same_order in S. destruct (cmp_h (ev_h e) (y, 0%Q)); cbn [CompOpp] in A; [contradiction|congruence|lra].
Qed.
Lemma mark_ok i y : ev_ok (swap_event i i (wf_of_int y)) /\ (ev_height (swap_event i i (wf_of_int y)) == inject_Z y)%Q.
Proof.
  split; [intros _; unfold proper, frac_valid; vm_compute; repeat split; try discriminate; reflexivity|]. rewrite swap_height. unfold wf_val, wf_of_int. cbn [wf_whole wf_frac]. unfold Qeq. cbn. lia.
Qed.
Lemma row_good y F st L c e0 : row_state es y st L c -> good st L c e0 -> (left_over L c e0 <= S F)%nat -> (ev_height e0 <= inject_Z y)%Q -> nw e0 ->
  exists s1 s2 s3 L3 c3 e3, event_loop RSwap (on_swap (S F)) y (S F) st = Some s1 /\ event_loop RBackward on_backward y (S F) s1 = Some s2 /\
    event_loop RForward (on_forward y) y (S F) s2 = Some s3 /\ row_done es y s3 L3 c3 /\ good s3 L3 c3 e3 /\ (left_over L3 c3 e3 <= left_over L c e0)%nat /\ (ev_height e3 <= inject_Z y)%Q /\ nw e3 /\
    ordered es y (rs_sweep s3) /\ forall e, In e (skipn c3 L3) -> (inject_Z y < ev_height e)%Q.
Proof.
  intros RS G LF HE NW. pose proof RS as (ST & FR & UP).
  destruct (loop_good RSwap (on_swap (S F)) y (swap_step F y) (S F) st L c e0 G FR LF HE NW) as (s1 & L1 & c1 & e1 & E1 & G1 & M1 & H1 & N1).
  destruct (loop_ok sort_events sort_new SN es RSwap (on_swap (S F)) y (swap_handler es (S F)) (S F) st L c s1 ST E1) as (L1' & c1' & ST1 & _ & END1 & _ & FR1 & _).
  destruct (settled_unique es _ _ _ _ _ (g_set _ _ _ _ G1) ST1) as (-> & ->). specialize (FR1 FR). pose proof (above_start y s1 L1 c1 e1 G1 FR1 END1) as AB1.
  destruct (loop_good RBackward on_backward y (back_step y) (S F) s1 L1 c1 e1 G1 FR1 ltac:(lia) H1 N1) as (s2 & L2 & c2 & e2 & E2 & G2 & M2 & H2 & N2).
  destruct (loop_ok sort_events sort_new SN es RBackward on_backward y (back_handler es) (S F) s1 L1 c1 s2 ST1 E2) as (L2' & c2' & ST2 & _ & _ & _ & FR2 & AB2 & _).
  destruct (settled_unique es _ _ _ _ _ (g_set _ _ _ _ G2) ST2) as (-> & ->). specialize (FR2 FR1). specialize (AB2 _ AB1).
  destruct (loop_good RForward (on_forward y) y (fwd_step y) (S F) s2 L2 c2 e2 G2 FR2 ltac:(lia) H2 N2) as (s3 & L3 & c3 & e3 & E3 & G3 & M3 & H3 & N3).
  destruct (loop_ok sort_events sort_new SN es RForward (on_forward y) y (fwd_handler es ES y) (S F) s2 L2 c2 s3 ST2 E3) as (L3' & c3' & ST3 & _ & _ & _ & _ & AB3 & _).
  destruct (settled_unique es _ _ _ _ _ (g_set _ _ _ _ G3) ST3) as (-> & ->). specialize (AB3 _ AB2).
  destruct (row_ok sort_events sort_new SN es ES y (S F) st L c s1 s2 s3 RS E1 E2 E3) as (L3' & c3' & RD & _).
  destruct (settled_unique es _ _ _ _ _ (g_set _ _ _ _ G3) (proj1 RD)) as (-> & ->).
  assert (HI : forall e, In e (skipn c3 L3) -> (inject_Z y < ev_height e)%Q).
  { intros e I. destruct (is_swap e) eqn:SW; [exact (above_swap y s3 L3 c3 e3 G3 AB3 e I SW)|]. unfold ev_height. rewrite SW. rewrite <- Zlt_Qlt. apply (proj1 (proj2 RD)); assumption. }
  exists s1, s2, s3, L3, c3, e3. split; [exact E1|]. split; [exact E2|]. split; [exact E3|]. split; [exact RD|]. split; [exact G3|]. split; [lia|]. split; [exact H3|]. split; [exact N3|]. split; [|exact HI].
  set (x := swap_event 0 0 (wf_of_int y)). destruct (mark_ok 0 y) as (OX & HX). fold x in OX, HX.
  assert (SO : StronglySorted (bef x) (rs_sweep s3)).
  { apply (shift_all s3 L3 c3 e3 x G3 OX).
    - intros e I. apply lt_e_le, height_lt_e; [exact OX|eapply queue_ev; [exact G3|eapply rest_in; exact I]|]. specialize (HI e I). lra.
    - destruct (Qlt_le_dec (ev_height e3) (ev_height x)) as [LT|GE]; [apply lt_e_le, height_lt_e; [apply G3|exact OX|exact LT]|].
      assert (SW : is_swap e3 = false). { destruct (is_swap e3) eqn:SW; [|reflexivity]. exfalso. apply (N3 SW y). lra. }
      apply le_e_iff. pose proof (ev_h_order e3 x (g_ev _ _ _ _ G3) OX) as S. unfold same_order in S. unfold cmp_k, lex, key. cbn [fst snd].
      destruct (cmp_h (ev_h e3) (ev_h x)); [|discriminate|lra]. change (re_type x) with RSwap. unfold is_swap in SW. destruct (re_type e3); [discriminate|cbn; discriminate|cbn; discriminate].
    - intros i j s t w EI EJ C K. pose proof (in_edge _ _ EI) as II. pose proof (in_edge _ _ EJ) as IJ. pose proof (swap_ev_ok s t w i j II IJ (proj1 C)) as OW.
      pose proof (ev_h_order (swap_event i j w) x OW OX) as S. unfold same_order in S. unfold cmp_k, lex at 1, key in K. cbn [fst snd] in K.
      destruct (cmp_h (ev_h (swap_event i j w)) (ev_h x)); try discriminate. rewrite swap_height, HX in S. exact (inter_whole s t w y II IJ (proj1 C) S). }
  pose proof (row_sweep es y s3 L3 c3 RD) as PS.
  assert (AC : forall n s, In n (rs_sweep s3) -> edge_at n = Some s -> active y s = true).
  { intros n s I E. apply (Permutation_in _ PS) in I. unfold on_row in I. apply filter_In in I as (_ & I). rewrite E in I. exact I. }
  unfold ordered. apply (ss_lift _ _ _ SO). intros A i M j B EQ s t EI EJ. rewrite EQ in SO, AC. apply ss_app in SO as (_ & SO & _). apply ss_cons in SO as (_ & SO).
  apply (row_order x y i j s t); [eapply in_edge; eassumption|eapply in_edge; eassumption|exact OX|exact HX| | |].
  - apply SO; [apply in_or_app; right; left; reflexivity|exact EI|exact EJ].
  - apply (AC i s); [apply in_or_app; right; left; reflexivity|exact EI].
  - apply (AC j t); [apply in_or_app; right; right; apply in_or_app; right; left; reflexivity|exact EJ].
Qed.
Lemma rows_good F : forall n y st L c e0, row_state es y st L c -> good st L c e0 -> (left_over L c e0 <= S F)%nat -> (ev_height e0 <= inject_Z y)%Q -> nw e0 ->
  exists out st', rows sort_events sort_new pts wbits width (S F) n y st = Some (out, st') /\ rs_ok st' = true.
Proof.
  induction n as [|n IH]; intros y st L c e0 RS G LF HE NW; cbn [rows]; [pose proof (g_ok _ _ _ _ G); eauto|]. destruct (at_end st) eqn:AE; [pose proof (g_ok _ _ _ _ G); eauto|].
  destruct (row_good y F st L c e0 RS G LF HE NW) as (s1 & s2 & s3 & L3 & c3 & e3 & -> & -> & -> & RD & G3 & M3 & H3 & N3 & O3 & HI).
  pose proof RD as (ST3 & FIN & _). pose proof (se_queue _ _ _ _ ST3) as Q3. pose proof (g_ok _ _ _ _ G3) as OK3.
  assert (M : members es (rs_sweep s3)). { intros k K. destruct (sweep_member s3 L3 c3 k ST3 K) as (s & E & _). eauto. }
  set (b := _ && consistent (rs_nodes s3) y (rs_sweep s3)). assert (B : b = true).
  { unfold b. rewrite (se_nodes _ _ _ _ ST3), (ordered_consistent es ES y _ M O3), andb_true_r. destruct (nth_error L3 c3) as [e|] eqn:N.
    - rewrite (current_at s3 L3 [] c3 e Q3 N). specialize (HI e (cur_in_skip _ _ _ N)).
      apply (after_height e y (cur_valid es s3 L3 c3 e ST3 N) (queue_ev s3 L3 c3 e3 e G3 (nth_error_In _ _ N))) in HI. rewrite HI. apply orb_true_r.
    - assert (A : at_end s3 = true) by (unfold at_end; rewrite (qo_events _ _ _ _ Q3), (qo_cur _ _ _ _ Q3), app_nil_r; apply Z.leb_le; apply nth_error_None in N; lia).
      rewrite A. destruct (current s3); reflexivity. }
  rewrite B. pose proof (check_state es true s3 L3 c3 y RD) as RD'. cbv zeta. cbn [rs_nodes rs_sweep check]. rewrite (se_nodes _ _ _ _ ST3).
  assert (exists r, (if 0 <=? y then row_spans pts wbits width (dummy_node :: es) y (rs_sweep s3) 0 0 else Some []) = Some r) as (r & ->) by (destruct (0 <=? y); [apply spans_exist; [exact GD|exact M]|eauto]).
  destruct (IH (y + 1) (check true s3) L3 c3 e3 (row_done_next es _ _ _ _ RD')) as (out & st' & E & OK').
  - destruct G3. constructor; try assumption; [apply RD'|cbn; rewrite OK3; reflexivity].
  - lia.
  - rewrite inject_Z_plus. change (inject_Z 1) with 1%Q. lra.
  - exact N3.
  - rewrite E. eauto.
Qed.
Lemma base_count : length (base es) = (2 * length es)%nat.
Proof.
  assert (A : forall l k, length (all_events k l) = (2 * length l)%nat); [|apply A].
  induction l as [|s l IH]; intros k; [reflexivity|]. cbn [all_events fb_events app length]. rewrite IH. lia.
Qed.
Lemma sum_weight_le l : (sum_weight l <= 3 * length l)%nat.
Proof. unfold sum_weight, list_sum. induction l as [|e l IH]; [cbn; lia|]. cbn [map fold_right length]. unfold weight at 1. destruct (is_swap e); lia. Qed.
Lemma filter_len {T} (f : T -> bool) l : (length (filter f l) <= length l)%nat.
Proof. induction l as [|a l IH]; cbn [filter length]; [lia|]. destruct (f a); cbn [length]; lia. Qed.
Lemma all_pairs_len : length all_pairs = (length es * length es)%nat.
Proof. unfold all_pairs. rewrite prod_length, !seq_length. reflexivity. Qed.
Lemma scan_good F : (6 * length es + 2 * (length es * length es) <= S F)%nat -> exists out st', scan_all sort_events sort_new pts wbits width height (S F) = Some (out, st') /\ rs_ok st' = true.
Proof.
  intros LF. assert (G : exists out st', scan_rows sort_events sort_new pts wbits width height (S F) = Some (out, st') /\ rs_ok st' = true).
  2:{ destruct G as (out & st' & E & OK). unfold scan_all. rewrite E. eauto. }
  unfold scan_rows. destruct (start_exists sort_events sort_new SE pts es EP) as (y & st & E & OK & SW & P). rewrite E.
  destruct (start_ok sort_events sort_new SE pts es ES EP y st E) as [(_ & AE)|(L & RS & _)].
  - destruct (Z.to_nat (height - y)); cbn [rows]; [|rewrite AE]; eauto.
  - assert (EL : L = rs_events st). { destruct RS as (ST & _). pose proof (qo_events _ _ _ _ (se_queue _ _ _ _ ST)) as Q. rewrite app_nil_r in Q. congruence. }
    assert (NS : forall e, In e L -> is_swap e = false). { rewrite EL. intros e I. apply (Permutation_in _ P) in I. apply base_nonswap in I. exact I. }
    set (e0 := mk_revent RBackward 0 0 (y - 1) 0 (wf_of_int 0)). assert (OE : ev_ok e0) by (intros H; discriminate).
    assert (H0 : (ev_height e0 < inject_Z y)%Q) by (unfold ev_height; cbn; rewrite <- Zlt_Qlt; lia).
    apply (rows_good F _ y st L 0 e0 RS).
    + constructor.
      * apply RS.
      * intros e I S. rewrite (NS e I) in S. discriminate.
      * intros e [].
      * intros e I. cbn [skipn] in I. apply lt_e_le, height_lt_e; [exact OE|intros S; rewrite (NS e I) in S; discriminate|]. pose proof (proj1 (proj2 RS) e I (NS e I)) as Y.
        apply Qlt_le_trans with (1 := H0). unfold ev_height. rewrite (NS e I). rewrite <- Zle_Qle. exact Y.
      * exact OE.
      * rewrite SW. constructor.
      * intros A a b B s t w EQ. rewrite SW in EQ. destruct A; discriminate.
      * exact OK.
    + unfold left_over. cbn [skipn]. pose proof (sum_weight_le L) as W. pose proof (filter_len (later e0) all_pairs) as FL. rewrite all_pairs_len in FL. assert (LL : length L = (2 * length es)%nat) by (rewrite EL, (Permutation_length P); apply base_count). lia.
    + lra.
    + intros S. discriminate.
Qed.
End Cross.

(** ** From the polygons to the edges of the program *)
Lemma plain_drop A B C : plain_crossings (A ++ B ++ C) -> plain_crossings (A ++ C).
Proof.
  set (up := fun k => if Nat.ltb k (length A) then k else (k + length B)%nat).
  assert (U : forall k g, nth_error (A ++ C) k = Some g -> nth_error (A ++ B ++ C) (up k) = Some g).
  { intros k g H. unfold up. destruct (Nat.ltb_spec k (length A)) as [L|L]; [rewrite nth_error_app1 in * by assumption; exact H|].
    rewrite nth_error_app2 in H by assumption. rewrite nth_error_app2 by lia. rewrite nth_error_app2 by lia. replace (k + length B - length A - length B)%nat with (k - length A)%nat by lia. exact H. }
  assert (V : forall k l, up k = up l -> k = l) by (intros k l; unfold up; destruct (Nat.ltb_spec k (length A)), (Nat.ltb_spec l (length A)); lia).
  intros (W & T). split.
  - intros i j e f X Y z I J. exact (W (up i) (up j) e f X Y z (U _ _ I) (U _ _ J)).
  - intros i j e f X Y k g I J H K IN. destruct (T (up i) (up j) e f X Y (up k) g (U _ _ I) (U _ _ J) H (U _ _ K) IN) as [E|E]; apply V in E; auto.
Qed.
Lemma plain_norm ls : forall A, plain_crossings (A ++ flat_map polygon_edges ls) -> plain_crossings (A ++ polygons ls).
Proof.
  unfold polygons. induction ls as [|l ls IH]; intros A P; [exact P|]. cbn [flat_map] in *. destruct (rnorm l) as [|p m] eqn:E.
  - cbn [polygon_edges app]. apply IH. eapply plain_drop. exact P.
  - rewrite <- E, rnorm_edges by congruence. rewrite app_assoc. apply IH. rewrite <- app_assoc. exact P.
Qed.
Lemma rel_nth pts es E : Forall2 (edge_rel pts) es E -> forall i s, nth_error es i = Some s -> exists e, nth_error E i = Some e /\ edge_rel pts s e.
Proof.
  induction 1 as [|s e l l' H F IH]; intros i u N; [destruct i; discriminate|]. destruct i as [|i]; cbn in N; [injection N as <-; exists e; auto|]. exact (IH i u N).
Qed.
Lemma rel_cross pts s t e f X Y : edge_rel pts s e -> edge_rel pts t f -> cross_at s t X Y -> cross_in_point e f X Y.
Proof.
  destruct e as ((a, b), d), f as ((a', b'), d'). intros (<- & <- & _) (<- & <- & _) (D & u & v & U1 & U2 & V1 & V2 & X1 & Y1 & X2 & Y2).
  split; [exact D|]. split; [exists u|exists v]; auto.
Qed.
Lemma rel_inside pts s e X Y : edge_rel pts s e -> spans Y s -> (lineQ s Y == X * tallQ s)%Q -> inside_edge e X Y.
Proof.
  destruct e as ((a, b), d). intros (<- & <- & LT & _) (S1 & S2) EQ. unfold lineQ, tallQ in *. assert (P : (0 < injY (sg_pb s) - injY (sg_pa s))%Q) by lra.
  exists ((Y - injY (sg_pa s)) / (injY (sg_pb s) - injY (sg_pa s)))%Q. split; [apply Qlt_shift_div_l; [exact P|lra]|]. split; [apply Qlt_shift_div_r; [exact P|lra]|]. split; [|field; lra].
  apply (Qmult_inj_r _ _ (injY (sg_pb s) - injY (sg_pa s))%Q); [lra|]. rewrite <- EQ. field. lra.
Qed.
Lemma scan_crossing sort_events sort_new ls wbits width height fuel :
  sorts_valid valid revent_lt sort_events -> sorts_valid (fun en => valid (fst en)) new_lt sort_new ->
  plain_crossings (flat_map polygon_edges ls) ->
  (let n := length (flat_map polygon_edges ls) in 6 * n + 2 * (n * n) < fuel)%nat ->
  exists out st', scan_all sort_events sort_new (radd_loops [] ls) wbits width height fuel = Some (out, st') /\ rs_ok st' = true.
Proof.
  intros SE SN PC LF. destruct (run_edges ls) as (es & EP & ER). pose proof (es_down ls es ER) as ES. apply (plain_norm ls []) in PC. cbn [app] in PC. pose proof (rel_nth _ _ _ ER) as R.
  assert (L1 : length es = length (polygons ls)) by (clear -ER; induction ER; cbn; congruence).
  assert (L2 : (length (polygons ls) <= length (flat_map polygon_edges ls))%nat). { unfold polygons. clear. induction ls as [|l ls IH]; [cbn; lia|]. cbn [flat_map]. rewrite !app_length. pose proof (rnorm_shorter l). lia. }
  cbv zeta in LF. destruct fuel as [|F]; [exact (False_ind _ (Nat.nlt_0_r _ LF))|]. apply (scan_good sort_events sort_new SE SN (radd_loops [] ls) wbits width height es ES EP).
  - intros s I. apply In_nth_error in I as (i & I). destruct (R i s I) as (((a, b), d) & _ & (_ & _ & _ & m & G & _)). eauto.
  - intros s t X Y z I J C. apply In_nth_error in I as (i & I). apply In_nth_error in J as (j & J). destruct (R i s I) as (e & NE & RE). destruct (R j t J) as (f & NF & RF).
    exact (proj1 PC i j e f X Y z NE NF (rel_cross _ _ _ _ _ _ _ RE RF C)).
  - intros i j m s t u X Y EI EJ EM NI NJ C SP EQ. destruct i as [|i]; [discriminate|]. destruct j as [|j]; [discriminate|]. destruct m as [|m]; [discriminate|]. cbn in EI, EJ, EM.
    destruct (R i s EI) as (e & NE & RE). destruct (R j t EJ) as (f & NF & RF). destruct (R m u EM) as (g & NG & RG).
    destruct (proj2 PC i j e f X Y m g NE NF (rel_cross _ _ _ _ _ _ _ RE RF C) NG (rel_inside _ _ _ _ _ RG SP EQ)); congruence.
  - rewrite <- L1 in L2. pose proof (Nat.mul_le_mono _ _ _ _ L2 L2). lia.
Qed.

(** A test for the examples. *)
Definition numbered (k : nat) (E : list sedge) : list (nat * sedge) := combine (seq k (length E)) E.
Lemma numbered_in E : forall k i e, nth_error E i = Some e -> In (k + i, e)%nat (numbered k E).
Proof.
  unfold numbered. induction E as [|a E IH]; intros k i e H; [destruct i; discriminate|]. cbn [length seq combine]. destruct i as [|i]; cbn in H.
  - injection H as <-. left. f_equal. lia.
  - right. replace (k + S i)%nat with (S k + i)%nat by lia. apply IH. exact H.
Qed.
Definition third_b (e f g : sedge) : bool :=
  let '(a, b, _) := e in let '(p, q, _) := g in let d := det (as_seg e) (as_seg f) in let t := tnum (as_seg e) (as_seg f) in
  (d * (px a - px p) + t * (px b - px a)) * (py q - py p) =? (d * (py a - py p) + t * (py b - py a)) * (px q - px p).
Definition whole_b (e f : sedge) : bool :=
  let '(a, b, _) := e in (tnum (as_seg e) (as_seg f) * (py b - py a)) mod det (as_seg e) (as_seg f) =? 0.
(** What the test needs to know about a crossing. *)
Lemma cross_facts e f X Y : cross_in_point e f X Y -> cross_b e f = true /\ (forall z, (Y == inject_Z z)%Q -> whole_b e f = true) /\ forall g, inside_edge g X Y -> third_b e f g = true.
Proof.
  destruct e as ((a, b), da), f as ((c, d), dc). intros (C1 & (t & T1 & T2 & T3 & T4) & (u & U1 & U2 & U3 & U4)).
  assert (CA : cross_at (as_seg (a, b, da)) (as_seg (c, d, dc)) X Y) by (split; [exact C1|exists t, u; auto 10]).
  assert (TD : (t * inject_Z (det (as_seg (a, b, da)) (as_seg (c, d, dc))) == inject_Z (tnum (as_seg (a, b, da)) (as_seg (c, d, dc))))%Q).
  { rewrite det_Q, tnum_Q. cbn [as_seg sg_pa sg_pb fst snd].
    assert (K1 : (injX a - injX c == u * (injX d - injX c) - t * (injX b - injX a))%Q) by lra. assert (K2 : (injY a - injY c == u * (injY d - injY c) - t * (injY b - injY a))%Q) by lra. rewrite K1, K2. ring. }
  assert (ND : det (as_seg (a, b, da)) (as_seg (c, d, dc)) <> 0) by (rewrite det_cross; exact C1).
  split; [apply cross_complete in CA as (W1 & W2 & _); apply within_dec in W1, W2; unfold cross_b; rewrite W1, W2; reflexivity|]. clear CA.
  unfold third_b, whole_b. set (D := det _ _) in *. set (T := tnum _ _) in *. clearbody D T. split.
  - intros z EZ. apply Z.eqb_eq. assert (Q : (inject_Z (T * (py b - py a)) == inject_Z ((z - py a) * D))%Q).
    { rewrite !inject_Z_mult, !inject_sub, <- TD. unfold injY in *. rewrite <- EZ, T4. ring. }
    apply (proj1 (inject_Z_injective _ _)) in Q. rewrite Q. apply Z.mod_mul. exact ND.
  - intros ((p, q), dg) (v & V1 & V2 & V3 & V4).
    apply Z.eqb_eq. apply (proj1 (inject_Z_injective _ _)). rewrite !inject_Z_mult, !inject_Z_plus, !inject_Z_mult, !inject_sub, <- TD. unfold injX, injY in *.
    assert (K1 : (t * (inject_Z (px b) - inject_Z (px a)) == v * (inject_Z (px q) - inject_Z (px p)) - (inject_Z (px a) - inject_Z (px p)))%Q) by lra.
    assert (K2 : (t * (inject_Z (py b) - inject_Z (py a)) == v * (inject_Z (py q) - inject_Z (py p)) - (inject_Z (py a) - inject_Z (py p)))%Q) by lra.
    transitivity (inject_Z D * (inject_Z (px a) - inject_Z (px p) + t * (inject_Z (px b) - inject_Z (px a))) * (inject_Z (py q) - inject_Z (py p)))%Q; [ring|]. rewrite K1.
    transitivity (inject_Z D * (inject_Z (py a) - inject_Z (py p) + t * (inject_Z (py b) - inject_Z (py a))) * (inject_Z (px q) - inject_Z (px p)))%Q; [rewrite K2; ring|ring].
Qed.
Definition every (E : list sedge) (c : nat -> nat -> sedge -> sedge -> bool) : bool :=
  forallb (fun ie => forallb (fun jf => negb (cross_b (snd ie) (snd jf)) || c (fst ie) (fst jf) (snd ie) (snd jf)) (numbered 0 E)) (numbered 0 E).
Lemma every_ok E c : every E c = true -> forall i j e f X Y, nth_error E i = Some e -> nth_error E j = Some f -> cross_in_point e f X Y -> c i j e f = true.
Proof.
  intros H i j e f X Y I J C. unfold every in H. rewrite forallb_forall in H. specialize (H _ (numbered_in E 0 i e I)). cbn beta in H. rewrite forallb_forall in H. specialize (H _ (numbered_in E 0 j f J)). cbn [fst snd plus] in H.
  destruct (cross_facts e f X Y C) as (B & _). rewrite B in H. exact H.
Qed.
Definition two_b (E : list sedge) : bool :=
  every E (fun i j e f => forallb (fun kg => Nat.eqb (fst kg) i || Nat.eqb (fst kg) j || negb (third_b e f (snd kg))) (numbered 0 E)).
Lemma two_b_ok E : two_b E = true -> two_at_a_crossing E.
Proof.
  intros H i j e f X Y k g I J C K IN. pose proof (every_ok E _ H i j e f X Y I J C) as T. cbn beta in T. rewrite forallb_forall in T. specialize (T _ (numbered_in E 0 k g K)). cbn [fst snd plus] in T.
  rewrite (proj2 (proj2 (cross_facts e f X Y C)) g IN) in T. cbn [negb] in T. rewrite !orb_true_iff, !Nat.eqb_eq in T. destruct T as [[T|T]|T]; [auto|auto|discriminate].
Qed.
Lemma plain_b_ok E : two_b E = true -> every E (fun _ _ e f => negb (whole_b e f)) = true -> plain_crossings E.
Proof.
  intros H W. split; [|exact (two_b_ok E H)]. intros i j e f X Y z I J C EZ. pose proof (every_ok E _ W i j e f X Y I J C) as T. cbn beta in T.
  rewrite (proj1 (proj2 (cross_facts e f X Y C)) z EZ) in T. discriminate.
Qed.
