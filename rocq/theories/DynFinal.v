(** A whole sweep that splits lines at points of the grid: the lines that result only meet at
    their ends and are marked there. *)
From Coq Require Import ZArith QArith List Bool Arith Permutation Sorted Lia.
From Verif Require Import GeomModel GeomSpec BalanceModel EventsModel EventsSpec EventsProofs OutModel PointSinkModel CycleProofs ClipModel ClipSpec ClipProofs SweepProofs BalSweepProofs
  SegOrder SegPair SegTrace SegCheck SegStep SegRun SegClean SegFinal SegTotal SegSpec TotalSpec TotalSplit TotalRun TotalEnds ExactProofs DynOrder DynTrace DynShape DynCut DynCheck DynWeak DynStep DynLoop.
Import ListNotations.
Local Open Scope nat_scope.

(** The set at a moment between two different places in the queue. *)
Lemma dtr_moments v mk s R : srt (rev s) -> dtr v mk s R -> moments v mk s.
Proof.
  intros SO T P D PT. pose proof (filter_suffix P D s SO) as SP. set (s2 := filter (fun e => negb (P e)) s) in *. set (t := filter P s) in *.
  pose proof T as T0. rewrite SP in T0. destruct (dtr_suffix v mk s2 t R T0) as [(Rt & Tt & _)|(s3 & e2 & e1 & c & A & B & E2 & E1 & _ & _ & _ & (S1 & S2 & _) & _)].
  - exists Rt. destruct (d_mem _ _ _ _ Tt) as (ND & MEM). split; [exact ND|]. split; [exact MEM|]. intros y Y _. destruct t as [|e t'] eqn:TE; [inversion Tt; exact I|]. pose proof (d_adj _ _ _ _ _ Tt) as AD. eapply adj_impl; [|exact AD]. intros a b _ _ O Ca Cb.
    assert (J : In e (e :: t')) by (left; reflexivity). rewrite <- TE in J. apply filter_In in J as (J1 & J2). eapply over_rel; [exact O|apply Y; assumption|exact I|exact Ca|exact Cb].
  - exfalso. assert (I2 : In e2 s2) by (rewrite E2; apply in_or_app; right; left; reflexivity). assert (I1 : In e1 t) by (rewrite E1; left; reflexivity).
    apply filter_In in I2 as (_ & N2). apply filter_In in I1 as (_ & N1). apply negb_true_iff in N2. rewrite (PT e1 e2) in N1 by congruence. congruence.
Qed.

(** * Before the sweep *)
Section Start.
Variable pts : list cpoint.
Lemma on_line_l P Q : on_line P Q P.
Proof. exists 0%Q. split; [split; [apply Qle_refl|discriminate]|]. unfold injX, injY. split; ring. Qed.
Lemma on_line_r P Q : on_line P Q Q.
Proof. exists 1%Q. split; [split; [discriminate|apply Qle_refl]|]. unfold injX, injY. unfold Z.sub. rewrite !inject_Z_plus, !inject_Z_opp. split; ring. Qed.
Definition shp (st : cstate) : Prop := s_pts st = pts /\ s_log st = [] /\ forall n g, nth_error (s_nodes st) n = Some g -> inside pts g /\ (vt g = true -> exists pa, nth_error pts (sg_a g) = Some pa /\ c_next pa = sg_b g).
Lemma add_shape k : forall st i st', shp st -> add_lines st k i = Some st' -> shp st'.
Proof.
  induction k as [|k IH]; intros st i st' S H; cbn [add_lines] in H; [injection H as <-; exact S|].
  destruct (nth_error (s_pts st) i) as [p|] eqn:NP; [|discriminate]. destruct (nth_error (s_pts st) (c_next p)) as [q|] eqn:NQ; [|discriminate].
  match type of H with match ?f with _ => _ end = _ => destruct f as [st1|] eqn:A1; [|discriminate] end. apply (IH st1 (i + 1) st'); [|rewrite Nat.add_1_r in *; exact H]. clear IH H. destruct S as (S1 & S2 & S3). rewrite S1 in *.
  assert (E : DynShape.edge_of pts (c_data p) (c_data q)) by (exists i, p, q; auto).
  assert (X : forall a b, (a = i /\ b = c_next p) \/ (a = c_next p /\ b = i) -> add_fb_events st a b = Some st1 -> shp st1).
  { intros a b AB A. apply add_form in A as (pa & pb & Na & Nb & V & ->). rewrite S1 in *. split; [reflexivity|]. split; [exact S2|]. cbn [s_nodes]. intros n g G.
    destruct (Nat.lt_ge_cases n (length (s_nodes st))) as [L|L]; [rewrite nth_error_app1 in G by exact L; apply (S3 n g G)|]. rewrite nth_error_app2 in G by exact L. destruct (n - length (s_nodes st)) as [|m]; [|destruct m; discriminate]. injection G as <-.
    split; [|cbn [sg_pa sg_pb sg_a sg_b]; intros W; apply vt_true in W; exists pa; auto].
    exists (c_data p), (c_data q). split; [exact E|]. cbn [sg_pa sg_pb]. destruct AB as [(-> & ->)|(-> & ->)]; [assert (pa = p) by congruence; assert (pb = q) by congruence|assert (pa = q) by congruence; assert (pb = p) by congruence]; subst pa pb; split; (apply on_line_l || apply on_line_r). }
  destruct (_ <? _)%Z; (eapply X; [|exact A1]; auto).
Qed.
End Start.

Section Final.
Variables place : list cseg -> cseg -> nat.
Variable sort_events : list EventsModel.event -> list EventsModel.event.
Variable sort_new : list (EventsModel.event * nat) -> list (EventsModel.event * nat).
Variable draws : cseg -> cseg -> bool.
Hypothesis SE : sorts event_lt sort_events.
Hypothesis SN : sorts (lt_new _ _ (fun e : ev => e) event_lt) sort_new.
Hypothesis PLC : places place.
Hypothesis FI : finds place.
Variable pts : list cpoint.
Hypothesis PL : proper_loops pts.
Hypothesis NZ : forall i P Q, SegSpec.edge_of pts i P Q -> P <> Q.
Hypothesis GRID : grid pts.
Hypothesis NF : no_fold pts.
Notation self := (self_intersection intersects place sort_events sort_new draws).

Lemma split_final fuel rand st : self fuel pts rand = Some st -> exact_splits (length pts) (s_pts st) (s_log st) /\ SegSpec.apart (s_pts st) /\ marked (s_pts st) (s_pts st).
Proof.
  intros H. unfold self_intersection in H. destruct (add_lines _ _ _) as [st1|] eqn:A; [|discriminate].
  destruct (total_start draws pts rand st1 PL NZ A) as (SP & QC & all & O & FC & NU).
  destruct (add_shape pts (length pts) (mk_cs pts [] (q_empty ev) [] rand []) 0 st1) as (_ & SL & SH); [split; [reflexivity|split; [reflexivity|intros [|n] g X; discriminate]]|exact A|].
  destruct (add_lines_fresh _ _ _ _ A) as (_ & SS & _); [split; [reflexivity|right; reflexivity]|reflexivity|intros e []|]. cbn [s_sweep] in SS.
  assert (B : base pts (around pts) st1 [] all false).
  { constructor; [exact O|exact FC|exact NU|]. constructor; rewrite ?SP, ?SL.
    - intros n g G. apply (SH n g G).
    - intros n g G _. apply (SH n g G).
    - exact NF.
    - intros k a b X. destruct k; discriminate.
    - cbn [length]. lia.
    - intros a b []. }
  destruct (loop_dtr place sort_events sort_new draws SE SN PLC FI pts (around pts) GRID fuel st1 all false st B SS H) as (s & all' & u & B' & M & PM & T).
  split; [exact (sh_ex _ _ (b_shape _ _ _ _ _ _ B'))|].
  destruct (final_of _ _ _ _ _ (b_ok _ _ _ _ _ _ B') (b_fc _ _ _ _ _ _ B') M) as (L & FIN & RW). pose proof (b_num _ _ _ _ _ _ B') as NUM.
  pose proof (ok_q _ _ _ _ _ (b_ok _ _ _ _ _ _ B')) as Q. assert (u = false) by (unfold more in M; apply orb_false_iff in M as (_ & M2); inversion Q as [? ? ? ? ? ? E3|? ? ? ? ? ? ? ? ? E3]; [reflexivity|rewrite E3 in M2; discriminate]). subst u.
  assert (LA : forall e, In e L <-> In e s).
  { pose proof (EI_perm _ _ _ Q) as EP. assert (LQ : q_events _ (s_events st) = L) by (unfold rewind in RW; destruct (q_new _ (s_events st)); [injection RW as ->; reflexivity|discriminate]). rewrite LQ in EP.
    intros e. split; intros I; [apply (Permutation_in e (Permutation_sym PM)); apply (Permutation_in e (Permutation_sym EP)); exact I|apply (Permutation_in e EP); apply (Permutation_in e PM); exact I]. }
  assert (VN : forall n g, nth_error (s_nodes st) n = Some g -> vof st n = g) by (intros n g G; unfold vof; apply nth_error_nth; exact G).
  assert (EVS : forall e, In e (alive s) -> exists g, nth_error (s_nodes st) (e_node e) = Some g /\ live (s_pts st) (s_nodes st) (e_node e) /\ (e = fev g (e_node e) false \/ e = bev g (e_node e) false)).
  { intros e I. apply alive_in in I as (I & D). apply LA in I. exact (BalSweepProofs.n_ev _ _ _ FIN e I D). }
  assert (LO : forall n g, nth_error (s_nodes st) n = Some g -> live (s_pts st) (s_nodes st) n -> line_of (vof st) (alive s) n).
  { intros n g G LV. destruct (n_live _ _ _ FIN n g G LV) as (I1 & I2). unfold line_of. rewrite (VN n g G). split; [exact (n_good _ _ _ NUM n g G)|]. split; exists false; apply alive_in; (split; [apply LA; assumption|reflexivity]). }
  eapply clean_core with (w := vof st) (s := alive s).
  - exact (n_loops _ _ _ FIN).
  - eapply dtr_moments; [|exact T]. apply alive_sorted. eapply EI_sorted. exact Q.
  - intros e I. destruct (EVS e I) as (g & G & _ & E). apply alive_in in I as (_ & D). rewrite (VN _ _ G), D. exact E.
  - intros e I. destruct (EVS e I) as (g & G & LV & _). eapply LO; eassumption.
  - intros i P Q0 (p & q & NP & NQ & <- & <-). destruct (n_cov _ _ _ FIN i) as (n & g & G & p' & NP' & K); [apply nth_error_Some; congruence|]. assert (p' = p) by congruence. subst p'.
    assert (LV : live (s_pts st) (s_nodes st) n) by (exists g, i; split; [exact G|]; exists p; auto). exists n, p. split; [eapply LO; eassumption|]. split; [exact NP|].
    destruct (BalSweepProofs.n_nodes _ _ _ FIN n g G) as (_ & pa & pb & A1 & A2 & A3 & A4). rewrite (VN n g G).
    destruct K as [(K1 & K2)|(K1 & K2)]; [left; rewrite K1 in A1; rewrite K2 in A3|right; rewrite K1 in A3; rewrite K2 in A1]; repeat split; congruence.
Qed.
End Final.
