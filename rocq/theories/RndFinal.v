(** A whole sweep with rounded crossing points: the lines that result only meet at their ends and
    are marked there, if no loop goes back on itself on the way. *)
From Coq Require Import ZArith QArith List Bool Arith Permutation Sorted Lia.
From Verif Require Import GeomModel GeomSpec BalanceModel EventsModel EventsSpec EventsProofs OutModel PointSinkModel CycleProofs ClipModel ClipSpec ClipProofs SweepProofs BalSweepProofs
  SegOrder SegPair SegTrace SegCheck SegStep SegRun SegClean SegFinal SegTotal SegSpec TotalSpec TotalSplit TotalRun TotalEnds ExactProofs DynSpec DynOrder DynTrace DynShape DynCut DynCheck DynWeak DynStep DynLoop DynFinal RndTrace RndCut RndCheck RndWeak RndStep RndSpec RndLoop.
Import ListNotations.
Local Open Scope nat_scope.

(** The set at a moment between two different places in the queue. *)
Lemma rtr_moments v mk all s R : srt (rev s) -> (forall x, In x all -> e_deleted x = false -> In x s) -> rtr v mk all s R -> moments v mk s.
Proof.
  intros SO IA T P D _. rewrite (filter_suffix P D s SO) in T. destruct (rtr_suffix v mk all _ _ _ T) as (Rt & Tt & _). set (t := filter P s) in *.
  exists Rt. destruct (r_mem _ _ _ _ _ Tt) as (ND & MEM). split; [exact ND|]. split; [exact MEM|]. intros y Y1 Y2. destruct t as [|e t'] eqn:TE; [inversion Tt; exact I|]. pose proof (r_adj _ _ _ _ _ _ Tt) as AD. eapply adj_impl; [|exact AD]. intros a b _ _ O Ca Cb.
  assert (J : In e (e :: t')) by (left; reflexivity). rewrite <- TE in J. apply filter_In in J as (J1 & J2). eapply wks_rel; [exact O|apply Y1; assumption| |exact Ca|exact Cb].
  intros c (w & x & _ & IX & NX & C). rewrite <- TE in NX. assert (IS : In x s) by (apply IA; [exact IX|destruct C as [(_ & -> & _)|(_ & -> & _)]; reflexivity]).
  assert (PX : P x = false) by (destruct (P x) eqn:Q; [exfalso; apply NX, filter_In; auto|reflexivity]). pose proof (Y2 x IS PX) as L.
  destruct C as [(V & -> & ->)|(V & -> & E)]; [exact L|]. apply vt_true in V. cbn [e_x fev] in L. destruct E as [->| ->]; [exact L|rewrite <- V; exact L].
Qed.
Lemma go_on_fold pts : loops_go_on pts -> no_fold pts.
Proof.
  intros H i p q r N1 N2 N3 (F1 & F2). apply (H i p q r N1 N2 N3). unfold goes_back. unfold triangle_winding, dot in *. split; lia.
Qed.

Section Final.
Variables place : list cseg -> cseg -> nat.
Variable sort_events : list EventsModel.event -> list EventsModel.event.
Variable sort_new : list (EventsModel.event * nat) -> list (EventsModel.event * nat).
Variable draws : cseg -> cseg -> bool.
Hypothesis SE : sorts event_lt sort_events.
Hypothesis SN : sorts (lt_new _ _ (fun e : ev => e) event_lt) sort_new.
Hypothesis PLC : places place.
Hypothesis FI : finds place.
Variable pts : list cpoint.
Hypothesis PL : proper_loops pts.
Hypothesis NZ : forall i P Q, SegSpec.edge_of pts i P Q -> P <> Q.
Notation self := (self_intersection intersects place sort_events sort_new draws).
Notation step := (sweep_step intersects place sort_events sort_new draws).

Lemma rounded_final fuel rand st : never_goes_back step pts rand -> self fuel pts rand = Some st -> SegSpec.apart (s_pts st) /\ marked (s_pts st) (s_pts st).
Proof.
  intros NB H. unfold self_intersection in H. destruct (add_lines _ _ _) as [st1|] eqn:A; [|discriminate].
  destruct (total_start draws pts rand st1 PL NZ A) as (SP & QC & all & O & FC & NU).
  destruct (add_shape pts (length pts) (mk_cs pts [] (q_empty ev) [] rand []) 0 st1) as (_ & SL & SH); [split; [reflexivity|split; [reflexivity|intros [|n] g X; discriminate]]|exact A|].
  destruct (add_lines_fresh _ _ _ _ A) as (_ & SS & _); [split; [reflexivity|right; reflexivity]|reflexivity|intros e []|]. cbn [s_sweep] in SS.
  assert (B : rbase pts (around pts) st1 [] all false).
  { constructor; [exact O|exact FC|exact NU|]. intros n g G _. rewrite SP. apply (SH n g G). }
  assert (NF : forall st2, visits step st1 st2 -> no_fold (s_pts st2)) by (intros st2 V; apply go_on_fold, (NB st1 st2 A V)).
  destruct (loop_rtr place sort_events sort_new draws SE SN PLC FI pts (around pts) fuel st1 all false st B NF SS H) as (s & all' & u & B' & M & PM & T).
  destruct (final_of _ _ _ _ _ (r_ok _ _ _ _ _ _ B') (r_fc _ _ _ _ _ _ B') M) as (L & FIN & RW). pose proof (r_num _ _ _ _ _ _ B') as NUM.
  pose proof (ok_q _ _ _ _ _ (r_ok _ _ _ _ _ _ B')) as Q. assert (u = false) by (unfold more in M; apply orb_false_iff in M as (_ & M2); inversion Q as [? ? ? ? ? ? E3|? ? ? ? ? ? ? ? ? E3]; [reflexivity|rewrite E3 in M2; discriminate]). subst u.
  assert (LA : forall e, In e L <-> In e s).
  { pose proof (EI_perm _ _ _ Q) as EP. assert (LQ : q_events _ (s_events st) = L) by (unfold rewind in RW; destruct (q_new _ (s_events st)); [injection RW as ->; reflexivity|discriminate]). rewrite LQ in EP.
    intros e. split; intros I; [apply (Permutation_in e (Permutation_sym PM)); apply (Permutation_in e (Permutation_sym EP)); exact I|apply (Permutation_in e EP); apply (Permutation_in e PM); exact I]. }
  assert (VN : forall n g, nth_error (s_nodes st) n = Some g -> vof st n = g) by (intros n g G; unfold vof; apply nth_error_nth; exact G).
  assert (EVS : forall e, In e (alive s) -> exists g, nth_error (s_nodes st) (e_node e) = Some g /\ live (s_pts st) (s_nodes st) (e_node e) /\ (e = fev g (e_node e) false \/ e = bev g (e_node e) false)).
  { intros e I. apply alive_in in I as (I & D). apply LA in I. exact (BalSweepProofs.n_ev _ _ _ FIN e I D). }
  assert (LO : forall n g, nth_error (s_nodes st) n = Some g -> live (s_pts st) (s_nodes st) n -> line_of (vof st) (alive s) n).
  { intros n g G LV. destruct (n_live _ _ _ FIN n g G LV) as (I1 & I2). unfold line_of. rewrite (VN n g G). split; [exact (n_good _ _ _ NUM n g G)|]. split; exists false; apply alive_in; (split; [apply LA; assumption|reflexivity]). }
  eapply clean_core with (w := vof st) (s := alive s).
  - exact (n_loops _ _ _ FIN).
  - eapply rtr_moments; [| |exact T].
    + apply alive_sorted. eapply EI_sorted. exact Q.
    + intros x I D. apply alive_in. split; [apply (Permutation_in x (Permutation_sym PM)); exact I|exact D].
  - intros e I. destruct (EVS e I) as (g & G & _ & E). apply alive_in in I as (_ & D). rewrite (VN _ _ G), D. exact E.
  - intros e I. destruct (EVS e I) as (g & G & LV & _). eapply LO; eassumption.
  - intros i P Q0 (p & q & NP & NQ & <- & <-). destruct (n_cov _ _ _ FIN i) as (n & g & G & p' & NP' & K); [apply nth_error_Some; congruence|]. assert (p' = p) by congruence. subst p'.
    assert (LV : live (s_pts st) (s_nodes st) n) by (exists g, i; split; [exact G|]; exists p; auto). exists n, p. split; [eapply LO; eassumption|]. split; [exact NP|].
    destruct (BalSweepProofs.n_nodes _ _ _ FIN n g G) as (_ & pa & pb & A1 & A2 & A3 & A4). rewrite (VN n g G).
    destruct K as [(K1 & K2)|(K1 & K2)]; [left; rewrite K1 in A1; rewrite K2 in A3|right; rewrite K1 in A3; rewrite K2 in A1]; repeat split; congruence.
Qed.
End Final.
