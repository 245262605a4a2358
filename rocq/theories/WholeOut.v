(** The lines of the runs of judged points are the lines kept by the judgements of all lines. *)
From Coq Require Import ZArith QArith List Bool Arith Permutation Lia.
From Verif Require Import GeomModel GeomSpec BalanceModel WindSpec OutModel ClipModel ClipSpec ClipProofs BalSweepProofs JudgeProps JoinSpec JoinProofs JoinProps ArrangeSpec ArrangeProofs ArrangeHit ArrangeVertex ArrangeStack ArrangeCheck ArrangeProps SegSpec WholeProofs WholeVertex WholeRuns.
Import ListNotations.
Local Open Scope nat_scope.

Lemma result_any op ls l ck ck' : arranged ls -> In l ls -> column l ls ck -> column l ls ck' -> line_result op l ck = line_result op l ck'.
Proof.
  intros AR IL CL CM. unfold line_result. pose proof (balance_is ls l ck Subject AR IL CL) as E1. pose proof (balance_is ls l ck Clip AR IL CL) as E2. pose proof (balance_is ls l ck' Subject AR IL CM) as E3. pose proof (balance_is ls l ck' Clip AR IL CM) as E4.
  cbn [wn_get] in E1, E2, E3, E4. cbn zeta. rewrite E1, E2, E3, E4. reflexivity.
Qed.
Lemma flat_map_one {X Y} (g : X -> Y) l : flat_map (fun x => [g x]) l = map g l.
Proof. induction l as [|x l IH]; [reflexivity|]. cbn. rewrite IH. reflexivity. Qed.
Lemma flat_map_nil {X Y} (l : list X) : flat_map (fun _ : X => @nil Y) l = [].
Proof. induction l; [reflexivity|]. assumption. Qed.
Lemma flat_map_flat {X Y W} (f : X -> list Y) (g : Y -> list W) l : flat_map g (flat_map f l) = flat_map (fun x => flat_map g (f x)) l.
Proof. induction l as [|x l IH]; [reflexivity|]. cbn. rewrite flat_map_app, IH. reflexivity. Qed.
Lemma flat_map_map {X Y W} (f : X -> Y) (g : Y -> list W) l : flat_map g (map f l) = flat_map (fun x => g (f x)) l.
Proof. induction l as [|x l IH]; [reflexivity|]. cbn. rewrite IH. reflexivity. Qed.
Lemma flat_map_in {X Y} (f g : X -> list Y) l : (forall x, In x l -> f x = g x) -> flat_map f l = flat_map g l.
Proof. induction l as [|x l IH]; intros H; [reflexivity|]. cbn. rewrite H by (left; reflexivity). rewrite IH by (intros; apply H; right; assumption). reflexivity. Qed.
Lemma flat_map_perm {X Y} (g : X -> list Y) l l' : Permutation l l' -> Permutation (flat_map g l) (flat_map g l').
Proof. induction 1; cbn; [constructor|apply Permutation_app_head; assumption|rewrite !app_assoc; apply Permutation_app_tail, Permutation_app_comm|etransitivity; eassumption]. Qed.

Section Out.
Variables (op : bool_op) (pts pts' : list cpoint) (ss : list sample).
Hypothesis PL : proper_loops pts.
Hypothesis NZ : forall i P Q, edge_of pts i P Q -> P <> Q.
Hypothesis AP : SegSpec.apart pts.
Hypothesis MK : marked pts pts.
Hypothesis UJ : unjudged pts.
Hypothesis AJ : forall i, i < length pts -> after_judge pts i.
Hypothesis JD : judged op pts pts' ss.
Let opts : list opoint := map to_out pts'.
Variable RS : list run.
Hypothesis RUNS : Forall (is_run opts) RS.
Hypothesis HEADS : map head RS = map fst ss.
Let vd := verdict pts op.
Lemma JP : judged_points opts ss.
Proof. exact (judged_out op pts pts' ss PL UJ JD). Qed.

Lemma len_out : length opts = length pts.
Proof. unfold opts. rewrite map_length. apply JD. Qed.
Lemma out_at i p : nth_error pts i = Some p -> exists q, nth_error opts i = Some q /\ o_data q = c_data p /\ o_next q = c_next p /\ (c_state p <> Check -> o_state q = c_state p).
Proof.
  intros E. destruct JD as (_ & S & _). destruct (S i p E) as (p' & E' & D1 & D2 & _ & D3). exists (to_out p'). unfold opts. rewrite nth_error_map, E'. cbn. auto.
Qed.
Lemma out_back i q : nth_error opts i = Some q -> exists p, nth_error pts i = Some p /\ o_data q = c_data p /\ o_next q = c_next p /\ (c_state p <> Check -> o_state q = c_state p).
Proof.
  intros E. destruct (nth_error pts i) as [p|] eqn:N; [|apply nth_error_None in N; rewrite <- len_out in N; apply nth_error_None in N; congruence].
  destruct (out_at i p N) as (q' & E' & D). rewrite E in E'. injection E' as <-. exists p. auto.
Qed.
Lemma judged_head i p r : nth_error opts i = Some p -> o_state p = Res r -> r = vd i.
Proof.
  intros E R. destruct JP as (_ & _ & _ & IN & _). assert (I : In i (map fst ss)) by (apply IN; eauto). apply in_map_iff in I as ((j, hits) & J & I). cbn in J. subst j.
  destruct JD as (_ & _ & _ & _ & RES). destruct (RES i hits I) as (l & ck & p' & IL & LI & ND & CK & N' & S' & _). unfold opts in E. rewrite nth_error_map, N' in E. injection E as <-. cbn in R. rewrite S' in R. injection R as <-.
  unfold vd. rewrite <- LI, (verdict_line pts PL op l IL). pose proof (lines_arranged pts PL NZ AP) as AR. apply (result_any op (lines pts)); try assumption; [split; assumption|apply column_of_ok, AR].
Qed.
Lemma undef_not i q : nth_error opts i = Some q -> o_state q = Undef -> exists p, nth_error pts i = Some p /\ c_state p <> Check.
Proof.
  intros E U. destruct (out_back i q E) as (p & N & _). exists p. split; [exact N|]. intros C. destruct JD as (_ & _ & _ & IN & _). assert (I : In i (map fst ss)) by (apply IN; eauto).
  destruct JP as (_ & _ & _ & IN' & _). apply IN' in I as (p' & r & E' & R). congruence.
Qed.
Lemma trail_verdict : forall c n e a p, nth_error opts a = Some p -> o_next p = n -> trail opts n c e -> forall j, In j c -> vd j = vd a.
Proof.
  induction c as [|x c IH]; intros n e a p E N T j I; [destruct I|]. destruct T as (-> & q & Q & U & T). assert (V : vd n = vd a).
  { destruct (out_back a p E) as (pa & A1 & _ & A2 & _). destruct (undef_not n q Q U) as (pn & N1 & N2). symmetry. apply (same_verdict pts PL NZ AP MK op a pa n pn); congruence. }
  destruct I as [<-|I]; [exact V|]. rewrite <- V. apply (IH (o_next q) e n q Q eq_refl T j I).
Qed.
Definition seg_at (j : nat) : point * point := (pos opts j, pos opts (onx opts j)).
Lemma trail_segs : forall c n e a p, nth_error opts a = Some p -> o_next p = n -> trail opts n c e -> segs (map (pos opts) (a :: c ++ [e])) = map seg_at (a :: c).
Proof.
  induction c as [|x c IH]; intros n e a p E N T.
  - destruct T as (<- & _). unfold seg_at, onx. cbn. rewrite E, N. reflexivity.
  - destruct T as (-> & q & Q & U & T). specialize (IH (o_next q) e n q Q eq_refl T). cbn [app map] in *. unfold segs in *. cbn [combine tl] in *. rewrite IH. f_equal. unfold seg_at, onx. rewrite E, N. reflexivity.
Qed.
Lemma output_map r l : flat_map (fun j => output_of r (seg_at j)) l = match r with LSkeep => map seg_at l | LSkeep_rev => map turned (map seg_at l) | _ => [] end.
Proof. destruct r; cbn [output_of]; rewrite ?flat_map_nil, ?map_map; try reflexivity; apply flat_map_one. Qed.
Lemma reversed_map r l : flat_map (fun j => reversed_of r (seg_at j)) l = match r with LSkeep_rev | LSdiscard_rev => map seg_at l | _ => [] end.
Proof. destruct r; cbn [reversed_of]; rewrite ?flat_map_nil; try reflexivity; apply flat_map_one. Qed.
Lemma run_wanted R : is_run opts R -> wanted opts R = flat_map (fun j => output_of (vd j) (seg_at j)) (nodes R) /\ reversed opts R = flat_map (fun j => reversed_of (vd j) (seg_at j)) (nodes R).
Proof.
  destruct R as ((i, c), e). intros (p & r & E & S & T). pose proof (judged_head i p r E S) as V. pose proof (trail_verdict c _ e i p E eq_refl T) as TV. pose proof (trail_segs c _ e i p E eq_refl T) as TS.
  assert (A : forall j, In j (i :: c) -> vd j = r) by (intros j [<-|I]; [congruence|rewrite (TV j I); congruence]). unfold wanted, reversed, judgement, run_lines, nodes, head. cbn [fst snd]. rewrite E, S, TS. split.
  - rewrite (flat_map_in _ (fun j => output_of r (seg_at j))) by (intros j I; rewrite (A j I); reflexivity). rewrite output_map. reflexivity.
  - rewrite (flat_map_in _ (fun j => reversed_of r (seg_at j))) by (intros j I; rewrite (A j I); reflexivity). rewrite reversed_map. reflexivity.
Qed.
Lemma trail_next : forall c n e j q, trail opts n c e -> In j c -> nth_error opts j = Some q -> In (o_next q) c \/ o_next q = e.
Proof.
  induction c as [|x c IH]; intros n e j q T I E; [destruct I|]. destruct T as (-> & q' & Q & U & T). destruct I as [<-|I].
  - rewrite Q in E. injection E as <-. destruct c as [|y c]; [destruct T as (T & _); right; exact T|]. destruct T as (-> & _). left. right. left. reflexivity.
  - destruct (IH _ _ _ _ T I E) as [?|?]; [left; right; assumption|right; assumption].
Qed.
Lemma cover i : i < length pts -> In i (flat_map nodes RS).
Proof.
  intros L. pose proof (AJ i L) as A0. clear L. induction A0 as [i (p & N & C)|i p A IH N].
  - destruct JD as (_ & _ & _ & IN & _). assert (I : In i (map fst ss)) by (apply IN; eauto). rewrite <- HEADS in I. apply in_map_iff in I as (R & <- & I). apply in_flat_map. exists R. split; [exact I|left; reflexivity].
  - assert (L : i < length pts) by (apply nth_error_Some; congruence). apply in_flat_map in IH as (R & I & J). destruct (out_at i p N) as (q & E & _ & NX & _).
    rewrite Forall_forall in RUNS. pose proof (RUNS R I) as IR. destruct R as ((h, c), e). destruct IR as (ph & r & EH & SH & T). assert (D : In (c_next p) c \/ c_next p = e).
    { unfold nodes, head in J. cbn [fst snd] in J. rewrite <- NX. destruct J as [<-|J]; [|apply (trail_next c _ e i q T J E)]. rewrite EH in E. injection E as <-. destruct c as [|y c]; [destruct T as (T & _); right; exact T|]. destruct T as (-> & _). left. left. reflexivity. }
    destruct D as [D|D]; [apply in_flat_map; exists (h, c, e); split; [exact I|right; exact D]|].
    destruct (trail_end _ _ _ _ T) as (pe & re & PE & SE). destruct JP as (_ & _ & _ & IN & _). assert (K : In e (map fst ss)) by (apply IN; eauto). rewrite <- HEADS in K. apply in_map_iff in K as (R' & K & I'). apply in_flat_map. exists R'. split; [exact I'|]. left. congruence.
Qed.
Lemma nodes_all : Permutation (flat_map nodes RS) (seq 0 (length pts)).
Proof.
  destruct JP as (PM & _ & ND & _). apply NoDup_Permutation; [apply (runs_nodup opts PM RS RUNS); rewrite HEADS; exact ND|apply seq_NoDup|]. intros i. rewrite in_seq. split.
  - intros I. split; [lia|]. apply in_flat_map in I as (R & I & J). rewrite Forall_forall in RUNS. pose proof (run_node_lt opts R i (RUNS R I) J) as LT. rewrite len_out in LT. exact LT.
  - intros (_ & L). apply cover, L.
Qed.
Lemma lines_seq {W} (g : lstate -> point * point -> list W) : flat_map (fun l => g (line_result op l (column_of (lines pts) l)) (ln_e l)) (lines pts) = flat_map (fun j => g (vd j) (seg_at j)) (seq 0 (length pts)).
Proof.
  rewrite (flat_map_in _ (fun l => g (vd (ln_i l)) (ln_e l))) by (intros l I; unfold vd; rewrite (verdict_line pts PL op l I); reflexivity).
  rewrite (lines_map pts PL), flat_map_map. apply flat_map_in. intros i I. apply in_seq in I. cbn [ln_i ln_e]. f_equal. destruct (nth_error pts i) as [p|] eqn:N; [|apply nth_error_None in N; lia]. destruct (out_at i p N) as (q & E & D & X & _).
  destruct (proj1 PL _ _ N) as (p2 & _ & N2 & _). destruct (out_at _ p2 N2) as (q2 & E2 & D2 & _).
  unfold seg_at, pos, onx, at_i. rewrite E, (nth_error_nth _ _ _ N), X, E2, (nth_error_nth _ _ _ N2). congruence.
Qed.
Theorem wanted_all : Permutation (flat_map (wanted opts) RS) (flat_map (fun l => output_of (line_result op l (column_of (lines pts) l)) (ln_e l)) (lines pts)).
Proof.
  rewrite (lines_seq output_of), <- nodes_all, flat_map_flat. rewrite (flat_map_in (wanted opts) (fun R => flat_map (fun j => output_of (vd j) (seg_at j)) (nodes R))); [reflexivity|]. intros R I. rewrite Forall_forall in RUNS. apply run_wanted, RUNS, I.
Qed.
Theorem reversed_all : Permutation (flat_map (reversed opts) RS) (flat_map (fun l => reversed_of (line_result op l (column_of (lines pts) l)) (ln_e l)) (lines pts)).
Proof.
  rewrite (lines_seq reversed_of), <- nodes_all, flat_map_flat. rewrite (flat_map_in (reversed opts) (fun R => flat_map (fun j => reversed_of (vd j) (seg_at j)) (nodes R))); [reflexivity|]. intros R I. rewrite Forall_forall in RUNS. apply run_wanted, RUNS, I.
Qed.
Theorem no_zero : no_zero_lines opts.
Proof.
  intros i q E. destruct (out_back i q E) as (p & N & D & X & _). destruct (proj1 PL _ _ N) as (p2 & _ & N2 & _). destruct (out_at _ p2 N2) as (q2 & E2 & D2 & _). rewrite D, X. unfold pos. rewrite E2, D2.
  apply (NZ i). exists p, p2. auto.
Qed.
End Out.
