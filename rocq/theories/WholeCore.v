(** A whole operation on lines that only meet at their ends. *)
From Coq Require Import ZArith QArith List Bool Arith Permutation Lia.
From Verif Require Import GeomModel GeomSpec BalanceModel WindSpec EventsModel EventsSpec OutModel ClipModel ClipSpec ClipProofs SweepProofs BalSweepProofs JudgeProps JoinSpec JoinProofs JoinProps ArrangeSpec ArrangeProofs ArrangeHit ArrangeVertex ArrangeStack ArrangeCheck ArrangeProps RegionProps
  SegSpec SegRun SegClean SegFinal SegProps WholeProofs WholeVertex WholeRuns WholeOut.
Import ListNotations.
Local Open Scope nat_scope.

(** The lines es wind once around the points selected from the lines of the points, and not
    at all around the others. *)
Definition encloses (op : bool_op) (pts : list cpoint) (es : list (point * point)) : Prop :=
  forall k p, (0 < k)%Z -> off_lines k p (map ln_e (lines pts)) ->
  exists ws wc, wind_around k p (set_lines Subject (lines pts)) ws /\ wind_around k p (set_lines Clip (lines pts)) wc /\
    wind_around k p es (if selected op ws wc then 1 else 0).

Lemma sum_perm l l' : Permutation l l' -> sumZ l = sumZ l'.
Proof. induction 1; cbn [sumZ fold_right] in *; unfold sumZ in *; cbn [fold_right]; lia. Qed.
Lemma wind_perm k p l l' w : Permutation l l' -> wind_around k p l w -> wind_around k p l' w.
Proof. unfold wind_around. intros P H. rewrite <- H. symmetry. apply sum_perm. apply Permutation_map, Permutation_map, P. Qed.

Section Whole.
Variable isect : bool -> bool -> cseg -> cseg -> isect.
Variable place : list cseg -> cseg -> nat.
Variable sort_events : list EventsModel.event -> list EventsModel.event.
Variable sort_new : list (EventsModel.event * nat) -> list (EventsModel.event * nat).
Variable draws : cseg -> cseg -> bool.
Hypothesis SE : sorts event_lt sort_events.
Hypothesis SN : sorts (lt_new _ _ (fun e => e) event_lt) sort_new.
Hypothesis PLC : places place.
Variables (op : bool_op) (pts : list cpoint).
Hypothesis PL : proper_loops pts.
Hypothesis UJ : unjudged pts.
Variables (fuel : nat) (rand : Z) (st : cstate).
Hypothesis RUN : self_intersection isect place sort_events sort_new draws fuel pts rand = Some st.
Hypothesis NZ : forall i P Q, edge_of (s_pts st) i P Q -> P <> Q.
Hypothesis AP : SegSpec.apart (s_pts st).
Hypothesis MK : marked (s_pts st) (s_pts st).
Hypothesis AJ : forall i, i < length (s_pts st) -> after_judge (s_pts st) i.

Lemma whole_loops : proper_loops (s_pts st).
Proof. destruct (self_intersection_ok pts isect place sort_events sort_new draws SE SN fuel rand st PL RUN) as (s & all & u & O & _). exact (ok_loops _ _ _ _ _ O). Qed.
Lemma whole_region tree fps loops ss log merged r :
  do_op isect place sort_events sort_new draws fuel op tree pts rand = Some (fps, loops, ss, log, merged, r) ->
  log = s_log st /\ exists Ls, Forall2 (fun loc L => L <> [] /\ iterate_loop fps (fst loc) (snd loc) = Some L) loops Ls /\
    Permutation (flat_map (loop_lines fps) Ls) (outcome op (column_of (lines (s_pts st))) (lines (s_pts st))) /\
    encloses op (s_pts st) (flat_map (loop_lines fps) Ls).
Proof.
  intros H. unfold do_op in H. rewrite RUN in H. destruct (calc_line_bal _ _ _ _ _ _) as [(pts', ss0)|] eqn:CB; [|discriminate]. destruct (finish _ _ _ _) as [(((fps', loops'), ss'), merged')|] eqn:FN; [|discriminate]. injection H as -> -> -> <- -> <-.
  split; [reflexivity|]. pose proof whole_loops as PL'. pose proof (self_unjudged isect place sort_events sort_new draws fuel pts rand st RUN UJ) as UJ'.
  destruct (C64_judged isect place place sort_events sort_new draws fuel fuel pts rand st op SE SN PLC PL RUN) as (_ & J). specialize (J _ _ CB). pose proof (judged_out op _ _ _ PL' UJ' J) as JP'.
  destruct (C43_edges fuel tree _ _ _ _ _ _ JP' FN) as (RS & Ls & F & HD & IT & _ & NP). exists Ls. split; [exact IT|].
  specialize (NP (no_zero op (s_pts st) pts' ss0 PL' NZ J)). pose proof (wanted_all op (s_pts st) pts' ss0 PL' NZ AP MK UJ' AJ J RS F HD) as W.
  assert (P : Permutation (flat_map (loop_lines fps) Ls) (outcome op (column_of (lines (s_pts st))) (lines (s_pts st)))) by (etransitivity; [exact NP|exact W]).
  split; [exact P|]. intros k p K OFF. pose proof (lines_arranged _ PL' NZ AP) as AR.
  destruct (C67_region op (lines (s_pts st)) (column_of (lines (s_pts st))) k p AR) as (ws & wc & W1 & W2 & W3); [intros l _; apply column_of_ok, AR|exact K|exact OFF|].
  exists ws, wc. split; [exact W1|]. split; [exact W2|]. apply (wind_perm k p _ _ _ (Permutation_sym P) W3).
Qed.
Lemma whole_success tree : length (q_events _ (s_events st)) <= fuel ->
  (forall pts' ss, calc_line_bal place sort_events sort_new fuel op st = Some (pts', ss) -> length pts' + length ss + length (flat_map snd ss) <= fuel) ->
  exists out, do_op isect place sort_events sort_new draws fuel op tree pts rand = Some out.
Proof.
  intros F1 F2. unfold do_op. rewrite RUN. destruct (C64_judged isect place place sort_events sort_new draws fuel fuel pts rand st op SE SN PLC PL RUN) as (T & J). destruct (T F1) as ((pts', ss0) & CB). rewrite CB. specialize (J _ _ CB). specialize (F2 _ _ CB).
  pose proof whole_loops as PL'. pose proof (self_unjudged isect place sort_events sort_new draws fuel pts rand st RUN UJ) as UJ'. pose proof (judged_out op _ _ _ PL' UJ' J) as JP'. pose proof JP' as (PM & NC & ND & IN & _).
  destruct (all_runs (map to_out pts') PM) with (l := map fst ss0) as (RS & HD & F); [intros p I; apply (NC p I)|intros i I; apply IN in I; exact I|].
  pose proof (lines_arranged _ PL' NZ AP) as AR. destruct (C25_balance op (lines (s_pts st)) (column_of (lines (s_pts st))) AR) as (B1 & B2); [intros l _; apply column_of_ok, AR|].
  destruct (C43_success fuel tree (map to_out pts') ss0 RS JP' (no_zero op (s_pts st) pts' ss0 PL' NZ J) F HD) as (a & b & c & d & FN).
  - intros k. pose proof (wanted_all op (s_pts st) pts' ss0 PL' NZ AP MK UJ' AJ J RS F HD) as W. unfold ends_at, starts_at in *. rewrite (Permutation_length (filter_permut (fun e : point * point => point_eqb (snd e) k) _ _ W)), (Permutation_length (filter_permut (fun e : point * point => point_eqb (fst e) k) _ _ W)). apply B1.
  - intros k. pose proof (reversed_all op (s_pts st) pts' ss0 PL' NZ AP MK UJ' AJ J RS F HD) as W. unfold ends_at, starts_at in *. rewrite (Permutation_length (filter_permut (fun e : point * point => point_eqb (snd e) k) _ _ W)), (Permutation_length (filter_permut (fun e : point * point => point_eqb (fst e) k) _ _ W)). apply B2.
  - rewrite map_length. exact F2.
  - rewrite FN. eexists. reflexivity.
Qed.
End Whole.
