(** The hierarchy of the loops of a whole operation. *)
From Coq Require Import ZArith QArith List Bool Arith Permutation Lia.
From Verif Require Import GeomModel GeomSpec BalanceModel WindSpec EventsModel EventsSpec OutModel OutSpec ClipModel ClipSpec ClipProofs SweepProofs BalSweepProofs JudgeProps JoinSpec JoinProofs JoinProps ArrangeSpec ArrangeProofs RegionProps
  SegSpec SegRun SegClean SegFinal SegProps WholeProofs WholeVertex WholeRuns WholeOut WholeCore TreeTrack TreeSpec TreeWhole.
Import ListNotations.
Local Open Scope nat_scope.

Lemma iterate_unique fps loops : forall Ls Ms,
  Forall2 (fun loc L => L <> [] /\ iterate_loop fps (fst loc) (snd loc) = Some L) loops Ls ->
  Forall2 (fun loc L => L <> [] /\ iterate_loop fps (fst loc) (snd loc) = Some L) loops Ms -> Ls = Ms.
Proof.
  induction loops as [|x loops IH]; intros Ls Ms F G; inversion F; inversion G; subst; [reflexivity|]. f_equal; [|apply IH; assumption].
  match goal with A : _ /\ _ = Some ?L, B : _ /\ _ = Some ?M |- ?L = ?M => destruct A as (_ & A), B as (_ & B); congruence end.
Qed.

Section Whole.
Variable isect : bool -> bool -> cseg -> cseg -> isect.
Variable place : list cseg -> cseg -> nat.
Variable sort_events : list EventsModel.event -> list EventsModel.event.
Variable sort_new : list (EventsModel.event * nat) -> list (EventsModel.event * nat).
Variable draws : cseg -> cseg -> bool.
Hypothesis SE : sorts event_lt sort_events.
Hypothesis SN : sorts (lt_new _ _ (fun e => e) event_lt) sort_new.
Hypothesis PLC : places place.
Variables (op : bool_op) (pts : list cpoint).
Hypothesis PL : proper_loops pts.
Hypothesis UJ : unjudged pts.
Variables (fuel : nat) (rand : Z) (st : cstate).
Hypothesis RUN : self_intersection isect place sort_events sort_new draws fuel pts rand = Some st.
Hypothesis NZ : forall i P Q, edge_of (s_pts st) i P Q -> P <> Q.
Hypothesis AP : SegSpec.apart (s_pts st).
Hypothesis MK : marked (s_pts st) (s_pts st).
Hypothesis AJ : forall i, i < length (s_pts st) -> after_judge (s_pts st) i.

Lemma whole_tree fps loops ss log merged r Ls sort_samples :
  do_op isect place sort_events sort_new draws fuel op true pts rand = Some (fps, loops, ss, log, merged, r) ->
  Forall2 (fun loc L => L <> [] /\ iterate_loop fps (fst loc) (snd loc) = Some L) loops Ls ->
  loops_apart fps Ls ->
  (forall l, Permutation (sort_samples l) l /\ Sorted.Sorted (fun a b => (loop_of fps (fst a) <= loop_of fps (fst b))%Z) (sort_samples l)) ->
  exists top children, loop_hierarchy sort_samples fps (length loops) ss = Some (top, children) /\ tree_right fps Ls (length loops) top children /\
    exists fuel l, walk_tree fuel children top = Some l /\ Permutation l (seq 0 (length loops)).
Proof.
  intros H IT0 LA SO. pose proof (whole_loops isect place sort_events sort_new draws SE SN pts PL fuel rand st RUN) as PL'. pose proof (self_unjudged isect place sort_events sort_new draws fuel pts rand st RUN UJ) as UJ'.
  destruct (whole_region isect place sort_events sort_new draws SE SN PLC op pts PL UJ fuel rand st RUN NZ AP MK AJ true _ _ _ _ _ _ H) as (_ & Ls1 & IT1 & PM & _). pose proof (iterate_unique _ _ _ _ IT0 IT1) as <-.
  unfold do_op in H. rewrite RUN in H. destruct (calc_line_bal _ _ _ _ _ _) as [(pts', ss0)|] eqn:CB; [|discriminate]. destruct (finish _ _ _ _) as [(((fps', loops'), ss'), merged')|] eqn:FN; [|discriminate]. injection H as -> -> -> _ -> _.
  destruct (C64_judged isect place place sort_events sort_new draws fuel fuel pts rand st op SE SN PLC PL RUN) as (_ & J). specialize (J _ _ CB). pose proof (judged_out op _ _ _ PL' UJ' J) as JP'. pose proof JP' as (PN & NC & ND & IN & HB).
  destruct (all_runs (map to_out pts') PN) with (l := map fst ss0) as (RS & HD & F); [intros p I; apply (NC p I)|intros i I; apply IN in I; exact I|].
  assert (LN : length (map to_out pts') = length (s_pts st)) by (rewrite map_length; apply J).
  destruct (finish_track fuel (map to_out pts') ss0 RS fps loops ss merged JP' F HD) as (Ls2 & IT2 & _ & _ & ST); [|exact FN|].
  - intros s i IS II. apply (cover op (s_pts st) pts' ss0 PL' UJ' AJ J RS F HD). rewrite <- LN. exact (HB s i IS II).
  - pose proof (iterate_unique _ _ _ _ IT0 IT2) as <-.
    assert (LL : length loops = length Ls) by (clear - IT0; induction IT0; cbn; congruence). rewrite LL.
    destruct (tree_ok op (s_pts st) pts' ss0 PL' NZ AP MK UJ' AJ J RS F HD fps Ls ss) with (sort_samples := sort_samples) as (top & children & H1 & H2 & H3 & H4 & H5); [| |exact LA|exact ST|exact SO|].
    + intros L I. destruct (Forall2_pick_r _ _ _ _ IT0 I) as (loc & _ & W & _). exact W.
    + etransitivity; [exact PM|]. unfold outcome. rewrite (lines_seq op (s_pts st) pts' ss0 PL' NZ AJ J output_of). reflexivity.
    + exists top, children. split; [exact H1|]. split; [split; [exact H2|split; [exact H3|exact H4]]|exact H5].
Qed.
End Whole.
