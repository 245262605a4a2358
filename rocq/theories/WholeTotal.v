(** The whole operation on loops whose edges only meet at their ends. *)
From Coq Require Import ZArith QArith List Bool Arith Permutation Lia.
From Verif Require Import GeomModel GeomSpec BalanceModel EventsModel EventsSpec WindSpec OutModel CycleProofs ClipModel ClipSpec ClipProofs SweepProofs JudgeProps JoinSpec JoinProofs JoinProps ArrangeSpec ArrangeProofs RegionProps
  SegSpec SegRun SegClean SegFinal SegTotal WholeProofs WholeRuns WholeCore.
Import ListNotations.
Local Open Scope nat_scope.

Lemma skel_edges a b : same_skel a b -> forall i P Q, edge_of a i P Q <-> edge_of b i P Q.
Proof.
  assert (X : forall a b, same_skel a b -> forall i P Q, edge_of a i P Q -> edge_of b i P Q).
  { intros c d S i P Q (p & q & N & M & <- & <-). destruct (skel_get _ _ _ _ S N) as (p' & N' & D & X & _). destruct (skel_get _ _ _ _ S M) as (q' & M' & D' & _). exists p', q'. rewrite X. auto. }
  intros S i P Q. split; apply X; [exact S|apply skel_sym; exact S].
Qed.
Lemma skel_apart a b : same_skel a b -> SegSpec.apart a -> SegSpec.apart b.
Proof. intros S A i j P Q P' Q' E1 E2. apply (skel_edges _ _ S) in E1, E2. exact (A i j P Q P' Q' E1 E2). Qed.
Lemma skel_marked a b c : same_skel a b -> marked a c -> marked b c.
Proof.
  intros S A i j x y P Q Q' T1 T2. apply (A i j x y P Q Q').
  - destruct T1 as [(-> & E)|(E & p & N & ->)]; apply (skel_edges _ _ S) in E; [left; auto|right]. split; [exact E|]. destruct (skel_get _ _ _ _ (skel_sym _ _ S) N) as (p' & N' & _ & X & _). exists p'. auto.
  - destruct T2 as [(-> & E)|(E & p & N & ->)]; apply (skel_edges _ _ S) in E; [left; auto|right]. split; [exact E|]. destruct (skel_get _ _ _ _ (skel_sym _ _ S) N) as (p' & N' & _ & X & _). exists p'. auto.
Qed.
Lemma skel_length a b : same_skel a b -> length a = length b.
Proof. intros S. apply skel_links, (f_equal (@length _)) in S. unfold links in S. rewrite !map_length in S. exact S. Qed.
Lemma skel_lines a b : same_skel a b -> lines a = lines b.
Proof.
  intros S. unfold lines. rewrite <- (skel_length _ _ S).
  assert (X : forall l l' k, (forall i, option_map skel (nth_error l i) = option_map skel (nth_error l' i)) ->
    map (fun ip => mk_line (fst ip) (c_data (snd ip), match nth_error a (c_next (snd ip)) with Some q => c_data q | None => c_data (snd ip) end) (c_set (snd ip))) (combine (seq k (length l)) l) =
    map (fun ip => mk_line (fst ip) (c_data (snd ip), match nth_error b (c_next (snd ip)) with Some q => c_data q | None => c_data (snd ip) end) (c_set (snd ip))) (combine (seq k (length l)) l')).
  { induction l as [|x l IH]; intros [|y l'] k H; try reflexivity; [specialize (H 0); discriminate|]. cbn [length seq combine map]. f_equal.
    - pose proof (H 0) as H0. cbn in H0. unfold skel in H0. injection H0 as H1 H2 H3. cbn [fst snd]. rewrite H1, H2, H3. pose proof (S (c_next y)) as Sy. destruct (nth_error a (c_next y)), (nth_error b (c_next y)); cbn in Sy; try discriminate; unfold skel in Sy; congruence.
    - apply IH. intros i. exact (H (Datatypes.S i)). }
  apply X. exact S.
Qed.
Lemma later_judge a b i : later a b -> after_judge a i -> after_judge b i.
Proof.
  intros (S & M). induction 1 as [i H|i p H IH N]; [apply after_here, M; exact H|]. destruct (skel_get _ _ _ _ S N) as (q & N' & _ & X & _). rewrite <- X. eapply after_next; eassumption.
Qed.
Lemma grown_length l log l' : ClipSpec.grown l log l' -> length l' = length l + length log.
Proof. induction 1 as [|l a b log l' N G IH]; [cbn; lia|]. rewrite IH, app_length, put_length. cbn [length]. lia. Qed.
Lemma hits_length l1 ck : length (snd (line_balance l1 ck)) <= length ck.
Proof.
  unfold line_balance. assert (X : forall ck st, length (snd (fold_left (lb_check l1) ck st)) <= length (snd st) + length ck); [|specialize (X ck (lb_init l1, [])); exact X].
  clear ck. induction ck as [|l ck IH]; intros st; cbn [fold_left length]; [lia|]. rewrite IH. unfold lb_check. destruct (Nat.eqb _ _); [lia|]. destruct (lb_hit _ _); cbn [snd]; [|lia]. rewrite app_length. cbn [length]. lia.
Qed.
Lemma lines_length pts : length (lines pts) = length pts.
Proof. unfold lines. rewrite map_length, combine_length, seq_length. lia. Qed.
Lemma judged_size op pts pts' ss : judged op pts pts' ss -> length pts' + length ss + length (flat_map snd ss) <= length pts * (2 + length pts).
Proof.
  intros (L & _ & ND & IN & H). assert (S : length ss <= length pts).
  { pose proof (@NoDup_incl_length _ (map fst ss) (seq 0 (length pts)) ND) as X. rewrite map_length, seq_length in X. apply X. intros i I. apply IN in I as (p & N & _). apply in_seq. split; [lia|]. apply nth_error_Some. congruence. }
  assert (X : length (flat_map snd ss) <= length ss * length pts).
  { clear -H. induction ss as [|(i, h) ss IH]; cbn [flat_map length Nat.mul]; [lia|]. rewrite app_length. cbn [snd]. assert (length h <= length pts).
    { destruct (H i h (or_introl eq_refl)) as (l1 & ck & _ & _ & _ & ND & SP & _ & _ & ->). rewrite hits_length. rewrite <- (lines_length pts). apply NoDup_incl_length; [exact ND|]. intros l I. apply SP in I. apply I. }
    specialize (IH (fun i h I => H i h (or_intror I))). lia. }
  rewrite L. nia.
Qed.

Section Total.
Variables place : list cseg -> cseg -> nat.
Variable sort_events : list EventsModel.event -> list EventsModel.event.
Variable sort_new : list (EventsModel.event * nat) -> list (EventsModel.event * nat).
Variable draws : cseg -> cseg -> bool.
Hypothesis SE : sorts event_lt sort_events.
Hypothesis SN : sorts (lt_new _ _ (fun e => e) event_lt) sort_new.
Hypothesis FI : finds place.
Hypothesis PLC : places place.
Variable pts : list cpoint.
Hypothesis PL : proper_loops pts.
Hypothesis UJ : unjudged pts.
Hypothesis NZ : forall i P Q, edge_of pts i P Q -> P <> Q.
Hypothesis AJ : forall i, i < length pts -> after_judge pts i.

(** A run that splits no line. *)
Lemma clean_whole op tree fuel rand st : self_intersection intersects place sort_events sort_new draws fuel pts rand = Some st -> length (s_pts st) = length pts ->
  s_log st = [] /\ lines (s_pts st) = lines pts /\ (forall i P Q, edge_of (s_pts st) i P Q -> P <> Q) /\ SegSpec.apart (s_pts st) /\ marked (s_pts st) (s_pts st) /\
  (forall i, i < length (s_pts st) -> after_judge (s_pts st) i) /\
  forall fps loops ss log merged r, do_op intersects place sort_events sort_new draws fuel op tree pts rand = Some (fps, loops, ss, log, merged, r) ->
  log = [] /\ exists Ls, Forall2 (fun loc L => L <> [] /\ iterate_loop fps (fst loc) (snd loc) = Some L) loops Ls /\ encloses op pts (flat_map (loop_lines fps) Ls).
Proof.
  intros R L. destruct (clean_run place sort_events sort_new draws SE SN FI pts PL NZ fuel rand st R L) as (LT & _). destruct (clean_final place sort_events sort_new draws SE SN FI pts PL NZ fuel rand st R L) as (AP & MK).
  pose proof LT as (S & _).
  assert (LG : s_log st = []).
  { destruct (self_intersection_ok pts intersects place sort_events sort_new draws SE SN fuel rand st PL R) as (s & all & u & O & _). pose proof (grown_length _ _ _ (ok_log _ _ _ _ _ O)) as G. unfold links in G. rewrite !map_length in G. destruct (s_log st); [reflexivity|cbn in G; lia]. }
  assert (LI : lines (s_pts st) = lines pts) by (symmetry; apply skel_lines; exact S).
  assert (NZ' : forall i P Q, edge_of (s_pts st) i P Q -> P <> Q) by (intros i P Q E; apply (skel_edges _ _ S) in E; exact (NZ i P Q E)).
  assert (AP' : SegSpec.apart (s_pts st)) by (eapply skel_apart; [exact S|exact AP]).
  assert (MK' : marked (s_pts st) (s_pts st)) by (eapply skel_marked; [exact S|exact MK]).
  assert (AJ' : forall i, i < length (s_pts st) -> after_judge (s_pts st) i) by (intros i I; eapply later_judge; [exact LT|]; apply AJ; rewrite <- L; exact I).
  split; [exact LG|]. split; [exact LI|]. split; [exact NZ'|]. split; [exact AP'|]. split; [exact MK'|]. split; [exact AJ'|].
  intros fps loops ss log merged r H. destruct (whole_region intersects place sort_events sort_new draws SE SN PLC op pts PL UJ fuel rand st R NZ' AP' MK' AJ' tree fps loops ss log merged r H) as (-> & Ls & F & _ & E).
  split; [exact LG|]. exists Ls. split; [exact F|]. unfold encloses in *. rewrite LI in E. exact E.
Qed.

Lemma total_whole op tree fuel rand : SegSpec.apart pts -> length pts * (2 + length pts) <= fuel ->
  exists fps loops ss merged r Ls, do_op intersects place sort_events sort_new draws fuel op tree pts rand = Some (fps, loops, ss, [], merged, r) /\
    Forall2 (fun loc L => L <> [] /\ iterate_loop fps (fst loc) (snd loc) = Some L) loops Ls /\ encloses op pts (flat_map (loop_lines fps) Ls).
Proof.
  intros AP F. destruct (total_run place sort_events sort_new draws SE SN FI PLC pts PL NZ AP fuel rand) as (st & R & L & LE); [nia|].
  destruct (clean_whole op tree fuel rand st R L) as (LG & LI & NZ' & AP' & MK' & AJ' & H).
  destruct (whole_success intersects place sort_events sort_new draws SE SN PLC op pts PL UJ fuel rand st R NZ' AP' MK' AJ' tree) as ((((((fps, loops), ss), log), merged), r) & D).
  - rewrite LE. nia.
  - intros pts' ss C. destruct (C64_judged intersects place place sort_events sort_new draws fuel fuel pts rand st op SE SN PLC PL R) as (_ & J). apply J in C. apply judged_size in C. rewrite L in C. lia.
  - destruct (H _ _ _ _ _ _ D) as (-> & Ls & F2 & E). exists fps, loops, ss, merged, r, Ls. auto.
Qed.
End Total.
