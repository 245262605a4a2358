(** Any run of the whole operation whose split lines only meet at their ends. *)
From Coq Require Import ZArith QArith List Bool Arith Permutation Sorted Lia.
From Verif Require Import GeomModel GeomSpec BalanceModel EventsModel EventsSpec EventsProofs WindSpec OutModel PointSinkModel CycleProofs ClipModel ClipSpec ClipProofs SweepProofs BalSweepProofs ClipProps JudgeProps JoinSpec JoinProofs JoinProps
  ArrangeSpec RegionProps SegOrder SegSpec SegRun SegClean SegFinal SegTotal WholeProofs WholeRuns WholeCore WholeTotal TotalSpec TotalSplit TotalRun TotalEnds.
Import ListNotations.
Local Open Scope nat_scope.

(** * Marks stay *)
Section Kept.
Variable J : nat -> Prop.
Definition kept (pts : list cpoint) : Prop := forall i, J i -> to_judge pts i.
Lemma put_get {A} (l : list A) i x j : nth_error (put l i x) j = if (i =? j) && (j <? length l) then Some x else nth_error l j.
Proof.
  revert i j. induction l as [|a l IH]; intros [|i] [|j]; cbn [put nth_error length]; try reflexivity; [rewrite andb_false_r; reflexivity|].
  rewrite IH. cbn [Nat.eqb]. replace (S j <? S (length l)) with (j <? length l) by reflexivity. reflexivity.
Qed.
Lemma kept_put pts i p q : kept pts -> nth_error pts i = Some p -> (c_state p = Check -> c_state q = Check) -> kept (put pts i q).
Proof.
  intros U N C j K. destruct (U j K) as (x & X & Y). unfold to_judge. rewrite put_get. destruct (Nat.eqb_spec i j) as [<-|D]; [|exists x; auto].
  assert (L : i <? length pts = true) by (apply Nat.ltb_lt, nth_error_Some; congruence). rewrite L. exists q. split; [reflexivity|]. apply C. congruence.
Qed.
Lemma mark_kept st i st' : mark st i = Some st' -> kept (s_pts st) -> kept (s_pts st').
Proof.
  unfold mark. destruct (nth_error (s_pts st) i) as [p|] eqn:E; [|discriminate]. intros H U. injection H as <-. cbn [with_pts s_pts]. intros j K. apply (kept_put _ _ p); auto.
Qed.
Lemma split_kept st s c e st' i : split_segment st s c e = Some (st', i) -> kept (s_pts st) -> kept (s_pts st').
Proof.
  unfold split_segment. destruct (nth_error (s_nodes st) s) as [g|]; [|discriminate]. destruct e; try (intros H; injection H as <- _; auto; fail); [|discriminate].
  destruct c as [c|]; [|discriminate]. destruct (erase_node _ _) as [sw|]; [|discriminate].
  destruct (nth_error (s_pts st) (sg_a g)) as [pa|] eqn:EA; [|discriminate]. destruct (nth_error (s_pts st) (sg_b g)) as [pb|] eqn:EB; [|discriminate].
  destruct (find_event _ _ _ _ _ _) as [k|]; [|discriminate]. destruct (update_at _ _ _ _) as [q|]; [|discriminate]. destruct (_ || _); [discriminate|].
  intros H U. revert H. assert (G : forall sa sb pa pb, nth_error (s_pts st) sa = Some pa -> forall st', 
    (do st0 <- (if (px (c_data pa) <=? px c)%Z then add_fb_events (with_log (with_pts (with_sweep (with_events st q) sw) (put (s_pts st) sa (c_set_next pa (length (s_pts st))) ++ [mk_cp c sb (c_set pa) Undef])) (s_log st ++ [(sa, sb)])) sa (length (s_pts st))
       else add_fb_events (with_log (with_pts (with_sweep (with_events st q) sw) (put (s_pts st) sa (c_set_next pa (length (s_pts st))) ++ [mk_cp c sb (c_set pa) Undef])) (s_log st ++ [(sa, sb)])) (length (s_pts st)) sa);
     do st1 <- (if (px c <=? px (c_data pb))%Z then add_fb_events st0 (length (s_pts st)) sb else add_fb_events st0 sb (length (s_pts st)));
     Some (st1, length (s_pts st))) = Some st' -> kept (s_pts (fst st'))).
  { intros sa sb a b IA st2. match goal with |- context [with_log ?x ?y] => set (S0 := with_log x y) end.
    assert (U0 : kept (s_pts S0)).
    { intros j K. destruct (kept_put _ sa a (c_set_next a (length (s_pts st))) U IA (fun X => X) j K) as (p & N & C). exists p. split; [|exact C]. unfold S0. cbn [with_log with_pts s_pts]. rewrite nth_error_app1; [exact N|]. apply nth_error_Some. congruence. }
    match goal with |- context [if ?b then ?x else ?y] => destruct (if b then x else y) as [S1|] eqn:E1; [|discriminate] end.
    assert (U1 : s_pts S1 = s_pts S0) by (destruct (_ <=? _)%Z in E1; apply add_fb_pts in E1; exact E1).
    match goal with |- context [if ?b then ?x else ?y] => destruct (if b then x else y) as [S2|] eqn:E2; [|discriminate] end.
    assert (U2 : s_pts S2 = s_pts S1) by (destruct (_ <=? _)%Z in E2; apply add_fb_pts in E2; exact E2).
    intros H. injection H as <-. cbn [fst]. rewrite U2, U1. exact U0. }
  destruct (c_next pa =? sg_b g); cbn [with_sweep with_events s_pts]; destruct (negb _); try discriminate; intros H; apply G in H; assumption.
Qed.
Section Steps.
Variable isect : bool -> bool -> cseg -> cseg -> isect.
Variable place : list cseg -> cseg -> nat.
Variable sort_events : list EventsModel.event -> list EventsModel.event.
Variable sort_new : list (EventsModel.event * nat) -> list (EventsModel.event * nat).
Variable draws : cseg -> cseg -> bool.
Lemma check_kept st n m st' b : check_intersection isect draws st n m = Some (st', b) -> kept (s_pts st) -> kept (s_pts st').
Proof.
  unfold check_intersection. destruct (nth_error (s_nodes st) n) as [g1|]; [|discriminate]. destruct (nth_error (s_nodes st) m) as [g2|]; [|discriminate].
  destruct (rand_bool (s_rand st)) as (rx, r1). destruct (rand_bool r1) as (ry, r2). set (S0 := if draws g1 g2 then with_rand st r2 else st).
  intros H U. assert (U0 : kept (s_pts S0)) by (unfold S0; destruct (draws g1 g2); exact U). revert H. clearbody S0. clear U.
  destruct (isect rx ry g1 g2) as [((c, e1), e2)|]; [|intros H; injection H as <- _; exact U0]. destruct (negb _); [discriminate|]. destruct (_ || _).
  - destruct (split_segment S0 n c e1) as [(S1, i1)|] eqn:E1; [|discriminate]. apply split_kept in E1; [|exact U0]. destruct (split_segment S1 m c e2) as [(S2, i2)|] eqn:E2; [|discriminate]. apply split_kept in E2; [|exact E1].
    destruct (mark S2 i1) as [S3|] eqn:E3; [|discriminate]. apply mark_kept in E3; [|exact E2]. destruct (mark S3 i2) as [S4|] eqn:E4; [|discriminate]. apply mark_kept in E4; [|exact E3].
    intros H. injection H as <- _. exact E4.
  - destruct (at_edge_eqb e1 AEboth).
    + destruct (mark S0 _) as [S1|] eqn:E1; [|discriminate]. apply mark_kept in E1; [|exact U0]. destruct (mark S1 _) as [S2|] eqn:E2; [|discriminate]. apply mark_kept in E2; [|exact E1].
      destruct (mark S2 _) as [S3|] eqn:E3; [|discriminate]. apply mark_kept in E3; [|exact E2]. destruct (mark S3 _) as [S4|] eqn:E4; [|discriminate]. apply mark_kept in E4; [|exact E3].
      intros H. injection H as <- _. exact E4.
    + destruct (mark S0 _) as [S1|] eqn:E1; [|discriminate]. apply mark_kept in E1; [|exact U0]. destruct (mark S1 _) as [S2|] eqn:E2; [|discriminate]. apply mark_kept in E2; [|exact E1].
      intros H. injection H as <- _. exact E2.
Qed.
Lemma step_kept st st' : sweep_step isect place sort_events sort_new draws st = Some st' -> kept (s_pts st) -> kept (s_pts st').
Proof.
  unfold sweep_step. destruct (next _ _ _ _ _) as [((e, fwd), q)|]; [|discriminate]. intros H U. revert H. destruct (e_deleted e); [intros H; injection H as <-; exact U|].
  assert (U1 : kept (s_pts (with_events st q))) by exact U. assert (C : forall sw, kept (s_pts (with_sweep (with_events st q) sw))) by (intros; exact U).
  assert (F : (if fwd then
          do (sweep, r) <- insert_node place sweep_cmp (with_events st q) (e_node e);
          do (before, after) <- r;
          let st := with_sweep (with_events st q) sweep in
          do (st, split) <- match before with None => Some (st, false) | Some b => check_intersection isect draws st (e_node e) b end;
          if split then Some st
          else match after with
               | None => Some st
               | Some a => do (st, _) <- check_intersection isect draws st (e_node e) a; Some st
               end
        else do sweep <- erase_node (s_sweep (with_events st q)) (e_node e); Some (with_sweep (with_events st q) sweep)) = Some st' -> kept (s_pts st')).
  { destruct fwd.
    - destruct (insert_node _ _ _ _) as [(sw, [(bf, af)|])|]; try discriminate. cbn zeta. specialize (C sw). set (S0 := with_sweep (with_events st q) sw) in *. clearbody S0.
      destruct bf as [bf|].
      + destruct (check_intersection isect draws S0 (e_node e) bf) as [(S1, sp)|] eqn:E1; [|discriminate]. apply check_kept in E1; [|exact C]. destruct sp; [intros H; injection H as <-; exact E1|].
        destruct af as [af|]; [|intros H; injection H as <-; exact E1]. destruct (check_intersection isect draws S1 (e_node e) af) as [(S2, sp)|] eqn:E2; [|discriminate]. apply check_kept in E2; [|exact E1]. intros H. injection H as <-. exact E2.
      + destruct af as [af|]; [|intros H; injection H as <-; exact C]. destruct (check_intersection isect draws S0 (e_node e) af) as [(S2, sp)|] eqn:E2; [|discriminate]. apply check_kept in E2; [|exact C]. intros H. injection H as <-. exact E2.
    - destruct (erase_node _ _) as [sw|]; [|discriminate]. intros H. injection H as <-. apply C. }
  assert (B : (if fwd then
          if in_dec Nat.eq_dec (e_node e) (s_sweep (with_events st q)) then
            let '(before, after) := around_node None (s_sweep (with_events st q)) (e_node e) in
            do sweep <- erase_node (s_sweep (with_events st q)) (e_node e);
            let st := with_sweep (with_events st q) sweep in
            match before, after with
            | Some b, Some a => do (st, _) <- check_intersection isect draws st b a; Some st
            | _, _ => Some st
            end
          else
            do q <- update_at _ (fun e => EventsModel.mk_event (e_x e) (e_a e) (e_b e) (e_node e) (e_type e) true) (Z.to_nat (q_cur _ q)) q;
            Some (with_events (with_events st q) q)
        else
          do (sweep, _) <- insert_node place sweep_cmp (with_events st q) (e_node e);
          Some (with_sweep (with_events st q) sweep)) = Some st' -> kept (s_pts st')).
  { destruct fwd.
    - destruct (in_dec _ _ _).
      + destruct (around_node _ _ _) as (bf, af). destruct (erase_node _ _) as [sw|]; [|discriminate]. cbn zeta. specialize (C sw). set (S0 := with_sweep (with_events st q) sw) in *. clearbody S0.
        destruct bf as [bf|]; [|intros H; injection H as <-; exact C]. destruct af as [af|]; [|intros H; injection H as <-; exact C].
        destruct (check_intersection isect draws S0 bf af) as [(S2, sp)|] eqn:E2; [|discriminate]. apply check_kept in E2; [|exact C]. intros H. injection H as <-. exact E2.
      + destruct (update_at _ _ _ _) as [q2|]; [|discriminate]. intros H. injection H as <-. exact U.
    - destruct (insert_node _ _ _ _) as [(sw, r)|]; [|discriminate]. intros H. injection H as <-. apply C. }
  destruct (e_type e); [exact F|exact B|exact F|exact B] || (intros H; first [apply F; exact H | apply B; exact H]).
Qed.
Lemma loop_kept fuel : forall st st', sweep_loop isect place sort_events sort_new draws fuel st = Some st' -> kept (s_pts st) -> kept (s_pts st').
Proof.
  induction fuel as [|fuel IH]; intros st st' H U; cbn [sweep_loop] in H; destruct (more _ (s_events st)); try discriminate; try (injection H as <-; exact U).
  destruct (sweep_step isect place sort_events sort_new draws st) as [S1|] eqn:E; [|discriminate]. eapply IH; [exact H|]. eapply step_kept; eassumption.
Qed.
Lemma self_kept fuel pts rand st : self_intersection isect place sort_events sort_new draws fuel pts rand = Some st -> kept pts -> kept (s_pts st).
Proof.
  unfold self_intersection. destruct (add_lines _ _ _) as [S0|] eqn:E; [|discriminate]. intros H U. eapply loop_kept; [exact H|]. apply add_lines_pts in E. rewrite E. exact U.
Qed.
End Steps.
End Kept.

(** * From every point one gets back to a mark *)
Inductive back (J : nat -> Prop) (l : list nat) : nat -> Prop :=
| back_here i : J i -> back J l i
| back_next i j : back J l i -> nth_error l i = Some j -> back J l j.
Lemma back_grown J l log l' : ClipSpec.grown l log l' -> (forall i, i < length l -> back J l i) -> forall i, i < length l' -> back J l' i.
Proof.
  induction 1 as [l|l a b log l' N G IH]; [auto|]. intros B. apply IH. assert (LA : a < length l) by (apply nth_error_Some; congruence).
  set (l1 := put l a (length l) ++ [b]).
  assert (N1 : nth_error l1 a = Some (length l)).
  { unfold l1. rewrite nth_error_app1 by (rewrite put_length; exact LA). rewrite put_get, Nat.eqb_refl. apply Nat.ltb_lt in LA. rewrite LA. reflexivity. }
  assert (N2 : nth_error l1 (length l) = Some b).
  { unfold l1. rewrite nth_error_app2 by (rewrite put_length; lia). rewrite put_length, Nat.sub_diag. reflexivity. }
  assert (T : forall i, back J l i -> back J l1 i).
  { induction 1 as [i H|i j H IHb M]; [apply back_here; exact H|]. destruct (Nat.eq_dec i a) as [->|D].
    - rewrite N in M. injection M as <-. eapply back_next; [eapply back_next; [exact IHb|exact N1]|exact N2].
    - eapply back_next; [exact IHb|]. unfold l1. assert (i < length l) by (apply nth_error_Some; congruence). rewrite nth_error_app1 by (rewrite put_length; assumption). rewrite put_get. destruct (Nat.eqb_spec a i); [congruence|exact M]. }
  intros i L. unfold l1 in L. rewrite app_length, put_length in L. cbn [length] in L. destruct (Nat.eq_dec i (length l)) as [->|D]; [eapply back_next; [apply T, B; exact LA|exact N1]|]. apply T, B. lia.
Qed.
Lemma back_after pts i : after_judge pts i <-> back (to_judge pts) (links pts) i.
Proof.
  unfold links. split; induction 1 as [i H|i p H IH N].
  - apply back_here; exact H.
  - eapply back_next; [exact IH|]. rewrite nth_error_map, N. reflexivity.
  - apply after_here; exact H.
  - rewrite nth_error_map in N. destruct (nth_error pts i) as [q|] eqn:E; [|discriminate]. injection N as <-. eapply after_next; eassumption.
Qed.
Lemma back_mono (J J' : nat -> Prop) l i : (forall i, J i -> J' i) -> back J l i -> back J' l i.
Proof. intros M. induction 1; [apply back_here; auto|eapply back_next; eassumption]. Qed.

Section General.
Variables place : list cseg -> cseg -> nat.
Variable sort_events : list EventsModel.event -> list EventsModel.event.
Variable sort_new : list (EventsModel.event * nat) -> list (EventsModel.event * nat).
Variable draws : cseg -> cseg -> bool.
Hypothesis SE : sorts event_lt sort_events.
Hypothesis SN : sorts (lt_new _ _ (fun e => e) event_lt) sort_new.
Hypothesis PLC : places place.
Variable pts : list cpoint.
Hypothesis PL : proper_loops pts.
Hypothesis UJ : unjudged pts.
Hypothesis NZ : forall i P Q, edge_of pts i P Q -> P <> Q.
Hypothesis AJ : forall i, i < length pts -> after_judge pts i.
Variables (fuel : nat) (rand : Z) (st : cstate).
Hypothesis RUN : self_intersection intersects place sort_events sort_new draws fuel pts rand = Some st.

Lemma run_judge i : i < length (s_pts st) -> after_judge (s_pts st) i.
Proof.
  intros L. destruct (self_intersection_ok pts intersects place sort_events sort_new draws SE SN fuel rand st PL RUN) as (s & all & u & O & _).
  apply back_after. apply (back_mono (to_judge pts)).
  - exact (self_kept (to_judge pts) intersects place sort_events sort_new draws fuel pts rand st RUN (fun i J => J)).
  - eapply back_grown; [exact (ok_log _ _ _ _ _ O)| |unfold links; rewrite map_length; exact L]. intros j LJ. unfold links in LJ. rewrite map_length in LJ. apply back_after, AJ, LJ.
Qed.
Lemma run_nonzero i P Q : edge_of (s_pts st) i P Q -> P <> Q.
Proof.
  destruct (total_end place sort_events sort_new draws fuel pts rand st SE SN PLC PL NZ RUN) as (s & all & u & O & (_ & CV) & NU & _).
  intros (p & q & NP & NQ & <- & <-). assert (L : i < length (s_pts st)) by (apply nth_error_Some; congruence).
  destruct (CV i L) as (n & g & NG & p' & NP' & H). rewrite NP in NP'. injection NP' as <-.
  destruct (ok_nodes _ _ _ _ _ O n g NG) as (_ & pa & pb & NA & DA & NB & DB). destruct (n_good _ _ _ NU n g NG) as (_ & D).
  destruct H as [(HA & HB)|(HB & HA)]; rewrite HA in NA; rewrite HB in NB; rewrite NP, NQ in *; congruence.
Qed.
Lemma run_size : length (s_pts st) <= Z.to_nat (around pts).
Proof.
  destruct (total_end place sort_events sort_new draws fuel pts rand st SE SN PLC PL NZ RUN) as (s & all & u & O & F & NU & _).
  destruct (events_le pts (around pts) st s all u O F NU) as (_ & X). exact X.
Qed.
(** The whole operation. *)
Lemma general_whole op tree : SegSpec.apart (s_pts st) -> marked (s_pts st) (s_pts st) -> let t := Z.to_nat (around pts) in 4 * t <= fuel -> t * (2 + t) <= fuel ->
  exists fps loops ss merged r Ls, do_op intersects place sort_events sort_new draws fuel op tree pts rand = Some (fps, loops, ss, s_log st, merged, r) /\
    Forall2 (fun loc L => L <> [] /\ iterate_loop fps (fst loc) (snd loc) = Some L) loops Ls /\ encloses op (s_pts st) (flat_map (loop_lines fps) Ls).
Proof.
  intros AP MK t F1 F2. destruct (total_end place sort_events sort_new draws fuel pts rand st SE SN PLC PL NZ RUN) as (s & all & u & O & F & NU & _).
  destruct (events_le pts (around pts) st s all u O F NU) as ((_ & X) & Y). destruct (EI_count _ _ _ _ (ok_q _ _ _ _ _ O)) as (EC & _).
  destruct (whole_success intersects place sort_events sort_new draws SE SN PLC op pts PL UJ fuel rand st RUN run_nonzero AP MK run_judge tree) as ((((((fps, loops), ss), log), merged), r) & D).
  - fold t in X. lia.
  - intros pts' ss C. destruct (C64_judged intersects place place sort_events sort_new draws fuel fuel pts rand st op SE SN PLC PL RUN) as (_ & J). apply J in C. apply judged_size in C. fold t in Y. nia.
  - destruct (whole_region intersects place sort_events sort_new draws SE SN PLC op pts PL UJ fuel rand st RUN run_nonzero AP MK run_judge tree fps loops ss log merged r D) as (-> & Ls & F3 & _ & E).
    exists fps, loops, ss, merged, r, Ls. auto.
Qed.
End General.
