(** The hierarchy of the loops of a result, for loops that do not touch. *)
From Coq Require Import ZArith QArith List Bool Arith Permutation Lia.
From Verif Require Import GeomModel GeomSpec BalanceModel WindSpec EventsModel EventsSpec OutModel OutSpec ClipModel ClipSpec ClipProofs SweepProofs BalSweepProofs JudgeProps JoinSpec JoinProofs JoinProps ArrangeSpec ArrangeCore ArrangeProofs ArrangeSum ArrangeHit ArrangeVertex ArrangeStack ArrangeColumn ArrangeCheck ArrangeRegion ArrangeProps RegionProps
  SegSpec SegRun SegClean SegFinal SegProps PointSinkProofs WholeProofs WholeVertex WholeRuns WholeOut TreeNest TreeHits TreeTrack TreeSpec TreeProofs.
Import ListNotations.
Local Open Scope nat_scope.

(** * Closed sequences of points *)
Lemma segs_ends l e : In e (segs l) -> In (fst e) l /\ In (snd e) l.
Proof.
  unfold segs. intros I. destruct e as (p, q). split; [eapply in_combine_l; eauto|]. apply in_combine_r in I. destruct l; [destruct I|]. right. exact I.
Qed.
Lemma segs_connected (P : point -> Prop) : forall l, (forall e, In e (segs l) -> (P (fst e) <-> P (snd e))) -> forall v w, In v l -> In w l -> P v -> P w.
Proof.
  induction l as [|a l IH]; intros H v w V W PV; [destruct V|]. destruct l as [|b l].
  - destruct V as [<-|[]], W as [<-|[]]. exact PV.
  - rewrite segs_cons in H. assert (AB : P a <-> P b) by (apply (H (a, b)); left; reflexivity). assert (IH' : forall v w, In v (b :: l) -> In w (b :: l) -> P v -> P w) by (apply IH; intros e I; apply H; right; exact I).
    assert (PB : P b). { destruct V as [<-|V]; [apply AB; exact PV|apply (IH' v b V); [left; reflexivity|exact PV]]. }
    destruct W as [<-|W]; [apply AB; exact PB|]. apply (IH' b w); [left; reflexivity|exact W|exact PB].
Qed.
Lemma segs_fst : forall l x, map fst (segs (l ++ [x])) = l.
Proof.
  induction l as [|a l IH]; intros x; [reflexivity|]. destruct l as [|b l]; [reflexivity|]. change ((a :: b :: l) ++ [x]) with (a :: b :: (l ++ [x])). rewrite segs_cons. cbn [map fst]. f_equal. exact (IH x).
Qed.
Lemma segs_snd : forall l, map snd (segs l) = tl l.
Proof. induction l as [|a l IH]; [reflexivity|]. destruct l as [|b l]; [reflexivity|]. rewrite segs_cons. cbn [map snd tl]. f_equal. exact IH. Qed.
Lemma count_map (f : edge -> point) k (l : list edge) : length (filter (fun e => point_eqb (f e) k) l) = length (filter (fun p => point_eqb p k) (map f l)).
Proof. induction l as [|e l IH]; [reflexivity|]. cbn [map filter]. destruct (point_eqb (f e) k); cbn; auto. Qed.
Lemma loop_balanced fps L : balanced (loop_lines fps L).
Proof.
  intros k. unfold ends_at, starts_at, loop_lines. rewrite (count_map snd k), (count_map fst k). destruct L as [|a L]; [reflexivity|]. cbn [firstn]. rewrite map_app. cbn [map]. rewrite (segs_fst (fpos fps a :: map (fpos fps) L)), segs_snd. cbn [app tl].
  assert (P : Permutation (map (fpos fps) L ++ [fpos fps a]) (fpos fps a :: map (fpos fps) L)) by (symmetry; apply Permutation_cons_append). apply Permutation_length. apply filter_permut. exact P.
Qed.
Lemma loop_points fps L e : In e (loop_lines fps L) -> (exists x, In x L /\ fst e = fpos fps x) /\ exists x, In x L /\ snd e = fpos fps x.
Proof.
  intros I. apply segs_ends in I as (I1 & I2). apply in_map_iff in I1 as (x & E1 & X), I2 as (y & E2 & Y).
  assert (S : forall z, In z (L ++ firstn 1 L) -> In z L) by (intros z Z; apply in_app_or in Z as [Z|Z]; [exact Z|]; destruct L; cbn in Z; [destruct Z|destruct Z as [<-|[]]; left; reflexivity]). split; [exists x|exists y]; auto.
Qed.
Lemma loop_corner fps L v : L <> [] -> corner (loop_lines fps L) v <-> exists x, In x L /\ v = fpos fps x.
Proof.
  intros NE. split.
  - intros (e & I & [-> | ->]); apply loop_points in I; apply I.
  - intros (x & X & ->). assert (Y : In (fpos fps x) (map fst (loop_lines fps L))). { unfold loop_lines. destruct L as [|a L]; [congruence|]. cbn [firstn]. rewrite map_app. cbn [map]. rewrite (segs_fst (map (fpos fps) (a :: L))). apply in_map. exact X. }
    apply in_map_iff in Y as (e & E & Y). exists e. auto.
Qed.
Lemma loop_nonempty fps L : L <> [] -> loop_lines fps L <> [].
Proof. intros NE E. destruct L as [|a L]; [congruence|]. assert (C : corner (loop_lines fps (a :: L)) (fpos fps a)) by (apply loop_corner; [exact NE|]; exists a; split; [left; reflexivity|reflexivity]). rewrite E in C. destruct C as (e & [] & _). Qed.
Lemma loop_connected fps L (P : point -> Prop) : (forall e, In e (loop_lines fps L) -> (P (fst e) <-> P (snd e))) -> forall v w, corner (loop_lines fps L) v -> corner (loop_lines fps L) w -> P v -> P w.
Proof.
  intros H v w V W. apply (segs_connected P _ H).
  - destruct V as (e & I & [-> | ->]); apply segs_ends in I; apply I.
  - destruct W as (e & I & [-> | ->]); apply segs_ends in I; apply I.
Qed.
Lemma filter_in_all {X} (f : X -> bool) l : (forall x, In x l -> f x = true) -> filter f l = l.
Proof. induction l as [|x l IH]; intros H; [reflexivity|]. cbn. rewrite H by (left; reflexivity). f_equal. apply IH. intros y Y. apply H. right. exact Y. Qed.
Lemma filter_in_none {X} (f : X -> bool) l : (forall x, In x l -> f x = false) -> filter f l = [].
Proof. induction l as [|x l IH]; intros H; [reflexivity|]. cbn. rewrite H by (left; reflexivity). apply IH. intros y Y. apply H. right. exact Y. Qed.
Lemma filter_flat {X Y} (f : Y -> bool) (g : X -> list Y) l : filter f (flat_map g l) = flat_map (fun x => filter f (g x)) l.
Proof. induction l as [|x l IH]; [reflexivity|]. cbn. rewrite filter_app, IH. reflexivity. Qed.
Lemma scale_one es : map (fun e : edge => (scale 1 (fst e), scale 1 (snd e))) es = es.
Proof. rewrite <- (map_id es) at 2. apply map_ext. intros ((a, b), (c, d)). unfold scale. cbn [fst snd px py]. rewrite !Z.mul_1_l. reflexivity. Qed.
Lemma windv_perm es es' v : Permutation es es' -> windv es v = windv es' v.
Proof. intros P. apply tot_perm, P. Qed.

Lemma pair_left {X Y} (R : X -> Y -> Prop) l l' x : Forall2 R l l' -> In x l -> exists y, In (x, y) (combine l l') /\ R x y.
Proof. induction 1 as [|a b l l' A F IH]; intros I; [destruct I|]. destruct I as [->|I]; [exists b; split; [left; reflexivity|exact A]|]. destruct (IH I) as (y & W & H). exists y. split; [right; exact W|exact H]. Qed.
Lemma pair_right {X Y} (R : X -> Y -> Prop) l l' y : Forall2 R l l' -> In y l' -> exists x, In (x, y) (combine l l') /\ In x l /\ R x y.
Proof. induction 1 as [|a b l l' A F IH]; intros I; [destruct I|]. destruct I as [->|I]; [exists a; split; [left; reflexivity|split; [left; reflexivity|exact A]]|]. destruct (IH I) as (x & W & H & H'). exists x. split; [right; exact W|split; [right; exact H|exact H']]. Qed.

Section Tree.
Variables (op : bool_op) (pts pts' : list cpoint) (ss : list sample).
Hypothesis PL : proper_loops pts.
Hypothesis NZ : forall i P Q, edge_of pts i P Q -> P <> Q.
Hypothesis AP : SegSpec.apart pts.
Hypothesis MK : marked pts pts.
Hypothesis UJ : unjudged pts.
Hypothesis AJ : forall i, i < length pts -> after_judge pts i.
Hypothesis JD : judged op pts pts' ss.
Let opts : list opoint := map to_out pts'.
Variable RS : list run.
Hypothesis RUNS : Forall (is_run opts) RS.
Hypothesis HEADS : map head RS = map fst ss.
Let vd := verdict pts op.
Let seg (j : nat) : point * point := (pos opts j, pos opts (onx opts j)).
Variables (fps : list fpoint) (Ls : list (list nat)) (ss' : list sample).
Hypothesis NEL : forall L, In L Ls -> L <> [].
Hypothesis PERM : Permutation (flat_map (loop_lines fps) Ls) (flat_map (fun j => output_of (vd j) (seg j)) (seq 0 (length pts))).
Hypothesis APART : loops_apart fps Ls.
Hypothesis STANDS : Forall2 (fun s s' => (exists R r, In R RS /\ head R = fst s /\ judgement opts R = Res r /\ stands fps Ls (fst s') (pos opts (fst s)) (pos opts (onx opts (fst s))) r) /\
      Forall2 (fun i a => exists R r, In R RS /\ In i (nodes R) /\ judgement opts R = Res r /\ stands fps Ls a (pos opts i) (pos opts (onx opts i)) r) (snd s) (snd s')) ss ss'.
Let n := length Ls.
Definition E (k : nat) : list edge := loop_lines fps (nth k Ls []).

Lemma nth_loop k : k < n -> exists L, nth_error Ls k = Some L /\ nth k Ls [] = L /\ In L Ls.
Proof. intros K. destruct (nth_error Ls k) as [L|] eqn:N; [|apply nth_error_None in N; unfold n in K; lia]. exists L. split; [reflexivity|]. split; [apply nth_error_nth; exact N|eapply nth_error_In; eauto]. Qed.
Lemma loop_at k L : nth_error Ls k = Some L -> k < n /\ E k = loop_lines fps L.
Proof. intros N. split; [unfold n; apply nth_error_Some; congruence|]. unfold E. rewrite (nth_error_nth _ _ _ N). reflexivity. Qed.
Lemma on_loop k v : k < n -> corner (E k) v <-> exists x, In x (nth k Ls []) /\ v = fpos fps x.
Proof. intros K. destruct (nth_loop k K) as (L & N & W & I). unfold E. apply loop_corner. rewrite W. apply NEL. exact I. Qed.
Lemma same_loop k j v : k < n -> j < n -> corner (E k) v -> corner (E j) v -> k = j.
Proof.
  intros K J CK CJ. destruct (Nat.eq_dec k j) as [Q|N]; [exact Q|exfalso]. apply on_loop in CK as (x & X & EX), CJ as (y & Y & EY); try assumption. destruct (nth_loop k K) as (L & N1 & W1 & _). destruct (nth_loop j J) as (M & N2 & W2 & _). rewrite W1 in X. rewrite W2 in Y.
  apply (APART k j L M x y N1 N2 N X Y). congruence.
Qed.
Lemma untouched_loops a b : a < n -> b < n -> a <> b -> untouched (E a) (E b).
Proof. intros A B N v CA CB. apply N. eapply same_loop; eauto. Qed.

(** Every output line is in exactly one loop. *)
Lemma out_loop e : In e (flat_map (fun j => output_of (vd j) (seg j)) (seq 0 (length pts))) <-> exists k, k < n /\ In e (E k).
Proof.
  split.
  - intros I. apply (Permutation_in _ (Permutation_sym PERM)) in I. apply in_flat_map in I as (L & IL & I). apply In_nth_error in IL as (k & N). destruct (loop_at k L N) as (K & EK). exists k. rewrite EK. auto.
  - intros (k & K & I). apply (Permutation_in _ PERM). destruct (nth_loop k K) as (L & N & W & IL). apply in_flat_map. exists L. split; [exact IL|]. unfold E in I. rewrite W in I. exact I.
Qed.
Lemma jump_loop j e : j < length pts -> In e (output_of (vd j) (seg j)) -> exists k, k < n /\ In e (E k).
Proof. intros J I. apply out_loop. apply in_flat_map. exists j. split; [apply in_seq; lia|exact I]. Qed.
Lemma loop_jump k e : k < n -> In e (E k) -> exists j, j < length pts /\ In e (output_of (vd j) (seg j)).
Proof. intros K I. assert (X : exists k, k < n /\ In e (E k)) by eauto. apply out_loop in X. apply in_flat_map in X as (j & J & X). apply in_seq in J. exists j. split; [lia|exact X]. Qed.
Lemma out_ends r e s : In e (output_of r s) -> (e = s \/ e = turned s) /\ keeps r = true.
Proof. destruct r; cbn; intros I; try destruct I as [<-|[]]; try destruct I; auto. Qed.
Lemma seg_line j : j < length pts -> exists l, In l (lines pts) /\ ln_i l = j /\ ln_e l = seg j.
Proof.
  intros J. destruct (nth_error pts j) as [p|] eqn:N; [|apply nth_error_None in N; lia]. destruct (out_at op pts pts' ss JD j p N) as (q & Q & D & X & _). destruct (proj1 PL _ _ N) as (p2 & _ & N2 & _). destruct (out_at op pts pts' ss JD _ p2 N2) as (q2 & Q2 & D2 & _).
  destruct (edge_line pts PL j (c_data p) (c_data p2)) as (l & IL & LI & LE & _); [exists p, p2; auto|]. exists l. split; [exact IL|]. split; [exact LI|]. rewrite LE. unfold seg, pos, onx. fold opts in Q, Q2. rewrite Q, X, Q2. congruence.
Qed.
Lemma line_seg l : In l (lines pts) -> ln_i l < length pts /\ ln_e l = seg (ln_i l).
Proof.
  intros I. assert (J : ln_i l < length pts). { apply (lines_in pts PL) in I as (p & q & N & _). apply nth_error_Some. congruence. }
  split; [exact J|]. destruct (seg_line _ J) as (m & IM & LI & LE). rewrite <- LE. f_equal. apply (lines_inj pts PL); auto.
Qed.
Lemma AR : arranged (lines pts).
Proof. exact (lines_arranged pts PL NZ AP). Qed.

Lemma on_turned e X Y : on_seg (fst (turned e)) (snd (turned e)) X Y -> on_seg (fst e) (snd e) X Y.
Proof. unfold turned. cbn [fst snd]. apply ArrangeProofs.on_seg_sym. Qed.
Lemma end_turned e X Y : end_of e X Y -> end_of (turned e) X Y.
Proof. unfold end_of, turned. cbn [fst snd]. tauto. Qed.
Lemma loops_planar a b e1 e2 : a < n -> b < n -> In e1 (E a) -> In e2 (E b) -> same_ends e1 e2 \/
    forall X Y, on_seg (fst e1) (snd e1) X Y -> on_seg (fst e2) (snd e2) X Y -> end_of e1 X Y /\ end_of e2 X Y.
Proof.
  intros A B I1 I2. apply (loop_jump a e1 A) in I1 as (j1 & J1 & I1). apply (loop_jump b e2 B) in I2 as (j2 & J2 & I2). apply out_ends in I1 as (O1 & _). apply out_ends in I2 as (O2 & _).
  destruct (seg_line j1 J1) as (l1 & IL1 & _ & LE1). destruct (seg_line j2 J2) as (l2 & IL2 & _ & LE2). rewrite <- LE1 in O1. rewrite <- LE2 in O2. destruct AR as (_ & PN & _). destruct (PN (ln_e l1) (ln_e l2)) as [SE|H]; [apply in_map; exact IL1|apply in_map; exact IL2| |].
  - left. unfold same_ends, turned in *. destruct (ln_e l1) as (p, q), (ln_e l2) as (u, v). cbn [fst snd] in *. destruct O1 as [-> | ->], O2 as [-> | ->], SE as [SE|SE]; injection SE as -> ->; cbn [fst snd]; auto.
  - right. intros X Y S1 S2. assert (S1' : on_seg (fst (ln_e l1)) (snd (ln_e l1)) X Y) by (destruct O1 as [-> | ->]; [exact S1|apply on_turned; exact S1]). assert (S2' : on_seg (fst (ln_e l2)) (snd (ln_e l2)) X Y) by (destruct O2 as [-> | ->]; [exact S2|apply on_turned; exact S2]).
    destruct (H X Y S1' S2') as (H1 & H2). split; [destruct O1 as [-> | ->]|destruct O2 as [-> | ->]]; auto using end_turned.
Qed.
Lemma seg_proper j : j < length pts -> fst (seg j) <> snd (seg j).
Proof. intros J. destruct (seg_line j J) as (l & IL & _ & <-). destruct AR as (_ & _ & PR & _). apply PR. apply in_map. exact IL. Qed.
Lemma loops_proper a : a < n -> proper_lines (E a).
Proof. intros A e I. apply (loop_jump a e A) in I as (j & J & I). apply out_ends in I as ([-> | ->] & _); pose proof (seg_proper j J); cbn [turned fst snd]; congruence. Qed.

Definition wr := winds_round n E.
Lemma wr_at a x v : a < n -> x < n -> a <> x -> corner (E x) v -> windv (E a) v <> 0%Z <-> wr a x.
Proof.
  intros A X N C. split; [intros W|intros (_ & _ & _ & H); apply H; exact C].
  apply (round_at n E loops_planar loops_proper) with (v := v); auto.
  - intros b B. apply loop_balanced.
  - exact untouched_loops.
  - intros b P B H. apply loop_connected. exact H.
Qed.
Lemma wr_nesting : nesting n wr.
Proof.
  assert (BA : forall a, a < n -> balanced (E a)) by (intros; apply loop_balanced).
  assert (NE : forall a, a < n -> E a <> []) by (intros a A; destruct (nth_loop a A) as (L & N & W & I); unfold E; rewrite W; apply loop_nonempty, NEL, I).
  assert (CN : forall a (P : point -> Prop), a < n -> (forall e, In e (E a) -> (P (fst e) <-> P (snd e))) -> forall v w, corner (E a) v -> corner (E a) w -> P v -> P w) by (intros a P _ H; apply loop_connected; exact H).
  split; [intros a b (A & B & _); auto|]. split; [intros a (_ & _ & N & _); congruence|]. split.
  - intros a b c. apply (round_trans n E loops_planar loops_proper BA untouched_loops NE CN).
  - intros a b c. apply (round_linear n E loops_planar loops_proper BA untouched_loops NE CN).
Qed.
Lemma wr_around a x : wr a x <-> around fps Ls a x.
Proof.
  assert (WA : forall i La, nth_error Ls a = Some La -> forall Lx, nth_error Ls x = Some Lx -> a <> x -> In i Lx -> wind_around 1 (fpos fps i) (loop_lines fps La) (windv (E a) (fpos fps i))).
  { intros i La NA Lx NX N I. destruct (loop_at a La NA) as (A & EA). destruct (loop_at x Lx NX) as (X & EX). unfold wind_around. rewrite scale_one. rewrite EA. apply turns_above; [apply loop_balanced|].
    intros e IE. rewrite <- EA in IE. apply (corner_off n E loops_planar untouched_loops a x (fpos fps i) e A X N); [|exact IE]. apply on_loop; [exact X|]. rewrite (nth_error_nth _ _ _ NX). exists i. auto. }
  split.
  - intros (A & X & N & H). split; [exact N|]. destruct (nth_loop a A) as (La & NA & _). destruct (nth_loop x X) as (Lx & NX & WX & _). exists La, Lx. split; [exact NA|]. split; [exact NX|]. intros i I. exists (windv (E a) (fpos fps i)). split; [eapply WA; eauto|]. apply H. apply on_loop; [exact X|]. exists i. rewrite WX. auto.
  - intros (N & La & Lx & NA & NX & H). destruct (loop_at a La NA) as (A & EA). destruct (loop_at x Lx NX) as (X & EX). split; [exact A|]. split; [exact X|]. split; [exact N|]. intros v CV. apply on_loop in CV as (i & I & ->); [|exact X]. rewrite (nth_error_nth _ _ _ NX) in I.
    destruct (H i I) as (w & W1 & W2). pose proof (WA i La NA Lx NX N I) as W3. unfold wind_around in W1, W3. lia.
Qed.

(** * What the anchors stand for *)
Lemma node_bound R i : In R RS -> In i (nodes R) -> i < length pts.
Proof. intros IR IX. rewrite Forall_forall in RUNS. pose proof (run_node_lt opts R i (RUNS R IR) IX) as W. unfold opts in W. rewrite map_length in W. destruct JD as (L & _). lia. Qed.
Lemma node_verdict R i r : In R RS -> In i (nodes R) -> judgement opts R = Res r -> vd i = r.
Proof.
  intros IR IX J. rewrite Forall_forall in RUNS. pose proof (RUNS R IR) as RR. destruct R as ((h, c), e). destruct RR as (p & r' & EH & SH & T). unfold judgement in J. cbn [fst] in J. rewrite EH in J. assert (r' = r) by congruence. subst r'.
  pose proof (judged_head op pts pts' ss PL NZ AP UJ JD h p r EH SH) as V. destruct IX as [<-|IX]; [symmetry; exact V|]. transitivity (verdict pts op h); [exact (trail_verdict op pts pts' ss PL NZ AP MK UJ JD c _ e h p EH eq_refl T i IX)|symmetry; exact V].
Qed.
Definition tau (k : nat) (e : edge) : bool := existsb (point_eqb (snd e)) (map (fpos fps) (nth k Ls [])).
Lemma tau_corner k e : k < n -> tau k e = true <-> corner (E k) (snd e).
Proof.
  intros K. rewrite on_loop by exact K. unfold tau. rewrite existsb_exists. split.
  - intros (v & V & Q). apply in_map_iff in V as (x & <- & X). exists x. split; [exact X|]. apply PointSinkProofs.point_eqb_eq in Q. exact Q.
  - intros (x & X & Q). exists (fpos fps x). split; [apply in_map; exact X|]. apply PointSinkProofs.point_eqb_eq. exact Q.
Qed.
Lemma tau_loop k j e : k < n -> j < n -> In e (E j) -> tau k e = Nat.eqb k j.
Proof.
  intros K J I. assert (C : corner (E j) (snd e)) by (exists e; auto). destruct (Nat.eqb_spec k j) as [->|N]; [apply tau_corner; assumption|]. destruct (tau k e) eqn:T; [|reflexivity]. exfalso. apply tau_corner in T; [|exact K]. apply N. eapply same_loop; eauto.
Qed.
Lemma tau_filter k : k < n -> Permutation (E k) (flat_map (fun j => filter (tau k) (output_of (vd j) (seg j))) (seq 0 (length pts))).
Proof.
  intros K. rewrite <- filter_flat. transitivity (filter (tau k) (flat_map (loop_lines fps) Ls)); [|apply filter_permut; exact PERM]. rewrite filter_flat.
  assert (G : forall l b, (forall j L, nth_error l j = Some L -> nth_error Ls (b + j) = Some L) -> flat_map (fun L => filter (tau k) (loop_lines fps L)) l = if (b <=? k) && (k <? b + length l) then loop_lines fps (nth (k - b) l []) else []).
  { induction l as [|L l IH]; intros b H; cbn [flat_map length]. { destruct (Nat.leb_spec b k), (Nat.ltb_spec k (b + 0)); try lia; reflexivity. }
    pose proof (H 0 L eq_refl) as N0. rewrite Nat.add_0_r in N0. destruct (loop_at b L N0) as (B & EB). rewrite (IH (S b)) by (intros j L' N; specialize (H (S j) L' N); rewrite <- H; f_equal; lia).
    destruct (Nat.eq_dec b k) as [->|NE].
    - rewrite filter_in_all by (intros e I; rewrite (tau_loop k k e K K) by (rewrite EB; exact I); apply Nat.eqb_refl). rewrite Nat.sub_diag. cbn [nth]. destruct (Nat.leb_spec k k), (Nat.leb_spec (S k) k), (Nat.ltb_spec k (k + S (length l))); try lia. cbn [andb]. apply app_nil_r.
    - rewrite filter_in_none by (intros e I; rewrite (tau_loop k b e K B) by (rewrite EB; exact I); apply Nat.eqb_neq; congruence). cbn [app]. destruct (Nat.leb_spec b k), (Nat.leb_spec (S b) k); try lia; [|reflexivity]. cbn [andb]. replace (S b + length l) with (b + S (length l)) by lia. destruct (Nat.ltb_spec k (b + S (length l))); [|reflexivity].
      destruct (k - b) as [|d] eqn:D; [lia|]. cbn [nth]. replace (k - S b) with d by lia. reflexivity. }
  rewrite (G Ls 0); [|intros j L N; exact N]. cbn [Nat.leb andb]. rewrite Nat.sub_0_r. unfold n in K. destruct (Nat.ltb_spec k (0 + length Ls)); [|lia]. reflexivity.
Qed.
Lemma less_goes a b : a <> b -> goes_left a b = point_less b a.
Proof. intros _. unfold goes_left, point_less. destruct (Z.eqb_spec (px b) (px a)), (Z.ltb_spec (px b) (px a)); try lia; reflexivity. Qed.
(** The share of one recorded line in the count. *)
Definition share (k i : nat) : Z := tot lsgn (filter (tau k) (output_of (vd i) (seg i))).
Lemma stands_out i a : i < length pts -> stands fps Ls a (pos opts i) (pos opts (onx opts i)) (vd i) ->
  exists p, nth_error fps a = Some p /\
  ((keeps (vd i) = false /\ f_index p = (-2)%Z /\ output_of (vd i) (seg i) = []) \/
   (exists k e q, k < n /\ f_index p = Z.of_nat k /\ nth_error fps (f_next p) = Some q /\ e = (f_data p, f_data q) /\ output_of (vd i) (seg i) = [e] /\ In e (E k) /\ f_data p <> f_data q)).
Proof.
  intros LI (p & EP & H). exists p. split; [exact EP|]. destruct (keeps (vd i)) eqn:KR.
  - right. destruct H as (q & k & L & EQ & NL & IN & IX & DD). destruct (loop_at k L NL) as (K & EK).
    assert (O : output_of (vd i) (seg i) = [(f_data p, f_data q)]). { rewrite DD. unfold seg. destruct (vd i); try discriminate; reflexivity. }
    exists k, (f_data p, f_data q), q. split; [exact K|]. split; [exact IX|]. split; [exact EQ|]. split; [reflexivity|]. split; [exact O|].
    assert (IO : In (f_data p, f_data q) (output_of (vd i) (seg i))) by (rewrite O; left; reflexivity). split.
    + destruct (jump_loop i _ LI IO) as (k' & K' & I'). assert (k = k'); [|subst; exact I']. apply (same_loop k k' (f_data q) K K').
      * apply on_loop; [exact K|]. rewrite (nth_error_nth _ _ _ NL). exists (f_next p). split; [exact IN|]. unfold fpos. rewrite EQ. reflexivity.
      * exists (f_data p, f_data q). split; [exact I'|right; reflexivity].
    + pose proof (seg_proper i LI) as SP. apply out_ends in IO as ([W|W] & _); [rewrite <- W in SP; exact SP|]. pose proof (f_equal fst W) as W1. pose proof (f_equal snd W) as W2. cbn [turned fst snd] in W1, W2. intros Q. apply SP. transitivity (f_data q); [symmetry; exact W2|]. transitivity (f_data p); [symmetry; exact Q|exact W1].
  - left. split; [reflexivity|]. split; [exact H|]. destruct (vd i); try discriminate; reflexivity.
Qed.
Lemma count_share k : k < n -> forall hits hits', Forall2 (fun i a => exists R r, In R RS /\ In i (nodes R) /\ judgement opts R = Res r /\ stands fps Ls a (pos opts i) (pos opts (onx opts i)) r) hits hits' ->
  signed_count fps k hits' = (- tot (share k) hits)%Z.
Proof.
  intros K. induction 1 as [|i a hits hits' (R & r & IR & IX & J & S) F IH]; [reflexivity|]. cbn [signed_count]. rewrite tot_cons, IH. rewrite <- (node_verdict R i r IR IX J) in S. pose proof (node_bound R i IR IX) as LI.
  destruct (stands_out i a LI S) as (p & EP & [(KR & IX2 & O)|(k' & e & q & K' & IX2 & EQ & EE & O & IE & NE)]); rewrite EP; unfold share; rewrite O.
  - cbn [filter]. rewrite tot_nil. rewrite IX2. destruct (Z.eqb_spec (-2) (Z.of_nat k)); lia.
  - cbn [filter]. rewrite (tau_loop k k' e K K' IE), IX2. destruct (Z.eqb_spec (Z.of_nat k') (Z.of_nat k)) as [W|W], (Nat.eqb_spec k k') as [W'|W']; try lia; [|rewrite tot_nil; lia].
    rewrite EQ, tot_cons, tot_nil. rewrite EE. unfold lsgn. cbn [fst snd]. rewrite (less_goes _ _ NE). destruct (point_less (f_data q) (f_data p)); lia.
Qed.

(** The count at a sample is the winding number. *)
Lemma sample_count (s s' : sample) l k : In s ss -> Forall2 (fun i a => exists R r, In R RS /\ In i (nodes R) /\ judgement opts R = Res r /\ stands fps Ls a (pos opts i) (pos opts (onx opts i)) r) (snd s) (snd s') ->
  l < n -> k < n -> k <> l -> corner (E l) (fst (seg (fst s))) -> corner (E l) (snd (seg (fst s))) -> signed_count fps k (snd s') = (- windv (E k) (fst (seg (fst s))))%Z.
Proof.
  intros IS F L K NE C1 C2. rewrite (count_share k K _ _ F). destruct s as (i, hits). cbn [fst snd] in *. destruct JD as (_ & _ & _ & _ & RES). destruct (RES i hits IS) as (l1 & ck & p' & IL & LI & ND & CK & _ & _ & ->). destruct (line_seg l1 IL) as (LB & LE). rewrite LI in LE, LB.
  f_equal. pose (sel := fun m : line => filter (tau k) (output_of (vd (ln_i m)) (seg (ln_i m)))).
  assert (FE : flat_map sel (lines pts) = flat_map (fun j => filter (tau k) (output_of (vd j) (seg j))) (seq 0 (length pts))). { unfold sel. rewrite <- (flat_map_map ln_i (fun j => filter (tau k) (output_of (vd j) (seg j)))). rewrite lines_index by exact PL. reflexivity. }
  rewrite (windv_perm (E k) (flat_map sel (lines pts))) by (rewrite FE; apply tau_filter; exact K). rewrite <- LE.
  apply (hits_wind (lines pts) l1 ck sel (share k) AR IL (conj ND CK)).
  - intros m e IM IE. unfold sel in IE. apply filter_In in IE as (IE & TE). destruct (line_seg m IM) as (MB & ME). rewrite ME. pose proof (out_ends _ _ _ IE) as (OE & _). split; [exact OE|].
    destruct (jump_loop _ e MB IE) as (k' & K' & I'). rewrite (tau_loop k k' e K K' I') in TE. apply Nat.eqb_eq in TE. subst k'.
    assert (N : forall v w, corner (E l) v -> (w = fst e \/ w = snd e) -> v <> w). { intros v w CV W ->. apply NE. apply (same_loop k l w K L); [exists e; auto|exact CV]. }
    rewrite LE. unfold apart_ends. destruct OE as [-> | ->]; cbn [turned fst snd] in N; repeat split; apply N; auto.
  - intros m IM _. unfold share, sel. reflexivity.
  - rewrite FE. apply balanced_tot_iff. intros v. pose proof (proj1 (balanced_tot_iff (E k)) (loop_balanced fps _) v) as B. rewrite <- !(tot_perm _ _ _ (tau_filter k K)). exact B.
Qed.

(** Every loop has a sample. *)
Lemma seg_chain : forall c m e a p k i, nth_error opts a = Some p -> o_next p = m -> trail opts m c e -> (forall j, In j (a :: c) -> j < length pts /\ keeps (vd j) = true) -> k < n -> In i (a :: c) -> (exists x, In x (output_of (vd i) (seg i)) /\ In x (E k)) ->
  exists x, In x (output_of (vd a) (seg a)) /\ In x (E k).
Proof.
  induction c as [|x c IH]; intros m e a p k i EA NA T KP K I H; [destruct I as [<-|[]]; exact H|]. destruct I as [<-|I]; [exact H|]. destruct T as (-> & q & EQ & U & T).
  destruct (IH (o_next q) e m q k i EQ eq_refl T (fun j J => KP j (or_intror J)) K I H) as (y & Y1 & Y2). clear IH H.
  destruct (KP a (or_introl eq_refl)) as (LA & KA). assert (OA : exists z, output_of (vd a) (seg a) = [z] /\ (z = seg a \/ z = turned (seg a))) by (destruct (vd a); try discriminate; cbn; eauto). destruct OA as (z & OA & ZA). exists z. rewrite OA. split; [left; reflexivity|].
  destruct (jump_loop a z LA) as (k' & K' & I'); [rewrite OA; left; reflexivity|]. assert (k' = k); [|subst; exact I']. assert (SM : snd (seg a) = fst (seg m)) by (unfold seg, onx; cbn [fst snd]; rewrite EA, NA; reflexivity).
  apply (same_loop k' k (fst (seg m)) K' K).
  - exists z. split; [exact I'|]. rewrite <- SM. destruct ZA as [-> | ->]; cbn [turned fst snd]; auto.
  - exists y. split; [exact Y2|]. apply out_ends in Y1 as ([-> | ->] & _); cbn [turned fst snd]; auto.
Qed.
Lemma loop_has_sample l : l < n -> exists s s', In (s, s') (combine ss ss') /\ exists p, nth_error fps (fst s') = Some p /\ f_index p = Z.of_nat l.
Proof.
  intros L. destruct (nth_loop l L) as (M & NM & WM & IM). assert (NE : E l <> []) by (unfold E; rewrite WM; apply loop_nonempty, NEL, IM). destruct (E l) as [|e es] eqn:EL; [congruence|]. assert (IE : In e (E l)) by (rewrite EL; left; reflexivity). clear NE EL es.
  destruct (loop_jump l e L IE) as (i & LI & IO). pose proof (cover op pts pts' ss PL UJ AJ JD RS RUNS HEADS i LI) as CV. apply in_flat_map in CV as (R & IR & IX). pose proof RUNS as RU. rewrite Forall_forall in RU. pose proof (RU R IR) as RR.
  assert (HS : In (head R) (map fst ss)) by (rewrite <- HEADS; apply in_map; exact IR). apply in_map_iff in HS as (s & HS & IS).
  assert (PK : exists s', In (s, s') (combine ss ss') /\ (exists R r, In R RS /\ head R = fst s /\ judgement opts R = Res r /\ stands fps Ls (fst s') (pos opts (fst s)) (pos opts (onx opts (fst s))) r)).
  { destruct (pair_left _ _ _ s STANDS IS) as (s' & A & B & _). exists s'. split; [exact A|exact B]. }
  destruct PK as (s' & IC & R2 & r & IR2 & HR2 & J2 & ST). exists s, s'. split; [exact IC|].
  assert (JR : judgement opts R = Res r) by (unfold judgement in *; fold (head R); fold (head R2) in J2; rewrite <- HS, <- HR2; exact J2).
  rewrite HS in ST. assert (HN : In (head R) (nodes R)) by (left; reflexivity). rewrite <- (node_verdict R (head R) r IR HN JR) in ST. pose proof (node_bound R _ IR HN) as HB.
  assert (KR : keeps r = true) by (apply out_ends in IO as (_ & W); rewrite (node_verdict R i r IR IX JR) in W; exact W).
  assert (CH : exists x, In x (output_of (vd (head R)) (seg (head R))) /\ In x (E l)).
  { destruct R as ((h, c), en). destruct RR as (p & r' & EH & SH & T). cbn [head fst]. apply (seg_chain c _ en h p l i EH eq_refl T); [|exact L|exact IX|exists e; auto]. intros j J. split; [apply (node_bound (h, c, en)); auto|]. rewrite (node_verdict (h, c, en) j r IR J JR). exact KR. }
  destruct CH as (x & X1 & X2). destruct (stands_out _ _ HB ST) as (p & EP & [(_ & _ & O)|(k' & e' & q & K' & IX2 & EQ & EE & O & IE' & NE)]); [rewrite O in X1; destruct X1|]. rewrite O in X1. destruct X1 as [<-|[]].
  exists p. split; [exact EP|]. rewrite IX2. f_equal. apply (same_loop k' l (snd e') K' L); exists e'; auto.
Qed.

(** * The hierarchy *)
Lemma tree_ok sort_samples :
  (forall l, Permutation (sort_samples l) l /\ Sorted.Sorted (fun a b => (loop_of fps (fst a) <= loop_of fps (fst b))%Z) (sort_samples l)) ->
  exists top children, loop_hierarchy sort_samples fps n ss' = Some (top, children) /\ forest n top children /\
    (forall x, In x top <-> x < n /\ forall a, ~ around fps Ls a x) /\
    (forall o c x, nth_error children o = Some c -> In x c <-> innermost (around fps Ls) o x) /\
    exists fuel l, walk_tree fuel children top = Some l /\ Permutation l (seq 0 n).
Proof.
  intros SO.
  assert (PAIR : forall s', In s' ss' -> exists s, In (s, s') (combine ss ss') /\ In s ss /\ (exists R r, In R RS /\ head R = fst s /\ judgement opts R = Res r /\ stands fps Ls (fst s') (pos opts (fst s)) (pos opts (onx opts (fst s))) r) /\
      Forall2 (fun i a => exists R r, In R RS /\ In i (nodes R) /\ judgement opts R = Res r /\ stands fps Ls a (pos opts i) (pos opts (onx opts i)) r) (snd s) (snd s')).
  { intros s' IS. exact (pair_right _ _ _ s' STANDS IS). }
  assert (NA : forall a x, around fps Ls a x <-> wr a x) by (intros; symmetry; apply wr_around).
  destruct (hierarchy_ok sort_samples fps n ss' wr SO wr_nesting) as (top & children & H1 & H2 & H3 & H4 & H5).
  - intros s' IS. destruct (PAIR s' IS) as (s & IC & IS0 & (R & r & IR & HR & J & ST) & F). assert (HN : In (head R) (nodes R)) by (left; reflexivity). rewrite <- HR in ST. rewrite <- (node_verdict R (head R) r IR HN J) in ST. pose proof (node_bound R _ IR HN) as HB. split.
    + destruct (stands_out _ _ HB ST) as (p & EP & [(_ & IX & _)|(k & e & q & K & IX & _)]); unfold loop_of; rewrite EP, IX; lia.
    + intros a IA. destruct (Forall2_pick_r _ _ _ _ F IA) as (i & II & R' & r' & IR' & IX' & J' & ST'). rewrite <- (node_verdict R' i r' IR' IX' J') in ST'. pose proof (node_bound R' i IR' IX') as LI.
      destruct (stands_out _ _ LI ST') as (p & EP & [(_ & IX & _)|(k & e & q & K & IX & EQ & _ & _ & _ & NE)]); exists p; (split; [exact EP|]); [left; lia|]. right. split; [lia|]. exists q. split; [exact EQ|congruence].
  - intros l L. destruct (loop_has_sample l L) as (s & s' & IC & p & EP & IX). exists s'. split; [eapply in_combine_r; eauto|]. unfold loop_of. rewrite EP. exact IX.
  - intros s' l l' IS LO L' NE. destruct (PAIR s' IS) as (s & IC & IS0 & (R & r & IR & HR & J & ST) & F). assert (HN : In (head R) (nodes R)) by (left; reflexivity). rewrite <- HR in ST. rewrite <- (node_verdict R (head R) r IR HN J) in ST. pose proof (node_bound R _ IR HN) as HB.
    destruct (stands_out _ _ HB ST) as (p & EP & [(_ & IX & _)|(k & e & q & K & IX & EQ & EE & O & IE & NQ)]); unfold loop_of in LO; rewrite EP, IX in LO; [lia|]. assert (k = l) by lia. subst k.
    assert (OE : e = seg (head R) \/ e = turned (seg (head R))) by (apply (out_ends (vd (head R))); rewrite O; left; reflexivity).
    assert (C1 : corner (E l) (fst (seg (head R)))) by (exists e; split; [exact IE|]; destruct OE as [-> | ->]; cbn [turned fst snd]; auto). assert (C2 : corner (E l) (snd (seg (head R)))) by (exists e; split; [exact IE|]; destruct OE as [-> | ->]; cbn [turned fst snd]; auto).
    rewrite HR in C1, C2. rewrite (sample_count s s' l l' IS0 F K L' NE C1 C2). rewrite <- (wr_at l' l (fst (seg (fst s))) L' K NE C1). lia.
  - exists top, children. split; [exact H1|]. split; [exact H2|]. split; [intros x; rewrite H3; split; intros (A & B); (split; [exact A|]); intros a; [rewrite NA|rewrite <- NA]; apply B|]. split; [|exact H5].
    intros o c x N. rewrite (H4 o c x N). unfold innermost. rewrite NA. split; intros (A & B); (split; [exact A|]); intros a W; [apply NA in W|apply NA in W]; destruct (B a W) as [Q|Q]; auto; right; apply NA; exact Q.
Qed.
End Tree.
