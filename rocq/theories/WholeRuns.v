(** Points with lines that only meet at their ends: what the judged points stand for. *)
From Coq Require Import ZArith QArith List Bool Arith Permutation Lia.
From Verif Require Import GeomModel GeomSpec BalanceModel WindSpec OutModel ClipModel ClipSpec ClipProofs BalSweepProofs JudgeProps JoinSpec JoinProofs ArrangeSpec ArrangeProofs ArrangeHit ArrangeVertex ArrangeStack ArrangeCheck SegSpec SegFinal WholeProofs WholeVertex.
Import ListNotations.
Local Open Scope nat_scope.

(** Every point comes after one that is to be judged. *)
Inductive after_judge (pts : list cpoint) : nat -> Prop :=
| after_here i : to_judge pts i -> after_judge pts i
| after_next i p : after_judge pts i -> nth_error pts i = Some p -> after_judge pts (c_next p).

Section Lines.
Variable pts : list cpoint.
Hypothesis PL : proper_loops pts.

Lemma lines_in l : In l (lines pts) <-> exists p q, nth_error pts (ln_i l) = Some p /\ nth_error pts (c_next p) = Some q /\ l = mk_line (ln_i l) (c_data p, c_data q) (c_set p).
Proof.
  unfold lines. rewrite in_map_iff. split.
  - intros ((i, p) & <- & I). apply nth_combine_seq in I as (j & -> & N). cbn [fst snd ln_i]. destruct (proj1 PL _ _ N) as (q & _ & Q & _). exists p, q. cbn [Nat.add]. rewrite Q. auto.
  - intros (p & q & N & Q & E). exists (ln_i l, p). split; [cbn [fst snd]; rewrite Q; symmetry; exact E|]. apply nth_combine_seq. exists (ln_i l). auto.
Qed.
Lemma line_edge l : In l (lines pts) -> edge_of pts (ln_i l) (fst (ln_e l)) (snd (ln_e l)).
Proof. intros I. apply lines_in in I as (p & q & N & Q & ->). exists p, q. cbn. auto. Qed.
Lemma edge_line i P Q : edge_of pts i P Q -> exists l, In l (lines pts) /\ ln_i l = i /\ ln_e l = (P, Q) /\ forall p, nth_error pts i = Some p -> ln_set l = c_set p.
Proof.
  intros (p & q & N & M & <- & <-). exists (mk_line i (c_data p, c_data q) (c_set p)). split; [apply lines_in; exists p, q; auto|]. cbn. split; [reflexivity|]. split; [reflexivity|]. intros p' E. rewrite N in E. injection E as <-. reflexivity.
Qed.
Lemma lines_inj l m : In l (lines pts) -> In m (lines pts) -> ln_i l = ln_i m -> l = m.
Proof. intros I J Q. apply lines_in in I as (p & q & N & M & E1). apply lines_in in J as (p' & q' & N' & M' & E2). rewrite <- Q in N', E2. rewrite N in N'. injection N' as <-. rewrite M in M'. injection M' as <-. rewrite E1, E2. reflexivity. Qed.

Definition cpt : cpoint := mk_cp (0, 0)%Z 0 Subject Undef.
Definition at_i (i : nat) : cpoint := nth i pts cpt.
Lemma lines_map : lines pts = map (fun i => mk_line i (c_data (at_i i), c_data (at_i (c_next (at_i i)))) (c_set (at_i i))) (seq 0 (length pts)).
Proof.
  unfold lines. assert (E : combine (seq 0 (length pts)) pts = map (fun i => (i, at_i i)) (seq 0 (length pts))).
  { unfold at_i. generalize pts. intros l. assert (G : forall l k (f : nat -> cpoint), (forall i, i < length l -> f (k + i) = nth i l cpt) -> combine (seq k (length l)) l = map (fun i => (i, f i)) (seq k (length l))).
    { clear. induction l as [|a l IH]; intros k f H; [reflexivity|]. cbn [length seq combine map]. f_equal.
      - f_equal. specialize (H 0 ltac:(cbn; lia)). rewrite Nat.add_0_r in H. symmetry. exact H.
      - apply IH. intros i L. replace (S k + i) with (k + S i) by lia. apply (H (S i)). cbn. lia. }
    apply G. reflexivity. }
  rewrite E, map_map. apply map_ext_in. intros i I. cbn [fst snd]. apply in_seq in I. destruct (nth_error pts i) as [p|] eqn:N; [|apply nth_error_None in N; lia].
  assert (AT : at_i i = p) by (unfold at_i; apply nth_error_nth; exact N). rewrite AT. destruct (proj1 PL _ _ N) as (q & _ & Q & _). rewrite Q. unfold at_i. rewrite (nth_error_nth _ _ _ Q). reflexivity.
Qed.
Lemma filter_map_comm {X Y} (f : X -> Y) p l : filter p (map f l) = map f (filter (fun x => p (f x)) l).
Proof. induction l as [|x l IH]; [reflexivity|]. cbn [map filter]. destruct (p (f x)); cbn [map]; rewrite IH; reflexivity. Qed.
Lemma filter_permut {X} (p : X -> bool) l l' : Permutation l l' -> Permutation (filter p l) (filter p l').
Proof. induction 1; cbn; [constructor|destruct (p x); auto|destruct (p x), (p y); auto; apply perm_swap|etransitivity; eauto]. Qed.
Lemma perm_balanced es : Permutation (map snd es) (map fst es) -> balanced es.
Proof.
  intros P k. unfold ends_at, starts_at. assert (FM : forall g : point * point -> point, length (filter (fun x => point_eqb x k) (map g es)) = length (filter (fun e => point_eqb (g e) k) es)).
  { intros g. clear P. induction es as [|e es IH]; [reflexivity|]. cbn [map filter]. destruct (point_eqb (g e) k); cbn [length]; rewrite IH; reflexivity. }
  rewrite <- !FM. apply Permutation_length, filter_permut, P.
Qed.
Lemma lines_balanced c : balanced (map ln_e (filter (fun l => bset_eqb (ln_set l) c) (lines pts))).
Proof.
  apply perm_balanced. rewrite lines_map, filter_map_comm, !map_map. cbn [ln_set ln_e fst snd].
  set (inc := fun i => bset_eqb (c_set (at_i i)) c). set (nx := fun i => c_next (at_i i)).
  change (Permutation (map (fun i => c_data (at_i (nx i))) (filter inc (seq 0 (length pts)))) (map (fun i => c_data (at_i i)) (filter inc (seq 0 (length pts))))).
  rewrite <- (map_map nx (fun i => c_data (at_i i))). apply Permutation_map.
  assert (F : filter inc (seq 0 (length pts)) = filter (fun i => inc (nx i)) (seq 0 (length pts))).
  { apply filter_ext_in. intros i I. apply in_seq in I. destruct (nth_error pts i) as [p|] eqn:N; [|apply nth_error_None in N; lia]. unfold inc, nx, at_i. rewrite (nth_error_nth _ _ _ N). destruct (proj1 PL _ _ N) as (q & r & Q & _ & _ & _ & S). rewrite (nth_error_nth _ _ _ Q), S. reflexivity. }
  rewrite F at 1. rewrite <- filter_map_comm. apply filter_permut.
  assert (M : map nx (seq 0 (length pts)) = map c_next pts).
  { unfold nx, at_i. apply nth_ext with (d := 0) (d' := 0); [rewrite !map_length, seq_length; reflexivity|]. intros n L. rewrite map_length, seq_length in L. rewrite (nth_indep _ 0 ((fun i => c_next (nth i pts cpt)) 0)) by (rewrite map_length, seq_length; exact L).
    rewrite (map_nth (fun i => c_next (nth i pts cpt))), seq_nth by exact L. cbn [Nat.add]. rewrite (nth_indep (map c_next pts) 0 (c_next cpt)) by (rewrite map_length; exact L). rewrite map_nth. reflexivity. }
  rewrite M. apply loops_perm, PL.
Qed.
Hypothesis NZ : forall i P Q, edge_of pts i P Q -> P <> Q.
Lemma lines_arranged : SegSpec.apart pts -> arranged (lines pts).
Proof.
  intros AP. split; [rewrite lines_index; apply seq_NoDup|]. split; [|split; [|intros c; apply lines_balanced]].
  - intros e1 e2 I1 I2. apply in_map_iff in I1 as (l & <- & I1). apply in_map_iff in I2 as (m & <- & I2). destruct (Nat.eq_dec (ln_i l) (ln_i m)) as [E|E]; [left; left; rewrite (lines_inj l m I1 I2 E); reflexivity|].
    destruct (AP _ _ _ _ _ _ (line_edge l I1) (line_edge m I2) E) as [S|S]; [left; rewrite <- !surjective_pairing in S; exact S|]. right. intros X Y O1 O2. specialize (S X Y O1 O2). rewrite <- !surjective_pairing in S. exact S.
  - intros e I. apply in_map_iff in I as (l & <- & I). apply (NZ (ln_i l)), line_edge, I.
Qed.

(** ** Points that are not to be judged *)
Hypothesis AP : SegSpec.apart pts.
Hypothesis MK : marked pts pts.
Lemma across_cases V P Q : across V P Q -> (point_less P V = true -> point_less V Q = true) /\ (point_less V P = true -> point_less Q V = true).
Proof.
  unfold across. intros [H|(E1 & E2 & H)].
  - assert (D : (px P < px V /\ px V < px Q \/ px V < px P /\ px Q < px V)%Z) by (assert (O := Z.lt_0_mul (px P - px V) (px V - px Q)); lia).
    unfold point_less. destruct (Z.eqb_spec (px P) (px V)), (Z.eqb_spec (px V) (px P)), (Z.eqb_spec (px Q) (px V)), (Z.eqb_spec (px V) (px Q)); lia.
  - assert (D : (py P < py V /\ py V < py Q \/ py V < py P /\ py Q < py V)%Z) by (assert (O := Z.lt_0_mul (py P - py V) (py V - py Q)); lia).
    unfold point_less. rewrite E1, E2, Z.eqb_refl. lia.
Qed.
Lemma across_dec V P Q : across V P Q \/ ~ across V P Q.
Proof.
  unfold across. destruct (Z_lt_dec ((px P - px V) * (px Q - px V)) 0) as [?|?]; [tauto|]. destruct (Z.eq_dec (px P) (px V)) as [?|?]; [|right; tauto]. destruct (Z.eq_dec (px Q) (px V)) as [?|?]; [|right; tauto].
  destruct (Z_lt_dec ((py P - py V) * (py Q - py V)) 0) as [?|?]; [tauto|right; tauto].
Qed.
(** The judgement of every line. *)
Variable op : bool_op.
Definition verdict (i : nat) : lstate :=
  match find (fun l => Nat.eqb (ln_i l) i) (lines pts) with Some l => line_result op l (column_of (lines pts) l) | None => LSdiscard end.
Lemma verdict_line l : In l (lines pts) -> verdict (ln_i l) = line_result op l (column_of (lines pts) l).
Proof.
  intros I. unfold verdict. destruct (find _ _) as [m|] eqn:F.
  - apply find_some in F as (J & E). apply Nat.eqb_eq in E. rewrite (lines_inj m l J I E). reflexivity.
  - apply (find_none _ _ F) in I. rewrite Nat.eqb_refl in I. discriminate.
Qed.
Lemma other_side i h k P Q V x l m o : ~ to_judge pts i ->
  edge_of pts h P V -> edge_of pts i V Q -> nth_error pts h = Some x -> c_next x = i -> In l (lines pts) -> In m (lines pts) -> In o (lines pts) -> ln_i l = h -> ln_i m = i -> ln_i o = k -> k <> h -> k <> i ->
  forall W a, tip pts k a V W -> a <> i -> across V P W /\ across V Q W.
Proof.
  intros NJ EH EI NX NE IL IM IO LL LM LO KH KI W a T A. assert (TH : tip pts h i V P) by (right; split; [exact EH|exists x; auto]). assert (TI : tip pts i i V Q) by (left; auto).
  split.
  - destruct (across_dec V P W) as [?|N]; [assumption|]. destruct (MK h k i a V P W TH T ltac:(congruence) ltac:(congruence) N). contradiction.
  - destruct (across_dec V Q W) as [?|N]; [assumption|]. destruct (MK i k i a V Q W TI T ltac:(congruence) ltac:(congruence) N). contradiction.
Qed.
Lemma same_verdict h x i p : nth_error pts h = Some x -> c_next x = i -> nth_error pts i = Some p -> c_state p <> Check -> verdict h = verdict i.
Proof.
  intros NX NE NP NC. pose proof (lines_arranged AP) as AR. destruct (proj1 PL h x NX) as (p' & q & N1 & N2 & D1 & D2 & SS). rewrite NE in N1. rewrite NP in N1. injection N1 as <-.
  set (P := c_data x). set (V := c_data p). set (Q := c_data q).
  assert (EH : edge_of pts h P V) by (exists x, p; rewrite NE; auto). assert (EI : edge_of pts i V Q) by (exists p, q; auto).
  destruct (edge_line h P V EH) as (l & IL & LL & EL & SL). destruct (edge_line i V Q EI) as (m & IM & LM & EM & SM). rewrite <- LL, <- LM. rewrite (verdict_line l IL), (verdict_line m IM).
  assert (NJ : ~ to_judge pts i) by (intros (z & Z1 & Z2); congruence).
  assert (OTH : forall k, In k (lines pts) -> ln_i k <> ln_i l -> ln_i k <> ln_i m -> forall W, (ln_e k = (V, W) \/ ln_e k = (W, V)) -> across V P W /\ across V Q W).
  { intros k IK K1 K2 W E. pose proof (line_edge k IK) as EK. rewrite LL in K1. rewrite LM in K2. destruct E as [E|E]; rewrite E in EK; cbn [fst snd] in EK.
    - apply (other_side i h (ln_i k) P Q V x l m k NJ EH EI NX NE IL IM IK LL LM eq_refl K1 K2 W (ln_i k)); [left; auto|exact K2].
    - destruct EK as (y & z & Y1 & Y2 & Y3 & Y4). apply (other_side i h (ln_i k) P Q V x l m k NJ EH EI NX NE IL IM IK LL LM eq_refl K1 K2 W (c_next y)).
      + right. split; [exists y, z; auto|exists y; auto].
      + intros X. apply K1. apply (proj2 PL (ln_i k) h y x); congruence. }
  assert (EP : P <> V) by (apply (NZ h), EH). assert (EQ : V <> Q) by (apply (NZ i), EI).
  assert (LP : lo l = P /\ hi l = V /\ point_less P V = true \/ lo l = V /\ hi l = P /\ point_less V P = true).
  { pose proof (lo_hi _ (arr_proper _ _ AR IL)) as LH. rewrite EL in *. destruct (lo_hi_ends (P, V)) as [(E1 & E2 & _)|(E1 & E2 & _)]; cbn [fst snd] in E1, E2; rewrite E1, E2 in *; auto. }
  assert (LQ : lo m = V /\ hi m = Q /\ point_less V Q = true \/ lo m = Q /\ hi m = V /\ point_less Q V = true).
  { pose proof (lo_hi _ (arr_proper _ _ AR IM)) as LH. rewrite EM in *. destruct (lo_hi_ends (V, Q)) as [(E1 & E2 & _)|(E1 & E2 & _)]; cbn [fst snd] in E1, E2; rewrite E1, E2 in *; auto. }
  assert (ASYM : forall a b, point_less a b = true -> point_less b a = true -> False) by (intros a b; unfold point_less; destruct (Z.eqb_spec (px a) (px b)), (Z.eqb_spec (px b) (px a)); lia).
  apply (same_judgement op (lines pts) l m V); try assumption.
  - apply column_of_ok, AR.
  - apply column_of_ok, AR.
  - congruence.
  - rewrite EL. reflexivity.
  - rewrite EM. reflexivity.
  - rewrite (SL x NX), (SM p NP). symmetry. exact SS.
  - intros k IK K1 K2 E. pose proof (lo_hi _ (arr_proper _ _ AR IK)) as LH. rewrite E in LH.
    assert (F : ln_e k = (V, hi k) \/ ln_e k = (hi k, V)) by (destruct (lo_hi_ends (ln_e k)) as [(E1 & E2 & _)|(E1 & E2 & _)]; rewrite <- E, E1, E2; [left|right]; apply surjective_pairing).
    destruct (OTH k IK K1 K2 (hi k) F) as (A1 & A2). apply across_cases in A1, A2. destruct A1 as (_ & A1), A2 as (_ & A2). split.
    + destruct LP as [(_ & R & _)|(_ & _ & R)]; [exact R|]. exfalso. apply (ASYM _ _ LH), A1, R.
    + destruct LQ as [(_ & _ & R)|(_ & R & _)]; [|exact R]. exfalso. apply (ASYM _ _ LH), A2, R.
  - intros k IK K1 K2 E. pose proof (lo_hi _ (arr_proper _ _ AR IK)) as LH. rewrite E in LH.
    assert (F : ln_e k = (V, lo k) \/ ln_e k = (lo k, V)) by (destruct (lo_hi_ends (ln_e k)) as [(E1 & E2 & _)|(E1 & E2 & _)]; rewrite <- E, E1, E2; [right|left]; apply surjective_pairing).
    destruct (OTH k IK K1 K2 (lo k) F) as (A1 & A2). apply across_cases in A1, A2. destruct A1 as (A1 & _), A2 as (A2 & _). split.
    + destruct LP as [(_ & _ & R)|(R & _ & _)]; [|exact R]. exfalso. apply (ASYM _ _ LH), A1, R.
    + destruct LQ as [(R & _ & _)|(_ & _ & R)]; [exact R|]. exfalso. apply (ASYM _ _ LH), A2, R.
Qed.
End Lines.
