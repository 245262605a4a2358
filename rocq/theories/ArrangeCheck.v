(** A test that shows lines to meet only at common ends, for the examples. *)
From Coq Require Import ZArith QArith List Bool Arith Lia Psatz.
From Verif Require Import GeomModel GeomSpec BalanceModel WindSpec JoinSpec JoinProps ArrangeSpec ArrangeProofs ArrangeHit ArrangeStack.
Import ListNotations.
Local Open Scope Z_scope.

(** A linear function, and the test that it separates the line a from the line b. *)
Definition lin (f : Z * Z * Z) (p : point) : Z := let '(a, b, c) := f in a * px p + b * py p + c.
Definition sep (f : Z * Z * Z) (e1 e2 : point * point) : bool :=
  (lin f (fst e1) <=? 0) && (lin f (snd e1) <=? 0) && (0 <=? lin f (fst e2)) && (0 <=? lin f (snd e2)) &&
  negb ((lin f (fst e2) =? 0) && (lin f (snd e2) =? 0)) &&
  (negb ((lin f (fst e1) =? 0) && (lin f (snd e1) =? 0)) ||
   (if lin f (fst e2) =? 0 then point_eqb (fst e2) (fst e1) || point_eqb (fst e2) (snd e1) else if lin f (snd e2) =? 0 then point_eqb (snd e2) (fst e1) || point_eqb (snd e2) (snd e1) else true)).
Definition tests (e : point * point) : list (Z * Z * Z) :=
  let '((x1, y1), (x2, y2)) := e in let a := y1 - y2 in let b := x2 - x1 in let c := - (a * x1 + b * y1) in
  [(a, b, c); (- a, - b, - c); (1, 0, - x1); (1, 0, - x2); (0, 1, - y1); (0, 1, - y2)].
Definition meet_ok (e1 e2 : point * point) : bool :=
  (point_eqb (fst e1) (fst e2) && point_eqb (snd e1) (snd e2)) || (point_eqb (fst e1) (snd e2) && point_eqb (snd e1) (fst e2)) ||
  existsb (fun f => sep f e1 e2 || sep f e2 e1) (tests e1 ++ tests e2).
Definition linQ (f : Z * Z * Z) (X Y : Q) : Q := let '(a, b, c) := f in (inject_Z a * X + inject_Z b * Y + inject_Z c)%Q.
Lemma lin_on f a b X Y : on_seg a b X Y -> exists t, (0 <= t <= 1)%Q /\ (X == injX a + t * (injX b - injX a))%Q /\ (Y == injY a + t * (injY b - injY a))%Q /\
  (linQ f X Y == inject_Z (lin f a) + t * (inject_Z (lin f b) - inject_Z (lin f a)))%Q.
Proof.
  intros (t & T & EX & EY). exists t. split; [exact T|]. unfold injX, injY, linQ, lin in *. destruct f as ((u, v), w). unfold Z.sub in *. rewrite !inject_Z_plus, ?inject_Z_opp, ?inject_Z_mult in *.
  split; [rewrite EX; ring|]. split; [rewrite EY; ring|]. rewrite EX, EY. ring.
Qed.
Lemma zero_face (t p q : Q) : (0 <= t <= 1 -> p <= 0 -> q <= 0 -> p + t * (q - p) == 0 -> (p == 0 /\ q == 0) \/ (p == 0 /\ t == 0 /\ ~ q == 0) \/ (q == 0 /\ t == 1 /\ ~ p == 0))%Q.
Proof.
  intros T P Q E. destruct (Qeq_dec p 0) as [P0|P0], (Qeq_dec q 0) as [Q0|Q0]; [left; split; assumption| | |].
  - right. left. split; [exact P0|]. split; [|exact Q0]. rewrite P0 in E. assert (t * q == 0)%Q by lra. apply Qmult_integral in H. tauto.
  - right. right. split; [exact Q0|]. split; [|exact P0]. rewrite Q0 in E. assert ((1 - t) * p == 0)%Q by lra. apply Qmult_integral in H. destruct H; [lra|tauto].
  - exfalso. assert (p < 0)%Q by (apply Qnot_le_lt; intros H; apply P0, Qle_antisym; assumption). assert (q < 0)%Q by (apply Qnot_le_lt; intros H'; apply Q0, Qle_antisym; assumption). nra.
Qed.
Lemma injQ0 a : (inject_Z a == 0)%Q <-> a = 0. Proof. change 0%Q with (inject_Z 0). apply inj_eq. Qed.
Lemma injQle a : (inject_Z a <= 0)%Q <-> a <= 0. Proof. change 0%Q with (inject_Z 0). rewrite <- Zle_Qle. reflexivity. Qed.
Lemma zero_faceZ t p q : (0 <= t <= 1)%Q -> p <= 0 -> q <= 0 -> (inject_Z p + t * (inject_Z q - inject_Z p) == 0)%Q -> (p = 0 /\ q = 0) \/ (p = 0 /\ (t == 0)%Q /\ q <> 0) \/ (q = 0 /\ (t == 1)%Q /\ p <> 0).
Proof.
  intros T P Q E. rewrite <- injQle in P, Q. destruct (zero_face t _ _ T P Q E) as [(H1 & H2)|[(H1 & H2 & H3)|(H1 & H2 & H3)]]; rewrite injQ0 in *; auto.
Qed.
Lemma sep_ok f e1 e2 X Y : sep f e1 e2 = true -> on_seg (fst e1) (snd e1) X Y -> on_seg (fst e2) (snd e2) X Y -> end_of e1 X Y /\ end_of e2 X Y.
Proof.
  unfold sep. rewrite !andb_true_iff, !Z.leb_le. intros (((((A1 & A2) & B1) & B2) & N2) & N1) O1 O2.
  destruct (lin_on f _ _ _ _ O1) as (t & T & TX & TY & TL). destruct (lin_on f _ _ _ _ O2) as (s & S & SX & SY & SL).
  set (p1 := lin f (fst e1)) in *. set (q1 := lin f (snd e1)) in *. set (p2 := lin f (fst e2)) in *. set (q2 := lin f (snd e2)) in *.
  pose proof (proj2 (injQle _) A1) as A1'. pose proof (proj2 (injQle _) A2) as A2'. assert (B1' : (inject_Z (- p2) <= 0)%Q) by (apply injQle; lia). assert (B2' : (inject_Z (- q2) <= 0)%Q) by (apply injQle; lia). rewrite inject_Z_opp in B1', B2'.
  assert (L0 : (linQ f X Y == 0)%Q). { apply Qle_antisym; [rewrite TL|rewrite SL]; nra. }
  rewrite L0 in TL, SL. symmetry in TL. assert (SL' : (inject_Z (- p2) + s * (inject_Z (- q2) - inject_Z (- p2)) == 0)%Q) by (rewrite !inject_Z_opp; transitivity (- (inject_Z p2 + s * (inject_Z q2 - inject_Z p2)))%Q; [ring|rewrite <- SL; reflexivity]).
  assert (F2 : (p2 = 0 /\ q2 = 0) \/ (p2 = 0 /\ (s == 0)%Q /\ q2 <> 0) \/ (q2 = 0 /\ (s == 1)%Q /\ p2 <> 0)).
  { destruct (zero_faceZ s (- p2) (- q2) S ltac:(lia) ltac:(lia) SL') as [(H1 & H2)|[(H1 & H2 & H3)|(H1 & H2 & H3)]]; [left; lia|right; left|right; right]; (split; [lia|split; [exact H2|lia]]). }
  destruct (zero_faceZ t _ _ T A1 A2 TL) as [F1|F1]; destruct F2 as [F2|F2].
  - exfalso. destruct F2 as (-> & ->). rewrite !Z.eqb_refl in N2. discriminate N2.
  - destruct F1 as (-> & ->). rewrite !Z.eqb_refl in N1. cbn [andb negb orb] in N1. assert (E2 : end_of e2 X Y).
    { destruct F2 as [(_ & E & _)|(_ & E & _)]; rewrite E in SX, SY; [left; split; [rewrite SX|rewrite SY]; ring|right; split; [rewrite SX|rewrite SY]; ring]. }
    split; [|exact E2]. destruct F2 as [(Z & E & NZ)|(Z & E & NZ)].
    + rewrite Z, Z.eqb_refl in N1. rewrite E in SX, SY. apply orb_true_iff in N1. destruct N1 as [N1|N1]; apply point_eqb_eq in N1; [left|right]; rewrite <- N1; (split; [rewrite SX|rewrite SY]; ring).
    + destruct (Z.eqb_spec p2 0) as [?|_]; [contradiction|]. rewrite Z, Z.eqb_refl in N1. rewrite E in SX, SY. apply orb_true_iff in N1. destruct N1 as [N1|N1]; apply point_eqb_eq in N1; [left|right]; rewrite <- N1; (split; [rewrite SX|rewrite SY]; ring).
  - exfalso. destruct F2 as (-> & ->). rewrite !Z.eqb_refl in N2. discriminate N2.
  - split.
    + destruct F1 as [(_ & E & _)|(_ & E & _)]; rewrite E in TX, TY; [left|right]; (split; [rewrite TX|rewrite TY]; ring).
    + destruct F2 as [(_ & E & _)|(_ & E & _)]; rewrite E in SX, SY; [left|right]; (split; [rewrite SX|rewrite SY]; ring).
Qed.
Lemma meet_planar es : forallb (fun e1 => forallb (meet_ok e1) es) es = true -> planar es.
Proof.
  intros H e1 e2 I1 I2. rewrite forallb_forall in H. specialize (H e1 I1). rewrite forallb_forall in H. specialize (H e2 I2). unfold meet_ok in H. apply orb_true_iff in H. destruct H as [H|H].
  - left. apply orb_true_iff in H. destruct H as [H|H]; apply andb_true_iff in H; destruct H as (H1 & H2); apply point_eqb_eq in H1, H2; destruct e1, e2; cbn in *; subst; [left|right]; reflexivity.
  - right. intros X Y O1 O2. apply existsb_exists in H. destruct H as (f & _ & H). apply orb_true_iff in H. destruct H as [H|H]; [apply (sep_ok f e1 e2); assumption|]. apply and_comm. apply (sep_ok f e2 e1); assumption.
Qed.
Definition ndb (l : list nat) : bool := Nat.eqb (length (nodup Nat.eq_dec l)) (length l).
Lemma ndb_ok l : ndb l = true -> NoDup l.
Proof.
  unfold ndb. rewrite Nat.eqb_eq. intros H. apply (@NoDup_incl_NoDup _ (nodup Nat.eq_dec l)); [apply NoDup_nodup|lia|]. intros x. apply nodup_In.
Qed.
Definition arranged_ok (ls : list line) : bool :=
  ndb (map ln_i ls) && forallb (fun e1 => forallb (meet_ok e1) (map ln_e ls)) (map ln_e ls) &&
  forallb (fun e => negb (point_eqb (fst e) (snd e))) (map ln_e ls) &&
  forallb (fun c => let l := map ln_e (filter (fun l => bset_eqb (ln_set l) c) ls) in forallb (fun k => Nat.eqb (ends_at k l) (starts_at k l)) (map fst l ++ map snd l)) [Subject; Clip].
Lemma arranged_check ls : arranged_ok ls = true -> arranged ls.
Proof.
  unfold arranged_ok. rewrite !andb_true_iff. intros (((H1 & H2) & H3) & H4). split; [apply ndb_ok, H1|]. split; [apply meet_planar, H2|]. split.
  - intros e I E. rewrite forallb_forall in H3. specialize (H3 e I). rewrite E in H3. rewrite eqb_pt, !Z.eqb_refl in H3. discriminate.
  - intros c. rewrite forallb_forall in H4. apply balanced_check. apply (H4 c). destruct c; cbn; auto.
Qed.
Definition column_of (ls : list line) (l : line) : list line := filter (fun m => (Z.min (px (fst (ln_e m))) (px (snd (ln_e m))) <=? px (fst (ln_e l))) && (px (fst (ln_e l)) <=? Z.max (px (fst (ln_e m))) (px (snd (ln_e m))))) ls.
Lemma column_of_ok ls l : NoDup (map ln_i ls) -> column l ls (column_of ls l).
Proof. intros N. split; [apply NoDup_filter, (NoDup_map_inv _ _ N)|]. intros m. unfold column_of. rewrite filter_In. unfold spans. rewrite andb_true_iff, !Z.leb_le. reflexivity. Qed.
