(** Joining the kept lines: runs, anchors, and the walks that mark them. *)
From Coq Require Import ZArith List Bool Arith Permutation Lia.
From Verif Require Import GeomModel OutModel OutSpec JoinSpec CycleProofs.
Import ListNotations.

Lemma peq_spec a b : reflect (a = b) (point_eqb a b).
Proof.
  unfold point_eqb. destruct a as [x y], b as [x' y']; cbn. destruct (Z.eqb_spec x x'); destruct (Z.eqb_spec y y'); constructor; congruence.
Qed.
Lemma peq_refl a : point_eqb a a = true.
Proof. destruct (peq_spec a a); congruence. Qed.

(** * Lines *)
Lemma segs_cons a b l : segs (a :: b :: l) = (a, b) :: segs (b :: l).
Proof. reflexivity. Qed.
Lemma segs_app l1 x l2 : segs (l1 ++ x :: l2) = segs (l1 ++ [x]) ++ segs (x :: l2).
Proof.
  induction l1 as [|a l1 IH]; [reflexivity|]. destruct l1 as [|b l1]; [reflexivity|]. change ((a :: b :: l1) ++ x :: l2) with (a :: b :: (l1 ++ x :: l2)).
  change ((a :: b :: l1) ++ [x]) with (a :: b :: (l1 ++ [x])). rewrite !segs_cons. cbn [app]. f_equal. exact IH.
Qed.
Lemma nonzero_app l1 l2 : nonzero (l1 ++ l2) = nonzero l1 ++ nonzero l2.
Proof. apply filter_app. Qed.
Lemma skip_same l1 x l2 : nonzero (segs (l1 ++ x :: x :: l2)) = nonzero (segs (l1 ++ x :: l2)).
Proof.
  rewrite segs_app, (segs_app l1 x l2), !nonzero_app. f_equal. rewrite segs_cons. unfold nonzero at 1. cbn [filter fst snd]. rewrite peq_refl. reflexivity.
Qed.
Lemma nonzero_turned l : nonzero (map turned l) = map turned (nonzero l).
Proof.
  induction l as [|(a, b) l IH]; [reflexivity|]. cbn [map nonzero filter fst snd turned]. destruct (peq_spec a b); destruct (peq_spec b a); try congruence; cbn [negb]; [exact IH|]. cbn [map]. unfold turned at 2. cbn [fst snd]. f_equal. exact IH.
Qed.
Lemma nonzero_perm l l' : Permutation l l' -> Permutation (nonzero l) (nonzero l').
Proof.
  induction 1; cbn; auto.
  - destruct (negb _); auto.
  - destruct (negb _); destruct (negb _); auto. apply perm_swap.
  - etransitivity; eauto.
Qed.

(** * Runs *)
Definition head (R : run) : nat := fst (fst R).
Definition nodes (R : run) : list nat := head R :: snd (fst R).
Definition onx (pts : list opoint) (i : nat) : nat := match nth_error pts i with Some p => o_next p | None => 0 end.
Definition oan (pts : list opoint) (i : nat) : bool := match nth_error pts i with Some p => o_anchor p | None => false end.
Definition isres (pts : list opoint) (i : nat) : Prop := exists p r, nth_error pts i = Some p /\ o_state p = Res r.

Lemma trail_undef pts : forall c n e x, trail pts n c e -> In x c -> exists q, nth_error pts x = Some q /\ o_state q = Undef.
Proof.
  induction c as [|y c IH]; intros n e x T X; [destruct X|]. cbn in T. destruct T as (-> & q & E & U & T). destruct X as [<-|X]; [eauto|]. eapply IH; eauto.
Qed.
Lemma trail_end pts : forall c n e, trail pts n c e -> isres pts e.
Proof. induction c as [|y c IH]; intros n e T; cbn in T; [destruct T as (_ & T); exact T|]. destruct T as (-> & q & E & U & T). eapply IH; eauto. Qed.
Lemma trail_links pts : forall c n e i k y x, trail pts n c e -> onx pts i = n -> nth_error (i :: c) k = Some y -> nth_error c k = Some x -> onx pts y = x.
Proof.
  induction c as [|z c IH]; intros n e i k y x T I Y X; [destruct k; discriminate|]. cbn in T. destruct T as (-> & q & E & U & T).
  destruct k as [|k]; cbn in X, Y; [injection Y as <-; injection X as <-; exact I|]. eapply (IH (o_next q) e n k); eauto. unfold onx. rewrite E. reflexivity.
Qed.
Lemma trail_ext pts pts' : forall c n e, (forall x, In x c -> nth_error pts' x = nth_error pts x) -> isres pts' e -> trail pts n c e -> trail pts' n c e.
Proof.
  induction c as [|y c IH]; intros n e X R T; cbn in *.
  - destruct T as (-> & _). split; [reflexivity|]. exact R.
  - destruct T as (-> & q & E & U & T). split; [reflexivity|]. exists q. rewrite X by auto. split; [exact E|]. split; [exact U|]. apply IH; auto.
Qed.

Section Static.
Variable pts : list opoint.
Hypothesis PERM : Permutation (map o_next pts) (seq 0 (length pts)).
Lemma onx_lt i : i < length pts -> onx pts i < length pts.
Proof.
  intros L. unfold onx. destruct (nth_error pts i) as [p|] eqn:E; [|apply nth_error_None in E; lia].
  assert (X : In (o_next p) (seq 0 (length pts))) by (eapply Permutation_in; [exact PERM|]; apply in_map; eapply nth_error_In; eauto). apply in_seq in X. lia.
Qed.
Lemma onx_inj i j : i < length pts -> j < length pts -> onx pts i = onx pts j -> i = j.
Proof.
  intros LI LJ E. assert (ND : NoDup (map o_next pts)) by (eapply Permutation_NoDup; [symmetry; exact PERM|apply seq_NoDup]).
  rewrite NoDup_nth_error in ND. apply ND; [rewrite map_length; exact LI|]. rewrite !nth_error_map. unfold onx in E.
  destruct (nth_error pts i) eqn:EI; [|apply nth_error_None in EI; lia]. destruct (nth_error pts j) eqn:EJ; [|apply nth_error_None in EJ; lia]. cbn. congruence.
Qed.
Lemma trail_exists : (forall p, In p pts -> o_state p <> Check) -> forall m x, x < length pts -> isres pts (iter (onx pts) m x) -> exists c e, trail pts x c e.
Proof.
  intros NC. induction m as [|m IH]; intros x L R.
  - exists [], x. split; [reflexivity|exact R].
  - destruct (nth_error pts x) as [p|] eqn:E; [|apply nth_error_None in E; lia]. destruct (o_state p) as [| |r] eqn:S.
    + rewrite iter_S_r in R. destruct (IH (onx pts x)) as (c & e & T); [apply onx_lt; exact L|exact R|]. exists (x :: c), e. split; [reflexivity|]. exists p. split; [exact E|]. split; [exact S|]. unfold onx in T. rewrite E in T. exact T.
    + exfalso. apply (NC p); [eapply nth_error_In; eauto|exact S].
    + exists [], x. split; [reflexivity|]. exists p, r. auto.
Qed.
Lemma run_exists i : (forall p, In p pts -> o_state p <> Check) -> isres pts i -> exists c e, is_run pts (i, c, e).
Proof.
  intros NC R. assert (L : i < length pts) by (destruct R as (p & r & E & _); eapply nth_lt; eauto).
  destruct (some_return (onx pts) (seq 0 (length pts))) with (i := i) as (m & P & E).
  - intros x X. apply in_seq in X. apply in_seq. pose proof (onx_lt x). lia.
  - intros x y X Y. apply in_seq in X. apply in_seq in Y. apply onx_inj; lia.
  - apply in_seq. lia.
  - destruct m as [|m]; [lia|]. rewrite iter_S_r in E. destruct (trail_exists NC m (onx pts i)) as (c & e & T); [apply onx_lt; exact L|rewrite E; exact R|].
    exists c, e. destruct R as (p & r & E' & S). exists p, r. split; [exact E'|]. split; [exact S|]. unfold onx in T. rewrite E' in T. exact T.
Qed.
Lemma run_node_lt R x : is_run pts R -> In x (nodes R) -> x < length pts.
Proof.
  destruct R as ((i, c), e). intros (p & r & E & S & T) [X|X]; cbn in X; [subst x; eapply nth_lt; eauto|]. destruct (trail_undef _ _ _ _ _ T X) as (q & Q & _). eapply nth_lt; eauto.
Qed.
Lemma run_step R k y x : is_run pts R -> nth_error (nodes R) k = Some y -> nth_error (nodes R) (S k) = Some x -> onx pts y = x.
Proof.
  destruct R as ((i, c), e). intros (p & r & E & S & T) Y X. unfold nodes in *. cbn [head fst snd] in *. cbn [nth_error] in X. eapply (trail_links pts c (o_next p) e i k); eauto. unfold onx. rewrite E. reflexivity.
Qed.
Lemma run_undef R k x : is_run pts R -> nth_error (nodes R) (S k) = Some x -> ~ isres pts x.
Proof.
  destruct R as ((i, c), e). intros (p & r & E & S & T) X (p' & r' & E' & S'). unfold nodes in *. cbn [head fst snd nth_error] in *.
  destruct (trail_undef _ _ _ _ x T) as (q & Q & U); [eapply nth_error_In; eauto|]. congruence.
Qed.
Lemma run_head R : is_run pts R -> isres pts (head R).
Proof. destruct R as ((i, c), e). intros (p & r & E & S & T). exists p, r. auto. Qed.
Lemma run_same : forall k k' R R' x, is_run pts R -> is_run pts R' -> nth_error (nodes R) k = Some x -> nth_error (nodes R') k' = Some x -> k = k' /\ head R = head R'.
Proof.
  induction k as [|k IH]; intros k' R R' x I I' X X'.
  - cbn in X. injection X as <-. destruct k' as [|k']; [cbn in X'; injection X' as ->; auto|]. exfalso. apply (run_undef _ _ _ I' X'). apply run_head. exact I.
  - destruct k' as [|k'].
    + cbn in X'. injection X' as <-. exfalso. apply (run_undef _ _ _ I X). apply run_head. exact I'.
    + destruct (nth_error (nodes R) k) as [y|] eqn:Y; [|apply nth_error_None in Y; apply nth_lt in X; lia]. destruct (nth_error (nodes R') k') as [y'|] eqn:Y'; [|apply nth_error_None in Y'; apply nth_lt in X'; lia].
      assert (Z : y' = y). { apply onx_inj; [eapply run_node_lt; [exact I'|eapply nth_error_In; eauto]|eapply run_node_lt; [exact I|eapply nth_error_In; eauto]|]. rewrite (run_step _ _ _ _ I Y X). apply (run_step _ _ _ _ I' Y' X'). }
      subst y'. destruct (IH k' R R' y I I' Y Y') as (-> & H). auto.
Qed.
Lemma run_nodup R : is_run pts R -> NoDup (nodes R).
Proof.
  intros I. apply NoDup_nth_error. intros a b L E. destruct (nth_error (nodes R) a) as [x|] eqn:X; [|apply nth_error_None in X; lia]. eapply run_same; eauto.
Qed.
Lemma runs_nodup RS : Forall (is_run pts) RS -> NoDup (map head RS) -> NoDup (flat_map nodes RS).
Proof.
  induction 1 as [|R RS I F IH]; intros ND; [constructor|]. cbn in ND. inversion ND as [|? ? N ND']; subst. cbn [flat_map]. apply NoDup_app'; [apply run_nodup; exact I|auto|].
  intros x X Y. apply in_flat_map in Y as (R' & Y & X'). apply In_nth_error in X as (k & X). apply In_nth_error in X' as (k' & X'). rewrite Forall_forall in F.
  destruct (run_same _ _ _ _ _ I (F R' Y) X X') as (_ & H). apply N. rewrite H. apply in_map. exact Y.
Qed.
Lemma all_runs : (forall p, In p pts -> o_state p <> Check) -> forall l, (forall i, In i l -> isres pts i) -> exists RS, map head RS = l /\ Forall (is_run pts) RS.
Proof.
  intros NC. induction l as [|i l IH]; intros H; [exists []; auto|]. destruct IH as (RS & E & F); [intros; apply H; right; auto|]. destruct (run_exists i NC) as (c & e & I); [apply H; left; auto|].
  exists ((i, c, e) :: RS). split; [cbn; rewrite E; reflexivity|]. constructor; auto.
Qed.
End Static.

(** * Anchors *)
Fixpoint anch (pts : list opoint) (l : list nat) : Prop :=
  match l with
  | [] => True
  | x :: l' => match l' with y :: _ => oan pts y = true -> oan pts x = false /\ pos pts y = pos pts x | [] => True end /\ anch pts l'
  end.
(** Lines that do not lead to an anchor have two different ends. *)
Fixpoint clear (pts : list opoint) (l : list nat) : Prop :=
  match l with
  | [] => True
  | x :: l' => match l' with y :: _ => oan pts y = false -> pos pts x <> pos pts y | [] => True end /\ clear pts l'
  end.
Definition whole_run (R : run) : list nat := let '(i, c, e) := R in i :: c ++ [e].
Definition rok (pts : list opoint) (R : run) : Prop :=
  is_run pts R /\ oan pts (head R) = false /\ oan pts (snd R) = false /\ anch pts (whole_run R).
Definition nexts_ok (pts : list opoint) : Prop := forall j p, nth_error pts j = Some p -> o_next p < length pts.

Lemma anch_ext pts pts' l : (forall x, In x l -> oan pts' x = oan pts x /\ pos pts' x = pos pts x) -> anch pts l -> anch pts' l.
Proof.
  induction l as [|x l IH]; intros H A; cbn in *; auto. destruct A as (A & A'). split; [|apply IH; auto]. destruct l as [|y l]; auto.
  destruct (H x) as (Hx & Px); auto. destruct (H y) as (Hy & Py); [right; left; reflexivity|]. rewrite Hx, Hy, Px, Py. exact A.
Qed.
Lemma clear_ext pts pts' l : (forall x, In x l -> oan pts' x = oan pts x /\ pos pts' x = pos pts x) -> clear pts l -> clear pts' l.
Proof.
  induction l as [|x l IH]; intros H A; cbn in *; auto. destruct A as (A & A'). split; [|apply IH; auto]. destruct l as [|y l]; auto.
  destruct (H x) as (Hx & Px); auto. destruct (H y) as (Hy & Py); [right; left; reflexivity|]. rewrite Hy, Px, Py. exact A.
Qed.
Lemma clear_insert pts n i y : forall l1 l2, clear pts (l1 ++ i :: y :: l2) -> oan pts n = true -> pos pts n = pos pts i -> clear pts (l1 ++ i :: n :: y :: l2).
Proof.
  induction l1 as [|x l1 IH]; intros l2 A N P.
  - cbn in *. destruct A as (A & A'). split; [congruence|]. split; [rewrite P; exact A|exact A'].
  - cbn [app] in *. specialize (IH l2). destruct l1 as [|z l1]; cbn [app clear] in *; split; try apply A; apply IH; auto; apply A.
Qed.
Lemma anch_insert pts n i y : forall l1 l2, anch pts (l1 ++ i :: y :: l2) -> oan pts y = false -> oan pts i = false -> pos pts n = pos pts i -> anch pts (l1 ++ i :: n :: y :: l2).
Proof.
  induction l1 as [|x l1 IH]; intros l2 A Y I P.
  - cbn in *. destruct A as (A & A'). split; [auto|]. split; [congruence|exact A'].
  - cbn [app] in *. specialize (IH l2). destruct l1 as [|z l1]; cbn [app anch] in *; split; try apply A; apply IH; auto; apply A.
Qed.
Lemma trail_mid pts : forall c1 m i c2 e, trail pts m (c1 ++ i :: c2) e -> exists q, nth_error pts i = Some q /\ o_state q = Undef /\ trail pts (o_next q) c2 e.
Proof.
  induction c1 as [|x c1 IH]; intros m i c2 e T; cbn in T.
  - destruct T as (-> & T). exact T.
  - destruct T as (-> & q & E & U & T). eapply IH; eauto.
Qed.
Lemma trail_hd pts c m e : trail pts m c e -> exists l, c ++ [e] = m :: l.
Proof. destruct c as [|x c]; cbn; intros (-> & _); eauto. Qed.
Lemma trail_put pts pts' n i : forall c1 m c2 e, trail pts m (c1 ++ i :: c2) e -> ~ In i c1 -> ~ In i c2 -> (forall x, In x (c1 ++ c2) -> nth_error pts' x = nth_error pts x) -> isres pts' e ->
  (forall q, nth_error pts i = Some q -> o_state q = Undef -> exists q' a, nth_error pts' i = Some q' /\ o_state q' = Undef /\ o_next q' = n /\ nth_error pts' n = Some a /\ o_state a = Undef /\ o_next a = o_next q) ->
  trail pts' m (c1 ++ i :: n :: c2) e.
Proof.
  induction c1 as [|x c1 IH]; intros m c2 e T N1 N2 SAME R CH; cbn in T |- *.
  - destruct T as (-> & q & E & U & T). split; [reflexivity|]. destruct (CH q E U) as (q' & a & E' & U' & X' & EA & UA & XA). exists q'. split; [exact E'|]. split; [exact U'|]. split; [auto|].
    exists a. rewrite X'. split; [exact EA|]. split; [exact UA|]. rewrite XA. apply trail_ext with (pts := pts); auto.
  - destruct T as (-> & q & E & U & T). split; [reflexivity|]. exists q. rewrite SAME by (left; reflexivity). split; [exact E|]. split; [exact U|]. apply IH; auto.
    + intros X. apply N1. right. exact X.
    + intros z Z. apply SAME. right. exact Z.
Qed.

Lemma insert_shape pts i pts' a : insert_anchor pts i = Some (pts', a) ->
  exists p, nth_error pts i = Some p /\
  ((pts' = pts /\ a = o_next p /\ oan pts a = true) \/
   (oan pts (o_next p) = false /\ o_next p < length pts /\ a = length pts /\ pts' = put pts i (set_next p (length pts)) ++ [mk_op (o_data p) (o_next p) Undef true])).
Proof.
  unfold insert_anchor. destruct (nth_error pts i) as [p|] eqn:E; [|discriminate]. destruct (nth_error pts (o_next p)) as [q|] eqn:Q; [|discriminate].
  intros H. exists p. split; [reflexivity|]. destruct (o_anchor q) eqn:A; injection H as <- <-.
  - left. split; [reflexivity|]. split; [reflexivity|]. unfold oan. rewrite Q. exact A.
  - right. unfold oan. rewrite Q. split; [exact A|]. split; [eapply nth_lt; eauto|]. auto.
Qed.

(** What an insertion does to the list. *)
Record grows (pts pts' : list opoint) (i : nat) : Prop := mk_grows {
  g_len : length pts <= length pts' <= S (length pts);
  g_other : forall j, j <> i -> j < length pts -> nth_error pts' j = nth_error pts j;
  g_same : forall j p, nth_error pts j = Some p -> exists n, nth_error pts' j = Some (set_next p n);
  g_new : forall j p, length pts <= j -> nth_error pts' j = Some p -> o_state p = Undef /\ o_anchor p = true;
  g_nexts : nexts_ok pts -> nexts_ok pts' }.
Lemma insert_grows pts i pts' a : insert_anchor pts i = Some (pts', a) -> grows pts pts' i.
Proof.
  intros H. apply insert_shape in H as (p & E & [(-> & _)|(A & L & _ & ->)]).
  - constructor; auto. + intros j q Q. exists (o_next q). rewrite Q. destruct q; reflexivity. + intros j q J Q. apply nth_lt in Q. lia.
  - assert (LI : i < length pts) by (eapply nth_lt; eauto). constructor.
    + rewrite app_length, put_length. cbn. lia.
    + intros j N J. rewrite nth_error_app1 by (rewrite put_length; exact J). apply put_other. congruence.
    + intros j q Q. assert (J : j < length pts) by (eapply nth_lt; eauto). rewrite nth_error_app1 by (rewrite put_length; exact J). destruct (Nat.eq_dec i j) as [<-|N].
      * rewrite (put_same' _ _ _ _ E). rewrite E in Q. injection Q as <-. eauto.
      * rewrite put_other by exact N. exists (o_next q). rewrite Q. destruct q; reflexivity.
    + intros j q J Q. rewrite nth_error_app2 in Q by (rewrite put_length; exact J). rewrite put_length in Q. destruct (j - length pts) as [|k]; [|destruct k; discriminate]. cbn in Q. injection Q as <-. auto.
    + intros NX j q Q. rewrite app_length, put_length. cbn [length]. destruct (Nat.lt_ge_cases j (length pts)) as [J|J].
      * rewrite nth_error_app1 in Q by (rewrite put_length; exact J). destruct (Nat.eq_dec i j) as [<-|N]; [rewrite (put_same' _ _ _ _ E) in Q; injection Q as <-; cbn; lia|]. rewrite put_other in Q by exact N. specialize (NX j q Q). lia.
      * rewrite nth_error_app2 in Q by (rewrite put_length; exact J). rewrite put_length in Q. destruct (j - length pts) as [|k]; [|destruct k; discriminate]. cbn in Q. injection Q as <-. cbn. lia.
Qed.
Lemma grows_pos pts pts' i j : grows pts pts' i -> j < length pts -> pos pts' j = pos pts j /\ oan pts' j = oan pts j.
Proof.
  intros G L. destruct (nth_error pts j) as [p|] eqn:E; [|apply nth_error_None in E; lia]. destruct (g_same _ _ _ G j p E) as (n & E'). unfold pos, oan. rewrite E, E'. auto.
Qed.
Lemma grows_res pts pts' i j : grows pts pts' i -> isres pts j -> isres pts' j.
Proof. intros G (p & r & E & S). destruct (g_same _ _ _ G j p E) as (n & E'). exists (set_next p n), r. auto. Qed.
Lemma grows_judge pts pts' i R R' : grows pts pts' i -> head R' = head R -> head R < length pts -> judgement pts' R' = judgement pts R.
Proof.
  intros G H L. unfold judgement. fold (head R'). fold (head R). rewrite H. destruct (nth_error pts (head R)) as [p|] eqn:E; [|apply nth_error_None in E; lia].
  destruct (g_same _ _ _ G _ p E) as (n & ->). reflexivity.
Qed.
Lemma insert_some pts i p : nexts_ok pts -> nth_error pts i = Some p -> exists pts' a, insert_anchor pts i = Some (pts', a).
Proof.
  intros NX E. unfold insert_anchor. rewrite E. specialize (NX i p E). destruct (nth_error pts (o_next p)) as [q|] eqn:Q; [|apply nth_error_None in Q; lia]. destruct (o_anchor q); eauto.
Qed.

Lemma run_bounds pts R x : is_run pts R -> In x (whole_run R) -> x < length pts.
Proof.
  destruct R as ((i, c), e). intros (p & r & E & S & T) X. cbn in X. destruct X as [<-|X]; [eapply nth_lt; eauto|]. apply in_app_or in X as [X|[<-|[]]].
  - destruct (trail_undef _ _ _ _ _ T X) as (q & Q & _). eapply nth_lt; eauto.
  - destruct (trail_end _ _ _ _ T) as (q & r' & Q & _). eapply nth_lt; eauto.
Qed.
Definition same_run (pts pts' : list opoint) (R R' : run) : Prop :=
  head R' = head R /\ snd R' = snd R /\ judgement pts' R' = judgement pts R /\ (pos pts' (head R) = pos pts (head R) /\ pos pts' (snd R) = pos pts (snd R)) /\ rok pts' R' /\ nonzero (run_lines pts' R') = nonzero (run_lines pts R) /\ (clear pts (whole_run R) -> clear pts' (whole_run R')).
Lemma run_lines_whole pts R : run_lines pts R = segs (map (pos pts) (whole_run R)).
Proof. destruct R as ((i, c), e). reflexivity. Qed.

Lemma same_other pts pts' i R : grows pts pts' i -> ~ In i (nodes R) -> rok pts R -> same_run pts pts' R R.
Proof.
  intros G N (I & H & E & A). split; [reflexivity|]. split; [reflexivity|].
  split; [apply (grows_judge _ _ _ _ _ G); [reflexivity|]; eapply run_bounds; [exact I|]; destruct R as ((j, c), e); left; reflexivity|].
  assert (P : forall x, In x (whole_run R) -> pos pts' x = pos pts x /\ oan pts' x = oan pts x) by (intros x X; apply (grows_pos _ _ _ _ G); eapply run_bounds; eauto).
  assert (HW : In (head R) (whole_run R)) by (destruct R as ((j, c), e); left; reflexivity).
  assert (EW : In (snd R) (whole_run R)) by (destruct R as ((j, c), e); right; apply in_or_app; right; left; reflexivity).
  split; [split; [apply P; exact HW|apply P; exact EW]|]. split.
  - split; [|split; [|split]].
    + destruct R as ((j, c), e). destruct I as (p & r & Ep & S & T). unfold nodes in N. cbn in N. exists p, r. rewrite (g_other _ _ _ G) by (try (eapply nth_lt; eauto; fail); intros ->; apply N; auto). split; [exact Ep|]. split; [exact S|].
      apply trail_ext with (pts := pts); [| |exact T].
      * intros x X. apply (g_other _ _ _ G); [intros ->; apply N; auto|]. apply (run_bounds pts (j, c, e)); [exists p, r; auto|]. right. apply in_or_app. auto.
      * apply (grows_res _ _ _ _ G). eapply trail_end; eauto.
    + rewrite (proj2 (P _ HW)). exact H.
    + rewrite (proj2 (P _ EW)). exact E.
    + apply anch_ext with (pts := pts); [|exact A]. intros x X. destruct (P x X). auto.
  - split; [rewrite !run_lines_whole; f_equal; f_equal; apply map_ext_in; intros x X; apply P; exact X|]. apply clear_ext. intros x X. destruct (P x X). auto.
Qed.
Lemma same_insert pts i pts' a R : insert_anchor pts i = Some (pts', a) -> oan pts i = false -> In i (nodes R) -> NoDup (nodes R) -> rok pts R ->
  exists R', same_run pts pts' R R' /\ (forall x, In x (nodes R') -> In x (nodes R) \/ length pts <= x) /\ NoDup (nodes R').
Proof.
  intros H AI X ND RK. pose proof (insert_grows _ _ _ _ H) as G. pose proof (insert_shape _ _ _ _ H) as (p & E & [(-> & _)|(AN & L & -> & EP)]).
  { exists R. split; [|split; [auto|exact ND]]. split; [reflexivity|]. split; [reflexivity|]. split; [reflexivity|]. split; [split; reflexivity|]. split; [exact RK|]. split; [reflexivity|auto]. }
  set (n := length pts) in *. assert (LI : i < n) by (eapply nth_lt; eauto).
  assert (EI : nth_error pts' i = Some (set_next p n)). { subst pts'. rewrite nth_error_app1 by (rewrite put_length; exact LI). apply (put_same' _ _ _ _ E). }
  assert (EN : nth_error pts' n = Some (mk_op (o_data p) (o_next p) Undef true)). { subst pts'. rewrite nth_error_app2 by (rewrite put_length; reflexivity). rewrite put_length. fold n. rewrite Nat.sub_diag. reflexivity. }
  clear EP. destruct RK as (I & HA & EA & A). destruct R as ((j, c), e). cbn [head fst snd] in HA, EA.
  assert (P : forall x, In x (whole_run (j, c, e)) -> pos pts' x = pos pts x /\ oan pts' x = oan pts x) by (intros x Y; apply (grows_pos _ _ _ _ G); eapply run_bounds; eauto).
  assert (B : forall x, In x (j :: c ++ [e]) -> x < n) by (intros x Y; eapply run_bounds; eauto).
  assert (PN : pos pts' n = pos pts' i) by (unfold pos; rewrite EI, EN; reflexivity).
  assert (EX : exists c' l1 y l2, j :: c ++ [e] = l1 ++ i :: y :: l2 /\ j :: c' ++ [e] = l1 ++ i :: n :: y :: l2 /\ y = o_next p /\ is_run pts' (j, c', e) /\ (forall x, In x c' -> x = n \/ In x c) /\ NoDup (j :: c')).
  { destruct I as (pj & r & Ej & S & T). unfold nodes in X, ND. cbn [head fst snd] in X, ND. inversion ND as [|? ? NJ NC]; subst.
    assert (RE : isres pts' e) by (apply (grows_res _ _ _ _ G); eapply trail_end; eauto).
    destruct (Nat.eq_dec i j) as [->|NE].
    - rewrite E in Ej. injection Ej as ->. destruct (trail_hd _ _ _ _ T) as (l2 & EL). exists (n :: c), [], (o_next pj), l2. cbn [app]. rewrite EL. split; [reflexivity|]. split; [reflexivity|]. split; [reflexivity|]. split; [|split].
      + exists (set_next pj n), r. split; [exact EI|]. split; [exact S|]. split; [reflexivity|]. eexists. split; [exact EN|]. split; [reflexivity|]. cbn [o_next]. apply trail_ext with (pts := pts); auto.
        intros x Y. apply (g_other _ _ _ G); [intros ->; contradiction|]. apply B. right. apply in_or_app. auto.
      + intros x [<-|Y]; auto.
      + assert (NN : ~ In n (j :: c)). { intros Y. assert (n < n); [|lia]. apply B. destruct Y as [<-|Y]; [left; reflexivity|right; apply in_or_app; auto]. } constructor; [|constructor]; auto.
        * intros [Y|Y]; [|contradiction]. apply NN. left. auto.
        * intros Y. apply NN. right. exact Y.
    - destruct X as [X|X]; [congruence|]. apply in_split in X as (c1 & c2 & ->). destruct (trail_mid _ _ _ _ _ _ T) as (q & EQ & UQ & T2). rewrite E in EQ. injection EQ as <-. destruct (trail_hd _ _ _ _ T2) as (l2 & EL).
      assert (NI : ~ In i c1 /\ ~ In i c2). { apply NoDup_remove_2 in NC. split; intros Y; apply NC; apply in_or_app; auto. }
      exists (c1 ++ i :: n :: c2), (j :: c1), (o_next p), l2. split; [cbn [app]; rewrite <- app_assoc; cbn [app]; rewrite EL; reflexivity|]. split; [cbn [app]; rewrite <- app_assoc; cbn [app]; rewrite EL; reflexivity|]. split; [reflexivity|]. split; [|split].
      + exists pj, r. rewrite (g_other _ _ _ G) by (auto; apply B; left; reflexivity). split; [exact Ej|]. split; [exact S|]. apply trail_put with (pts := pts); auto; try apply NI.
        * intros x Y. apply (g_other _ _ _ G). { intros ->. apply in_app_or in Y as [Y|Y]; [apply (proj1 NI)|apply (proj2 NI)]; exact Y. } apply B. right. apply in_or_app. left. apply in_or_app. apply in_app_or in Y as [Y|Y]; [left|right; right]; exact Y.
        * intros q Eq Uq. rewrite E in Eq. injection Eq as <-. eexists. eexists. split; [exact EI|]. split; [exact UQ|]. split; [reflexivity|]. split; [exact EN|]. split; reflexivity.
      + intros x Y. apply in_app_or in Y as [Y|[->|[<-|Y]]]; [right|right|left; reflexivity|right]; apply in_or_app; cbn; auto.
      + assert (NN : ~ In n (j :: c1 ++ i :: c2)). { intros Y. assert (n < n); [|lia]. apply B. destruct Y as [<-|Y]; [left; reflexivity|right; apply in_or_app; auto]. }
        apply (Permutation_NoDup (l := n :: j :: c1 ++ i :: c2)); [|constructor; auto]. transitivity (j :: n :: c1 ++ i :: c2); [constructor|]. constructor. replace (c1 ++ i :: n :: c2) with ((c1 ++ [i]) ++ n :: c2) by (rewrite <- app_assoc; reflexivity). replace (c1 ++ i :: c2) with ((c1 ++ [i]) ++ c2) by (rewrite <- app_assoc; reflexivity). apply Permutation_middle. }
  destruct EX as (c' & l1 & y & l2 & E1 & E2 & -> & I' & SUB & ND'). exists (j, c', e). split; [|split].
  - split; [reflexivity|]. split; [reflexivity|]. split; [apply (grows_judge _ _ _ _ _ G); [reflexivity|apply B; left; reflexivity]|]. split; [split; apply P; [left; reflexivity|right; apply in_or_app; right; left; reflexivity]|]. split; [split; [exact I'|]; split; [|split]|split].
    + cbn [head fst]. rewrite (proj2 (P j (or_introl eq_refl))). exact HA.
    + cbn [snd]. assert (Y : In e (whole_run (j, c, e))) by (right; apply in_or_app; right; left; reflexivity). rewrite (proj2 (P e Y)). exact EA.
    + cbn [whole_run]. rewrite E2. assert (OY : oan pts' (o_next p) = false) by (rewrite (proj2 (grows_pos _ _ _ _ G L)); exact AN). apply anch_insert; auto.
      * rewrite <- E1. apply anch_ext with (pts := pts); [|exact A]. intros x Y. destruct (P x Y). auto.
      * rewrite (proj2 (grows_pos _ _ _ _ G LI)). exact AI.
    + rewrite !run_lines_whole. cbn [whole_run]. assert (EM : map (pos pts) (j :: c ++ [e]) = map (pos pts') (j :: c ++ [e])) by (apply map_ext_in; intros x Y; symmetry; apply P; exact Y). rewrite EM, E1, E2.
      rewrite !map_app. cbn [map]. rewrite PN. apply skip_same.
    + intros CL. cbn [whole_run] in CL |- *. rewrite E2. apply clear_insert; [|unfold oan; rewrite EN; reflexivity|exact PN]. rewrite <- E1. apply clear_ext with (pts := pts); [|exact CL]. intros x Y. destruct (P x Y). auto.
  - intros x [Y|Y]; [left; left; exact Y|]. apply SUB in Y as [->|Y]; [right; apply le_n|left; right; exact Y].
  - exact ND'.
Qed.

Lemma same_others pts pts' i RC : grows pts pts' i -> Forall (rok pts) RC -> ~ In i (flat_map nodes RC) -> Forall2 (same_run pts pts') RC RC.
Proof.
  intros G. induction 1 as [|R RC RK F IH]; intros N; constructor.
  - apply (same_other _ _ _ _ G); [|exact RK]. intros X. apply N. cbn [flat_map]. apply in_or_app. auto.
  - apply IH. intros X. apply N. cbn [flat_map]. apply in_or_app. auto.
Qed.
Lemma NoDup_app_iff {A} (l l' : list A) : NoDup (l ++ l') <-> NoDup l /\ NoDup l' /\ forall x, In x l -> ~ In x l'.
Proof.
  split; [|intros (a & b & c); apply NoDup_app'; auto]. induction l as [|a l IH]; cbn; intros N; [split; [constructor|split; auto]|]. inversion N as [|? ? X Y]; subst. destruct (IH Y) as (P & Q & R).
  split; [constructor; auto; intros Z; apply X; apply in_or_app; auto|]. split; [exact Q|]. intros x [<-|Z]; [intros W; apply X; apply in_or_app; auto|auto].
Qed.
Lemma runs_bounds pts RC x : Forall (rok pts) RC -> In x (flat_map nodes RC) -> x < length pts.
Proof.
  intros F X. apply in_flat_map in X as (R & X & Y). rewrite Forall_forall in F. destruct (F R X) as (I & _). apply (run_bounds pts R); [exact I|]. destruct R as ((j, c), e). destruct Y as [Y|Y]; [left; exact Y|right; apply in_or_app; auto].
Qed.
Lemma insert_all pts i pts' a RC : insert_anchor pts i = Some (pts', a) -> oan pts i = false -> Forall (rok pts) RC -> NoDup (flat_map nodes RC) ->
  exists RC', Forall2 (same_run pts pts') RC RC' /\ NoDup (flat_map nodes RC') /\ forall x, In x (flat_map nodes RC') -> In x (flat_map nodes RC) \/ length pts <= x.
Proof.
  intros H A. pose proof (insert_grows _ _ _ _ H) as G. induction 1 as [|R RC RK F IH]; intros ND; [exists []; split; [constructor|]; split; [constructor|intros x []]|].
  cbn [flat_map] in ND. apply NoDup_app_iff in ND as (N1 & N2 & N3). destruct (in_dec Nat.eq_dec i (nodes R)) as [X|X].
  - destruct (same_insert _ _ _ _ R H A X N1 RK) as (R' & SR & SUB & ND'). exists (R' :: RC). split; [constructor; [exact SR|]; apply (same_others _ _ i); auto|]. cbn [flat_map]. split.
    + apply NoDup_app_iff. split; [exact ND'|]. split; [exact N2|]. intros x Y Z. destruct (SUB x Y) as [W|W]; [exact (N3 x W Z)|]. pose proof (runs_bounds _ _ _ F Z). lia.
    + intros x Y. apply in_app_or in Y as [Y|Y]; [destruct (SUB x Y); [left; apply in_or_app; auto|right; auto]|left; apply in_or_app; auto].
  - destruct (IH N2) as (RC' & SR & ND' & SUB). exists (R :: RC'). split; [constructor; [apply (same_other _ _ _ _ G); auto|exact SR]|]. cbn [flat_map]. split.
    + apply NoDup_app_iff. split; [exact N1|]. split; [exact ND'|]. intros x Y Z. destruct (SUB x Z) as [W|W]; [exact (N3 x Y W)|]. assert (x < length pts); [|lia]. apply (runs_bounds pts [R]); [constructor; auto|]. cbn [flat_map]. rewrite app_nil_r. exact Y.
    + intros x Y. apply in_app_or in Y as [Y|Y]; [left; apply in_or_app; auto|destruct (SUB x Y); [left; apply in_or_app; auto|right; auto]].
Qed.
Lemma same_trans a b c R1 R2 R3 : same_run a b R1 R2 -> same_run b c R2 R3 -> same_run a c R1 R3.
Proof. intros (A1 & A2 & A3 & (A6 & A7) & A4 & A5 & A8) (B1 & B2 & B3 & (B6 & B7) & B4 & B5 & B8). rewrite A1 in B6. rewrite A2 in B7. split; [congruence|]. split; [congruence|]. split; [congruence|]. split; [split; congruence|]. split; [exact B4|]. split; [congruence|auto]. Qed.
Lemma sames_trans a b c : forall R1 R2 R3, Forall2 (same_run a b) R1 R2 -> Forall2 (same_run b c) R2 R3 -> Forall2 (same_run a c) R1 R3.
Proof. intros R1 R2 R3 H. revert R3. induction H; intros R3 K; inversion K; subst; constructor; auto. eapply same_trans; eauto. Qed.
Lemma sames_rok a b R1 R2 : Forall2 (same_run a b) R1 R2 -> Forall (rok b) R2.
Proof. induction 1 as [|x y l l' X F IH]; constructor; auto. apply X. Qed.
Lemma same_refl a R : rok a R -> same_run a a R R.
Proof. intros K. split; [reflexivity|]. split; [reflexivity|]. split; [reflexivity|]. split; [auto|]. auto. Qed.
Lemma sames_refl a R : Forall (rok a) R -> Forall2 (same_run a a) R R.
Proof. induction 1; constructor; auto. apply same_refl. assumption. Qed.

(** Any number of insertions. *)
Record grown (pts pts' : list opoint) : Prop := mk_grown {
  n_len : length pts <= length pts';
  n_same : forall j p, nth_error pts j = Some p -> exists n, nth_error pts' j = Some (set_next p n);
  n_new : forall j p, length pts <= j -> nth_error pts' j = Some p -> o_state p = Undef /\ o_anchor p = true;
  n_nexts : nexts_ok pts -> nexts_ok pts' }.
Lemma grown_refl pts : grown pts pts.
Proof. constructor; auto. - intros j p E. exists (o_next p). rewrite E. destruct p; reflexivity. - intros j p L E. apply nth_lt in E. lia. Qed.
Lemma grown_trans a b c : grown a b -> grown b c -> grown a c.
Proof.
  intros [L1 S1 N1 X1] [L2 S2 N2 X2]. constructor; auto; try lia.
  - intros j p E. destruct (S1 j p E) as (n & E1). destruct (S2 j _ E1) as (m & E2). exists m. exact E2.
  - intros j p L E. destruct (Nat.lt_ge_cases j (length b)) as [J|J]; [|apply (N2 j); auto]. destruct (nth_error b j) as [q|] eqn:Q; [|apply nth_error_None in Q; lia]. destruct (S2 j q Q) as (m & E2). rewrite E in E2. injection E2 as ->. exact (N1 j q L Q).
Qed.
Lemma grows_grown a b i : grows a b i -> grown a b.
Proof. intros [L O S N X]. constructor; auto; lia. Qed.
Lemma grown_oan a b i : grown a b -> i < length a -> oan b i = oan a i.
Proof. intros G L. destruct (nth_error a i) as [p|] eqn:E; [|apply nth_error_None in E; lia]. destruct (n_same _ _ G i p E) as (n & E'). unfold oan. rewrite E, E'. reflexivity. Qed.

Lemma anchor_list_ok : forall l pts RC, nexts_ok pts -> (forall i, In i l -> i < length pts /\ oan pts i = false) -> Forall (rok pts) RC -> NoDup (flat_map nodes RC) ->
  exists pts' l' RC', anchor_list pts l = Some (pts', l') /\ grown pts pts' /\ length pts' <= length pts + length l /\ Forall2 (same_run pts pts') RC RC' /\ NoDup (flat_map nodes RC').
Proof.
  induction l as [|i l IH]; intros pts RC NX H F ND; cbn [anchor_list].
  - exists pts, [], RC. split; [reflexivity|]. split; [apply grown_refl|]. split; [cbn; lia|]. split; [apply sames_refl; exact F|exact ND].
  - destruct (H i (or_introl eq_refl)) as (LI & AI). destruct (nth_error pts i) as [p|] eqn:E; [|apply nth_error_None in E; lia]. destruct (insert_some pts i p NX E) as (pts1 & a & EI). rewrite EI.
    pose proof (insert_grows _ _ _ _ EI) as G. pose proof (grows_grown _ _ _ G) as GN. destruct (insert_all _ _ _ _ RC EI AI F ND) as (RC1 & S1 & ND1 & _).
    destruct (IH pts1 RC1) as (pts2 & l2 & RC2 & E2 & G2 & L2 & S2 & ND2).
    + apply GN. exact NX.
    + intros j J. destruct (H j (or_intror J)) as (LJ & AJ). split; [pose proof (n_len _ _ GN); lia|]. rewrite (grown_oan _ _ _ GN LJ). exact AJ.
    + eapply sames_rok; eauto.
    + exact ND1.
    + rewrite E2. exists pts2, (a :: l2), RC2. split; [reflexivity|]. split; [eapply grown_trans; eauto|]. split; [pose proof (g_len _ _ _ G); cbn [length]; lia|]. split; [eapply sames_trans; eauto|exact ND2].
Qed.
Lemma anchor_hits_ok : forall ss pts RC, nexts_ok pts -> (forall s i, In s ss -> In i (snd s) -> i < length pts /\ oan pts i = false) -> Forall (rok pts) RC -> NoDup (flat_map nodes RC) ->
  exists pts' ss' RC', anchor_hits pts ss = Some (pts', ss') /\ map fst ss' = map fst ss /\ grown pts pts' /\ length pts' <= length pts + length (flat_map snd ss) /\ Forall2 (same_run pts pts') RC RC' /\ NoDup (flat_map nodes RC').
Proof.
  induction ss as [|(p, hits) ss IH]; intros pts RC NX H F ND; cbn [anchor_hits].
  - exists pts, [], RC. split; [reflexivity|]. split; [reflexivity|]. split; [apply grown_refl|]. split; [cbn; lia|]. split; [apply sames_refl; exact F|exact ND].
  - destruct (anchor_list_ok hits pts RC NX) as (pts1 & l1 & RC1 & E1 & G1 & L1 & S1 & ND1); auto; [intros i X; apply (H (p, hits)); [left; reflexivity|exact X]|]. rewrite E1.
    destruct (IH pts1 RC1) as (pts2 & ss2 & RC2 & E2 & M2 & G2 & L2 & S2 & ND2).
    + apply G1. exact NX.
    + intros s j X J. destruct (H s j (or_intror X) J) as (LJ & AJ). split; [pose proof (n_len _ _ G1); lia|]. rewrite (grown_oan _ _ _ G1 LJ). exact AJ.
    + eapply sames_rok; eauto.
    + exact ND1.
    + rewrite E2. exists pts2, ((p, l1) :: ss2), RC2. split; [reflexivity|]. split; [cbn; rewrite M2; reflexivity|]. split; [eapply grown_trans; eauto|]. split; [cbn [flat_map snd]; rewrite app_length; lia|]. split; [eapply sames_trans; eauto|exact ND2].
Qed.

(** * Following a run *)
Fixpoint turned_to (pts pts' : list opoint) (prev : nat) (c : list nat) : Prop :=
  match c with
  | [] => True
  | x :: c' => (exists q, nth_error pts x = Some q /\ nth_error pts' x = Some (mk_op (if o_anchor q then pos pts (o_next q) else o_data q) prev (Res LSkeep_rev) (o_anchor q))) /\ turned_to pts pts' x c'
  end.
Definition marked (r : lstate) (pts pts' : list opoint) (prev : nat) (c : list nat) : Prop :=
  match r with
  | LSkeep_rev => turned_to pts pts' prev c
  | _ => forall x, In x c -> exists q, nth_error pts x = Some q /\ nth_error pts' x = Some (set_state q (Res r))
  end.
Lemma turned_ext pts pts1 pts' : forall c prev, (forall x, In x c -> nth_error pts1 x = nth_error pts x) -> (forall x q, In x c -> nth_error pts x = Some q -> pos pts1 (o_next q) = pos pts (o_next q)) ->
  turned_to pts1 pts' prev c -> turned_to pts pts' prev c.
Proof.
  induction c as [|x c IH]; intros prev S P T; cbn in *; auto. destruct T as ((q & E & E') & T). split.
  - assert (EX : nth_error pts x = Some q) by (rewrite <- S by auto; exact E). exists q. split; [exact EX|]. rewrite <- (P x q (or_introl eq_refl) EX). exact E'.
  - apply IH; auto. intros y z Y. apply P. right. exact Y.
Qed.
Lemma last_cons {A} (x : A) c d : last (x :: c) d = last c x.
Proof. revert x d. induction c as [|y c IH]; intros x d; [reflexivity|]. change (last (x :: y :: c) d) with (last (y :: c) d). rewrite IH. symmetry. apply IH. Qed.
Lemma trail_next_in pts : forall c n e x q, trail pts n c e -> In x c -> nth_error pts x = Some q -> In (o_next q) c \/ o_next q = e.
Proof.
  induction c as [|y c IH]; intros n e x q T X E; [destruct X|]. cbn in T. destruct T as (-> & q' & E' & U & T). destruct X as [<-|X].
  - rewrite E in E'. injection E' as <-. destruct c as [|z c]; cbn in T; destruct T as (T & _); [right; auto|left; right; left; auto].
  - destruct (IH _ _ _ _ T X E) as [Z|Z]; [left; right; exact Z|right; exact Z].
Qed.
Lemma trail_not_after pts : forall c n e y x q, trail pts n (y :: c) e -> NoDup (y :: c) -> In x (y :: c) -> nth_error pts x = Some q -> o_next q <> y \/ ~ isres pts e.
Proof.
  intros c n e y x q T ND X E. destruct (Nat.eq_dec (o_next q) y) as [Y|Y]; [|left; exact Y]. exfalso. revert y n x q T ND X E Y.
  assert (G : forall c n e y x q, trail pts n c e -> ~ In y c -> isres pts e -> (exists p, nth_error pts y = Some p /\ o_state p = Undef) -> In x c -> nth_error pts x = Some q -> o_next q <> y).
  { clear. induction c as [|z c IH]; intros n e y x q T N R U X E; [destruct X|]. cbn in T. destruct T as (-> & q' & E' & U' & T). destruct X as [<-|X].
    - rewrite E in E'. injection E' as <-. intros Y. destruct c as [|w c]; cbn in T.
      + destruct T as (T & _). rewrite Y in T. subst e. destruct R as (p & r & Ep & Sp). destruct U as (p' & Ep' & Up). congruence.
      + destruct T as (T & _). apply N. right. left. congruence.
    - eapply IH; eauto. intros Y. apply N. right. exact Y. }
  intros y n x q T ND X E Y. cbn in T. destruct T as (-> & q' & E' & U' & T). inversion ND as [|? ? N ND']; subst.
  destruct X as [<-|X].
  - rewrite E in E'. injection E' as <-. destruct c as [|w c]; cbn in T.
    + destruct T as (T & q1 & r1 & E1 & S1). rewrite T in E. congruence.
    + destruct T as (T & _). apply N. left. congruence.
  - apply (G c (o_next q') e (o_next q) x q T); auto; [eapply trail_end; eauto|eauto].
Qed.
Lemma follow_turned : forall c fuel pts m prev n e, trail pts n c e -> NoDup c ->
      exists pts' m', (length c < fuel -> follow_loop fuel LSkeep_rev pts m prev n = Some (pts', m', last c prev, e)) /\ (fuel <= length c -> follow_loop fuel LSkeep_rev pts m prev n = None) /\
      length pts' = length pts /\ (forall j, ~ In j c -> nth_error pts' j = nth_error pts j) /\ turned_to pts pts' prev c.
Proof.
  induction c as [|x c IH]; intros fuel pts m prev n e T ND.
  - cbn in T. destruct T as (-> & q & r' & E & S). exists pts, m. split; [|split; [|split; [reflexivity|split; [reflexivity|cbn; auto]]]].
    + intros L. destruct fuel as [|f]; [cbn in L; lia|]. cbn [follow_loop last]. rewrite E, S. reflexivity.
    + intros L. cbn in L. destruct fuel as [|f]; [reflexivity|lia].
  - pose proof T as T0. cbn in T. destruct T as (-> & q & E & U & T). inversion ND as [|? ? N ND']; subst. assert (LN : n < length pts) by (eapply nth_lt; eauto).
    assert (RE : isres pts e) by (eapply trail_end; eauto).
    assert (NE : n <> e). { intros ->. destruct RE as (p' & r' & E' & S'). congruence. }
    set (x1 := mk_op (if o_anchor q then pos pts (o_next q) else o_data q) prev (Res LSkeep_rev) (o_anchor q)).
    assert (EQ : exists qn, nth_error pts (o_next q) = Some qn). { destruct c as [|y c]; cbn in T; destruct T as (-> & T); [destruct T as (q1 & r1 & E1 & _)|destruct T as (q1 & E1 & _)]; eauto. }
    destruct EQ as (qn & EQ).
    destruct (IH (pred fuel) (put pts n x1) m n (o_next q) e) as (pts' & m' & F1 & F2 & LEN & OTH & MK); auto.
    { apply trail_ext with (pts := pts); auto; [intros y Y; apply put_other; intros ->; contradiction|]. destruct RE as (p' & r' & E' & S'). exists p', r'. rewrite put_other by exact NE. auto. }
    exists pts', m'. rewrite last_cons.
    assert (ST : forall f, follow_loop (S f) LSkeep_rev pts m prev n = follow_loop f LSkeep_rev (put pts n x1) m n (o_next q)).
    { intros f. cbn [follow_loop keeps revs negb]. rewrite E, U. unfold x1, pos. rewrite EQ. destruct (o_anchor q) eqn:AQ; [reflexivity|]. unfold set_next, set_state. cbn [o_data o_state o_anchor]. rewrite AQ. reflexivity. }
    split; [|split; [|split; [rewrite LEN; apply put_length|split]]].
    + intros L. cbn [length] in L. destruct fuel as [|f]; [lia|]. rewrite ST. apply F1. cbn. lia.
    + intros L. cbn [length] in L. destruct fuel as [|f]; [reflexivity|]. rewrite ST. apply F2. cbn. lia.
    + intros j J. cbn [In] in J. rewrite OTH by tauto. apply put_other. tauto.
    + cbn [turned_to]. split.
      * exists q. split; [exact E|]. rewrite OTH by exact N. unfold x1. apply (put_same' _ _ _ _ E).
      * apply turned_ext with (pts1 := put pts n x1); [| |exact MK].
        -- intros y Y. apply put_other. intros ->. contradiction.
        -- intros y z Y EY. unfold pos. rewrite put_other; [reflexivity|]. intros X. destruct (trail_not_after _ _ _ _ _ y z T0 ND (or_intror Y) EY) as [W|W]; [congruence|contradiction].
Qed.
Lemma follow_exact : forall c fuel r pts m prev n e, trail pts n c e -> NoDup c ->
  exists pts' m', (length c < fuel -> follow_loop fuel r pts m prev n = Some (pts', m', last c prev, e)) /\ (fuel <= length c -> follow_loop fuel r pts m prev n = None) /\
    length pts' = length pts /\ (forall j, ~ In j c -> nth_error pts' j = nth_error pts j) /\ marked r pts pts' prev c.
Proof.
  intros c fuel r pts m prev n e T ND.
  destruct (match r with LSkeep_rev => true | _ => false end) eqn:RV; [destruct r; try discriminate; apply follow_turned; auto|].
  assert (G : exists pts' m', (length c < fuel -> follow_loop fuel r pts m prev n = Some (pts', m', last c prev, e)) /\ (fuel <= length c -> follow_loop fuel r pts m prev n = None) /\
    length pts' = length pts /\ (forall j, ~ In j c -> nth_error pts' j = nth_error pts j) /\ forall x, In x c -> exists q, nth_error pts x = Some q /\ nth_error pts' x = Some (set_state q (Res r))).
  2:{ destruct G as (pts' & m' & G1 & G2 & G3 & G4 & G5). exists pts', m'. repeat (split; [assumption|]). destruct r; try discriminate; exact G5. }
  revert fuel pts m prev n T ND. induction c as [|x c IH]; intros fuel pts m prev n T ND.
  - cbn in T. destruct T as (-> & q & r' & E & S). exists pts, m. split; [|split; [|split; [reflexivity|split; [reflexivity|intros x []]]]].
    + intros L. destruct fuel as [|f]; [cbn in L; lia|]. cbn [follow_loop last]. rewrite E, S. reflexivity.
    + intros L. cbn in L. destruct fuel as [|f]; [reflexivity|lia].
  - cbn in T. destruct T as (-> & q & E & U & T). inversion ND as [|? ? N ND']; subst.
    assert (RE : isres pts e) by (eapply trail_end; eauto).
    assert (NE : n <> e). { intros ->. destruct RE as (p' & r' & E' & S'). congruence. }
    set (m1 := if negb (keeps r) then m ++ [(prev, n)] else m).
    assert (FRAME : forall y, In y c -> nth_error (put pts n (set_state q (Res r))) y = nth_error pts y) by (intros y Y; apply put_other; intros ->; contradiction).
    destruct (IH (pred fuel) (put pts n (set_state q (Res r))) m1 n (o_next q)) as (pts' & m' & F1 & F2 & LEN & OTH & MK); auto.
    { apply trail_ext with (pts := pts); auto. destruct RE as (p' & r' & E' & S'). exists p', r'. rewrite put_other by exact NE. auto. }
    exists pts', m'. rewrite last_cons. split; [|split; [|split; [rewrite LEN; apply put_length|split]]].
    + intros L. cbn [length] in L. destruct fuel as [|f]; [lia|]. cbn [follow_loop pred] in *. rewrite E, U. unfold m1 in F1. destruct r; cbn [keeps revs negb] in *; try discriminate; apply F1; lia.
    + intros L. cbn [length] in L. destruct fuel as [|f]; [reflexivity|]. cbn [follow_loop pred] in *. rewrite E, U. unfold m1 in F2. destruct r; cbn [keeps revs negb] in *; try discriminate; apply F2; lia.
    + intros j J. cbn [In] in J. rewrite OTH by tauto. apply put_other. tauto.
    + intros x [<-|X]; [exists q; split; [exact E|]; rewrite OTH by exact N; apply (put_same' _ _ _ _ E)|]. destruct (MK x X) as (q1 & Q1 & Q2). exists q1. rewrite FRAME in Q1 by exact X. auto.
Qed.
