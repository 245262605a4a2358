(** Joining the kept lines: which points are linked to which, from the first run followed to
    the last end joined. *)
From Coq Require Import ZArith List Bool Arith Permutation Lia.
From Verif Require Import GeomModel OutModel OutSpec JoinSpec CycleProofs JoinProofs.
Import ListNotations.

(** * Maps from points *)
Definition pm_all {A} (m : pmap A) : list (point * A) := flat_map (fun kv => map (pair (fst kv)) (snd kv)) m.
Lemma pm_split {A} (m : pmap A) k : exists rest, Permutation (pm_all m) (map (pair k) (pm_get m k) ++ rest) /\ (forall v, Permutation (pm_all (pm_set m k v)) (map (pair k) v ++ rest)).
Proof.
  induction m as [|(k', v') m (rest & P1 & P2)]; cbn [pm_get pm_set].
  - exists []. split; [reflexivity|]. intros v. cbn. reflexivity.
  - destruct (peq_spec k k') as [<-|N].
    + exists (pm_all m). split; [reflexivity|]. intros v. reflexivity.
    + exists (map (pair k') v' ++ rest). cbn [pm_all flat_map fst snd]. fold (pm_all m). split.
      * rewrite P1. rewrite !app_assoc. apply Permutation_app_tail. apply Permutation_app_comm.
      * intros v. fold (pm_all (pm_set m k v)). rewrite P2. rewrite !app_assoc. apply Permutation_app_tail. apply Permutation_app_comm.
Qed.
Lemma pm_push_all {A} (m : pmap A) k x : Permutation (pm_all (pm_push m k x)) ((k, x) :: pm_all m).
Proof.
  destruct (pm_split m k) as (rest & P1 & P2). unfold pm_push. rewrite P2, P1, map_app. cbn [map]. rewrite <- app_assoc. cbn [app]. symmetry. apply Permutation_middle.
Qed.

(** * Links *)
Definition edges (pts : list opoint) (K : list nat) : list (point * point) := map (fun i => (pos pts i, pos pts (onx pts i))) K.
Record linv (pts : list opoint) (K E T : list nat) : Prop := mk_linv {
  l_nodup : NoDup K;
  l_keep : forall i, In i K -> exists p r, nth_error pts i = Some p /\ o_state p = Res r /\ keeps r = true;
  l_next : forall i, In i K -> isres pts (onx pts i) /\ (oan pts (onx pts i) = true -> oan pts i = false /\ pos pts (onx pts i) = pos pts i);
  l_inner : forall i, In i K -> ~ In i E -> In (onx pts i) K /\ ~ In (onx pts i) T;
  l_inj : forall i j, In i K -> In j K -> ~ In i E -> ~ In j E -> onx pts i = onx pts j -> i = j;
  l_ends : NoDup E /\ incl E K /\ (forall i, In i E -> oan pts (onx pts i) = false);
  l_targets : NoDup T /\ incl T K }.
Definition heads (V : list (point * virt)) : list nat := flat_map (fun kv => if v_keep (snd kv) && negb (v_end (snd kv)) then [v_next (snd kv)] else []) V.
Definition vedges (pts : list opoint) (V : list (point * virt)) : list (point * point) := flat_map (fun kv => if v_keep (snd kv) then [(fst kv, pos pts (v_next (snd kv)))] else []) V.
Record binv (pts : list opoint) (K : list nat) (S : list (point * nat)) (V : list (point * virt)) (O : list nat) : Prop := mk_binv {
  b_orph : forall i, In i O -> isres pts i /\ oan pts i = false;
  b_apart : NoDup O /\ forall i, In i O -> ~ In i K;
  b_start : forall k s, In (k, s) S -> pos pts s = k /\ oan pts s = false;
  b_virtual : forall k v, In (k, v) V -> v_keep v = true -> isres pts (v_next v) /\ (oan pts (v_next v) = true -> pos pts (v_next v) = k) /\ (v_end v = true -> oan pts (v_next v) = false);
  b_vend : forall k v, In (k, v) V -> v_end v = true -> v_keep v = true;
  b_count : length V = length O }.
Definition finv (pts : list opoint) (K E : list nat) (S : list (point * nat)) (V : list (point * virt)) (O : list nat) : Prop :=
  linv pts K E (map snd S ++ heads V) /\ binv pts K S V O.

Lemma linv_perm pts K E T K' E' T' : Permutation K K' -> Permutation E E' -> Permutation T T' -> linv pts K E T -> linv pts K' E' T'.
Proof.
  intros PK PE PT [A B C D I F G].
  assert (IK : forall i, In i K' -> In i K) by (intros i X; eapply Permutation_in; [symmetry; exact PK|exact X]). assert (IK' : forall i, In i K -> In i K') by (intros i X; eapply Permutation_in; eauto).
  assert (IE : forall i, In i E' -> In i E) by (intros i X; eapply Permutation_in; [symmetry; exact PE|exact X]). assert (IE' : forall i, In i E -> In i E') by (intros i X; eapply Permutation_in; eauto).
  assert (IT : forall i, In i T' -> In i T) by (intros i X; eapply Permutation_in; [symmetry; exact PT|exact X]).
  constructor; auto.
  - eapply Permutation_NoDup; eauto.
  - intros i X Y. destruct (D i) as (D1 & D2); auto.
  - destruct F as (F1 & F2 & F3). split; [eapply Permutation_NoDup; eauto|]. split; [intros i X; auto|]. intros i X. auto.
  - destruct G as (G1 & G2). split; [eapply Permutation_NoDup; eauto|]. intros i X. auto.
Qed.
(** The invariant only depends on some of the points. *)
Lemma res_frame pts pts' : (forall j p r, nth_error pts j = Some p -> o_state p = Res r -> exists n, nth_error pts' j = Some (set_next p n)) ->
  forall j, isres pts j -> isres pts' j /\ pos pts' j = pos pts j /\ oan pts' j = oan pts j.
Proof.
  intros F j (p & r & E & S). destruct (F j p r E S) as (n & E'). split; [exists (set_next p n), r; auto|]. unfold pos, oan. rewrite E, E'. auto.
Qed.
Lemma linv_frame pts pts' K E T : (forall j, In j K -> nth_error pts' j = nth_error pts j) ->
  (forall j, isres pts j -> isres pts' j /\ pos pts' j = pos pts j /\ oan pts' j = oan pts j) -> linv pts K E T -> linv pts' K E T.
Proof.
  intros FK FR [A B C D I F G]. pose proof FR as RF.
  assert (NX : forall i, In i K -> onx pts' i = onx pts i) by (intros i X; unfold onx; rewrite FK by exact X; reflexivity).
  assert (PX : forall i, In i K -> pos pts' i = pos pts i) by (intros i X; unfold pos; rewrite FK by exact X; reflexivity).
  assert (AX : forall i, In i K -> oan pts' i = oan pts i) by (intros i X; unfold oan; rewrite FK by exact X; reflexivity).
  constructor; auto.
  - intros i X. rewrite FK by exact X. auto.
  - intros i X. destruct (C i X) as (C1 & C2). destruct (RF _ C1) as (R1 & R2 & R3). rewrite NX, R2, R3, PX, AX by exact X. auto.
  - intros i X Y. rewrite NX by exact X. auto.
  - intros i j X Y. rewrite !NX by assumption. auto.
  - destruct F as (F1 & F2 & F3). split; [exact F1|]. split; [exact F2|]. intros i X. rewrite NX by auto. destruct (C i (F2 i X)) as (C1 & _). destruct (RF _ C1) as (_ & _ & R3). rewrite R3. auto.
Qed.
Lemma edges_frame pts pts' K E T : (forall j, In j K -> nth_error pts' j = nth_error pts j) ->
  (forall j, isres pts j -> isres pts' j /\ pos pts' j = pos pts j /\ oan pts' j = oan pts j) -> linv pts K E T -> edges pts' K = edges pts K.
Proof.
  intros FK FR L. pose proof FR as RF. unfold edges. apply map_ext_in. intros i X. unfold onx at 1. rewrite FK by exact X. fold (onx pts i). unfold pos at 1. rewrite FK by exact X. fold (pos pts i).
  f_equal. apply RF. apply L. exact X.
Qed.
Lemma binv_frame pts pts' K S V O T E : linv pts K E T -> (forall k s, In (k, s) S -> In s K) ->
  (forall j, isres pts j -> isres pts' j /\ pos pts' j = pos pts j /\ oan pts' j = oan pts j) -> binv pts K S V O -> binv pts' K S V O.
Proof.
  intros L SK FR [A B C D I F]. pose proof FR as RF. constructor; auto.
  - intros i X. destruct (A i X) as (A1 & A2). destruct (RF i A1) as (R1 & _ & R3). rewrite R3. auto.
  - intros k s X. destruct (C k s X) as (C1 & C2). destruct (RF s) as (_ & R2 & R3); [|rewrite R2, R3; auto]. destruct (l_keep _ _ _ _ L s (SK k s X)) as (p & r & E1 & S1 & _). exists p, r. auto.
  - intros k v X Y. destruct (D k v X Y) as (D1 & D2 & D3). destruct (RF _ D1) as (R1 & R2 & R3). rewrite R2, R3. auto.
Qed.
Lemma vedges_frame pts pts' K S V O : (forall j, isres pts j -> isres pts' j /\ pos pts' j = pos pts j /\ oan pts' j = oan pts j) -> binv pts K S V O -> vedges pts' V = vedges pts V.
Proof.
  intros FR B. pose proof FR as RF. pose proof (b_virtual _ _ _ _ _ B) as D. clear B. induction V as [|(k, v) V IH]; [reflexivity|]. cbn [vedges flat_map fst snd]. fold (vedges pts V) (vedges pts' V). rewrite IH; [|intros k' v' X; apply D; right; exact X].
  destruct (v_keep v) eqn:KV; [|reflexivity]. destruct (D k v (or_introl eq_refl) KV) as (D1 & _). destruct (RF _ D1) as (_ & R2 & _). rewrite R2. reflexivity.
Qed.
Lemma finv_frame pts pts' K E S V O : (forall j, In j K -> nth_error pts' j = nth_error pts j) ->
  (forall j, isres pts j -> isres pts' j /\ pos pts' j = pos pts j /\ oan pts' j = oan pts j) -> finv pts K E S V O ->
  finv pts' K E S V O /\ edges pts' K = edges pts K /\ vedges pts' V = vedges pts V.
Proof.
  intros FK FR (L & B). split; [split|split].
  - eapply linv_frame; eauto.
  - eapply binv_frame; eauto. intros k s X. destruct (l_targets _ _ _ _ L) as (_ & T). apply T. apply in_or_app. left. apply in_map_iff. exists (k, s). auto.
  - eapply edges_frame; eauto.
  - eapply vedges_frame; eauto.
Qed.

(** * Adding a path *)
Fixpoint links (pts : list opoint) (l : list nat) (t : nat) : Prop :=
  match l with [] => True | x :: l' => onx pts x = hd t l' /\ links pts l' t end.
Lemma links_edges pts : forall l t, links pts l t -> edges pts l = segs (map (pos pts) (l ++ [t])).
Proof.
  induction l as [|x l IH]; intros t L; [reflexivity|]. cbn [links] in L. destruct L as (N & L). cbn [edges map]. fold (edges pts l). rewrite (IH t L), N. destruct l as [|y l]; reflexivity.
Qed.
Lemma links_last pts : forall l x t, links pts (x :: l) t -> onx pts (last l x) = t.
Proof. induction l as [|y l IH]; intros x t L; cbn [links hd] in L; [apply L|]. rewrite last_cons. apply IH. cbn [links]. apply L. Qed.
Lemma links_inner pts : forall l x t i, links pts (x :: l) t -> In i (x :: l) -> i <> last l x -> In (onx pts i) l.
Proof.
  induction l as [|y l IH]; intros x t i L X N.
  - destruct X as [<-|[]]. cbn in N. congruence.
  - rewrite last_cons in N. cbn [links hd] in L. destruct L as (N1 & L). destruct X as [<-|X]; [rewrite N1; left; reflexivity|]. right. apply (IH y t i); auto.
Qed.
Lemma links_inj pts : forall l x t i j, links pts (x :: l) t -> NoDup (x :: l) -> In i (x :: l) -> In j (x :: l) -> i <> last l x -> j <> last l x -> onx pts i = onx pts j -> i = j.
Proof.
  induction l as [|y l IH]; intros x t i j L ND X Y NI NJ EQ.
  - destruct X as [<-|[]]. cbn in NI. congruence.
  - rewrite last_cons in NI, NJ. pose proof L as L0. cbn [links hd] in L. destruct L as (N1 & L). apply NoDup_cons_iff in ND as (N & ND').
    assert (IN : forall k, In k (y :: l) -> k <> last l y -> onx pts k <> y).
    { intros k K KL E. pose proof (links_inner pts l y t k) as H. rewrite E in H. apply NoDup_cons_iff in ND' as (N2 & ND2). apply N2. apply H; auto. }
    destruct X as [<-|X]; destruct Y as [<-|Y]; auto.
    + exfalso. apply (IN j Y NJ). congruence.
    + exfalso. apply (IN i X NI). congruence.
    + apply (IH y t i j); auto.
Qed.
Lemma anch_step pts : forall l x t i, links pts (x :: l) t -> anch pts (x :: l ++ [t]) -> In i (x :: l) -> oan pts (onx pts i) = true -> oan pts i = false /\ pos pts (onx pts i) = pos pts i.
Proof.
  induction l as [|y l IH]; intros x t i L A X O.
  - destruct X as [<-|[]]. cbn [links hd] in L. destruct L as (N & _). rewrite N in O |- *. cbn in A. apply A. exact O.
  - cbn [links hd] in L. destruct L as (N & L). destruct X as [<-|X].
    + rewrite N in O |- *. cbn in A. apply A. exact O.
    + apply (IH y t); auto. cbn [app anch] in A. apply A.
Qed.
Lemma linv_path pts K E T x l t : linv pts K E T -> NoDup (x :: l) -> (forall i, In i (x :: l) -> ~ In i K) ->
  (forall i, In i (x :: l) -> exists p r, nth_error pts i = Some p /\ o_state p = Res r /\ keeps r = true) -> links pts (x :: l) t -> anch pts (x :: l ++ [t]) -> oan pts t = false -> isres pts t ->
  linv pts ((x :: l) ++ K) (last l x :: E) (x :: T).
Proof.
  intros [A B C D I F G] ND FR KE LK AN OT RT. set (l0 := x :: l) in *.
  assert (LL : In (last l x) l0). { unfold l0. clear. revert x. induction l as [|y l IH]; intros x; [left; reflexivity|]. rewrite last_cons. right. apply IH. }
  assert (NX : forall i, In i l0 -> i = last l x /\ onx pts i = t \/ i <> last l x /\ In (onx pts i) l).
  { intros i X. destruct (Nat.eq_dec i (last l x)) as [->|N]; [left; split; [reflexivity|]; apply links_last; exact LK|right; split; [exact N|]; eapply links_inner; eauto]. }
  assert (EK : forall i, In i E -> In i K) by apply F. assert (TK : forall i, In i T -> In i K) by apply G.
  constructor.
  - apply NoDup_app_iff. split; [exact ND|]. split; [exact A|]. exact FR.
  - intros i X. apply in_app_or in X as [X|X]; auto.
  - intros i X. apply in_app_or in X as [X|X]; [|auto]. split; [|intros O; eapply anch_step; eauto].
    destruct (NX i X) as [(_ & ->)|(_ & Y)]; [exact RT|]. destruct (KE (onx pts i) (or_intror Y)) as (p & r & E1 & S1 & _). exists p, r. auto.
  - intros i X Y. apply in_app_or in X as [X|X].
    + destruct (NX i X) as [(-> & _)|(_ & Z)]; [exfalso; apply Y; left; reflexivity|]. split; [apply in_or_app; left; right; exact Z|]. intros [W|W].
      * apply NoDup_cons_iff in ND as (N1 & N2). apply N1. rewrite W. exact Z.
      * apply (FR (onx pts i)); [right; exact Z|]. apply TK. exact W.
    + destruct (D i X) as (D1 & D2); [intros Z; apply Y; right; exact Z|]. split; [apply in_or_app; auto|]. intros [W|W]; [|contradiction]. apply (FR x); [left; reflexivity|]. rewrite W. exact D1.
  - intros i j X Y NI NJ EQ. assert (CROSS : forall i j, In i l0 -> In j K -> ~ In i (last l x :: E) -> ~ In j (last l x :: E) -> onx pts i <> onx pts j).
    { clear - NX FR D. intros i j X Y NI NJ EQ. destruct (NX i X) as [(-> & _)|(_ & Z)]; [apply NI; left; reflexivity|]. apply (FR (onx pts i)); [right; exact Z|]. rewrite EQ. apply D; auto. intros W. apply NJ. right. exact W. }
    apply in_app_or in X as [X|X]; apply in_app_or in Y as [Y|Y].
    + apply (links_inj pts l x t i j); auto; intros ->; [apply NI|apply NJ]; left; reflexivity.
    + exfalso. apply (CROSS i j); auto.
    + exfalso. apply (CROSS j i); auto.
    + apply I; auto; intros Z; [apply NI|apply NJ]; right; exact Z.
  - destruct F as (F1 & F2 & F3). split; [|split].
    + constructor; [|exact F1]. intros Z. apply (FR (last l x)); auto.
    + intros i [<-|Z]; apply in_or_app; auto.
    + intros i [<-|Z]; [|auto]. rewrite (links_last _ _ _ _ LK). exact OT.
  - destruct G as (G1 & G2). split.
    + constructor; [|exact G1]. intros Z. apply (FR x); [left; reflexivity|auto].
    + intros i [<-|Z]; apply in_or_app; [left; left; reflexivity|auto].
Qed.

(** * Reversed runs *)
Lemma segs_snoc : forall l x y, segs (l ++ [x; y]) = segs (l ++ [x]) ++ [(x, y)].
Proof. intros l x y. rewrite segs_app. reflexivity. Qed.
Lemma segs_rev l : segs (rev l) = rev (map turned (segs l)).
Proof.
  induction l as [|a l IH]; [reflexivity|]. destruct l as [|b l]; [reflexivity|]. rewrite segs_cons. cbn [map rev]. change (rev (b :: l)) with (rev l ++ [b]) in IH |- *.
  rewrite <- app_assoc. cbn [app]. rewrite segs_snoc, IH. reflexivity.
Qed.
(** Positions move to the next one at anchors. *)
Fixpoint shifted (pts pts' : list opoint) (l : list nat) : Prop :=
  match l with
  | [] => True
  | x :: l' => pos pts' x = (match l' with y :: _ => if oan pts x then pos pts y else pos pts x | [] => pos pts x end) /\ (l' = [] -> oan pts x = false) /\ shifted pts pts' l'
  end.
Lemma nonzero_cons e l : nonzero (e :: l) = (if point_eqb (fst e) (snd e) then [] else [e]) ++ nonzero l.
Proof. unfold nonzero. cbn [filter]. destruct (point_eqb _ _); reflexivity. Qed.
Lemma shift_same pts pts' : forall n l, length l <= n -> shifted pts pts' l -> anch pts l -> (match l with x :: _ => oan pts x = false | [] => True end) -> nonzero (segs (map (pos pts') l)) = nonzero (segs (map (pos pts) l)).
Proof.
  induction n as [|n IH]; intros l LN SH AN HD; [destruct l; [reflexivity|cbn in LN; lia]|]. destruct l as [|x l]; [reflexivity|]. cbn [shifted anch] in SH, AN. destruct SH as (PX & _ & SH). destruct AN as (AX & AN). rewrite HD in PX.
  destruct l as [|y l]; [reflexivity|]. cbn [length] in LN. destruct (oan pts y) eqn:OY.
  - destruct (AX eq_refl) as (_ & PY). cbn [shifted anch] in SH, AN. destruct SH as (PY' & LY & SH). destruct AN as (AY & AN). destruct l as [|z l]; [rewrite (LY eq_refl) in OY; discriminate|]. rewrite OY in PY'.
    assert (OZ : oan pts z = false). { destruct (oan pts z) eqn:OZ; [|reflexivity]. destruct (AY eq_refl) as (Q & _). congruence. }
    assert (PZ : pos pts' z = pos pts z). { cbn [shifted] in SH. destruct SH as (PZ & _). rewrite OZ in PZ. destruct l; exact PZ. }
    specialize (IH (z :: l)). cbn [length] in *. assert (Q := IH ltac:(lia) SH AN OZ). cbn [map] in *. rewrite !segs_cons, !nonzero_cons. cbn [fst snd]. rewrite PX, PY', PZ, PY, !peq_refl. rewrite PZ in Q. rewrite Q. cbn [app]. destruct (point_eqb (pos pts x) (pos pts z)); reflexivity.
  - assert (PY : pos pts' y = pos pts y). { cbn [shifted] in SH. destruct SH as (PY & _). rewrite OY in PY. destruct l; exact PY. }
    specialize (IH (y :: l)). assert (Q := IH ltac:(cbn [length]; lia) SH AN OY). cbn [map] in *. rewrite !segs_cons, !nonzero_cons. cbn [fst snd]. rewrite PX, PY in *. rewrite Q. reflexivity.
Qed.
Lemma turned_node pts pts' : forall c prev x, turned_to pts pts' prev c -> In x c -> exists q y, nth_error pts x = Some q /\ nth_error pts' x = Some (mk_op (if o_anchor q then pos pts (o_next q) else o_data q) y (Res LSkeep_rev) (o_anchor q)).
Proof. induction c as [|z c IH]; intros prev x T X; [destruct X|]. cbn in T. destruct T as ((q & E & E') & T). destruct X as [<-|X]; [eauto|eapply IH; eauto]. Qed.
Lemma turned_shifted pts pts' : forall c n e prev x0, turned_to pts pts' prev c -> trail pts n c e -> pos pts' e = pos pts e -> oan pts e = false -> onx pts x0 = n -> pos pts' x0 = (if oan pts x0 then pos pts n else pos pts x0) -> shifted pts pts' (x0 :: c ++ [e]).
Proof.
  induction c as [|y c IH]; intros n e prev x0 TT T PE OE NX P0.
  - cbn in T. destruct T as (-> & _). cbn. rewrite OE. split; [exact P0|]. split; [discriminate|]. auto.
  - cbn [turned_to] in TT. destruct TT as ((q & E & E') & TT). cbn in T. destruct T as (-> & q' & EQ & U & T). rewrite E in EQ. injection EQ as <-.
    cbn [app shifted]. split; [exact P0|]. split; [discriminate|]. apply (IH (o_next q) e n n TT T PE OE).
    + unfold onx. rewrite E. reflexivity.
    + unfold pos at 1. rewrite E'. cbn [o_data]. unfold oan. rewrite E. destruct (o_anchor q); [reflexivity|]. unfold pos. rewrite E. reflexivity.
Qed.
Lemma links_snoc pts : forall l x t, links pts (l ++ [x]) t <-> links pts l x /\ onx pts x = t.
Proof. induction l as [|y l IH]; intros x t; cbn [app links hd]; [tauto|]. rewrite IH. destruct l as [|z l]; cbn [app hd]; tauto. Qed.
Lemma turned_links pts pts' : forall c prev, turned_to pts pts' prev c -> links pts' (rev c) prev.
Proof.
  induction c as [|x c IH]; intros prev T; [exact I|]. cbn in T. destruct T as ((q & E & E') & T). cbn [rev]. apply links_snoc. split; [apply IH; exact T|]. unfold onx. rewrite E'. reflexivity.
Qed.
Lemma anch_snoc pts : forall l y x, anch pts (l ++ [y; x]) <-> anch pts (l ++ [y]) /\ (oan pts x = true -> oan pts y = false /\ pos pts x = pos pts y).
Proof.
  induction l as [|a l IH]; intros y x; [cbn; tauto|]. cbn [app anch]. rewrite IH. destruct l as [|b l]; cbn [app]; tauto.
Qed.
Lemma anch_rev pts pts' : forall l, shifted pts pts' l -> anch pts l -> (forall x, In x l -> oan pts' x = oan pts x) -> anch pts' (rev l).
Proof.
  induction l as [|x l IH]; intros SH AN OA; [exact I|]. cbn [shifted anch] in SH, AN. destruct SH as (PX & LX & SH). destruct AN as (AX & AN). specialize (IH SH AN (fun z Z => OA z (or_intror Z))).
  destruct l as [|y l]; [cbn; auto|]. cbn [rev] in IH |- *. rewrite <- app_assoc. cbn [app]. apply anch_snoc. split; [exact IH|]. rewrite (OA x), (OA y) by (cbn; auto). intros OX. rewrite OX in PX.
  assert (OY : oan pts y = false). { destruct (oan pts y) eqn:OY; [|reflexivity]. destruct (AX eq_refl). congruence. }
  split; [exact OY|]. cbn [shifted] in SH. destruct SH as (PY & _). rewrite OY in PY. rewrite PX, PY. destruct l; reflexivity.
Qed.
Lemma hd_rev (c : list nat) i t : hd t (rev c ++ [i]) = last c i.
Proof. revert i. induction c as [|x c IH]; intros i; [reflexivity|]. rewrite last_cons. cbn [rev]. rewrite <- app_assoc. cbn [app]. specialize (IH x). destruct (rev c) as [|z l]; cbn in *; exact IH. Qed.

(** * One sample *)
Definition fstate (pts : list opoint) (br : breaks) (K : list nat) (RC : list run) : Prop :=
  finv pts K (b_ends br) (pm_all (b_starts br)) (pm_all (b_virt br)) (b_orphans br) /\
  Forall (rok pts) RC /\ NoDup (flat_map nodes RC) /\ (forall x, In x (flat_map nodes RC) -> ~ In x K /\ ~ In x (b_orphans br)) /\
  (forall j p r, nth_error pts j = Some p -> o_state p = Res r -> keeps r = true -> In j K \/ In j (b_orphans br) \/ In j (map head RC)).
(** Where kept paths start and end, and where reversed runs start and end. *)
Definition w_start (pts : list opoint) (R : run) : list point := match judgement pts R with Res LSkeep => [pos pts (head R)] | Res LSkeep_rev => [pos pts (snd R)] | _ => [] end.
Definition w_end (pts : list opoint) (R : run) : list point := match judgement pts R with Res LSkeep => [pos pts (snd R)] | Res LSkeep_rev => [pos pts (head R)] | _ => [] end.
Definition r_start (pts : list opoint) (R : run) : list point := match judgement pts R with Res LSkeep_rev | Res LSdiscard_rev => [pos pts (head R)] | _ => [] end.
Definition r_end (pts : list opoint) (R : run) : list point := match judgement pts R with Res LSkeep_rev | Res LSdiscard_rev => [pos pts (snd R)] | _ => [] end.
Definition all_starts (S : list (point * nat)) (V : list (point * virt)) : list point := map fst S ++ flat_map (fun kv => if v_keep (snd kv) then [fst kv] else []) V.
Definition all_ends (pts : list opoint) (E : list nat) (V : list (point * virt)) : list point := map (fun i => pos pts (onx pts i)) E ++ flat_map (fun kv => if v_end (snd kv) then [pos pts (v_next (snd kv))] else []) V.

Lemma trail_all_links pts : forall c n e i, trail pts n c e -> onx pts i = n -> links pts (i :: c) e.
Proof.
  induction c as [|x c IH]; intros n e i T N; cbn [links hd]; [cbn in T; destruct T as (-> & _); auto|]. cbn in T. destruct T as (-> & q & E & U & T). split; [exact N|]. apply (IH (o_next q) e n T). unfold onx. rewrite E. reflexivity.
Qed.
Lemma links_ext pts pts' : forall l t, (forall x, In x l -> onx pts' x = onx pts x) -> links pts l t -> links pts' l t.
Proof. induction l as [|x l IH]; intros t H L; cbn [links] in *; auto. destruct L as (N & L). rewrite H by (left; reflexivity). split; [exact N|]. apply IH; auto. intros y Y. apply H. right. exact Y. Qed.
Lemma perm_flat {A B} (f : A -> list B) l l' : Permutation l l' -> Permutation (flat_map f l) (flat_map f l').
Proof. intros P. induction P; cbn; auto. - apply Permutation_app_head. assumption. - rewrite !app_assoc. apply Permutation_app_tail, Permutation_app_comm. - etransitivity; eauto. Qed.
Lemma heads_perm V V' : Permutation V V' -> Permutation (heads V) (heads V').
Proof. apply perm_flat. Qed.
Lemma vedges_perm pts V V' : Permutation V V' -> Permutation (vedges pts V) (vedges pts V').
Proof. apply perm_flat. Qed.
Lemma binv_perm pts K K' S S' V V' O O' : Permutation K K' -> Permutation S S' -> Permutation V V' -> Permutation O O' -> binv pts K S V O -> binv pts K' S' V' O'.
Proof.
  intros PK PS PV PO [A B C D I F].
  assert (IK : forall i, In i K' -> In i K) by (intros i X; eapply Permutation_in; [symmetry; exact PK|exact X]). assert (IO : forall i, In i O' -> In i O) by (intros i X; eapply Permutation_in; [symmetry; exact PO|exact X]).
  assert (IS : forall i, In i S' -> In i S) by (intros i X; eapply Permutation_in; [symmetry; exact PS|exact X]). assert (IV : forall i, In i V' -> In i V) by (intros i X; eapply Permutation_in; [symmetry; exact PV|exact X]).
  constructor.
  - intros i X. auto.
  - destruct B as (B1 & B2). split; [eapply Permutation_NoDup; eauto|]. intros i X Y. apply (B2 i); auto.
  - intros k s X. auto.
  - intros k v X. apply D. auto.
  - intros k v X. apply I with (k := k). auto.
  - rewrite <- (Permutation_length PV), <- (Permutation_length PO). exact F.
Qed.
Lemma tally_frame pts pts' K E S V O : (forall j, In j K -> nth_error pts' j = nth_error pts j) ->
  (forall j, isres pts j -> isres pts' j /\ pos pts' j = pos pts j /\ oan pts' j = oan pts j) -> finv pts K E S V O ->
  all_ends pts' E V = all_ends pts E V /\ map (pos pts') O = map (pos pts) O.
Proof.
  intros FK FR (L & B). pose proof FR as RF. split; [unfold all_ends; f_equal|].
  - apply map_ext_in. intros i X. apply (proj1 (proj2 (l_ends _ _ _ _ L))) in X. unfold onx at 1. rewrite FK by exact X. fold (onx pts i). apply RF. apply L. exact X.
  - pose proof (b_virtual _ _ _ _ _ B) as D. pose proof (b_vend _ _ _ _ _ B) as D'. clear B L. induction V as [|(k, v) V IH]; [reflexivity|]. cbn [flat_map fst snd]. rewrite IH; [|intros k' v' X; apply D; right; exact X|intros k' v' X; apply (D' k'); right; exact X].
    destruct (v_end v) eqn:EV; [|reflexivity]. destruct (D k v (or_introl eq_refl) (D' k v (or_introl eq_refl) EV)) as (D1 & _). destruct (RF _ D1) as (_ & R2 & _). rewrite R2. reflexivity.
  - apply map_ext_in. intros i X. apply RF. apply (b_orph _ _ _ _ _ B). exact X.
Qed.
Lemma same_frame pts pts' RC : (forall R x, In R RC -> In x (nodes R) -> nth_error pts' x = nth_error pts x) -> (forall j, isres pts j -> nth_error pts' j = nth_error pts j) -> Forall (rok pts) RC -> Forall2 (same_run pts pts') RC RC.
Proof.
  intros FN FR. induction 1 as [|R RC RK F IH]; constructor; [|apply IH; intros; eapply FN; eauto; right; auto].
  destruct R as ((i, c), e). destruct RK as ((p & r & E & S & T) & HA & EA & A).
  assert (RE : isres pts e) by (eapply trail_end; eauto).
  assert (W : forall x, In x (i :: c ++ [e]) -> nth_error pts' x = nth_error pts x).
  { intros x [<-|X]; [apply (FN (i, c, e)); left; reflexivity|]. apply in_app_or in X as [X|[<-|[]]]; [apply (FN (i, c, e)); [left; reflexivity|right; exact X]|apply FR; exact RE]. }
  assert (WE : In e (i :: c ++ [e])) by (right; apply in_or_app; right; left; reflexivity).
  split; [reflexivity|]. split; [reflexivity|]. split; [unfold judgement; cbn [fst]; rewrite W by (left; reflexivity); reflexivity|].
  split; [unfold pos; cbn [head fst snd]; rewrite !W by (auto; left; reflexivity); auto|]. split.
  - split; [|split; [|split]].
    + exists p, r. rewrite W by (left; reflexivity). split; [exact E|]. split; [exact S|]. apply trail_ext with (pts := pts); [| |exact T].
      * intros x X. apply W. right. apply in_or_app. auto.
      * destruct RE as (q & r' & Q & SQ). exists q, r'. rewrite W by exact WE. auto.
    + unfold oan in *. cbn [head fst] in *. rewrite W by (left; reflexivity). exact HA.
    + unfold oan in *. cbn [snd] in *. rewrite W by exact WE. exact EA.
    + apply anch_ext with (pts := pts); [|exact A]. intros x X. unfold oan, pos. rewrite W by exact X. auto.
  - split; [unfold run_lines; do 2 f_equal; apply map_ext_in; intros x X; unfold pos; rewrite W by exact X; reflexivity|]. apply clear_ext. intros x X. unfold oan, pos. rewrite W by exact X. auto.
Qed.
(** Kept lines that do not lead to an anchor have two different ends. *)
Definition enz (pts : list opoint) (K : list nat) (V : list (point * virt)) : Prop :=
  (forall i, In i K -> oan pts (onx pts i) = false -> pos pts i <> pos pts (onx pts i)) /\ (forall k v, In (k, v) V -> v_keep v = true -> oan pts (v_next v) = false -> k <> pos pts (v_next v)).
Lemma enz_frame pts pts' K E S V O : (forall j, In j K -> nth_error pts' j = nth_error pts j) ->
  (forall j, isres pts j -> isres pts' j /\ pos pts' j = pos pts j /\ oan pts' j = oan pts j) -> finv pts K E S V O -> enz pts K V -> enz pts' K V.
Proof.
  intros FK RF (L & B) (E1 & E2). split.
  - intros i XK. destruct (l_next _ _ _ _ L i XK) as (N & _). unfold onx. rewrite FK by exact XK. fold (onx pts i). destruct (RF _ N) as (_ & -> & ->). unfold pos at 1. rewrite FK by exact XK. apply E1. exact XK.
  - intros k v X Y. destruct (b_virtual _ _ _ _ _ B k v X Y) as (N & _). destruct (RF _ N) as (_ & -> & ->). auto.
Qed.
Lemma clear_links pts : forall l t, links pts l t -> clear pts (l ++ [t]) -> forall i, In i l -> oan pts (onx pts i) = false -> pos pts i <> pos pts (onx pts i).
Proof.
  induction l as [|x l IH]; intros t L C i X O; [destruct X|]. cbn [links] in L. destruct L as (N & L). cbn [app clear] in C. destruct C as (C1 & C2). destruct X as [<-|X]; [|apply (IH t); auto].
  rewrite N in *. destruct l as [|y l]; cbn [hd app] in *; apply C1; exact O.
Qed.
Lemma clear_snoc pts : forall l x y, clear pts (l ++ [x]) -> (oan pts y = false -> pos pts x <> pos pts y) -> clear pts (l ++ [x; y]).
Proof.
  induction l as [|z l IH]; intros x y C H; [cbn; auto|]. cbn [app clear] in *. destruct C as (C1 & C2). split; [|apply IH; auto]. destruct l; exact C1.
Qed.
Lemma clear_rev pts pts' : forall l, shifted pts pts' l -> anch pts l -> clear pts l -> (forall x, In x l -> oan pts' x = oan pts x) -> clear pts' (rev l).
Proof.
  induction l as [|x l IH]; intros SH AN CL OC; [exact I|]. cbn [shifted anch clear] in *. destruct SH as (PX & _ & SH). destruct AN as (A1 & AN). destruct CL as (C1 & CL). cbn [rev].
  assert (CR : clear pts' (rev l)) by (apply IH; [exact SH|exact AN|exact CL|intros z Z; apply OC; right; exact Z]). destruct l as [|y l]; [cbn; auto|]. cbn [rev] in *. rewrite <- app_assoc. cbn [app]. apply clear_snoc; [exact CR|].
  rewrite OC by (left; reflexivity). intros OX. rewrite OX in PX. cbn [shifted anch clear] in SH, AN, CL. destruct SH as (PY & LY & _). destruct AN as (A2 & _). destruct CL as (C2 & _). rewrite PX, PY. destruct (oan pts y) eqn:OY.
  - destruct (A1 eq_refl) as (_ & P1). destruct l as [|z l]; [specialize (LY eq_refl); discriminate|]. rewrite <- P1. intros W. apply C2; [|symmetry; exact W]. destruct (oan pts z) eqn:OZ; [|reflexivity]. destruct (A2 eq_refl). discriminate.
  - intros W. apply C1; [reflexivity|]. rewrite <- W. destruct l; reflexivity.
Qed.
Lemma follow_one fuel pts br merged K i c e RC : fstate pts br K ((i, c, e) :: RC) ->
  (fuel <= length c -> follow_balance fuel pts br merged i = None) /\
  (length c < fuel -> exists pts' br' merged' K', follow_balance fuel pts br merged i = Some (pts', br', merged') /\ fstate pts' br' K' RC /\ length pts' = length pts /\ Forall2 (same_run pts pts') RC RC /\
    Permutation (nonzero (edges pts' K' ++ vedges pts' (pm_all (b_virt br')))) (nonzero (wanted pts (i, c, e)) ++ nonzero (edges pts K ++ vedges pts (pm_all (b_virt br)))) /\
    Permutation (all_starts (pm_all (b_starts br')) (pm_all (b_virt br'))) (w_start pts (i, c, e) ++ all_starts (pm_all (b_starts br)) (pm_all (b_virt br))) /\
    Permutation (all_ends pts' (b_ends br') (pm_all (b_virt br'))) (w_end pts (i, c, e) ++ all_ends pts (b_ends br) (pm_all (b_virt br))) /\
    Permutation (map (pos pts') (b_orphans br')) (r_start pts (i, c, e) ++ map (pos pts) (b_orphans br)) /\
    Permutation (map fst (pm_all (b_virt br'))) (r_end pts (i, c, e) ++ map fst (pm_all (b_virt br))) /\
    (clear pts (whole_run (i, c, e)) -> enz pts K (pm_all (b_virt br)) -> enz pts' K' (pm_all (b_virt br')))).
Proof.
  intros (FI & RK & ND & DJ & KA). apply Forall_cons_iff in RK as (RK & RKS). pose proof RK as ((p & r & E & SR & T) & HA & EA & AN). cbn [head fst snd whole_run] in HA, EA, AN.
  cbn [flat_map] in ND. apply NoDup_app_iff in ND as (ND1 & ND2 & ND3). unfold nodes in ND1. cbn [head fst snd] in ND1. apply NoDup_cons_iff in ND1 as (NI & NC).
  destruct (follow_exact c fuel r pts merged i (o_next p) e T NC) as (pts' & m' & F1 & F2 & LEN & OTH & MK).
  assert (AP : o_anchor p = false) by (unfold oan in HA; rewrite E in HA; exact HA).
  split; [intros L; unfold follow_balance; rewrite E, SR, AP, (F2 L); reflexivity|]. intros L. unfold follow_balance. rewrite E, SR, AP, (F1 L).
  assert (RES : forall j, isres pts j -> nth_error pts' j = nth_error pts j). { intros j (q & r' & Q & S'). apply OTH. intros X. destruct (trail_undef _ _ _ _ _ T X) as (q' & Q' & U). congruence. }
  assert (FR : forall j p r, nth_error pts j = Some p -> o_state p = Res r -> exists n, nth_error pts' j = Some (set_next p n)). { intros j q r' Q S'. exists (o_next q). rewrite RES by (exists q, r'; auto). rewrite Q. destruct q; reflexivity. }
  assert (FK : forall j, In j K -> nth_error pts' j = nth_error pts j). { intros j X. apply RES. destruct (l_keep _ _ _ _ (proj1 FI) j X) as (q & r' & Q & S' & _). exists q, r'. auto. }
  pose proof (res_frame _ _ FR) as RF. destruct (finv_frame _ _ _ _ _ _ _ FK RF FI) as (FI' & EE & VE). destruct (tally_frame _ _ _ _ _ _ _ FK RF FI) as (TE & TO).
  assert (ENZ : enz pts K (pm_all (b_virt br)) -> enz pts' K (pm_all (b_virt br))) by (apply (enz_frame _ _ _ _ _ _ _ FK RF FI)).
  assert (SAME : Forall2 (same_run pts pts') RC RC). { apply same_frame; auto. intros R x X Y. apply OTH. intros Z. apply (ND3 x); [right; exact Z|]. apply in_flat_map. eauto. }
  assert (RKS' : Forall (rok pts') RC) by (eapply sames_rok; eauto).
  assert (EI' : nth_error pts' i = Some p) by (rewrite OTH by exact NI; exact E).
  assert (RE : isres pts e) by (eapply trail_end; eauto). assert (EE' : nth_error pts' e = nth_error pts e) by (apply RES; exact RE).
  assert (RE' : isres pts' e). { destruct RE as (q & r' & Q & S'). exists q, r'. rewrite EE'. auto. }
  assert (OE' : oan pts' e = false) by (unfold oan in *; rewrite EE'; exact EA). assert (PE' : pos pts' e = pos pts e) by (unfold pos; rewrite EE'; reflexivity).
  assert (PI' : pos pts' i = pos pts i) by (unfold pos; rewrite EI', E; reflexivity). assert (OI' : oan pts' i = false) by (unfold oan; rewrite EI'; exact AP).
  assert (CK : forall x, In x c -> ~ In x K /\ ~ In x (b_orphans br)) by (intros x X; apply DJ; cbn [flat_map]; apply in_or_app; left; right; exact X).
  assert (IK : ~ In i K /\ ~ In i (b_orphans br)) by (apply DJ; left; reflexivity).
  assert (DJ' : forall x, In x (flat_map nodes RC) -> (~ In x K /\ ~ In x (b_orphans br)) /\ x <> i /\ ~ In x c).
  { intros x X. split; [apply DJ; cbn [flat_map]; apply in_or_app; auto|]. split; [intros ->; apply (ND3 i); [left; reflexivity|exact X]|intros Y; apply (ND3 x); [right; exact Y|exact X]]. }
  assert (JU : judgement pts (i, c, e) = Res r) by (unfold judgement; cbn [fst]; rewrite E; exact SR).
  assert (OLD : forall j q r', ~ In j c -> j <> i -> nth_error pts' j = Some q -> o_state q = Res r' -> keeps r' = true -> In j K \/ In j (b_orphans br) \/ In j (map head RC)).
  { intros j q r' X Y Q S' KR. rewrite OTH in Q by exact X. destruct (KA j q r' Q S' KR) as [Z|[Z|Z]]; auto. cbn [map head fst] in Z. destruct Z as [Z|Z]; [congruence|auto]. }
  unfold wanted, w_start, w_end, r_start, r_end. rewrite JU. cbn [head fst snd].

  assert (FI0 := FI'). destruct FI' as (LI & BI). destruct br as [starts ends virts orphans]. cbn [b_starts b_ends b_virt b_orphans] in *.
  assert (EQ : exists qe, nth_error pts' e = Some qe /\ o_data qe = pos pts e). { destruct RE' as (q & r' & Q & _). exists q. split; [exact Q|]. rewrite <- PE'. unfold pos. rewrite Q. reflexivity. }
  destruct EQ as (qe & EQE & PQE). assert (PP : o_data p = pos pts i) by (unfold pos; rewrite E; reflexivity).
  assert (NXI : onx pts i = o_next p) by (unfold onx; rewrite E; reflexivity).
  destruct r.
  - (* discard *)
    assert (ST : forall x, In x c -> exists q, nth_error pts' x = Some q /\ o_state q = Res LSdiscard) by (intros x X; destruct (MK x X) as (q & _ & Q); exists (set_state q (Res LSdiscard)); auto).
    exists pts'. eexists. eexists. exists K. split; [reflexivity|]. cbn [b_starts b_ends b_virt b_orphans]. split; [|split; [exact LEN|split; [exact SAME|rewrite EE, VE, TE, TO; cbn; repeat split; try reflexivity; apply ENZ; assumption]]].
    split; [exact FI0|]. split; [exact RKS'|]. split; [exact ND2|]. split; [intros x X; apply DJ'; exact X|]. intros j q r' Q S' KR.
    apply (OLD j q r'); auto. + intros X. destruct (ST j X) as (q' & Q' & S''). rewrite Q in Q'. injection Q' as <-. rewrite S' in S''. injection S'' as ->. discriminate.
    + intros ->. rewrite EI' in Q. injection Q as <-. rewrite SR in S'. injection S' as <-. discriminate.
  - (* keep *)
    assert (NXC : forall x, In x c -> onx pts' x = onx pts x /\ pos pts' x = pos pts x /\ oan pts' x = oan pts x). { intros x X. destruct (MK x X) as (q & Q & Q'). unfold onx, pos, oan. rewrite Q, Q'. auto. }
    assert (LK : links pts' (i :: c) e). { apply links_ext with (pts := pts); [|apply (trail_all_links _ _ _ _ _ T NXI)]. intros x [<-|X]; [unfold onx; rewrite EI', E; reflexivity|apply NXC; exact X]. }
    assert (PALL : forall x, In x (i :: c ++ [e]) -> oan pts' x = oan pts x /\ pos pts' x = pos pts x). { intros x [<-|X]; [rewrite OI', HA; auto|]. apply in_app_or in X as [X|[<-|[]]]; [destruct (NXC x X) as (_ & ? & ?); auto|rewrite OE', EA; auto]. }
    assert (KC : forall x, In x (i :: c) -> exists q r0, nth_error pts' x = Some q /\ o_state q = Res r0 /\ keeps r0 = true). { intros x [<-|X]; [exists p, LSkeep; auto|]. destruct (MK x X) as (q & _ & Q). exists (set_state q (Res LSkeep)), LSkeep. auto. }
    exists pts'. eexists. eexists. exists ((i :: c) ++ K). split; [reflexivity|]. cbn [b_starts b_ends b_virt b_orphans].
    pose proof (pm_push_all starts (o_data p) i) as PS. split; [|split; [exact LEN|split; [exact SAME|]]].
    + split; [split|split; [exact RKS'|split; [exact ND2|split]]].
      * apply linv_perm with (K := (i :: c) ++ K) (E := last c i :: ends) (T := i :: map snd (pm_all starts) ++ heads (pm_all virts)); [reflexivity|apply Permutation_cons_append| |].
        -- rewrite (Permutation_map snd PS). reflexivity.
        -- apply linv_path with (t := e); auto.
           ++ constructor; assumption.
           ++ intros x [<-|X]; [apply IK|apply CK; exact X].
           ++ apply anch_ext with (pts := pts); [exact PALL|exact AN].
      * destruct BI as [B1 B2 B3 B4 B5 B6]. constructor; auto.
        -- split; [apply B2|]. intros x X Y. apply in_app_or in Y as [[<-|Y]|Y]; [apply IK; exact X|apply (CK x Y); exact X|apply (proj2 B2 x); auto].
        -- intros k s X. apply (Permutation_in _ PS) in X as [X|X]; [injection X as <- <-; rewrite PI', PP; auto|auto].
      * intros x X. destruct (DJ' x X) as ((X1 & X2) & X3 & X4). split; [|exact X2]. intros Y. apply in_app_or in Y as [[Y|Y]|Y]; [congruence|contradiction|contradiction].
      * intros j q r' Q S' KR. destruct (in_dec Nat.eq_dec j (i :: c)) as [X|X]; [left; apply in_or_app; auto|]. destruct (OLD j q r') as [Y|[Y|Y]]; auto.
        -- intros Z. apply X. right. exact Z.
        -- intros ->. apply X. left. reflexivity.
        -- left. apply in_or_app. auto.
    + assert (RL : edges pts' (i :: c) = run_lines pts (i, c, e)). { rewrite (links_edges _ _ _ LK). unfold run_lines. f_equal. cbn [app]. apply map_ext_in. intros x X. apply PALL. exact X. }
      split; [|split; [|split; [|split; [|split]]]].
      * unfold edges. rewrite map_app. fold (edges pts' (i :: c)) (edges pts' K). rewrite RL, EE, VE, <- app_assoc, nonzero_app. reflexivity.
      * unfold all_starts. rewrite (Permutation_map fst PS). cbn [map app fst]. rewrite PP. reflexivity.
      * unfold all_ends. rewrite map_app. cbn [map]. rewrite (links_last _ _ _ _ LK), PE'. unfold all_ends in TE. cbn [app]. rewrite <- app_assoc. cbn [app].
        rewrite <- TE. symmetry. apply Permutation_middle.
      * rewrite TO. reflexivity.
      * reflexivity.
      * intros CL EZ. destruct (ENZ EZ) as (Z1 & Z2). split; [|exact Z2]. intros j X. apply in_app_or in X as [X|X]; [|auto].
        apply (clear_links _ _ _ LK); [|exact X]. apply clear_ext with (pts := pts); [exact PALL|exact CL].
  - (* discard, reversed *)
    assert (ST : forall x, In x c -> exists q, nth_error pts' x = Some q /\ o_state q = Res LSdiscard_rev) by (intros x X; destruct (MK x X) as (q & _ & Q); exists (set_state q (Res LSdiscard_rev)); auto).
    rewrite EQE. exists pts'. eexists. eexists. exists K. split; [reflexivity|]. cbn [b_starts b_ends b_virt b_orphans].
    set (nv := mk_virt (last c i) false false). pose proof (pm_push_all virts (o_data qe) nv) as PV. split; [|split; [exact LEN|split; [exact SAME|]]].
    + split; [split|split; [exact RKS'|split; [exact ND2|split]]].
      * eapply linv_perm; [reflexivity|reflexivity| |exact LI]. rewrite (heads_perm _ _ PV). reflexivity.
      * apply binv_perm with (K := K) (S := pm_all starts) (V := (o_data qe, nv) :: pm_all virts) (O := i :: orphans); [reflexivity|reflexivity|symmetry; exact PV|apply Permutation_cons_append|]. destruct BI as [B1 B2 B3 B4 B5 B6]. constructor; auto.
        -- intros x [<-|X]; [|auto]. split; [|exact OI']. exists p, LSdiscard_rev. auto.
        -- split; [constructor; [apply IK|apply B2]|]. intros x [<-|X]; [apply IK|apply B2; exact X].
        -- intros k v [X|X]; [injection X as <- <-; discriminate|]. apply B4. exact X.
        -- intros k v [X|X]; [injection X as <- <-; discriminate|]. apply (B5 k). exact X.
        -- cbn [length]. rewrite B6. reflexivity.
      * intros x X. destruct (DJ' x X) as ((X1 & X2) & X3 & X4). split; [exact X1|]. intros Y. apply in_app_or in Y as [Y|[Y|[]]]; [contradiction|congruence].
      * intros j q r' Q S' KR. destruct (OLD j q r') as [Y|[Y|Y]]; auto.
        -- intros X. destruct (ST j X) as (q' & Q' & S''). rewrite Q in Q'. injection Q' as <-. rewrite S' in S''. injection S'' as ->. discriminate.
        -- intros ->. rewrite EI' in Q. injection Q as <-. rewrite SR in S'. injection S' as <-. discriminate.
        -- right. left. apply in_or_app. auto.
    + split; [|split; [|split; [|split; [|split]]]].
      * cbn [app]. rewrite EE. apply nonzero_perm. apply Permutation_app_head. rewrite (vedges_perm pts' _ _ PV). cbn [vedges flat_map snd v_keep nv app]. fold (vedges pts' (pm_all virts)). rewrite VE. reflexivity.
      * unfold all_starts. cbn [app]. apply Permutation_app_head. rewrite (perm_flat _ _ _ PV). reflexivity.
      * unfold all_ends. cbn [app]. unfold all_ends in TE. rewrite <- TE. apply Permutation_app_head. rewrite (perm_flat _ _ _ PV). reflexivity.
      * rewrite map_app, TO. cbn [map]. rewrite PI'. symmetry. apply Permutation_cons_append.
      * rewrite (Permutation_map fst PV). cbn [map fst app]. rewrite PQE. reflexivity.
      * intros CL EZ. destruct (ENZ EZ) as (Z1 & Z2). split; [exact Z1|]. intros k v X. apply (Permutation_in _ PV) in X as [X|X]; [injection X as <- <-; discriminate|apply Z2; exact X].
  - (* keep, reversed *)
    cbn [marked] in MK. rewrite EI', EQE.
    assert (SH : shifted pts pts' (i :: c ++ [e])). { apply (turned_shifted _ _ _ _ _ _ i MK T PE' EA NXI). rewrite HA. exact PI'. }
    assert (OC : forall x, In x (i :: c ++ [e]) -> oan pts' x = oan pts x). { intros x [<-|X]; [congruence|]. apply in_app_or in X as [X|[<-|[]]]; [|congruence]. destruct (turned_node _ _ _ _ x MK X) as (q & y & Q & Q'). unfold oan. rewrite Q, Q'. reflexivity. }
    assert (LINES : nonzero (segs (map (pos pts') (i :: c ++ [e]))) = nonzero (run_lines pts (i, c, e))). { unfold run_lines. apply (shift_same pts pts' (length (i :: c ++ [e]))); auto. }
    assert (RLINES : Permutation (nonzero (segs (map (pos pts') (e :: rev c ++ [i])))) (nonzero (map turned (run_lines pts (i, c, e))))).
    { replace (e :: rev c ++ [i]) with (rev (i :: c ++ [e])) by (cbn [rev]; rewrite rev_app_distr; reflexivity). rewrite map_rev, segs_rev, nonzero_turned, <- LINES, <- nonzero_turned. apply nonzero_perm. symmetry. apply Permutation_rev. }
    destruct c as [|x c].
    + cbn [last rev app] in *. rewrite Nat.eqb_refl. exists pts'. eexists. eexists. exists K. split; [reflexivity|]. cbn [b_starts b_ends b_virt b_orphans].
      set (nv := mk_virt i true true). pose proof (pm_push_all virts (o_data qe) nv) as PV. split; [|split; [exact LEN|split; [exact SAME|]]].
      * split; [split|split; [exact RKS'|split; [exact ND2|split]]].
        -- eapply linv_perm; [reflexivity|reflexivity| |exact LI]. rewrite (heads_perm _ _ PV). reflexivity.
        -- apply binv_perm with (K := K) (S := pm_all starts) (V := (o_data qe, nv) :: pm_all virts) (O := i :: orphans); [reflexivity|reflexivity|symmetry; exact PV|apply Permutation_cons_append|]. destruct BI as [B1 B2 B3 B4 B5 B6]. constructor; auto.
           ++ intros x [<-|X]; [|auto]. split; [|exact OI']. exists p, LSkeep_rev. auto.
           ++ split; [constructor; [apply IK|apply B2]|]. intros x [<-|X]; [apply IK|apply B2; exact X].
           ++ intros k v [X|X]; [injection X as <- <-|apply B4; exact X]. intros _. cbn [nv v_next v_end]. split; [exists p, LSkeep_rev; auto|]. split; [congruence|auto].
           ++ intros k v [X|X]; [injection X as <- <-; reflexivity|]. apply (B5 k). exact X.
           ++ cbn [length]. rewrite B6. reflexivity.
        -- intros x X. destruct (DJ' x X) as ((X1 & X2) & X3 & X4). split; [exact X1|]. intros Y. apply in_app_or in Y as [Y|[Y|[]]]; [contradiction|congruence].
        -- intros j q r' Q S' KR. destruct (Nat.eq_dec j i) as [->|NJ]; [right; left; apply in_or_app; right; left; reflexivity|]. destruct (OLD j q r') as [Y|[Y|Y]]; auto. right. left. apply in_or_app. auto.
      * split; [|split; [|split; [|split; [|split]]]].
        -- rewrite <- RLINES, <- nonzero_app. apply nonzero_perm. rewrite EE, (vedges_perm pts' _ _ PV). cbn [vedges flat_map snd v_keep nv v_next app fst]. fold (vedges pts' (pm_all virts)). rewrite VE, PQE. cbn [map segs combine tl app]. rewrite PE'. symmetry. apply Permutation_middle.
        -- unfold all_starts. cbn [app]. rewrite (perm_flat _ _ _ PV). cbn [flat_map snd v_keep nv fst app]. rewrite PQE. symmetry. apply Permutation_middle.
        -- unfold all_ends. cbn [app]. unfold all_ends in TE. rewrite <- TE. rewrite (perm_flat _ _ _ PV). cbn [flat_map snd v_end nv v_next fst app]. rewrite PI'. symmetry. apply Permutation_middle.
        -- rewrite map_app, TO. cbn [map]. rewrite PI'. symmetry. apply Permutation_cons_append.
        -- rewrite (Permutation_map fst PV). cbn [map fst app]. rewrite PQE. reflexivity.
        -- intros CL EZ. destruct (ENZ EZ) as (Z1 & Z2). split; [exact Z1|]. intros k v X. apply (Permutation_in _ PV) in X as [X|X]; [|apply Z2; exact X]. injection X as <- <-. intros _. cbn [nv v_next]. rewrite PI', PQE. cbn in CL. intros _ W. symmetry in W. revert W. apply CL. exact EA.
    + set (c0 := x :: c) in *. assert (NL : Nat.eqb (last c0 i) i = false). { apply Nat.eqb_neq. intros W. apply NI. rewrite <- W at 1. unfold c0. rewrite last_cons. clear. revert x. induction c as [|y c IH]; intros x; [left; reflexivity|]. rewrite last_cons. right. apply IH. }
      rewrite NL. assert (HX : o_next p = x) by (cbn in T; symmetry; apply T).
      destruct (rev c0) as [|y l] eqn:RC0; [apply (f_equal (@length nat)) in RC0; rewrite rev_length in RC0; discriminate|].
      assert (LY : last c0 i = y). { rewrite <- (hd_rev c0 i 0), RC0. reflexivity. }
      assert (LX : last l y = x). { rewrite <- (hd_rev l y 0). change (rev l ++ [y]) with (rev (y :: l)). rewrite <- RC0, rev_involutive. reflexivity. }
      assert (INR : forall z, In z (y :: l) <-> In z c0) by (intros z; rewrite <- RC0; symmetry; apply in_rev).
      assert (LK : links pts' (y :: l) i) by (rewrite <- RC0; apply (turned_links _ _ _ _ MK)).
      assert (KC : forall z, In z c0 -> exists q r0, nth_error pts' z = Some q /\ o_state q = Res r0 /\ keeps r0 = true). { intros z X. destruct (turned_node _ _ _ _ z MK X) as (q & w & _ & Q). eexists. exists LSkeep_rev. split; [exact Q|]. auto. }
      assert (AR : anch pts' (y :: l ++ [i])). { pose proof (anch_rev pts pts' _ SH AN OC) as W. cbn [rev] in W. rewrite rev_app_distr in W. cbn [rev app] in W. rewrite RC0 in W. cbn [anch app] in W. apply W. }
      rewrite LY, HX. exists pts'. eexists. eexists. exists ((y :: l) ++ K). split; [reflexivity|]. cbn [b_starts b_ends b_virt b_orphans].
      set (nv := mk_virt y true false). pose proof (pm_push_all virts (o_data qe) nv) as PV. split; [|split; [exact LEN|split; [exact SAME|]]].
      * split; [split|split; [exact RKS'|split; [exact ND2|split]]].
        -- apply linv_perm with (K := (y :: l) ++ K) (E := last l y :: ends) (T := y :: map snd (pm_all starts) ++ heads (pm_all virts)); [reflexivity|rewrite LX; apply Permutation_cons_append| |].
           ++ rewrite (heads_perm _ _ PV). cbn [heads flat_map snd v_keep v_end nv v_next andb negb app]. fold (heads (pm_all virts)). apply Permutation_middle.
           ++ apply linv_path with (t := i); auto.
              ** rewrite <- RC0. apply (Permutation_NoDup (Permutation_rev c0)). exact NC.
              ** intros z X. apply CK. apply INR. exact X.
              ** intros z X. apply KC. apply INR. exact X.
              ** exists p, LSkeep_rev. auto.
        -- apply binv_perm with (K := (y :: l) ++ K) (S := pm_all starts) (V := (o_data qe, nv) :: pm_all virts) (O := i :: orphans); [reflexivity|reflexivity|symmetry; exact PV|apply Permutation_cons_append|]. destruct BI as [B1 B2 B3 B4 B5 B6]. constructor; auto.
           ++ intros z [<-|X]; [|auto]. split; [|exact OI']. exists p, LSkeep_rev. auto.
           ++ split; [constructor; [apply IK|apply B2]|]. intros z [<-|X] Y; apply in_app_or in Y as [Y|Y].
              ** apply NI. apply INR. exact Y.
              ** apply (proj1 IK). exact Y.
              ** apply (proj2 (CK z (proj1 (INR z) Y))). exact X.
              ** apply (proj2 B2 z); auto.
           ++ intros k v [X|X]; [injection X as <- <-|apply B4; exact X]. intros _. cbn [nv v_next v_end]. split; [|split; [|discriminate]].
              ** destruct (KC y) as (q & r0 & Q & SQ & _); [apply INR; left; reflexivity|]. exists q, r0. auto.
              ** intros OY. assert (W : anch pts' (e :: y :: l ++ [i])). { pose proof (anch_rev pts pts' _ SH AN OC) as W. cbn [rev] in W. rewrite rev_app_distr in W. cbn [rev app] in W. rewrite RC0 in W. exact W. }
                 cbn [anch] in W. destruct W as (W & _). destruct (W OY) as (_ & W'). rewrite W', PE', PQE. reflexivity.
           ++ intros k v [X|X]; [injection X as <- <-; discriminate|]. apply (B5 k). exact X.
           ++ cbn [length]. rewrite B6. reflexivity.
        -- intros z X. destruct (DJ' z X) as ((X1 & X2) & X3 & X4). split; intros Y; apply in_app_or in Y as [Y|Y]; try contradiction.
           ++ apply X4. apply INR. exact Y.
           ++ destruct Y as [Y|[]]. congruence.
        -- intros j q r' Q S' KR. destruct (Nat.eq_dec j i) as [->|NJ]; [right; left; apply in_or_app; right; left; reflexivity|]. destruct (in_dec Nat.eq_dec j c0) as [X|X]; [left; apply in_or_app; left; apply INR; exact X|].
           destruct (OLD j q r') as [Y|[Y|Y]]; auto; [left; apply in_or_app; auto|right; left; apply in_or_app; auto].
      * split; [|split; [|split; [|split; [|split]]]].
        -- rewrite <- RLINES, <- nonzero_app. apply nonzero_perm. unfold edges. rewrite map_app. fold (edges pts' (y :: l)) (edges pts' K). rewrite (links_edges _ _ _ LK), EE, (vedges_perm pts' _ _ PV). cbn [vedges flat_map snd v_keep nv v_next app fst]. fold (vedges pts' (pm_all virts)). rewrite VE, PQE.
           cbn [map app]. rewrite (segs_cons (pos pts' e)), PE'. set (A := segs _). cbn [app]. rewrite <- app_assoc. etransitivity; [apply Permutation_app_head; symmetry; apply Permutation_middle|]. symmetry. etransitivity; [|apply Permutation_middle]. reflexivity.
        -- unfold all_starts. cbn [app]. rewrite (perm_flat _ _ _ PV). cbn [flat_map snd v_keep nv fst app]. rewrite PQE. symmetry. apply Permutation_middle.
        -- unfold all_ends. rewrite map_app. cbn [map app]. rewrite <- LX, (links_last _ _ _ _ LK), PI'. unfold all_ends in TE. rewrite <- app_assoc. cbn [app]. rewrite (perm_flat _ _ _ PV). cbn [flat_map snd v_end nv app]. rewrite <- TE. symmetry. apply Permutation_middle.
        -- rewrite map_app, TO. cbn [map]. rewrite PI'. symmetry. apply Permutation_cons_append.
        -- rewrite (Permutation_map fst PV). cbn [map fst app]. rewrite PQE. reflexivity.
        -- intros CL EZ. destruct (ENZ EZ) as (Z1 & Z2).
           assert (CR : clear pts' (e :: y :: l ++ [i])). { pose proof (clear_rev pts pts' _ SH AN CL OC) as W. cbn [rev] in W. rewrite rev_app_distr in W. cbn [rev app] in W. rewrite RC0 in W. exact W. }
           cbn [clear] in CR. destruct CR as (CR1 & CR2). split.
           ++ intros j X. apply in_app_or in X as [X|X]; [|auto]. apply (clear_links _ _ _ LK); [exact CR2|exact X].
           ++ intros k v X. apply (Permutation_in _ PV) in X as [X|X]; [|apply Z2; exact X]. injection X as <- <-. intros _ OY. cbn [nv v_next] in *. rewrite PQE, <- PE'. apply CR1. exact OY.
Qed.

(** * All samples *)
Definition acct (pts : list opoint) (br : breaks) (K : list nat) (RC : list run) (pts' : list opoint) (br' : breaks) (K' : list nat) : Prop :=
  Permutation (nonzero (edges pts' K' ++ vedges pts' (pm_all (b_virt br')))) (nonzero (flat_map (wanted pts) RC) ++ nonzero (edges pts K ++ vedges pts (pm_all (b_virt br)))) /\
  Permutation (all_starts (pm_all (b_starts br')) (pm_all (b_virt br'))) (flat_map (w_start pts) RC ++ all_starts (pm_all (b_starts br)) (pm_all (b_virt br))) /\
  Permutation (all_ends pts' (b_ends br') (pm_all (b_virt br'))) (flat_map (w_end pts) RC ++ all_ends pts (b_ends br) (pm_all (b_virt br))) /\
  Permutation (map (pos pts') (b_orphans br')) (flat_map (r_start pts) RC ++ map (pos pts) (b_orphans br)) /\
  Permutation (map fst (pm_all (b_virt br'))) (flat_map (r_end pts) RC ++ map fst (pm_all (b_virt br))) /\
  (Forall (fun R => clear pts (whole_run R)) RC -> enz pts K (pm_all (b_virt br)) -> enz pts' K' (pm_all (b_virt br'))).
Lemma sames_sums pts pts' : forall RC RC', Forall2 (same_run pts pts') RC RC' ->
  nonzero (flat_map (wanted pts') RC') = nonzero (flat_map (wanted pts) RC) /\ flat_map (w_start pts') RC' = flat_map (w_start pts) RC /\ flat_map (w_end pts') RC' = flat_map (w_end pts) RC /\
  flat_map (r_start pts') RC' = flat_map (r_start pts) RC /\ flat_map (r_end pts') RC' = flat_map (r_end pts) RC /\ map head RC' = map head RC /\
  (Forall (fun R => clear pts (whole_run R)) RC -> Forall (fun R => clear pts' (whole_run R)) RC').
Proof.
  induction 1 as [|R R' RC RC' S F IH]; [repeat split; constructor|]. destruct IH as (I1 & I2 & I3 & I4 & I5 & I6 & I7). destruct S as (S1 & S2 & S3 & (S4 & S5) & _ & S6 & S7).
  cbn [flat_map map]. rewrite !nonzero_app, I1, I2, I3, I4, I5, I6. unfold w_start, w_end, r_start, r_end, wanted. rewrite S3, S1, S2, S4, S5.
  assert (W : nonzero (map turned (run_lines pts' R')) = nonzero (map turned (run_lines pts R))) by (rewrite !nonzero_turned, S6; reflexivity).
  split; [|repeat split]; [|intros C; apply Forall_cons_iff in C as (C1 & C2); constructor; auto].
  f_equal. destruct (judgement pts R) as [| |[]]; auto.
Qed.
Lemma fstate_insert pts br K RC i pts' a : fstate pts br K RC -> insert_anchor pts i = Some (pts', a) -> In i (map head RC) ->
  exists RC', Forall2 (same_run pts pts') RC RC' /\ fstate pts' br K RC' /\ edges pts' K = edges pts K /\ vedges pts' (pm_all (b_virt br)) = vedges pts (pm_all (b_virt br)) /\
    all_ends pts' (b_ends br) (pm_all (b_virt br)) = all_ends pts (b_ends br) (pm_all (b_virt br)) /\ map (pos pts') (b_orphans br) = map (pos pts) (b_orphans br) /\
    (enz pts K (pm_all (b_virt br)) -> enz pts' K (pm_all (b_virt br))).
Proof.
  intros (FI & RK & ND & DJ & KA) H IN. pose proof (insert_grows _ _ _ _ H) as G. apply in_map_iff in IN as (R & HR & IR).
  assert (RKR : rok pts R) by (eapply Forall_forall; eauto). assert (AI : oan pts i = false) by (rewrite <- HR; apply RKR).
  assert (IN : In i (flat_map nodes RC)) by (apply in_flat_map; exists R; split; [exact IR|]; rewrite <- HR; left; reflexivity).
  destruct (insert_all _ _ _ _ RC H AI RK ND) as (RC' & SR & ND' & SUB). exists RC'. split; [exact SR|].
  assert (KL : forall j, In j K -> j < length pts) by (intros j X; destruct (l_keep _ _ _ _ (proj1 FI) j X) as (q & r & Q & _); eapply nth_lt; eauto).
  assert (FK : forall j, In j K -> nth_error pts' j = nth_error pts j). { intros j X. apply (g_other _ _ _ G); [|apply KL; exact X]. intros ->. exact (proj1 (DJ i IN) X). }
  assert (RF : forall j, isres pts j -> isres pts' j /\ pos pts' j = pos pts j /\ oan pts' j = oan pts j). { apply res_frame. intros j p r E _. apply (g_same _ _ _ G). exact E. }
  destruct (finv_frame _ _ _ _ _ _ _ FK RF FI) as (FI' & EE & VE). destruct (tally_frame _ _ _ _ _ _ _ FK RF FI) as (TE & TO).
  split; [|split; [exact EE|split; [exact VE|split; [exact TE|split; [exact TO|apply (enz_frame _ _ _ _ _ _ _ FK RF FI)]]]]].
  split; [exact FI'|]. split; [eapply sames_rok; eauto|]. split; [exact ND'|]. split.
  - intros x X. destruct (SUB x X) as [Y|Y]; [apply DJ; exact Y|]. split; intros Z.
    + apply KL in Z. lia.
    + destruct (b_orph _ _ _ _ _ (proj2 FI) x Z) as ((q & r & Q & _) & _). apply nth_lt in Q. lia.
  - intros j p r E S KR. destruct (sames_sums _ _ _ _ SR) as (_ & _ & _ & _ & _ & HD & _). rewrite HD. destruct (Nat.lt_ge_cases j (length pts)) as [L|L].
    + destruct (nth_error pts j) as [q|] eqn:Q; [|apply nth_error_None in Q; lia]. destruct (g_same _ _ _ G j q Q) as (n & E'). rewrite E in E'. injection E' as ->. apply (KA j q r); auto.
    + destruct (g_new _ _ _ G j p L E) as (U & _). congruence.
Qed.
Lemma acct_step pts br K R RC pts1 br1 K1 pts2 br2 K2 : Forall2 (same_run pts pts1) RC RC ->
  Permutation (nonzero (edges pts1 K1 ++ vedges pts1 (pm_all (b_virt br1)))) (nonzero (wanted pts R) ++ nonzero (edges pts K ++ vedges pts (pm_all (b_virt br)))) /\
    Permutation (all_starts (pm_all (b_starts br1)) (pm_all (b_virt br1))) (w_start pts R ++ all_starts (pm_all (b_starts br)) (pm_all (b_virt br))) /\
    Permutation (all_ends pts1 (b_ends br1) (pm_all (b_virt br1))) (w_end pts R ++ all_ends pts (b_ends br) (pm_all (b_virt br))) /\
    Permutation (map (pos pts1) (b_orphans br1)) (r_start pts R ++ map (pos pts) (b_orphans br)) /\
    Permutation (map fst (pm_all (b_virt br1))) (r_end pts R ++ map fst (pm_all (b_virt br))) /\
    (clear pts (whole_run R) -> enz pts K (pm_all (b_virt br)) -> enz pts1 K1 (pm_all (b_virt br1))) ->
  acct pts1 br1 K1 RC pts2 br2 K2 -> acct pts br K (R :: RC) pts2 br2 K2.
Proof.
  intros S (A1 & A2 & A3 & A4 & A5 & A6) (B1 & B2 & B3 & B4 & B5 & B6). destruct (sames_sums _ _ _ _ S) as (S1 & S2 & S3 & S4 & S5 & _ & S7). rewrite S1 in B1. rewrite S2 in B2. rewrite S3 in B3. rewrite S4 in B4. rewrite S5 in B5.
  assert (TR : forall A (new old mid w ws : list A), Permutation new (ws ++ mid) -> Permutation mid (w ++ old) -> Permutation new ((w ++ ws) ++ old)).
  { intros A new old mid w ws P Q. rewrite P, Q, !app_assoc. apply Permutation_app_tail, Permutation_app_comm. }
  unfold acct. cbn [flat_map]. rewrite (nonzero_app (wanted pts R)). split; [eapply TR; eauto|]. split; [eapply TR; eauto|]. split; [eapply TR; eauto|]. split; [eapply TR; eauto|]. split; [eapply TR; eauto|].
  intros C E. apply Forall_cons_iff in C as (C1 & C2). apply B6; auto.
Qed.
Lemma acct_same pts br K RC pts1 RC1 pts2 br2 K2 : Forall2 (same_run pts pts1) RC RC1 -> edges pts1 K = edges pts K -> vedges pts1 (pm_all (b_virt br)) = vedges pts (pm_all (b_virt br)) ->
    all_ends pts1 (b_ends br) (pm_all (b_virt br)) = all_ends pts (b_ends br) (pm_all (b_virt br)) -> map (pos pts1) (b_orphans br) = map (pos pts) (b_orphans br) ->
    (enz pts K (pm_all (b_virt br)) -> enz pts1 K (pm_all (b_virt br))) ->
  acct pts1 br K RC1 pts2 br2 K2 -> acct pts br K RC pts2 br2 K2.
Proof.
  intros S E1 E2 E3 E4 E5 (B1 & B2 & B3 & B4 & B5 & B6). destruct (sames_sums _ _ _ _ S) as (S1 & S2 & S3 & S4 & S5 & _ & S7). rewrite S1, E1, E2 in B1. rewrite S2 in B2. rewrite S3, E3 in B3. rewrite S4, E4 in B4. rewrite S5 in B5.
  unfold acct. split; [exact B1|]. split; [exact B2|]. split; [exact B3|]. split; [exact B4|]. split; [exact B5|]. auto.
Qed.
Lemma rok_insert pts R : rok pts R -> exists pts' a, insert_anchor pts (head R) = Some (pts', a).
Proof.
  destruct R as ((i, c), e). intros ((p & r & E & S & T) & _). cbn [head fst]. unfold insert_anchor. rewrite E.
  assert (Q : exists q, nth_error pts (o_next p) = Some q). { destruct c as [|x c]; cbn in T; [destruct T as (-> & q & _ & Q & _); eauto|destruct T as (_ & q & Q & _); eauto]. }
  destruct Q as (q & ->). destruct (o_anchor q); eauto.
Qed.
Lemma nodes_fit pts i c e RC : Forall (rok pts) ((i, c, e) :: RC) -> NoDup (flat_map nodes ((i, c, e) :: RC)) -> length c < length pts.
Proof.
  intros RK ND. apply Forall_cons_iff in RK as ((I & _) & _). cbn [flat_map] in ND. apply NoDup_app_iff in ND as (ND & _). unfold nodes in ND. cbn [head fst snd] in ND.
  assert (IN : incl (i :: c) (seq 0 (length pts))). { intros x X. apply in_seq. split; [lia|]. cbn. apply (run_bounds pts (i, c, e)); [exact I|]. cbn [whole_run]. destruct X as [<-|X]; [left; reflexivity|right; apply in_or_app; auto]. }
  apply NoDup_incl_length in IN; [|exact ND]. rewrite seq_length in IN. cbn in IN. lia.
Qed.
Lemma follow_all_ok tree : forall ss fuel pts br merged K RC, fstate pts br K RC -> map head RC = map fst ss ->
  (length pts + length ss <= fuel -> follow_all fuel tree pts br merged ss <> None) /\
  (forall pts' br' merged' ss', follow_all fuel tree pts br merged ss = Some (pts', br', merged', ss') ->
    exists K', fstate pts' br' K' [] /\ acct pts br K RC pts' br' K').
Proof.
  induction ss as [|(i, hits) ss IH]; intros fuel pts br merged K RC F HD.
  - destruct RC; [|discriminate]. cbn [follow_all]. split; [discriminate|]. intros pts' br' merged' ss' E. injection E as <- <- <- <-. exists K. split; [exact F|].
    unfold acct. cbn [flat_map app nonzero filter]. repeat split; try reflexivity; apply H0.
  - destruct RC as [|R RC]; [discriminate|]. cbn [map fst] in HD. injection HD as HR HD.
    cut (forall pts1 a RC1, (if tree then insert_anchor pts i else Some (pts, i)) = Some (pts1, a) -> length pts1 <= S (length pts) -> fstate pts1 br K RC1 -> map head RC1 = i :: map fst ss ->
      (forall pts' br' K', acct pts1 br K RC1 pts' br' K' -> acct pts br K (R :: RC) pts' br' K') ->
      (length pts + length ((i, hits) :: ss) <= fuel -> follow_all fuel tree pts br merged ((i, hits) :: ss) <> None) /\
      (forall pts' br' merged' ss', follow_all fuel tree pts br merged ((i, hits) :: ss) = Some (pts', br', merged', ss') -> exists K', fstate pts' br' K' [] /\ acct pts br K (R :: RC) pts' br' K')).
    { intros CUT. destruct tree.
      - assert (RKR : rok pts R) by (destruct F as (_ & RK & _); apply Forall_cons_iff in RK; apply RK). destruct (rok_insert _ _ RKR) as (pts1 & a & EI). rewrite HR in EI.
        destruct (fstate_insert pts br K (R :: RC) i pts1 a F EI) as (RC1 & S1 & F1 & E1 & E2 & E3 & E4 & E5); [left; exact HR|].
        apply (CUT pts1 a RC1); [exact EI|apply (g_len _ _ _ (insert_grows _ _ _ _ EI))|exact F1| |].
        + destruct (sames_sums _ _ _ _ S1) as (_ & _ & _ & _ & _ & W & _). rewrite W. cbn [map]. rewrite HR, HD. reflexivity.
        + intros pts' br' K'. apply acct_same; auto.
      - apply (CUT pts i (R :: RC)); auto. cbn [map]. rewrite HR, HD. reflexivity. }
    intros pts1 a RC1 EI L1 F1 H1 AC. clear F HR HD. destruct RC1 as [|((i1, c), e) RC1]; [discriminate|]. cbn [map head fst] in H1. injection H1 as -> HD.
    destruct (follow_one fuel pts1 br merged K i c e RC1 F1) as (FN & FS). assert (LC : length c < length pts1) by (destruct F1 as (_ & RK & ND & _); eapply nodes_fit; eauto).
    cbn [follow_all]. rewrite EI. destruct (Nat.lt_ge_cases (length c) fuel) as [LF|LF].
    + destruct (FS LF) as (pts2 & br2 & m2 & K2 & E2 & F2 & LEN & S2 & TA). rewrite E2. destruct (IH fuel pts2 br2 m2 K2 RC1 F2 HD) as (I1 & I2). split.
      * cbn [length]. intros FL. specialize (I1 ltac:(lia)). destruct (follow_all fuel tree pts2 br2 m2 ss) as [(((?, ?), ?), ?)|]; [discriminate|congruence].
      * intros pts' br' m' ss' E. destruct (follow_all fuel tree pts2 br2 m2 ss) as [(((pts3, br3), m3), ss3)|] eqn:E3; [|discriminate]. injection E as <- <- <- <-.
        destruct (I2 _ _ _ _ eq_refl) as (K3 & F3 & A3). exists K3. split; [exact F3|]. apply AC. eapply acct_step; eauto.
    + rewrite (FN LF). split; [cbn [length]; intros FL; exfalso; lia|discriminate].
Qed.
