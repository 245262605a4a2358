(** Proofs about find_loops. *)
From Coq Require Import ZArith List Bool Arith Permutation Lia.
From Verif Require Import GeomModel OutModel OutSpec.
Import ListNotations.

Lemma put_length {A} (l : list A) i x : length (put l i x) = length l.
Proof. revert i; induction l as [|y l IH]; intros [|i]; cbn; auto. Qed.
Lemma put_same {A} (l : list A) i x : i < length l -> nth_error (put l i x) i = Some x.
Proof. revert i; induction l as [|y l IH]; intros [|i] H; cbn in *; try lia; auto. apply IH. lia. Qed.
Lemma put_other {A} (l : list A) i j x : i <> j -> nth_error (put l i x) j = nth_error l j.
Proof. revert i j; induction l as [|y l IH]; intros [|i] [|j] H; cbn; auto; try contradiction. Qed.
Lemma nth_lt {A} (l : list A) i x : nth_error l i = Some x -> i < length l.
Proof. intros E. apply nth_error_Some. congruence. Qed.
Lemma put_same' {A} (l : list A) i x y : nth_error l i = Some y -> nth_error (put l i x) i = Some x.
Proof. intros E. apply put_same. eapply nth_lt; eauto. Qed.

(** * Orbits *)
Section Orbit.
Variable f : nat -> nat.
Variable K : list nat.
Hypothesis closed : forall i, In i K -> In (f i) K.
Hypothesis inj : forall i j, In i K -> In j K -> f i = f j -> i = j.

Definition iter (k i : nat) : nat := Nat.iter k f i.
Lemma iter_in k i : In i K -> In (iter k i) K.
Proof. intros I. induction k as [|k IH]; [exact I|]. change (iter (S k) i) with (f (iter k i)). apply closed. exact IH. Qed.
Lemma iter_add a b i : iter (a + b) i = iter a (iter b i).
Proof. induction a as [|a IH]; [reflexivity|]. change (iter (S a + b) i) with (f (iter (a + b) i)). rewrite IH. reflexivity. Qed.
Lemma iter_S_r a i : iter (S a) i = iter a (f i).
Proof. replace (S a) with (a + 1) by lia. rewrite iter_add. reflexivity. Qed.
Lemma iter_inj a i j : In i K -> In j K -> iter a i = iter a j -> i = j.
Proof. induction a as [|a IH]; intros I J E; cbn in E; auto. apply IH; auto. apply inj; auto; apply iter_in; auto. Qed.
Lemma iter_cancel a b i : In i K -> a <= b -> iter a i = iter b i -> iter (b - a) i = i.
Proof.
  intros I L E. replace b with (a + (b - a)) in E by lia. rewrite iter_add in E. symmetry. apply (iter_inj a); auto. apply iter_in; auto.
Qed.

Lemma some_return i : In i K -> exists m, 0 < m /\ iter m i = i.
Proof.
  intros I. set (l := map (fun k => iter k i) (seq 0 (S (length K)))).
  assert (ND : ~ NoDup l).
  { intros ND. assert (L : length l <= length K).
    { apply NoDup_incl_length; [exact ND|]. intros x X. apply in_map_iff in X as (k & <- & _). apply iter_in; exact I. }
    unfold l in L. rewrite map_length, seq_length in L. lia. }
  assert (X : exists a b, a < b /\ iter a i = iter b i).
  { clear closed inj. destruct (ListDec.NoDup_dec Nat.eq_dec l) as [Y|Y]; [contradiction|]. clear Y.
    unfold l in ND. clear l. remember 0 as s. clear Heqs. revert s ND. induction (S (length K)) as [|n IH]; intros s ND.
    - exfalso. apply ND. constructor.
    - cbn in ND. destruct (in_dec Nat.eq_dec (iter s i) (map (fun k => iter k i) (seq (S s) n))) as [J|J].
      + apply in_map_iff in J as (b & E & J). apply in_seq in J. exists s, b. split; [lia|congruence].
      + apply (IH (S s)). intros N. apply ND. constructor; assumption. }
  destruct X as (a & b & L & E). exists (b - a). split; [lia|]. apply iter_cancel; auto. lia.
Qed.
Lemma first_return i : In i K -> exists m, 0 < m /\ iter m i = i /\ forall k, 0 < k < m -> iter k i <> i.
Proof.
  intros I. destruct (some_return i I) as (m & P & E). revert P E. induction m as [m IH] using lt_wf_ind. intros P E.
  assert (D : (exists k, 0 < k < m /\ iter k i = i) \/ ~ (exists k, 0 < k < m /\ iter k i = i)).
  { clear IH E. induction m as [|m IHm]; [lia|]. destruct (Nat.eq_dec m 0) as [->|N]; [right; intros (k & L & _); lia|].
    destruct IHm as [(k & L & E)|N']; [lia| |].
    - left. exists k. split; [lia|exact E].
    - destruct (Nat.eq_dec (iter m i) i) as [Y|Y]; [left; exists m; split; [lia|exact Y]|]. right. intros (k & L & E). destruct (Nat.eq_dec k m) as [->|Z]; [contradiction|]. apply N'. exists k. split; [lia|exact E]. }
  destruct D as [(k & L & Ek)|N].
  - apply (IH k); [lia|lia|exact Ek].
  - exists m. split; [exact P|]. split; [exact E|]. intros k L X. apply N. eauto.
Qed.
Definition orbit (m i : nat) : list nat := map (fun k => iter k i) (seq 0 m).
Lemma orbit_nodup m i : In i K -> (forall k, 0 < k < m -> iter k i <> i) -> NoDup (orbit m i).
Proof.
  intros I N. unfold orbit. apply NoDup_nth_error. intros a b L E. rewrite map_length, seq_length in L.
  assert (G : forall k, k < m -> nth_error (map (fun k => iter k i) (seq 0 m)) k = Some (iter k i)).
  { intros k Lk. rewrite (map_nth_error _ k (seq 0 m) (d := k)); [reflexivity|]. rewrite nth_error_nth' with (d := 0); [|rewrite seq_length; lia]. rewrite seq_nth; [reflexivity|lia]. }
  assert (Lb : b < m). { rewrite G in E by lia. assert (X : b < length (map (fun k => iter k i) (seq 0 m))) by (eapply nth_lt; symmetry; exact E). rewrite map_length, seq_length in X. exact X. }
  rewrite !G in E by lia. assert (E' : iter a i = iter b i) by congruence.
  destruct (Nat.lt_trichotomy a b) as [H|[H|H]]; auto; exfalso.
  - apply (N (b - a)); [lia|]. apply iter_cancel; auto. lia.
  - apply (N (a - b)); [lia|]. apply iter_cancel; auto. lia.
Qed.
Lemma orbit_in m i x : In x (orbit m i) <-> exists k, k < m /\ x = iter k i.
Proof. unfold orbit. rewrite in_map_iff. split; [intros (k & <- & L); apply in_seq in L; exists k; split; [lia|reflexivity]|intros (k & L & ->); exists k; split; [reflexivity|apply in_seq; lia]]. Qed.
Lemma orbit_closed m i x : 0 < m -> iter m i = i -> In x (orbit m i) -> In (f x) (orbit m i).
Proof.
  intros P E X. apply orbit_in in X as (k & L & ->). apply orbit_in. destruct (Nat.eq_dec (S k) m) as [Y|Y].
  - exists 0. split; [lia|]. change (iter (S k) i = i). rewrite Y. exact E.
  - exists (S k). split; [lia|reflexivity].
Qed.
Lemma orbit_back m i x : In i K -> In x K -> 0 < m -> iter m i = i -> In (f x) (orbit m i) -> In x (orbit m i).
Proof.
  intros I X P E Y. apply orbit_in in Y as (k & L & Z). apply orbit_in. destruct k as [|k].
  - exists (m - 1). split; [lia|]. apply inj; auto; [apply iter_in; auto|]. rewrite Z. cbn [iter Nat.iter]. change (f (iter (m - 1) i)) with (iter (S (m - 1)) i). replace (S (m - 1)) with m by lia. rewrite E. reflexivity.
  - exists k. split; [lia|]. apply inj; auto; apply iter_in; auto.
Qed.
End Orbit.

(** * Following a loop *)
Definition nx (pts : list fpoint) (i : nat) : nat := match nth_error pts i with Some p => f_next p | None => 0 end.
Definition ix (pts : list fpoint) (i : nat) : Z := match nth_error pts i with Some p => f_index p | None => (-2)%Z end.
Definition used (pts : list fpoint) (i : nat) : Prop := ix pts i = (-1)%Z \/ ix pts i = (-3)%Z.
Definition plain (pts : list fpoint) (i : nat) : bool := (ix pts i =? -1)%Z.

(** Consecutive elements are linked, and the last one to e. *)
Fixpoint linked (pts : list fpoint) (l : list nat) (e : nat) : Prop :=
  match l with [] => True | a :: l' => a < length pts /\ nx pts a = match l' with [] => e | b :: _ => b end /\ linked pts l' e end.
Lemma linked_ext pts pts' l e : length pts' = length pts -> (forall a, In a l -> nx pts' a = nx pts a) -> linked pts l e -> linked pts' l e.
Proof.
  intros LL. induction l as [|a l IH]; intros H L; cbn in *; auto. destruct L as (A & B & C). rewrite LL, (H a) by auto. split; [exact A|]. split; [exact B|]. apply IH; auto.
Qed.
Lemma linked_snoc pts l x e : linked pts (l ++ [x]) e <-> linked pts l x /\ x < length pts /\ nx pts x = e.
Proof.
  induction l as [|a l IH]; cbn; [tauto|]. rewrite IH. destruct l as [|b l]; cbn; tauto.
Qed.
Lemma linked_iterate pts l e : linked pts l e -> match l with [] => True | a :: _ => iterate_loop pts a (length l) = Some l end.
Proof.
  induction l as [|a l IH]; cbn; auto. intros (A & B & C). specialize (IH C). unfold nx in B. destruct (nth_error pts a) as [p|] eqn:E; [|apply nth_error_None in E; lia].
  destruct l as [|b l]; cbn; [reflexivity|]. rewrite B. cbn in IH. rewrite IH. reflexivity.
Qed.

Lemma nx_put pts i x j : i < length pts -> nx (put pts i x) j = if Nat.eqb i j then f_next x else nx pts j.
Proof. intros L. unfold nx. destruct (Nat.eqb_spec i j) as [->|N]; [rewrite put_same by exact L; reflexivity|rewrite put_other by exact N; reflexivity]. Qed.
Lemma ix_put pts i x j : i < length pts -> ix (put pts i x) j = if Nat.eqb i j then f_index x else ix pts j.
Proof. intros L. unfold ix. destruct (Nat.eqb_spec i j) as [->|N]; [rewrite put_same by exact L; reflexivity|rewrite put_other by exact N; reflexivity]. Qed.
Definition dt (pts : list fpoint) (i : nat) : option point := option_map f_data (nth_error pts i).
Lemma dt_put pts i p x j : nth_error pts i = Some p -> f_data x = f_data p -> dt (put pts i x) j = dt pts j.
Proof.
  intros E D. unfold dt. destruct (Nat.eq_dec i j) as [<-|N]; [rewrite (put_same' _ _ _ _ E), E; cbn; congruence|rewrite put_other by exact N; reflexivity].
Qed.

(** One loop. P0 are the points before it; rest is what is still to be visited. *)
Lemma trace_spec : forall P0 loop_i i rest fuel pts V prev done j,
  (0 <= loop_i)%Z -> length rest <= fuel -> length pts = length P0 ->
  NoDup (i :: done ++ rest) -> (forall x, In x rest -> used P0 x) ->
  (forall x, ~ In x (i :: done) -> nth_error pts x = nth_error P0 x) ->
  (forall x, In x (i :: done) -> ix pts x = loop_i) ->
  (forall x, dt pts x = dt P0 x) ->
  (forall x, ix P0 x = (-3)%Z -> nx pts x = nx P0 x) ->
  incl V (i :: done) -> V <> [] -> last V 0 = prev -> NoDup V -> linked pts V j -> (forall x, In x V -> ix P0 x = (-1)%Z) ->
  linked P0 rest i -> j = hd i rest ->
  exists pts', trace_loop fuel loop_i i pts prev j (length V) = Some (pts', length (V ++ filter (plain P0) rest)) /\
    length pts' = length P0 /\
    (forall x, ~ In x (i :: done ++ rest) -> nth_error pts' x = nth_error P0 x) /\
    (forall x, In x (i :: done ++ rest) -> ix pts' x = loop_i) /\
    (forall x, dt pts' x = dt P0 x) /\
    (forall x, ix P0 x = (-3)%Z -> nx pts' x = nx P0 x) /\
    linked pts' (V ++ filter (plain P0) rest) i.
Proof.
  intros P0 loop_i i rest. induction rest as [|y rest IH]; intros fuel pts V prev done j NN LF LL ND US OTH IN DT AN INC NE LAST NDV LK PL LR J.
  - cbn [filter hd] in *. subst j. rewrite app_nil_r. rewrite app_nil_r. exists pts. split; [destruct fuel; cbn [trace_loop]; rewrite Nat.eqb_refl; reflexivity|]. auto 10.
  - cbn [hd] in J. subst j. destruct fuel as [|fuel]; [cbn in LF; lia|]. cbn [length] in LF. cbn [trace_loop].
    assert (NI : y <> i). { intros ->. inversion ND as [|? ? N _]. apply N. apply in_or_app. right. left. reflexivity. }
    destruct (Nat.eqb_spec y i) as [X|_]; [contradiction|].
    assert (NY : ~ In y (i :: done)). { intros [X|X]; [congruence|]. inversion ND as [|? ? _ N]. apply NoDup_remove_2 in N. apply N. apply in_or_app. auto. }
    cbn [linked] in LR. destruct LR as (LY & NXY & LR). destruct (nth_error P0 y) as [py|] eqn:EY; [|apply nth_error_None in EY; lia].
    rewrite (OTH y NY), EY. assert (US' : ix P0 y = (-1)%Z \/ ix P0 y = (-3)%Z) by (apply US; left; reflexivity). unfold ix in US' at 1 2. rewrite EY in US'.
    assert (NXT : f_next py = hd i rest). { unfold nx in NXY. rewrite EY in NXY. rewrite NXY. destruct rest; reflexivity. }
    assert (LYp : y < length pts) by lia.
    assert (ND' : NoDup (i :: (done ++ [y]) ++ rest)) by (rewrite <- app_assoc; exact ND).
    assert (PV : In prev V). { subst prev. destruct V as [|v V]; [contradiction|]. apply (@exists_last _ (v :: V)) in NE as (V' & z & E). rewrite E. rewrite last_last. apply in_or_app. right. left. reflexivity. }
    assert (LPR : prev < length pts). { apply (@exists_last _ V) in NE as (V' & z & E). rewrite E in LK, LAST. rewrite last_last in LAST. apply linked_snoc in LK as (_ & LK & _). lia. }
    destruct US' as [I1|I3].
    + rewrite I1. cbn [Z.eqb Pos.eqb].
      assert (FP : filter (plain P0) (y :: rest) = y :: filter (plain P0) rest). { cbn [filter]. unfold plain at 1, ix. rewrite EY, I1. reflexivity. }
      rewrite FP. replace (S (length V)) with (length (V ++ [y])) by (rewrite app_length; cbn; lia).
      replace (V ++ y :: filter (plain P0) rest) with ((V ++ [y]) ++ filter (plain P0) rest) by (rewrite <- app_assoc; reflexivity).
      replace (done ++ y :: rest) with ((done ++ [y]) ++ rest) by (rewrite <- app_assoc; reflexivity).
      apply (IH fuel _ (V ++ [y]) y (done ++ [y])); auto.
      * lia.
      * rewrite put_length. exact LL.
      * intros x X. apply US. right. exact X.
      * intros x X. rewrite put_other; [apply OTH; intros [Y|Y]; apply X; [left; exact Y|right; apply in_or_app; auto]|]. intros ->. apply X. right. apply in_or_app. right. left. reflexivity.
      * intros x X. rewrite ix_put by exact LYp. destruct (Nat.eqb_spec y x) as [->|N]; [reflexivity|]. apply IN. destruct X as [X|X]; [left; exact X|]. apply in_app_or in X as [X|[X|[]]]; [right; exact X|contradiction].
      * intros x. rewrite (dt_put pts y py); [apply DT|rewrite OTH; assumption|reflexivity].
      * intros x X. rewrite nx_put by exact LYp. destruct (Nat.eqb_spec y x) as [<-|N]; [|apply AN; exact X]. unfold ix in X. rewrite EY, I1 in X. discriminate.
      * intros x X. apply in_app_or in X as [X|[<-|[]]]; [destruct (INC _ X) as [Y|Y]; [left; exact Y|right; apply in_or_app; auto]|right; apply in_or_app; right; left; reflexivity].
      * destruct V; discriminate.
      * apply last_last.
      * apply Permutation_NoDup with (y :: V); [apply Permutation_cons_append|]. constructor; [|exact NDV]. intros X. apply NY, INC, X.
      * apply linked_snoc. split; [|split; [rewrite put_length; exact LYp|rewrite nx_put, Nat.eqb_refl by exact LYp; first [exact NXT|reflexivity]]].
        apply (linked_ext pts); [apply put_length| |exact LK]. intros a A. rewrite nx_put by exact LYp. destruct (Nat.eqb_spec y a) as [<-|N]; [|reflexivity]. exfalso. apply NY, INC, A.
      * intros x X. apply in_app_or in X as [X|[<-|[]]]; [apply PL; exact X|]. unfold ix. rewrite EY. exact I1.
    + rewrite I3. cbn [Z.eqb Pos.eqb]. assert (PY : prev <> y) by (intros ->; apply NY, INC, PV).
      destruct (nth_error pts prev) as [pp|] eqn:EP; [|apply nth_error_None in EP; lia].
      assert (FP : filter (plain P0) (y :: rest) = filter (plain P0) rest). { cbn [filter]. unfold plain at 1, ix. rewrite EY, I3. reflexivity. }
      rewrite FP. replace (done ++ y :: rest) with ((done ++ [y]) ++ rest) by (rewrite <- app_assoc; reflexivity).
      assert (LYq : y < length (put pts prev (f_set_next pp (f_next py)))) by (rewrite put_length; exact LYp).
      apply (IH fuel _ V prev (done ++ [y])); auto.
      * lia.
      * rewrite !put_length. exact LL.
      * intros x X. apply US. right. exact X.
      * intros x X. rewrite put_other; [rewrite put_other|].
        -- apply OTH. intros [Y|Y]; apply X; [left; exact Y|right; apply in_or_app; auto].
        -- intros ->. apply X. destruct (INC _ PV) as [Y|Y]; [left; exact Y|right; apply in_or_app; auto].
        -- intros ->. apply X. right. apply in_or_app. right. left. reflexivity.
      * intros x X. rewrite ix_put by exact LYq. destruct (Nat.eqb_spec y x) as [->|N]; [reflexivity|]. rewrite ix_put by exact LPR.
        assert (X' : In x (i :: done)). { destruct X as [X|X]; [left; exact X|]. apply in_app_or in X as [X|[X|[]]]; [right; exact X|contradiction]. }
        destruct (Nat.eqb_spec prev x) as [->|N']; [|apply IN; exact X']. cbn [f_set_next f_index]. specialize (IN x X'). unfold ix in IN. rewrite EP in IN. exact IN.
      * intros x. rewrite (dt_put _ y py); [rewrite (dt_put _ prev pp); [apply DT|exact EP|reflexivity]|rewrite put_other by exact PY; rewrite OTH; assumption|reflexivity].
      * intros x X. rewrite nx_put by exact LYq. destruct (Nat.eqb_spec y x) as [<-|N]; [unfold nx; rewrite EY; reflexivity|]. rewrite nx_put by exact LPR.
        destruct (Nat.eqb_spec prev x) as [<-|N']; [|apply AN; exact X]. rewrite (PL _ PV) in X. discriminate.
      * intros x X. destruct (INC _ X) as [Y|Y]; [left; exact Y|right; apply in_or_app; auto].
      * apply (@exists_last _ V) in NE as (V' & z & E). rewrite E in *. rewrite last_last in LAST. subst z. apply linked_snoc in LK as (A & B & C). apply linked_snoc.
        assert (NV : forall a, In a V' -> a <> prev). { intros a AA ->. apply NoDup_remove_2 in NDV. apply NDV. rewrite app_nil_r. exact AA. }
        split; [|split].
        -- apply (linked_ext pts); [rewrite !put_length; reflexivity| |exact A]. intros a AA. rewrite nx_put by exact LYq. destruct (Nat.eqb_spec y a) as [<-|N]; [exfalso; apply NY, INC, in_or_app; auto|].
           rewrite nx_put by exact LPR. destruct (Nat.eqb_spec prev a) as [<-|N']; [exfalso; exact (NV _ AA eq_refl)|reflexivity].
        -- rewrite !put_length. exact LPR.
        -- rewrite nx_put by exact LYq. destruct (Nat.eqb_spec y prev) as [X|_]; [congruence|]. rewrite nx_put, Nat.eqb_refl by exact LPR. first [exact NXT|reflexivity].
Qed.

(** * All loops *)
Section All.
Variable P0 : list fpoint.
Hypothesis LINKS : links_ok P0.
Let f := nx P0.
Definition Kset : list nat := filter (fun i => (ix P0 i =? -1)%Z || (ix P0 i =? -3)%Z) (seq 0 (length P0)).
Lemma K_in i : In i Kset <-> used P0 i.
Proof.
  unfold Kset. rewrite filter_In, in_seq. unfold used. split.
  - intros (_ & H). apply orb_true_iff in H as [H|H]; apply Z.eqb_eq in H; auto.
  - intros H. split; [|destruct H as [->| ->]; reflexivity]. unfold ix in H. destruct (nth_error P0 i) eqn:E; [|destruct H; discriminate]. apply nth_lt in E. lia.
Qed.
Lemma used_point i : used P0 i -> exists p, nth_error P0 i = Some p /\ in_use p.
Proof. unfold used, ix, in_use. destruct (nth_error P0 i) as [p|]; [eauto|intros [H|H]; discriminate]. Qed.
Lemma point_used i p : nth_error P0 i = Some p -> in_use p -> used P0 i.
Proof. intros E. unfold used, ix, in_use. rewrite E. auto. Qed.
Lemma K_closed i : In i Kset -> In (f i) Kset.
Proof.
  rewrite !K_in. intros U. destruct (used_point i U) as (p & E & Q). destruct (proj1 LINKS i p E Q) as (q & E' & Q'). unfold f, nx. rewrite E. exact (point_used _ _ E' Q').
Qed.
Lemma K_inj i j : In i Kset -> In j Kset -> f i = f j -> i = j.
Proof.
  rewrite !K_in. intros U V E. destruct (used_point i U) as (p & Ei & Qi). destruct (used_point j V) as (q & Ej & Qj). unfold f, nx in E. rewrite Ei, Ej in E. exact (proj2 LINKS i j p q Ei Ej Qi Qj E).
Qed.

Definition whole (O : list nat) : Prop :=
  (forall x, In x O -> In x Kset /\ In (f x) O) /\ (forall x, In x Kset -> In (f x) O -> In x O) /\ O <> [] /\ plain P0 (hd 0 O) = true /\ linked P0 O (hd 0 O).
Definition fits (pts : list fpoint) (loc : loop_loc) (O : list nat) : Prop :=
  whole O /\ fst loc = hd 0 O /\ snd loc = length (filter (plain P0) O) /\ linked pts (filter (plain P0) O) (hd 0 O).

Lemma whole_disjoint O O' x : whole O -> whole O' -> In x O -> In x O' -> forall y, In y O -> In y O'.
Proof.
  intros W W' I I' y Y.
  assert (LKO : linked P0 O (hd 0 O)) by apply W.
  assert (C : forall l a e, linked P0 (a :: l) e -> (forall z, In z (a :: l) -> In z O) -> In e O' -> forall z, In z (a :: l) -> In z O').
  { induction l as [|b l IH]; intros a e L SU E z [<-|Z].
    - cbn in L. destruct L as (_ & L & _). apply W'; [apply W; apply SU; left; reflexivity|]. unfold f. rewrite L. exact E.
    - destruct Z.
    - cbn [linked] in L. destruct L as (_ & L & L'). apply W'; [apply W; apply SU; left; reflexivity|]. unfold f. rewrite L. apply (IH b e); auto; [intros w Q; apply SU; right; exact Q|left; reflexivity].
    - cbn [linked] in L. destruct L as (_ & _ & L). apply (IH b e); auto. intros w Q; apply SU; right; exact Q. }
  assert (D : forall l a e, linked P0 (a :: l) e -> (forall z, In z (a :: l) -> In z O) -> (exists z, In z (a :: l) /\ In z O') -> In e O').
  { induction l as [|b l IH]; intros a e L SU (z & [<-|Z] & Z').
    - cbn in L. destruct L as (_ & L & _). rewrite <- L. apply (proj1 W'). exact Z'.
    - destruct Z.
    - cbn [linked] in L. destruct L as (_ & L & L'). apply (IH b e); auto; [intros w Q; apply SU; right; exact Q|]. exists b. split; [left; reflexivity|]. rewrite <- L. apply (proj1 W'). exact Z'.
    - cbn [linked] in L. destruct L as (_ & _ & L). apply (IH b e); auto; [intros w Q; apply SU; right; exact Q|]. exists z. auto. }
  destruct O as [|a l]; [destruct I|]. cbn [hd] in LKO. apply (C l a a LKO); auto. apply (D l a a LKO); auto. exists x. auto.
Qed.

Lemma orbit_linked m i : In i Kset -> 0 < m -> iter f m i = i -> linked P0 (orbit f m i) i.
Proof.
  intros I P E. unfold orbit.
  assert (G : forall n s, s + n = m -> linked P0 (map (fun k => iter f k i) (seq s n)) i).
  { induction n as [|n IH]; intros s L; cbn [seq map linked]; auto. split; [|split].
    - assert (U : In (iter f s i) Kset) by (apply iter_in; [exact K_closed|exact I]). unfold Kset in U. apply filter_In in U as (U & _). apply in_seq in U. lia.
    - change (nx P0 (iter f s i)) with (iter f (S s) i). destruct n as [|n]; cbn [seq map]; [|reflexivity]. replace (S s) with m by lia. exact E.
    - apply IH. lia. }
  apply G. lia.
Qed.

Lemma nth_error_ext' {A} (l l' : list A) : (forall n, nth_error l n = nth_error l' n) -> l = l'.
Proof.
  revert l'. induction l as [|a l IH]; intros [|b l'] H; auto; try (specialize (H 0); discriminate).
  f_equal; [specialize (H 0); cbn in H; congruence|]. apply IH. intros n. exact (H (S n)).
Qed.
Lemma NoDup_app' {A} (l l' : list A) : NoDup l -> NoDup l' -> (forall x, In x l -> ~ In x l') -> NoDup (l ++ l').
Proof.
  induction 1 as [|a l N ND IH]; intros ND' D; cbn; [exact ND'|]. constructor.
  - intros X. apply in_app_or in X as [X|X]; [exact (N X)|]. exact (D a (or_introl eq_refl) X).
  - apply IH; [exact ND'|]. intros x X. apply D. right. exact X.
Qed.
Lemma in_concat' {A} (x : A) ls : In x (concat ls) <-> exists l, In l ls /\ In x l.
Proof. rewrite in_concat. split; intros (l & X & Y); exists l; auto. Qed.

Record inv (i : nat) (pts : list fpoint) (loops : list loop_loc) (Os : list (list nat)) : Prop := mk_inv {
  inv_len : length pts = length P0;
  inv_nodup : NoDup (concat Os);
  inv_other : forall x, ~ In x (concat Os) -> nth_error pts x = nth_error P0 x;
  inv_data : forall x, dt pts x = dt P0 x;
  inv_anchor : forall x, ix P0 x = (-3)%Z -> nx pts x = nx P0 x;
  inv_fits : Forall2 (fits pts) loops Os;
  inv_index : forall k O x, nth_error Os k = Some O -> In x O -> ix pts x = Z.of_nat k;
  inv_all : forall x, x < i -> plain P0 x = true -> In x (concat Os) }.

Lemma find_spec : forall k i pts loops Os, k + i = length P0 -> inv i pts loops Os ->
  exists pts' loops' Os', find_loops_from (length P0) k i pts loops = Some (pts', loops') /\ inv (length P0) pts' loops' Os'.
Proof.
  induction k as [|k IH]; intros i pts loops Os L INV.
  - cbn in L. subst i. exists pts, loops, Os. split; [reflexivity|exact INV].
  - cbn [find_loops_from]. destruct INV as [LEN ND OTH DT AN FIT IDX ALL].
    destruct (nth_error pts i) as [p|] eqn:E; [|apply nth_error_None in E; lia].
    assert (SAME : plain P0 i = true -> ~ In i (concat Os) -> nth_error P0 i = Some p). { intros _ N. rewrite <- OTH by exact N. exact E. }
    destruct (Z.eqb_spec (f_index p) (-1)) as [EI|NI].
    + assert (NIN : ~ In i (concat Os)).
      { intros X. apply in_concat' in X as (O & X & Y). apply In_nth_error in X as (n & X). specialize (IDX n O i X Y). unfold ix in IDX. rewrite E, EI in IDX. lia. }
      assert (E0 : nth_error P0 i = Some p) by (rewrite <- OTH by exact NIN; exact E).
      assert (PI : plain P0 i = true) by (unfold plain, ix; rewrite E0, EI; reflexivity).
      assert (KI : In i Kset). { apply K_in. left. unfold ix. rewrite E0. exact EI. }
      destruct (first_return f Kset K_closed K_inj i KI) as (m & MP & ME & MN).
      assert (ONX : orbit f m i = i :: map (fun k => iter f k i) (seq 1 (m - 1))). { unfold orbit. destruct m; [lia|]. cbn [seq map]. rewrite Nat.sub_succ, Nat.sub_0_r. reflexivity. }
      set (rest := map (fun k => iter f k i) (seq 1 (m - 1))) in *.
      assert (OND : NoDup (i :: rest)). { rewrite <- ONX. apply (orbit_nodup f Kset K_closed K_inj); auto. }
      assert (OLK : linked P0 (i :: rest) i). { rewrite <- ONX. apply orbit_linked; auto. }
      assert (W : whole (i :: rest)).
      { unfold whole. rewrite <- ONX. split; [|split; [|split; [|split]]].
        - intros x X. split; [apply orbit_in in X as (n & _ & ->); apply iter_in; [exact K_closed|exact KI]|]. apply orbit_closed; auto.
        - intros x X. apply (orbit_back f Kset K_closed K_inj); auto.
        - rewrite ONX. discriminate.
        - rewrite ONX. exact PI.
        - rewrite ONX. exact OLK. }
      assert (DIS : forall x, In x (i :: rest) -> ~ In x (concat Os)).
      { intros x X Y. apply in_concat' in Y as (O & Y & Z). destruct (In_nth_error _ _ Y) as (n & Yn). assert (WO : whole O).
        { clear - FIT Y. induction FIT as [|loc O' locs Os F FS IH]; [destruct Y|]. destruct Y as [<-|Y]; [apply F|exact (IH Y)]. }
        apply NIN. apply in_concat'. exists O. split; [exact Y|]. apply (whole_disjoint (i :: rest) O x W WO X Z). left. reflexivity. }
      set (li := Z.of_nat (length loops)).
      assert (LP : i < length pts) by (eapply nth_lt; eauto).
      assert (RNX : f_next p = hd i rest). { cbn [linked] in OLK. destruct OLK as (_ & X & _). unfold nx in X. rewrite E0 in X. rewrite X. destruct rest; reflexivity. }
      assert (SM : forall x, In x (i :: rest) -> nth_error pts x = nth_error P0 x) by (intros x X; apply OTH, DIS, X).
      assert (PLE : filter (plain pts) rest = filter (plain P0) rest).
      { apply filter_ext_in. intros x X. unfold plain, ix. rewrite SM by (right; exact X). reflexivity. }
      destruct (trace_spec pts li i rest (length P0) (put pts i (f_set_index p li)) [i] i [] (f_next p)) as (pts' & T & TL & TO & TI & TD & TA & TK).
      * unfold li. lia.
      * assert (X : length (i :: rest) <= length Kset) by (apply NoDup_incl_length; [exact OND|intros x X; apply W; exact X]). assert (Y : length Kset <= length (seq 0 (length P0))). { unfold Kset. generalize (seq 0 (length P0)). induction l as [|a l IHl]; cbn; [lia|]. destruct (_ || _); cbn; lia. } rewrite seq_length in Y. cbn in X. lia.
      * rewrite put_length. reflexivity.
      * exact OND.
      * intros x X. unfold used, ix. rewrite SM by (right; exact X). apply K_in. apply W. right. exact X.
      * intros x X. apply put_other. intros ->. apply X. left. reflexivity.
      * intros x [<-|[]]. rewrite ix_put, Nat.eqb_refl by exact LP. reflexivity.
      * intros x. apply dt_put with (p := p); [exact E|reflexivity].
      * intros x X. rewrite nx_put by exact LP. destruct (Nat.eqb_spec i x) as [<-|]; [|reflexivity]. unfold nx. rewrite E. reflexivity.
      * intros x X; exact X.
      * discriminate.
      * reflexivity.
      * constructor; [intros []|constructor].
      * cbn [linked]. split; [rewrite put_length; exact LP|]. split; [rewrite nx_put, Nat.eqb_refl by exact LP; reflexivity|exact I].
      * intros x [<-|[]]. unfold ix. rewrite E. exact EI.
      * cbn [linked] in OLK. apply linked_ext with (pts := P0); [exact LEN| |apply OLK]. intros x X. unfold nx. rewrite SM by (right; exact X). reflexivity.
      * exact RNX.
      * cbn [length] in T. fold li. rewrite T. rewrite PLE in T, TK |- *. cbn [app] in TK, TO, TI |- *.
        assert (FO : filter (plain P0) (i :: rest) = i :: filter (plain P0) rest) by (cbn [filter]; rewrite PI; reflexivity).
        assert (LO : length loops = length Os) by (clear - FIT; induction FIT; cbn; congruence).
        apply (IH (S i) pts' (loops ++ [(i, S (length (filter (plain P0) rest)))]) (Os ++ [i :: rest])); [lia|].
        assert (CC : concat (Os ++ [i :: rest]) = concat Os ++ (i :: rest)) by (rewrite concat_app; cbn [concat]; rewrite app_nil_r; reflexivity).
        assert (KEEP : forall x, In x (concat Os) -> nth_error pts' x = nth_error pts x). { intros x X. apply TO. intros Y. exact (DIS x Y X). }
        constructor.
        -- rewrite TL. exact LEN.
        -- rewrite CC. apply NoDup_app'; auto. intros x X Y. exact (DIS x Y X).
        -- rewrite CC. intros x X. rewrite TO by (intros Y; apply X; apply in_or_app; right; exact Y). apply OTH. intros Y. apply X. apply in_or_app. left. exact Y.
        -- intros x. rewrite TD. apply DT.
        -- intros x X. destruct (in_dec Nat.eq_dec x (concat Os)) as [Y|Y].
           ++ unfold nx at 1. rewrite KEEP by exact Y. apply AN. exact X.
           ++ rewrite TA; [apply AN; exact X|]. unfold ix. rewrite OTH by exact Y. exact X.
        -- apply Forall2_app.
           ++ assert (KE : forall O, In O Os -> forall x, In x O -> nx pts' x = nx pts x). { intros O Y x X. unfold nx. rewrite KEEP; [reflexivity|]. apply in_concat'. eauto. }
              clear - FIT KE TL. induction FIT as [|loc O locs Os F FS IHf]; constructor.
              ** destruct F as (F1 & F2 & F3 & F4). split; [exact F1|]. split; [exact F2|]. split; [exact F3|]. apply linked_ext with (pts := pts); [congruence| |exact F4]. intros x X. apply (KE O); [left; reflexivity|]. apply filter_In in X. apply X.
              ** apply IHf. intros O' Y. apply KE. right. exact Y.
           ++ constructor; [|constructor]. split; [exact W|]. split; [reflexivity|]. rewrite FO. split; [reflexivity|]. exact TK.
        -- intros n O x X Y. destruct (Nat.lt_ge_cases n (length Os)) as [Q|Q].
           ++ rewrite nth_error_app1 in X by exact Q. unfold ix. rewrite KEEP; [exact (IDX n O x X Y)|]. apply in_concat'. exists O. split; [eapply nth_error_In; eauto|exact Y].
           ++ rewrite nth_error_app2 in X by exact Q. destruct (n - length Os) as [|r] eqn:R; [|destruct r; discriminate]. cbn in X. injection X as <-. rewrite TI by exact Y. unfold li. lia.
        -- intros x X PX. rewrite CC. apply in_or_app. destruct (Nat.eq_dec x i) as [->|N]; [right; left; reflexivity|left; apply ALL; [lia|exact PX]].
    + apply (IH (S i) pts loops Os); [lia|]. constructor; auto. intros x X PX. destruct (Nat.eq_dec x i) as [->|N]; [|apply ALL; [lia|exact PX]].
      destruct (in_dec Nat.eq_dec i (concat Os)) as [Y|Y]; [exact Y|]. exfalso. apply NI. specialize (SAME PX Y). unfold plain, ix in PX. rewrite SAME in PX. apply Z.eqb_eq. exact PX.
Qed.

Lemma leads_hd : forall l a e, linked P0 (a :: l) e -> (forall x, In x l -> used P0 x) -> plain P0 e = true -> leads_to P0 a (hd e (filter (plain P0) l)).
Proof.
  induction l as [|b l IH]; intros a e L U E.
  - cbn [linked] in L. destruct L as (LA & L & _). cbn [filter hd]. destruct (nth_error P0 a) as [p|] eqn:EA; [|apply nth_error_None in EA; lia].
    unfold nx in L. rewrite EA in L. subst e. unfold plain, ix in E. destruct (nth_error P0 (f_next p)) as [q|] eqn:EQ; [|discriminate].
    apply Z.eqb_eq in E. eapply leads_direct; eauto.
  - cbn [linked] in L. destruct L as (LA & L & L'). destruct (nth_error P0 a) as [p|] eqn:EA; [|apply nth_error_None in EA; lia].
    unfold nx in L. rewrite EA in L. subst b. specialize (U (f_next p) (or_introl eq_refl)) as UP. specialize (IH (f_next p) e L' (fun x X => U x (or_intror X)) E).
    destruct (nth_error P0 (f_next p)) as [q|] eqn:EQ; [|unfold used, ix in UP; rewrite EQ in UP; destruct UP; discriminate].
    cbn [filter]. destruct (plain P0 (f_next p)) eqn:PL.
    + cbn [hd]. unfold plain, ix in PL. rewrite EQ in PL. apply Z.eqb_eq in PL. eapply leads_direct; eauto.
    + unfold plain, ix in PL. rewrite EQ in PL. apply Z.eqb_neq in PL. unfold used, ix in UP. rewrite EQ in UP. destruct UP as [UP|UP]; [congruence|]. eapply leads_skip; eauto.
Qed.

(** Every element and its successor in the list (e after the last) are related. *)
Fixpoint steps (R : nat -> nat -> Prop) (l : list nat) (e : nat) : Prop :=
  match l with [] => True | a :: l' => R a (hd e l') /\ steps R l' e end.
Lemma leads_steps : forall l e, linked P0 l e -> (forall x, In x l -> used P0 x) -> plain P0 e = true -> steps (leads_to P0) (filter (plain P0) l) e.
Proof.
  induction l as [|a l IH]; intros e L U E; cbn [filter steps]; auto.
  assert (L' : linked P0 l e) by (cbn [linked] in L; apply L).
  specialize (IH e L' (fun x X => U x (or_intror X)) E). destruct (plain P0 a); [|exact IH]. cbn [steps]. split; [|exact IH].
  apply leads_hd; auto. intros x X. apply U. right. exact X.
Qed.
Lemma linked_steps pts : forall l e, linked pts l e -> steps (fun a b => exists p, nth_error pts a = Some p /\ f_next p = b) l e.
Proof.
  induction l as [|a l IH]; intros e L; cbn [steps]; auto. cbn [linked] in L. destruct L as (LA & L & L'). split; [|auto].
  destruct (nth_error pts a) as [p|] eqn:EA; [|apply nth_error_None in EA; lia]. unfold nx in L. rewrite EA in L. exists p. split; [reflexivity|]. rewrite L. destruct l; reflexivity.
Qed.
Lemma steps_nth R : forall l e k a, steps R l e -> nth_error l k = Some a -> R a (match nth_error l (S k) with Some b => b | None => e end).
Proof.
  induction l as [|x l IH]; intros e k a ST N; [destruct k; discriminate|]. cbn [steps] in ST. destruct ST as (ST & ST'). destruct k as [|k].
  - cbn in N. injection N as <-. cbn. destruct l; exact ST.
  - cbn in N. cbn [nth_error]. exact (IH e k a ST' N).
Qed.
Lemma steps_cyclic R l a b : steps R l (hd 0 l) -> cyclic_next l a b -> R a b.
Proof.
  intros ST (k & A & B). pose proof (steps_nth R l (hd 0 l) k a ST A) as H. assert (KL : k < length l) by (eapply nth_lt; eauto).
  destruct (Nat.eq_dec (S k) (length l)) as [E|N].
  - rewrite E, Nat.mod_same in B by lia. replace (nth_error l (S k)) with (@None nat) in H by (symmetry; apply nth_error_None; lia). destruct l as [|x l]; [discriminate|]. cbn in B. injection B as <-. exact H.
  - rewrite Nat.mod_small in B by lia. rewrite B in H. exact H.
Qed.

Theorem find_loops_ok : exists pts loops Ls, find_loops P0 = Some (pts, loops) /\
  Forall2 (fun loc L => L <> [] /\ hd 0 L = fst loc /\ iterate_loop pts (fst loc) (snd loc) = Some L) loops Ls /\
  Permutation (concat Ls) (ordinary P0) /\
  (forall L a b, In L Ls -> cyclic_next L a b -> leads_to P0 a b /\ exists p, nth_error pts a = Some p /\ f_next p = b) /\
  map f_data pts = map f_data P0 /\
  (forall k L x p, nth_error Ls k = Some L -> In x L -> nth_error pts x = Some p -> f_index p = Z.of_nat k) /\
  (forall a j p q p', nth_error P0 a = Some p -> f_index p = (-3)%Z -> leads_to P0 a j -> nth_error pts a = Some p' -> nth_error pts j = Some q -> f_index p' = f_index q /\ f_next p' = f_next p).
Proof.
  destruct (find_spec (length P0) 0 P0 [] []) as (pts & loops & Os & F & [LEN ND OTH DT AN FIT IDX ALL]).
  - lia.
  - constructor; auto; try (intros; exfalso; eauto; fail).
    + constructor.
    + intros k O x X. destruct k; discriminate.
    + intros x X. lia.
  - exists pts, loops, (map (filter (plain P0)) Os). split; [exact F|].
    assert (WH : forall O, In O Os -> exists loc, fits pts loc O). { clear - FIT. induction FIT as [|loc O locs Os F FS IH]; intros O' X; [destruct X|]. destruct X as [<-|X]; eauto. }
    assert (HD : forall O, whole O -> hd 0 (filter (plain P0) O) = hd 0 O). { intros [|a O] W; [reflexivity|]. cbn [filter hd]. destruct W as (_ & _ & _ & W & _). cbn [hd] in W. rewrite W. reflexivity. }
    assert (NE : forall O, whole O -> filter (plain P0) O <> []). { intros [|a O] W; [exfalso; apply W; reflexivity|]. cbn [filter]. destruct W as (_ & _ & _ & W & _). cbn [hd] in W. rewrite W. discriminate. }
    split; [|split; [|split; [|split; [|split]]]].
    + clear - FIT HD NE. induction FIT as [|loc O locs Os F FS IH]; cbn [map]; constructor; auto.
      destruct F as (W & F2 & F3 & F4). split; [apply NE; exact W|]. split; [rewrite HD by exact W; auto|]. pose proof (linked_iterate _ _ _ F4) as Q. pose proof (HD O W) as H1. pose proof (NE O W) as H2.
      destruct (filter (plain P0) O) as [|a l] eqn:EF; [congruence|]. cbn [hd] in H1. rewrite F2, F3, <- H1. exact Q.
    + apply NoDup_Permutation.
      * clear - ND. induction Os as [|O Os IH]; cbn; [constructor|]. cbn in ND. apply NoDup_app'.
        -- apply NoDup_filter. clear - ND. induction O as [|a O IH]; [constructor|]. cbn in ND. inversion ND as [|? ? N ND' E1]; subst. constructor; [|auto]. intros X. apply N. apply in_or_app. auto.
        -- apply IH. clear - ND. induction O as [|a O IH]; auto. cbn in ND. inversion ND; auto.
        -- intros x X Y. apply filter_In in X as (X & _). apply in_concat' in Y as (l & Y & Z). apply in_map_iff in Y as (O' & <- & Y). apply filter_In in Z as (Z & _). assert (B : In x (concat Os)) by (apply in_concat'; eauto). clear - ND X B. induction O as [|a O IH]; [destruct X|]. cbn in ND. inversion ND as [|? ? N ND' E1]; subst. destruct X as [->|X]; auto. apply N. apply in_or_app. auto.
      * apply NoDup_filter, seq_NoDup.
      * intros x. unfold ordinary. rewrite filter_In, in_seq, in_concat'. split.
        -- intros (l & Y & Z). apply in_map_iff in Y as (O & <- & Y). apply filter_In in Z as (Z & PL). unfold plain, ix in PL. destruct (nth_error P0 x) as [p|] eqn:E; [|discriminate]. split; [apply nth_lt in E; lia|exact PL].
        -- intros (X & PL). assert (PX : plain P0 x = true). { unfold plain, ix. destruct (nth_error P0 x); [exact PL|discriminate]. }
           assert (Y : In x (concat Os)) by (apply ALL; [lia|exact PX]). apply in_concat' in Y as (O & Y & Z). exists (filter (plain P0) O). split; [apply in_map; exact Y|]. apply filter_In. auto.
    + intros L a b X C. apply in_map_iff in X as (O & <- & X). destruct (WH O X) as (loc & W & F2 & F3 & F4). split.
      * apply (steps_cyclic (leads_to P0) (filter (plain P0) O)); [|exact C]. rewrite HD by exact W. apply leads_steps; [apply W| |apply W]. intros x Y. apply K_in. apply W. exact Y.
      * apply (steps_cyclic (fun a b => exists p, nth_error pts a = Some p /\ f_next p = b) (filter (plain P0) O)); [|exact C]. rewrite HD by exact W. apply linked_steps. exact F4.
    + apply nth_error_ext'. intros n. rewrite !nth_error_map. exact (DT n).
    + intros k L x p X Y E. rewrite nth_error_map in X. destruct (nth_error Os k) as [O|] eqn:EO; [|discriminate]. cbn in X. injection X as <-. apply filter_In in Y as (Y & _). specialize (IDX k O x EO Y). unfold ix in IDX. rewrite E in IDX. exact IDX.
    + intros a j p q p' EA IA LT EA' EJ.
      assert (NXA : f_next p' = f_next p). { specialize (AN a). unfold ix in AN. rewrite EA in AN. specialize (AN IA). unfold nx in AN. rewrite EA, EA' in AN. exact AN. }
      split; [|exact NXA].
      assert (J : plain P0 j = true /\ forall O, In O Os -> In j O -> In a O).
      { clear - LT WH EA IA. assert (UA : In a Kset) by (apply K_in; right; unfold ix; rewrite EA; exact IA). clear EA IA. induction LT as [i pi qi EI EQ IQ|i pi qi j EI EQ IQ LT IH].
        - split; [unfold plain, ix; rewrite EQ, IQ; reflexivity|]. intros O X Y. destruct (WH O X) as (loc & W & _). apply W; [exact UA|]. unfold f, nx. rewrite EI. exact Y.
        - assert (UN : In (f_next pi) Kset) by (apply K_in; right; unfold ix; rewrite EQ; exact IQ). destruct (IH UN) as (PJ & H). split; [exact PJ|]. intros O X Y. destruct (WH O X) as (loc & W & _). apply W; [exact UA|]. unfold f, nx. rewrite EI. apply H; auto. }
      destruct J as (PJ & J). assert (Y : In j (concat Os)). { apply ALL; [|exact PJ]. unfold plain, ix in PJ. destruct (nth_error P0 j) eqn:E0; [|discriminate]. eapply nth_lt; eauto. }
      apply in_concat' in Y as (O & Y & Z). pose proof (J O Y Z) as JA. destruct (In_nth_error _ _ Y) as (k & YK). pose proof (IDX k O j YK Z) as I1. pose proof (IDX k O a YK JA) as I2. unfold ix in I1, I2. rewrite EJ in I1. rewrite EA' in I2. congruence.
Qed.
End All.
