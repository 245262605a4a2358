From Coq Require Import List Bool Arith Lia Sorted Permutation.
From Verif Require Import FlatSetModel FlatSetSpec.
Import ListNotations.

Lemma ins_sorted_in x l y : In y (ins_sorted x l) <-> y = x \/ In y l.
Proof.
  induction l as [|a l IH]; cbn; [intuition|]. destruct (Nat.leb x a); cbn; [intuition|]. rewrite IH. intuition.
Qed.
Lemma sort_in l y : In y (sort l) <-> In y l.
Proof. induction l as [|a l IH]; cbn; [reflexivity|]. rewrite ins_sorted_in, IH. intuition. Qed.

Lemma ins_sorted_sorted x l : StronglySorted le l -> StronglySorted le (ins_sorted x l).
Proof.
  induction 1 as [|a l S IH F]; cbn; [repeat constructor|].
  destruct (Nat.leb_spec x a).
  - constructor; [constructor; assumption|]. constructor; [lia|]. eapply Forall_impl; [|exact F]. cbn. intros; lia.
  - constructor; [assumption|]. rewrite Forall_forall in *. intros y Hy. apply ins_sorted_in in Hy. destruct Hy as [->|Hy]; [lia|auto].
Qed.
Lemma sort_sorted l : StronglySorted le (sort l).
Proof. induction l as [|a l IH]; cbn; [constructor|]. apply ins_sorted_sorted. assumption. Qed.

Lemma merge_nil_r a : merge_lists a [] = a.
Proof. destruct a; reflexivity. Qed.
Lemma merge_cons x a y b : merge_lists (x :: a) (y :: b) =
  if Nat.ltb y x then y :: merge_lists (x :: a) b else x :: merge_lists a (y :: b).
Proof. reflexivity. Qed.

Lemma merge_in a : forall b y, In y (merge_lists a b) <-> In y a \/ In y b.
Proof.
  induction a as [|x a IHa]; intros b y; [cbn; intuition|].
  induction b as [|z b IHb]; [rewrite merge_nil_r; cbn; intuition|].
  rewrite merge_cons. destruct (Nat.ltb z x).
  - cbn [In]. rewrite IHb. cbn [In]. intuition.
  - cbn [In]. rewrite IHa. cbn [In]. intuition.
Qed.
Lemma merge_sorted a : forall b, StronglySorted le a -> StronglySorted le b -> StronglySorted le (merge_lists a b).
Proof.
  induction a as [|x a IHa]; intros b Ha Hb; [exact Hb|].
  induction b as [|z b IHb]; [rewrite merge_nil_r; assumption|].
  rewrite merge_cons. inversion Ha; inversion Hb; subst. rewrite Forall_forall in *.
  destruct (Nat.ltb_spec z x).
  - constructor; [auto|]. rewrite Forall_forall. intros y Hy. apply merge_in in Hy. cbn in Hy.
    destruct Hy as [[<-|Hy]|Hy]; [lia|match goal with X : forall x0, In x0 a -> x <= x0 |- _ => specialize (X _ Hy) end; lia|auto].
  - constructor; [auto|]. rewrite Forall_forall. intros y Hy. apply merge_in in Hy. cbn in Hy.
    destruct Hy as [Hy|[<-|Hy]]; [auto|lia|match goal with X : forall x0, In x0 b -> z <= x0 |- _ => specialize (X _ Hy) end; lia].
Qed.

Lemma unique_cons x y l : unique (x :: y :: l) = if Nat.eqb x y then unique (y :: l) else x :: unique (y :: l).
Proof. reflexivity. Qed.
Lemma unique_in l y : In y (unique l) <-> In y l.
Proof.
  induction l as [|a [|b l] IH]; [reflexivity|reflexivity|]. rewrite unique_cons.
  destruct (Nat.eqb_spec a b) as [->|].
  - rewrite IH. cbn. intuition.
  - cbn [In] in *. rewrite IH. reflexivity.
Qed.
Lemma unique_sorted l : StronglySorted le l -> StronglySorted lt (unique l).
Proof.
  induction l as [|a [|b l] IH]; intros H; [constructor|repeat constructor|]. rewrite unique_cons. inversion H; subst.
  destruct (Nat.eqb_spec a b); [auto|]. constructor; [auto|].
  rewrite Forall_forall in *. intros y Hy. apply (unique_in (b :: l)) in Hy.
  match goal with X : StronglySorted le (b :: l) |- _ => inversion X; subst end. rewrite Forall_forall in *.
  assert (a <= b) by (match goal with X : forall x, In x (b :: l) -> a <= x |- _ => apply X; left; reflexivity end).
  destruct Hy as [<-|Hy]; [lia|].
  match goal with X : forall x, In x l -> b <= x |- _ => specialize (X _ Hy) end. lia.
Qed.

Lemma sorted_lt_le l : StronglySorted lt l -> StronglySorted le l.
Proof. induction 1; constructor; [assumption|]. eapply Forall_impl; [|eassumption]. cbn. intros; lia. Qed.

Lemma drop_equal_spec x l :
  (drop_equal x l = [] -> forall y, In y l -> y = x) /\
  (forall y, In y l -> y = x \/ In y (drop_equal x l)) /\ (forall y, In y (drop_equal x l) -> In y l) /\
  (forall y m, drop_equal x l = y :: m -> y <> x).
Proof.
  induction l as [|a l IH]; cbn.
  - split; [intros _ y []|]. split; [intros y []|]. split; [intros y []|]. discriminate.
  - destruct (Nat.eqb_spec a x) as [->|].
    + destruct IH as (I1 & I2 & I3 & I4). split; [intros H y [<-|Hy]; auto|]. split; [intros y [<-|Hy]; auto|]. split; auto.
    + split; [discriminate|]. split; [intros y [<-|Hy]; cbn; auto|]. split; [intros y [<-|Hy]; auto|]. intros y m E. congruence.
Qed.

(** Representation *)
Inductive rep : fset -> list nat -> Prop :=
| rep0 u : rep (mk_fset 0 u) []
| rep1 x : rep (mk_fset 1 (UItem x)) [x]
| rep2 cap l : 1 < length l -> StronglySorted lt l -> length l <= cap -> rep (mk_fset (length l) (UData cap l)) l.

Lemma rep_holds s l : rep s l -> holds s l.
Proof.
  intros R. inversion R; subst; unfold holds, contents; cbn [fs_size fs_u].
  - split; [reflexivity|]. split; [reflexivity|constructor].
  - split; [reflexivity|]. split; [reflexivity|repeat constructor].
  - replace (Nat.ltb 1 (length l)) with true by (symmetry; apply Nat.ltb_lt; lia).
    rewrite Nat.leb_refl, firstn_all. auto.
Qed.
Lemma rep_wf s l : rep s l -> well_formed s.
Proof.
  intros R. split; [exists l; apply rep_holds; assumption|]. inversion R; subst; cbn [fs_size fs_u]; intros; try lia. eauto.
Qed.
Lemma wf_rep s : well_formed s -> exists l, rep s l.
Proof.
  intros [[l (C & E & S)] W]. exists l. destruct s as [n u]. cbn [fs_size fs_u] in *. unfold contents in C. cbn [fs_size fs_u] in C.
  destruct (Nat.ltb_spec 1 n).
  - destruct (W ltac:(lia)) as (cap & items & -> & L & Cp). rewrite L, Nat.leb_refl, <- L, firstn_all in C. injection C as ->. subst n. constructor; [lia|assumption|lia].
  - destruct (Nat.eqb_spec n 0) as [->|].
    + injection C as <-. constructor.
    + destruct u as [|v|]; try discriminate. injection C as <-. replace n with 1 by lia. constructor.
Qed.
Lemma holds_fun s l l' : holds s l -> holds s l' -> l = l'.
Proof. intros [H _] [H' _]. congruence. Qed.

Definition is_union (m a b : list nat) : Prop := forall x, In x m <-> In x a \/ In x b.

Lemma unique_length2 l x y : In x l -> In y l -> x <> y -> 1 < length (unique l).
Proof.
  intros Hx Hy N. apply unique_in in Hx. apply unique_in in Hy.
  destruct (unique l) as [|a [|b t]]; cbn in *; [contradiction| |lia]. intuition congruence.
Qed.
Lemma unique_length l : length (unique l) <= length l.
Proof. induction l as [|a [|b l] IH]; [cbn; lia|cbn; lia|]. rewrite unique_cons. destruct (Nat.eqb a b); cbn [length] in *; lia. Qed.
Lemma ins_length x l : length (ins_sorted x l) = S (length l).
Proof. induction l as [|a l IH]; cbn; [reflexivity|]. destruct (Nat.leb x a); cbn; [reflexivity|]. rewrite IH. reflexivity. Qed.
Lemma sort_length l : length (sort l) = length l.
Proof.
  induction l as [|a l IH]; [reflexivity|]. change (sort (a :: l)) with (ins_sorted a (sort l)).
  rewrite ins_length, IH. reflexivity.
Qed.
Lemma merge_length a : forall b, length (merge_lists a b) = length a + length b.
Proof.
  induction a as [|x a IHa]; intros b; [reflexivity|]. induction b as [|z b IHb]; [rewrite merge_nil_r; cbn; lia|].
  rewrite merge_cons. destruct (Nat.ltb z x); cbn [length]; [rewrite IHb; cbn; lia|rewrite IHa; cbn; lia].
Qed.

Lemma insert_range_rep1 x l : exists s' m,
  insert_range (mk_fset 1 (UItem x)) l = Ok s' /\ rep s' m /\ is_union m [x] l.
Proof.
  unfold insert_range. cbn [fs_size fs_u Nat.eqb].
  destruct (drop_equal_spec x l) as (D1 & D2 & D3 & D4).
  destruct (drop_equal x l) as [|y d] eqn:E.
  - exists (mk_fset 1 (UItem x)), [x]. split; [reflexivity|]. split; [constructor|].
    intros z. split; [auto|]. intros [H|H]; [assumption|]. left. symmetry. auto.
  - set (it := unique (sort (x :: y :: d))). exists (mk_fset (length it) (UData (length (y :: d) + 1) it)), it.
    split; [reflexivity|]. split.
    + constructor.
      * apply (unique_length2 _ x y); [apply sort_in; left; reflexivity|apply sort_in; right; left; reflexivity|].
        intros ->. eapply D4; reflexivity.
      * apply unique_sorted, sort_sorted.
      * unfold it. etransitivity; [apply unique_length|]. rewrite sort_length. cbn [length]. lia.
    + intros z. unfold it. rewrite unique_in, sort_in. split.
      * intros [->|H]; [left; left; reflexivity|right; auto].
      * intros [[->|[]]|H]; [left; reflexivity|]. destruct (D2 _ H) as [->|]; [left; reflexivity|right; assumption].
Qed.

Lemma insert_range_rep s l0 l : rep s l0 -> exists s' m,
  insert_range s l = Ok s' /\ rep s' m /\ is_union m l0 l.
Proof.
  intros R. inversion R; subst.
  - destruct l as [|x l].
    + exists (mk_fset 0 u), []. split; [reflexivity|]. split; [constructor|]. intros z. cbn. tauto.
    + destruct (insert_range_rep1 x l) as (s' & m & E & Rm & U). exists s', m.
      split; [exact E|]. split; [assumption|]. intros z. rewrite (U z). cbn. intuition.
  - apply insert_range_rep1.
  - unfold insert_range. cbn [fs_size fs_u].
    replace (Nat.eqb (length l0) 0) with false by (symmetry; apply Nat.eqb_neq; lia). cbn [fs_size fs_u].
    replace (Nat.eqb (length l0) 0) with false by (symmetry; apply Nat.eqb_neq; lia).
    replace (Nat.eqb (length l0) 1) with false by (symmetry; apply Nat.eqb_neq; lia).
    destruct l as [|x l].
    + exists (mk_fset (length l0) (UData cap l0)), l0. split; [reflexivity|]. split; [assumption|]. intros z. cbn. tauto.
    + rewrite Nat.leb_refl, firstn_all. cbn [negb].
      set (it := unique (merge_lists l0 (sort (x :: l)))). set (cap' := if Nat.ltb cap (length l0 + length (x :: l)) then _ else cap).
      exists (mk_fset (length it) (UData cap' it)), it. split; [reflexivity|]. split.
      * constructor.
        -- destruct l0 as [|a [|b l0]]; [cbn in *; lia|cbn in *; lia|]. apply (unique_length2 _ a b).
           ++ apply merge_in. left. left. reflexivity.
           ++ apply merge_in. left. right. left. reflexivity.
           ++ inversion H0; subst. rewrite Forall_forall in H5. specialize (H5 b (or_introl eq_refl)). lia.
        -- apply unique_sorted, merge_sorted; [apply sorted_lt_le; assumption|apply sort_sorted].
        -- unfold it. etransitivity; [apply unique_length|]. rewrite merge_length, sort_length.
           subst cap'. destruct (Nat.ltb_spec cap (length l0 + length (x :: l))); lia.
      * intros z. unfold it. rewrite unique_in, merge_in, sort_in. reflexivity.
Qed.

Lemma merge_rep a b la lb : rep a la -> rep b lb -> exists a' b' m mb,
  merge a b = Ok (a', b') /\ rep a' m /\ is_union m la lb /\ rep b' mb.
Proof.
  intros Ra Rb. unfold merge.
  assert (C : exists sw, (if Nat.ltb 1 (fs_size b) then match fs_u b with UData cap _ => Ok (Nat.leb (fs_size a + fs_size b) cap) | _ => Bad end else Ok false) = Ok sw).
  { inversion Rb; subst; cbn [fs_size fs_u]; try (eexists; reflexivity).
    replace (Nat.ltb 1 (length lb)) with true by (symmetry; apply Nat.ltb_lt; lia). eexists. reflexivity. }
  destruct C as [sw ->]. destruct sw.
  - destruct (rep_holds _ _ Ra) as [-> _]. destruct (insert_range_rep _ _ la Rb) as (s & m & -> & Rm & U).
    exists s, a, m, la. split; [reflexivity|]. split; [assumption|]. split; [|assumption]. intros z. rewrite (U z). tauto.
  - destruct (rep_holds _ _ Rb) as [-> _]. destruct (insert_range_rep _ _ lb Ra) as (s & m & -> & Rm & U).
    exists s, b, m, lb. auto.
Qed.

Lemma upper_bound_spec v l : StronglySorted lt l ->
  (forall x, In x (firstn (upper_bound v l) l) -> x <= v) /\ (forall x, In x (skipn (upper_bound v l) l) -> v < x) /\
  upper_bound v l <= length l.
Proof.
  induction 1 as [|a l S IH F]; cbn [upper_bound]; [cbn; intuition|].
  destruct (Nat.ltb_spec v a); cbn [firstn skipn length In].
  - split; [intros x []|]. split; [|lia]. intros x [<-|Hx]; [assumption|]. rewrite Forall_forall in F. specialize (F _ Hx). lia.
  - destruct IH as (I1 & I2 & I3). split; [intros x [<-|Hx]; auto|]. split; [assumption|lia].
Qed.

Lemma sorted_split l1 l2 : StronglySorted lt (l1 ++ l2) <->
  StronglySorted lt l1 /\ StronglySorted lt l2 /\ (forall x y, In x l1 -> In y l2 -> x < y).
Proof.
  induction l1 as [|a l1 IH]; cbn.
  - split; [intros H; split; [constructor|split; [assumption|intros x y []]]|tauto].
  - split.
    + intros H. inversion H; subst. apply IH in H2. destruct H2 as (A & B & C). rewrite Forall_forall in H3.
      split; [constructor; [assumption|apply Forall_forall; intros; apply H3, in_app_iff; auto]|]. split; [assumption|].
      intros x y [<-|Hx] Hy; [apply H3, in_app_iff; auto|auto].
    + intros (A & B & C). inversion A; subst. constructor; [apply IH; auto|].
      rewrite Forall_forall in *. intros y Hy. apply in_app_iff in Hy. destruct Hy; auto.
Qed.

Lemma insert_one_rep s l v : rep s l -> (fs_size s = 1 -> In v l) -> exists s' pos b m,
  insert_one s v = Ok (s', pos, b) /\ rep s' m /\ is_union m l [v] /\ nth_error m pos = Some v /\ (b = false <-> In v l).
Proof.
  intros R H1. inversion R; subst.
  - exists (mk_fset 1 (UItem v)), 0, true, [v]. split; [reflexivity|]. split; [constructor|]. split; [intros z; cbn; tauto|]. split; [reflexivity|].
    split; [discriminate|intros []].
  - specialize (H1 eq_refl). destruct H1 as [->|[]]. exists (mk_fset 1 (UItem v)), 0, false, [v].
    unfold insert_one. cbn [fs_size fs_u Nat.eqb]. rewrite Nat.eqb_refl. split; [reflexivity|]. split; [constructor|].
    split; [intros z; cbn; tauto|]. split; [reflexivity|]. cbn. tauto.
  - unfold insert_one. cbn [fs_size fs_u].
    replace (Nat.eqb (length l) 0) with false by (symmetry; apply Nat.eqb_neq; lia).
    replace (Nat.eqb (length l) 1) with false by (symmetry; apply Nat.eqb_neq; lia).
    rewrite Nat.leb_refl, firstn_all. cbn [negb].
    destruct (upper_bound_spec v l H0) as (U1 & U2 & U3). set (pos := upper_bound v l) in *.
    destruct (negb (Nat.eqb pos 0) && Nat.eqb (nth (pos - 1) l 0) v) eqn:E.
    + apply andb_prop in E. destruct E as [E1 E2]. apply negb_true_iff, Nat.eqb_neq in E1. apply Nat.eqb_eq in E2.
      assert (N : nth_error l (pos - 1) = Some v) by (rewrite <- E2; apply nth_error_nth'; lia).
      assert (I : In v l) by (eapply nth_error_In; eassumption).
      do 4 eexists. split; [reflexivity|]. split; [exact R|]. split.
      { intros z. split; [auto|]. intros [Hz|[->|[]]]; assumption. }
      split; [exact N|]. split; auto.
    + assert (NI : ~ In v (firstn pos l)).
      { intros I. apply andb_false_iff in E.
        assert (P0 : pos <> 0) by (intros P; rewrite P in I; destruct I).
        destruct E as [E|E]; [apply negb_false_iff, Nat.eqb_eq in E; lia|]. apply Nat.eqb_neq in E.
        (* the last of the prefix is the largest *)
        assert (Q : firstn pos l = firstn (pos - 1) l ++ [nth (pos - 1) l 0]).
        { replace pos with (S (pos - 1)) at 1 by lia. clear -U3 P0. assert (L : pos - 1 < length l) by lia. revert L. generalize (pos - 1). clear.
          intros n. revert n. induction l as [|a l IH]; intros n L; [cbn in L; lia|]. destruct n; [reflexivity|]. cbn [firstn nth app]. f_equal. apply IH. cbn in L. lia. }
        assert (SP : StronglySorted lt (firstn pos l)).
        { rewrite <- (firstn_skipn pos l) in H0. apply sorted_split in H0. tauto. }
        rewrite Q in I, SP. apply sorted_split in SP. destruct SP as (_ & _ & C).
        apply in_app_iff in I. destruct I as [I|[I|[]]]; [|congruence].
        specialize (C v (nth (pos - 1) l 0) I (or_introl eq_refl)).
        assert (nth (pos - 1) l 0 <= v); [apply U1; rewrite Q; apply in_app_iff; right; left; reflexivity|]. lia. }
      assert (NV : ~ In v l).
      { rewrite <- (firstn_skipn pos l). rewrite in_app_iff. intros [I|I]; [auto|]. apply U2 in I. lia. }
      set (m := firstn pos l ++ v :: skipn pos l).
      assert (LM : length m = S (length l)).
      { subst m. rewrite app_length. cbn [length]. rewrite firstn_length_le by lia. rewrite skipn_length. lia. }
      assert (SM : StronglySorted lt m).
      { subst m. rewrite <- (firstn_skipn pos l) in H0. apply sorted_split in H0. destruct H0 as (A & B & C).
        apply sorted_split. split; [assumption|]. split; [constructor; [assumption|apply Forall_forall; intros; auto]|].
        intros x y Hx [<-|Hy]; [|auto]. pose proof (U1 _ Hx). assert (x <> v) by congruence. lia. }
      assert (UM : is_union m l [v]).
      { intros z. subst m. rewrite <- (firstn_skipn pos l) at 3. rewrite !in_app_iff. cbn [In]. tauto. }
      assert (NM : nth_error m pos = Some v).
      { subst m. rewrite nth_error_app2; rewrite firstn_length_le by lia; [|lia]. rewrite Nat.sub_diag. reflexivity. }
      destruct (Nat.eqb_spec (length l) cap) as [Ec|Ec].
      * do 4 eexists. split; [reflexivity|]. split; [rewrite <- LM; constructor; [lia|assumption|lia]|].
        split; [exact UM|]. split; [exact NM|]. split; [discriminate|contradiction].
      * do 4 eexists. split; [reflexivity|]. split; [rewrite <- LM; constructor; [lia|assumption|lia]|].
        split; [exact UM|]. split; [exact NM|]. split; [discriminate|contradiction].
Qed.

Lemma copy_rep s l : rep s l -> exists s', copy s = Ok s' /\ rep s' l.
Proof.
  intros R. destruct (rep_holds _ _ R) as [C _]. unfold copy. rewrite C. inversion R; subst; cbn [fs_size].
  - eexists. split; [reflexivity|constructor].
  - eexists. split; [reflexivity|constructor].
  - replace (Nat.eqb (length l) 0) with false by (symmetry; apply Nat.eqb_neq; lia).
    destruct l as [|a [|b l]]; [cbn in *; lia|cbn in *; lia|]. eexists. split; [reflexivity|]. constructor; auto.
Qed.
Lemma assign_rep a b la lb : rep a la -> rep b lb -> exists s', assign a b = Ok s' /\ rep s' lb.
Proof.
  intros Ra Rb. unfold assign. inversion Rb; subst; cbn [fs_size fs_u Nat.leb Nat.eqb].
  - eexists. split; [reflexivity|constructor].
  - eexists. split; [reflexivity|constructor].
  - replace (Nat.leb (length lb) 1) with false by (symmetry; apply Nat.leb_gt; lia). rewrite firstn_all.
    inversion Ra; subst; cbn [fs_size fs_u].
    + destruct u; cbn [Nat.leb orb]; (eexists; split; [reflexivity|constructor; auto]).
    + eexists; split; [reflexivity|constructor; auto].
    + replace (Nat.leb (length la) 1) with false by (symmetry; apply Nat.leb_gt; lia). cbn [orb].
      destruct (Nat.ltb_spec cap0 (length lb)); (eexists; split; [reflexivity|constructor; auto; lia]).
Qed.

Lemma rep_eq s l l' : rep s l -> holds s l' -> l' = l.
Proof. intros R H. eapply holds_fun; [exact H|]. apply rep_holds. assumption. Qed.
