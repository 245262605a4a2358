(** Sequences of operations, and the height. *)
From Coq Require Import List Bool Arith Lia.
From Verif Require Import RBModel RBSpec RBHeap RBInsert RBNav RBSearch RBRestore RBErase.
Import ListNotations.

Lemma rb_height t : forall n, rb t n -> height t <= 2 * n + (if isb t then 0 else 1) /\ 2 ^ n <= S (length (inorder t)).
Proof.
  induction t as [|c l IHl i r IHr]; intros n; cbn [rb height inorder isb].
  - intros ->. cbn. lia.
  - rewrite app_length. cbn [length]. destruct c; cbn [negb].
    + intros (A & B & C & D). destruct (IHl _ A) as (H1 & G1). destruct (IHr _ B) as (H2 & G2).
      apply isb_spec in C, D. rewrite C in H1. rewrite D in H2. split; lia.
    + destruct n as [|n]; [tauto|]. intros (A & B). destruct (IHl _ A) as (H1 & G1). destruct (IHr _ B) as (H2 & G2).
      split; [destruct (isb l), (isb r); lia|]. cbn [Nat.pow]. lia.
Qed.
Lemma red_black_height t : red_black t -> height t <= 2 * Nat.log2 (length (inorder t) + 1).
Proof.
  intros (B & n & R). destruct (rb_height t n R) as (H & G). apply isb_spec in B. rewrite B in H.
  assert (n <= Nat.log2 (length (inorder t) + 1)); [|lia].
  rewrite <- (Nat.log2_pow2 n) at 1 by lia. apply Nat.log2_le_mono. lia.
Qed.

Section Seq.
Context {V : Type}.
Variable comp : V -> V -> bool.

Lemma put_split val n l1 l2 : Forall (fun i => before_ V comp val n i = false) l1 -> Forall (fun i => before_ V comp val n i = true) l2 ->
  put_in_order V comp val n (l1 ++ l2) = l1 ++ n :: l2.
Proof.
  induction l1 as [|x l1 IH]; intros A B.
  - destruct l2 as [|y l2]; cbn; [reflexivity|]. inversion B; subst. rewrite H1. reflexivity.
  - inversion A; subst. cbn. rewrite H1, IH by assumption. reflexivity.
Qed.
Lemma exists_false {A} (f : A -> bool) l : Forall (fun x => f x = false) l -> existsb f l = false.
Proof. induction 1; cbn; [reflexivity|]. rewrite H, IHForall. reflexivity. Qed.
Lemma before_split pos n l1 l2 : pos = hd 0 l2 -> ~ In pos l1 -> seq_insert_before pos n (l1 ++ l2) = l1 ++ n :: l2.
Proof.
  intros Q. induction l1 as [|x l1 IH]; intros NI; cbn [app seq_insert_before].
  - destruct l2 as [|y l2]; cbn; [reflexivity|]. cbn in Q. subst. rewrite Nat.eqb_refl. reflexivity.
  - destruct (Nat.eqb_spec x pos) as [->|]; [exfalso; apply NI; left; reflexivity|]. rewrite IH; [reflexivity|]. intros I1; apply NI; right; exact I1.
Qed.
Lemma erase_split n l1 l2 : NoDup (l1 ++ n :: l2) -> seq_erase n (l1 ++ n :: l2) = l1 ++ l2.
Proof.
  intros D. apply NoDup_remove_2 in D. unfold seq_erase. rewrite filter_app. cbn. rewrite Nat.eqb_refl. cbn.
  assert (K : forall l, ~ In n l -> filter (fun x => negb (Nat.eqb x n)) l = l).
  { induction l as [|x l IH]; cbn; [reflexivity|]. intros NI. destruct (Nat.eqb_spec x n) as [->|]; [exfalso; auto|]. cbn. rewrite IH; auto. }
  rewrite !K; [reflexivity| |]; intros I1; apply D, in_app_iff; auto.
Qed.

Lemma step_ok fuel h t o : stores h t -> red_black t -> length (inorder t) < fuel ->
  allowed V comp (fun i => c_val V (h i)) (inorder t) o ->
  exists h' t', run_op V comp fuel o h = Some h' /\ stores h' t' /\ red_black t' /\
    inorder t' = seq_step V comp (fun i => c_val V (h i)) (inorder t) o /\ same_values h h' /\
    (forall x, ~ In x (0 :: inorder t ++ inorder t') -> h' x = h x).
Proof.
  intros S RB F AL. set (val := fun i => c_val V (h i)) in *. destruct o as [n|pos n|n]; cbn [allowed run_op seq_step] in *.
  - destruct AL as (NZ & NI & OD & TR).
    destruct (insert_ok comp fuel h t n S RB NZ NI F) as (l1 & l2 & Q & A & B & C); [|exact OD|].
    { intros x y z (i & I1 & ->) (j & J1 & ->) (k & K1 & ->). apply TR; assumption. }
    unfold seq_insert. destruct C as [(C & h' & t' & R & X1 & X2 & X3 & X4 & X5)|(l0 & i & C1 & C2 & R)].
    + exists h', t'. rewrite R. split; [reflexivity|]. split; [exact X1|]. split; [exact X2|]. split; [|split; [exact X4|]].
      * rewrite exists_false; [rewrite Q, put_split by assumption; exact X3|].
        rewrite Q. apply Forall_app. split; [eapply Forall_impl; [|exact C]|eapply Forall_impl; [|exact B]]; cbn; intros i Hi; unfold equivalent, before_, val; rewrite Hi; [apply andb_false_r|reflexivity].
      * intros x Hx. apply X5. intros [I1|I1]; apply Hx; [left; exact I1|right; apply in_app_iff; right; exact I1].
    + exists h, t. rewrite R. split; [reflexivity|]. split; [exact S|]. split; [exact RB|]. split; [|split; [intros j; reflexivity|reflexivity]].
      assert (existsb (equivalent V comp val n) (inorder t) = true) as ->; [|reflexivity].
      apply existsb_exists. exists i. split; [rewrite Q, C1; apply in_app_iff; left; apply in_app_iff; right; left; reflexivity|].
      rewrite C1 in A. apply Forall_app in A as (_ & A). inversion A; subst. unfold equivalent, before_, val. rewrite H1, C2. reflexivity.
  - destruct AL as (NZ & NI & IP).
    assert (SP : exists l1 l2, inorder t = l1 ++ l2 /\ pos = hd 0 l2 /\ ~ In pos l1).
    { destruct S as (_ & _ & _ & _ & _ & N). inversion N as [|? ? N0 N1]; subst. destruct IP as [<-|IP].
      - exists (inorder t), []. rewrite app_nil_r. auto.
      - apply in_split in IP as (l1 & l2 & Q). exists l1, (pos :: l2). split; [exact Q|]. split; [reflexivity|].
        rewrite Q in N1. apply NoDup_remove_2 in N1. intros I1. apply N1, in_app_iff. auto. }
    destruct SP as (l1 & l2 & Q & -> & NP).
    destruct (insert_before_ok fuel h t n l1 l2 S RB NZ NI F Q) as (h' & t' & R & X1 & X2 & X3 & X4 & X5).
    exists h', t'. rewrite R. split; [reflexivity|]. split; [exact X1|]. split; [exact X2|]. split; [|split; [exact X4|]].
    + rewrite Q, before_split by auto. exact X3.
    + intros x Hx. apply X5. intros [I1|I1]; apply Hx; [left; exact I1|right; apply in_app_iff; right; exact I1].
  - apply in_split in AL as (l1 & l2 & Q).
    destruct (erase_ok fuel h t l1 n l2 S RB Q F) as (h' & t' & R & X1 & X2 & X3 & X4 & X5).
    exists h', t'. rewrite R. split; [reflexivity|]. split; [exact X1|]. split; [exact X2|]. split; [|split; [exact X4|]].
    + pose proof (stores_nodup _ _ S) as ND. rewrite Q in *. rewrite erase_split by exact ND. exact X3.
    + intros x Hx. apply X5. intros [I1|I1]; apply Hx; [left; exact I1|right; apply in_app_iff; right; exact I1].
Qed.

Lemma step_length val l o : length (seq_step V comp val l o) <= S (length l).
Proof.
  destruct o as [n|pos n|n]; cbn [seq_step].
  - unfold seq_insert. destruct (existsb _ _); [lia|]. induction l as [|x l IH]; cbn; [lia|]. destruct (before_ _ _ _ n x); cbn; lia.
  - induction l as [|x l IH]; cbn; [lia|]. destruct (Nat.eqb x pos); cbn; lia.
  - unfold seq_erase. induction l as [|x l IH]; cbn; [lia|]. destruct (negb (Nat.eqb x n)); cbn; lia.
Qed.
Lemma allowed_ext val val' l o : (forall i, val' i = val i) -> allowed V comp val l o -> allowed V comp val' l o.
Proof.
  intros Q. destruct o; cbn; [|tauto|tauto]. intros (A & B & C & D). split; [exact A|]. split; [exact B|]. split.
  - revert C. generalize l. intros m. induction m as [|x m IH]; cbn; [trivial|]. intros (X & Y). split; [|apply IH; exact Y].
    eapply Forall_impl; [|exact X]. unfold before_. intros j. rewrite !Q. trivial.
  - intros i j k I1 I2 I3. unfold before_. rewrite !Q. apply D; assumption.
Qed.
Lemma put_ext val val' n l : (forall i, val' i = val i) -> put_in_order V comp val' n l = put_in_order V comp val n l.
Proof. intros Q. induction l as [|x l IH]; cbn; [reflexivity|]. unfold before_. rewrite !Q, IH. reflexivity. Qed.
Lemma seq_step_ext val val' l o : (forall i, val' i = val i) -> seq_step V comp val' l o = seq_step V comp val l o.
Proof.
  intros Q. destruct o; cbn; [|reflexivity|reflexivity]. unfold seq_insert. rewrite (put_ext val val' n l Q).
  assert (existsb (equivalent V comp val' n) l = existsb (equivalent V comp val n) l) as ->; [|reflexivity].
  induction l as [|x l IH]; cbn; [reflexivity|]. rewrite IH. unfold equivalent, before_. rewrite !Q. reflexivity.
Qed.
Lemma all_allowed_ext val val' os : (forall i, val' i = val i) -> forall l, all_allowed V comp val l os -> all_allowed V comp val' l os.
Proof.
  intros Q. induction os as [|o os IH]; intros l; cbn; [trivial|]. intros (A & B). split; [eapply allowed_ext; eassumption|].
  rewrite (seq_step_ext val val' l o Q). apply IH. exact B.
Qed.

Lemma run_ok fuel val os : forall h t, stores h t -> red_black t -> length (inorder t) + length os < fuel ->
  (forall i, c_val V (h i) = val i) -> all_allowed V comp val (inorder t) os ->
  exists h' t', run_ops V comp fuel os h = Some h' /\ stores h' t' /\ red_black t' /\
    inorder t' = fold_left (seq_step V comp val) os (inorder t) /\ (forall i, c_val V (h' i) = val i).
Proof.
  induction os as [|o os IH]; intros h t S RB F VL AL.
  - exists h, t. cbn. auto.
  - cbn [all_allowed length run_ops fold_left] in *. destruct AL as (A & B).
    destruct (step_ok fuel h t o S RB ltac:(lia)) as (h1 & t1 & R & X1 & X2 & X3 & X4 & _); [eapply allowed_ext; [exact VL|exact A]|].
    rewrite (seq_step_ext val _ _ _ VL) in X3. rewrite R.
    assert (VL1 : forall i, c_val V (h1 i) = val i) by (intros i; rewrite X4; apply VL).
    destruct (IH h1 t1 X1 X2) as (h2 & t2 & Y); [pose proof (step_length val (inorder t) o); rewrite X3; lia|exact VL1|rewrite X3; exact B|].
    exists h2, t2. rewrite X3 in Y. exact Y.
Qed.

Lemma init_ok (h : heap V) : exists h', init_header V h = Some (tt, h') /\ stores h' E /\ same_values h h'.
Proof.
  eexists. split; [reflexivity|]. split.
  - unfold stores. rewrite !upd_eq. cbn. repeat split; auto. repeat constructor; auto.
  - intros i. unfold upd. destruct (Nat.eqb_spec i 0); subst; reflexivity.
Qed.

(** Kept in order. *)
Lemma put_ordered val n l : ~ In n l -> transitive_on V comp val (n :: l) -> ordered (fun i j => before_ V comp val i j = true) l ->
  existsb (equivalent V comp val n) l = false -> ordered (fun i j => before_ V comp val i j = true) (put_in_order V comp val n l).
Proof.
  induction l as [|x l IH]; intros NI TR OD NE; cbn [put_in_order]; [cbn; auto|].
  cbn [existsb] in NE. apply orb_false_iff in NE as (N1 & N2). cbn [ordered] in OD. destruct OD as (O1 & O2).
  destruct (before_ V comp val n x) eqn:Q.
  - cbn [ordered]. split; [|split; assumption]. constructor; [exact Q|]. apply Forall_forall. intros y Hy. rewrite Forall_forall in O1.
    apply (TR n x y); [left; reflexivity|right; left; reflexivity|right; right; exact Hy|exact Q|apply O1; exact Hy].
  - unfold equivalent in N1. rewrite Q in N1. cbn in N1. apply negb_false_iff in N1. cbn [ordered]. split.
    + assert (PI : forall m, Forall (fun j => before_ V comp val x j = true) m -> Forall (fun j => before_ V comp val x j = true) (put_in_order V comp val n m)).
      { induction m as [|y m IHm]; intros G; cbn; [constructor; [exact N1|constructor]|]. inversion G; subst. destruct (before_ V comp val n y); constructor; auto. }
      apply PI. exact O1.
    + apply IH; [intros I1; apply NI; right; exact I1| |exact O2|exact N2].
      intros i j k I1 I2 I3. apply TR; [destruct I1|destruct I2|destruct I3]; cbn; tauto.
Qed.
Lemma erase_ordered val n l : ordered (fun i j => before_ V comp val i j = true) l -> ordered (fun i j => before_ V comp val i j = true) (seq_erase n l).
Proof.
  induction l as [|x l IH]; cbn; [trivial|]. intros (A & B). destruct (negb (Nat.eqb x n)); cbn; [|apply IH; exact B].
  split; [|apply IH; exact B]. apply Forall_forall. intros y Hy. apply filter_In in Hy as (Hy & _). rewrite Forall_forall in A. apply A. exact Hy.
Qed.
Lemma put_length val n l : length (put_in_order V comp val n l) = S (length l).
Proof. induction l as [|x l IH]; cbn; [reflexivity|]. destruct (before_ V comp val n x); cbn; [reflexivity|]. rewrite IH. reflexivity. Qed.
End Seq.
