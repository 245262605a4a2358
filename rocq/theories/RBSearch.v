(** Insertion by the order, and insertion before an iterator. *)
From Coq Require Import List Bool Arith Lia.
From Verif Require Import RBModel RBSpec RBHeap RBInsert RBNav.
Import ListNotations.

Section Search.
Context {V : Type}.
Notation heap := (heap V).
Implicit Types h : heap.
Variable comp : V -> V -> bool.

Definition last_ptr (l : list nat) : ptr := match l with [] => None | _ => Some (last l 0) end.
Lemma last_ptr_snoc l i : last_ptr (l ++ [i]) = Some i.
Proof. unfold last_ptr. rewrite last_app by discriminate. destruct l; reflexivity. Qed.

Lemma check_nil f key y p lc h : check_loop V comp f key None y p lc h = Some (y, p, lc, h).
Proof. destruct f; reflexivity. Qed.

(** Once the key belongs before a node, it belongs before the later ones. *)
Fixpoint upward (f : nat -> bool) (l : list nat) : Prop :=
  match l with [] => True | x :: l' => (f x = true -> Forall (fun y => f y = true) l') /\ upward f l' end.
Lemma upward_app f a b : upward f (a ++ b) -> upward f a /\ upward f b.
Proof.
  induction a as [|x a IH]; cbn; [tauto|]. intros (A & B). destruct (IH B) as (C & D). split; [|exact D]. split; [|exact C].
  intros Q. specialize (A Q). apply Forall_app in A. tauto.
Qed.
Lemma upward_before f a x b : upward f (a ++ x :: b) -> f x = false -> Forall (fun y => f y = false) a.
Proof.
  induction a as [|y a IH]; cbn; intros H Q; [constructor|]. destruct H as (A & B). constructor; [|apply IH; assumption].
  destruct (f y) eqn:Fy; [|reflexivity]. specialize (A eq_refl). apply Forall_app in A as (_ & A). inversion A; subst. congruence.
Qed.

Lemma check_loop_ok fuel key : forall h k t lc,
  hz h k t -> height t <= fuel -> (k <> [] -> lc = is_left k) ->
  upward (fun i => comp key (c_val V (h i))) (inorder t) ->
  exists k' lc', plug k' E = plug k t /\
    check_loop V comp fuel key (root t) (parent_of (Some 0) k) (last_ptr (lo k)) lc h = Some (parent_of (Some 0) k', last_ptr (lo k'), lc', h) /\
    (k' <> [] -> lc' = is_left k') /\
    exists a b, lo k' = lo k ++ a /\ hi k' = b ++ hi k /\ inorder t = a ++ b /\
      Forall (fun i => comp key (c_val V (h i)) = false) a /\ Forall (fun i => comp key (c_val V (h i)) = true) b.
Proof.
  induction fuel as [|fuel IH]; intros h k t lc Z F LC U; destruct t as [|c l i r]; try (cbn in F; lia).
  1,2: exists k, lc; cbn [root]; rewrite check_nil; do 3 (split; [reflexivity || exact LC|]); exists [], [];
    rewrite app_nil_r; repeat split; constructor.
  cbn [root check_loop is_nil]. unfold get_val at 1, get at 1. unfold bind at 1. cbn [inorder] in U.
  cbn [height] in F.
  destruct (comp key (c_val V (h i))) eqn:Q.
  - rewrite (bind_eq (rd_left Z)). apply (proj1 (hz_left _ _ _ _ _ _)) in Z.
    pose proof (upward_app _ _ _ U) as (U1 & U2). cbn [upward] in U2. destruct U2 as (U2 & _). specialize (U2 Q).
    destruct (IH h _ l true Z ltac:(lia) ltac:(reflexivity) U1) as (k' & lc' & P & R & L & a & b & A1 & A2 & A3 & A4 & A5).
    exists k', lc'. split; [exact P|]. split; [exact R|]. split; [exact L|]. cbn [lo hi] in *.
    exists a, (b ++ i :: inorder r). rewrite <- app_assoc. cbn [app].
    split; [exact A1|]. split; [exact A2|]. split; [cbn [inorder]; rewrite A3, <- app_assoc; reflexivity|]. split; [exact A4|].
    apply Forall_app. split; [exact A5|constructor; assumption].
  - rewrite (bind_eq (rd_right Z)). apply (proj1 (hz_right _ _ _ _ _ _)) in Z.
    pose proof (upward_before _ _ _ _ U Q) as U0.
    pose proof (upward_app _ _ _ U) as (_ & U2). cbn [upward] in U2. destruct U2 as (_ & U2).
    destruct (IH h _ r false Z ltac:(lia) ltac:(reflexivity) U2) as (k' & lc' & P & R & L & a & b & A1 & A2 & A3 & A4 & A5).
    exists k', lc'. split; [exact P|]. split.
    { rewrite <- R. cbn [lo parent_of fidx]. rewrite app_assoc, last_ptr_snoc. reflexivity. }
    split; [exact L|]. cbn [lo hi] in *.
    exists (inorder l ++ i :: a), b. split; [rewrite A1, <- !app_assoc; reflexivity|]. split; [exact A2|].
    split; [cbn [inorder]; rewrite A3, <- app_assoc; reflexivity|]. split; [|exact A5].
    apply Forall_app. split; [exact U0|constructor; assumption].
Qed.

(** [comp] orders the values [vs]. *)
Definition trans_on (vs : V -> Prop) : Prop :=
  forall x y z, vs x -> vs y -> vs z -> comp x y = true -> comp y z = true -> comp x z = true.

Lemma insert_ok fuel h t n : stores h t -> red_black t -> n <> 0 -> ~ In n (inorder t) -> length (inorder t) < fuel ->
  let val i := c_val V (h i) in
  trans_on (fun v => exists i, In i (n :: inorder t) /\ v = val i) ->
  ordered (fun i j => comp (val i) (val j) = true) (inorder t) ->
  exists l1 l2, inorder t = l1 ++ l2 /\ Forall (fun i => comp (val n) (val i) = false) l1 /\ Forall (fun i => comp (val n) (val i) = true) l2 /\
  ((Forall (fun i => comp (val i) (val n) = true) l1 /\
    exists h' t', insert V comp fuel (Some n) h = Some (Some n, true, h') /\ stores h' t' /\ red_black t' /\
      inorder t' = l1 ++ n :: l2 /\ same_values h h' /\ (forall x, ~ In x (0 :: inorder t') -> h' x = h x)) \/
   (exists l0 i, l1 = l0 ++ [i] /\ comp (val i) (val n) = false /\ insert V comp fuel (Some n) h = Some (Some i, false, h))).
Proof.
  intros S RB NZ NI F val TR OD. pose proof S as S0. apply stores_hz in S0 as (Z & H).
  set (key := val n).
  assert (U : upward (fun i => comp key (c_val V (h i))) (inorder t)).
  { assert (G : forall m, ordered (fun i j => comp (val i) (val j) = true) m -> (forall x, In x m -> In x (n :: inorder t)) -> upward (fun i => comp key (c_val V (h i))) m);
      [|apply G; [exact OD|intros; right; assumption]].
    intros m. induction m as [|x m IH]; cbn [ordered upward]; [trivial|]. intros (A & B) SUB. split.
    - intros Q. apply Forall_forall. intros y Hy. rewrite Forall_forall in A. specialize (A y Hy).
      apply (TR key (val x) (val y)); [exists n; split; [left; reflexivity|reflexivity]| | |exact Q|exact A].
      + exists x. split; [apply SUB; left; reflexivity|reflexivity].
      + exists y. split; [apply SUB; right; exact Hy|reflexivity].
    - apply IH; [exact B|]. intros y Hy. apply SUB. right. exact Hy. }
  assert (HT : height t <= fuel) by (pose proof (height_inorder t); lia).
  destruct (check_loop_ok fuel key h [] t true Z HT ltac:(congruence) U) as (k & lc & P & R & L & a & b & A1 & A2 & A3 & A4 & A5).
  cbn [lo hi app plug] in *. rewrite app_nil_r in A2. subst a b.
  exists (lo k), (hi k). split; [exact A3|]. split; [exact A4|]. split; [exact A5|].
  assert (R1 : insert_unique_check V comp fuel key h =
    Some (last_ptr (lo k), match lo k with [] => true | _ => comp (val (last (lo k) 0)) key end, parent_of (Some 0) k, lc, h)).
  { unfold insert_unique_check, header. rewrite (bind_eq (rd_root Z)). cbn [last_ptr lo parent_of] in R. rewrite (bind_eq R).
    destruct (lo k) as [|x l] eqn:Q; [reflexivity|]. reflexivity. }
  assert (C : (match lo k with [] => true | _ => comp (val (last (lo k) 0)) key end = true /\ Forall (fun i => comp (val i) key = true) (lo k)) \/
              (exists l0 i, lo k = l0 ++ [i] /\ comp (val i) key = false)).
  { destruct (rev (lo k)) as [|i m] eqn:Q.
    - left. assert (lo k = []) as -> by (rewrite <- (rev_involutive (lo k)), Q; reflexivity). split; [reflexivity|constructor].
    - assert (QL : lo k = rev m ++ [i]) by (rewrite <- (rev_involutive (lo k)), Q; reflexivity).
      assert (QM : match lo k with [] => true | _ => comp (val (last (lo k) 0)) key end = comp (val i) key).
      { rewrite QL, last_app by discriminate. destruct (rev m); reflexivity. }
      destruct (comp (val i) key) eqn:QC; [left|right; exists (rev m), i; auto]. split; [exact QM|].
      rewrite QL. apply Forall_app. split; [|constructor; [exact QC|constructor]].
      rewrite A3, QL in OD. apply Forall_forall. intros x Hx.
      assert (XI : comp (val x) (val i) = true).
      { revert OD Hx. clear. generalize (rev m). intros l. rewrite <- app_assoc. cbn [app]. induction l as [|y l IH]; [intros _ []|]. cbn. intros (A & B) [->|Hx].
        - rewrite Forall_forall in A. apply A, in_app_iff. right. left. reflexivity.
        - apply IH; assumption. }
      apply (TR (val x) (val i) key); [| |exists n; split; [left; reflexivity|reflexivity]|exact XI|exact QC].
      + exists x. split; [right; rewrite A3, QL; apply in_app_iff; left; apply in_app_iff; left; exact Hx|reflexivity].
      + exists i. split; [right; rewrite A3, QL; apply in_app_iff; left; apply in_app_iff; right; left; reflexivity|reflexivity]. }
  destruct C as [(C1 & C2)|(l0 & i & C1 & C2)].
  - left. split; [exact C2|].
    assert (GV : get_val V (Some n) h = Some (key, h)) by reflexivity. unfold insert. rewrite (bind_eq GV), (bind_eq R1).
    rewrite C1. cbv beta iota.
    assert (Zk : hz h k E) by (apply (hz_move _ _ Z); symmetry; exact P). rewrite <- P in *.
    destruct (hang_ok fuel h k n lc Zk H RB NZ NI L F) as (h' & t' & X1 & X2 & X3 & X4 & X5 & X6).
    exists h', t'. split; [|auto]. unfold bind in X1 |- *.
    destruct (insert_commit V (Some n) (parent_of (Some 0) k) lc h) as [[u h1]|]; [|discriminate]. rewrite X1. reflexivity.
  - right. exists l0, i. split; [exact C1|]. split; [exact C2|].
    assert (GV : get_val V (Some n) h = Some (key, h)) by reflexivity. unfold insert. rewrite (bind_eq GV), (bind_eq R1).
    rewrite C1.
    assert (match l0 ++ [i] with [] => true | _ => comp (val (last (l0 ++ [i]) 0)) key end = false) as ->.
    { rewrite last_app by discriminate. destruct l0; exact C2. }
    rewrite last_ptr_snoc. reflexivity.
Qed.

Lemma insert_before_ok fuel h t n l1 l2 : stores h t -> red_black t -> n <> 0 -> ~ In n (inorder t) -> length (inorder t) < fuel ->
  inorder t = l1 ++ l2 ->
  exists h' t', insert_before V fuel (Some (hd 0 l2)) (Some n) h = Some (Some n, h') /\ stores h' t' /\ red_black t' /\
      inorder t' = l1 ++ n :: l2 /\ same_values h h' /\ (forall x, ~ In x (0 :: inorder t') -> h' x = h x).
Proof.
  intros S RB NZ NI F Q.
  assert (HH : exists k lc, plug k E = t /\ lo k = l1 /\ hi k = l2 /\ (k <> [] -> lc = is_left k) /\
     insert_before_check V fuel (Some (hd 0 l2)) h = Some (parent_of (Some 0) k, lc, h)).
  { pose proof S as S0. apply stores_hz in S0 as (Z & HL & HR & _). pose proof (stores_nodup _ _ S) as ND.
    unfold insert_before_check, header. rewrite (bind_eq (hd_l h)), HL.
    assert (UQ : unique V (Some 0) h = Some (is_nil (root t), h)) by (unfold unique; rewrite (bind_eq (rd_root Z)); reflexivity).
    destruct l2 as [|i l2].
    - (* before the end *)
      cbn [hd]. destruct t as [|c l j r].
      { destruct l1; [|discriminate]. exists [], true. cbn [inorder hd]. rewrite ptr_eqb_refl.
        unfold ret at 1. unfold bind at 1. rewrite (bind_eq UQ). cbn [root is_nil]. repeat split; congruence. }
      set (t := T c l j r) in *.
      assert (NE : inorder t <> []) by (cbn; destruct (inorder l); discriminate).
      assert (HN : forall x, In x (inorder t) -> x <> 0). { intros x Hx ->. destruct S as (_ & _ & _ & _ & _ & N). inversion N; subst. contradiction. }
      rewrite ptr_eqb_ne by (intros [= Q1]; apply (HN (hd 0 (inorder t)) (hd_in 0 _ NE)); auto).
      rewrite (bind_eq (prev_end fuel h t S)), (bind_eq UQ). cbn [root is_nil t].
      rewrite (bind_eq (bind_eq (hd_l h))), HL. cbn [is_nil]. unfold ret.
      destruct (max_split (height t) h [] t Z) as (kr & c1 & l0 & i1 & Q1 & AR & _); [discriminate|lia|].
      exists (FR c1 l0 i1 :: kr), false. cbn [plug fplug lo hi is_left parent_of fidx].
      split; [symmetry; exact Q1|]. rewrite app_nil_r in Q. rewrite <- Q. rewrite Q1, inorder_plug, (all_right_hi _ AR), app_nil_r.
      split; [cbn [inorder]; reflexivity|]. split; [reflexivity|]. split; [reflexivity|].
      cbn [inorder]. rewrite app_assoc, last_app by discriminate. reflexivity.
    - cbn [hd]. destruct (split_node t i l1 l2 ND Q) as (k & c & l & r & Q1 & L1 & L2).
      assert (Zi : hz h k (T c l i r)) by (apply (hz_move _ _ Z); exact Q1).
      assert (NU : is_nil (root t) = false) by (destruct t; [destruct l1; discriminate|reflexivity]). rewrite NU in UQ.
      destruct l as [|cl ll li lr].
      + (* no left child *)
        exists (FL c i r :: k), true. cbn [plug fplug lo hi is_left parent_of fidx].
        split; [symmetry; exact Q1|]. cbn [inorder] in L1. rewrite app_nil_r in L1. split; [auto|]. split; [congruence|]. split; [reflexivity|].
        assert (exists p, (if ptr_eqb (Some i) (Some (hd 0 (inorder t))) then ret V (Some i) else prev_node V fuel (Some i)) h = Some (p, h)) as (p & Pp).
        { destruct (ptr_eqb_spec (Some i) (Some (hd 0 (inorder t)))) as [E1|E1]; [eexists; reflexivity|].
          exists (Some (last l1 0)). apply (prev_list fuel h t l1 i l2 S Q); [|exact F]. intros ->. rewrite Q in E1. cbn in E1. congruence. }
        rewrite (bind_eq Pp), (bind_eq UQ), (bind_eq (bind_eq (rd_left Zi))). reflexivity.
      + assert (N1 : l1 <> []) by (rewrite L1; cbn [inorder]; destruct (lo k); destruct (inorder ll); discriminate).
        rewrite ptr_eqb_ne.
        2:{ rewrite Q, hd_app by exact N1. intros [= E1]. rewrite Q in ND. apply NoDup_remove_2 in ND. apply ND.
            rewrite E1. apply in_app_iff. left. apply hd_in. exact N1. }
        rewrite (bind_eq (prev_list fuel h t l1 i l2 S Q N1 F)), (bind_eq UQ), (bind_eq (bind_eq (rd_left Zi))). cbn [root is_nil]. unfold ret.
        apply (proj1 (hz_left _ _ _ _ _ _)) in Zi.
        destruct (max_split (height (T cl ll li lr)) h _ _ Zi) as (kr & c1 & l0 & i1 & Q2 & AR & _); [discriminate|lia|].
        exists (FR c1 l0 i1 :: kr ++ FL c i r :: k), false. cbn [plug fplug lo hi is_left parent_of fidx].
        split; [rewrite plug_app; cbn [plug fplug]; rewrite <- Q2; symmetry; exact Q1|].
        assert (L3 : lo k ++ lo kr ++ inorder l0 ++ [i1] = l1).
        { rewrite L1, Q2, inorder_plug, (all_right_hi _ AR), app_nil_r. reflexivity. }
        split; [rewrite lo_app; cbn [lo]; rewrite <- app_assoc; exact L3|].
        split; [rewrite hi_app, (all_right_hi _ AR); cbn [hi app]; congruence|]. split; [reflexivity|].
        rewrite <- L3. rewrite !app_assoc, last_app by discriminate. reflexivity. }
  destruct HH as (k & lc & P & L1 & L2 & LC & R). pose proof S as S0. apply stores_hz in S0 as (Z & H).
  assert (Zk : hz h k E) by (apply (hz_move _ _ Z); symmetry; exact P). rewrite <- P in *.
  destruct (hang_ok fuel h k n lc Zk H RB NZ NI LC F) as (h' & t' & X1 & X2 & X3 & X4 & X5 & X6).
  exists h', t'. rewrite L1, L2 in X4. split; [|auto]. unfold insert_before. rewrite (bind_eq R). cbn [fst snd].
  unfold bind in X1 |- *.
  destruct (insert_commit V (Some n) (parent_of (Some 0) k) lc h) as [[u h1]|]; [|discriminate]. rewrite X1. reflexivity.
Qed.
End Search.
