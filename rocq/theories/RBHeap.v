(** The rotations and colour changes at a position of the stored tree. *)
From Coq Require Import List Bool Arith Lia.
From Verif Require Import RBModel RBSpec.
Import ListNotations.

(** ** Counting indices *)
Definition e1 (x y : nat) : nat := if Nat.eqb x y then 1 else 0.
Fixpoint cnt (x : nat) (l : list nat) : nat := match l with [] => 0 | y :: l' => e1 x y + cnt x l' end.
Lemma cnt_nil x : cnt x [] = 0. Proof. reflexivity. Qed.
Lemma cnt_cons x y l : cnt x (y :: l) = e1 x y + cnt x l. Proof. reflexivity. Qed.
Lemma cnt_app x a b : cnt x (a ++ b) = cnt x a + cnt x b.
Proof. induction a as [|y a IH]; cbn [app cnt]; [reflexivity|]. rewrite IH. lia. Qed.
Lemma e1_refl x : e1 x x = 1. Proof. unfold e1. rewrite Nat.eqb_refl. reflexivity. Qed.
Lemma e1_eq x y : x = y -> e1 x y = 1. Proof. intros ->. apply e1_refl. Qed.
Lemma e1_ne x y : x <> y -> e1 x y = 0.
Proof. intros H. unfold e1. apply Nat.eqb_neq in H. rewrite H. reflexivity. Qed.
Lemma e1_sym x y : e1 x y = e1 y x. Proof. unfold e1. rewrite Nat.eqb_sym. reflexivity. Qed.
Lemma cnt_in x l : In x l <-> 0 < cnt x l.
Proof.
  induction l as [|y l IH]; cbn [In cnt]; [split; [tauto|lia]|]. unfold e1. destruct (Nat.eqb_spec x y).
  - split; [lia|intros _; left; congruence].
  - rewrite IH. split; [intros [->|H]; [congruence|lia]|intros H; right; lia].
Qed.
Definition nd (l : list nat) : Prop := forall x, cnt x l <= 1.
Lemma nd_NoDup l : nd l <-> NoDup l.
Proof.
  induction l as [|y l IH].
  - split; [constructor|intros _ x; cbn; lia].
  - split.
    + intros H. constructor.
      * intros I. apply cnt_in in I. specialize (H y). rewrite cnt_cons, e1_refl in H. lia.
      * apply IH. intros x. specialize (H x). rewrite cnt_cons in H. lia.
    + intros H x. inversion H; subst. rewrite cnt_cons. assert (Hl : nd l) by (apply IH; assumption). specialize (Hl x).
      unfold e1. destruct (Nat.eqb_spec x y) as [->|]; [|lia].
      destruct (Nat.eq_dec (cnt y l) 0); [lia|]. exfalso. apply H2. apply cnt_in. lia.
Qed.

(** ** Zippers *)
Inductive frame : Type :=
| FL (red : bool) (i : nat) (r : tree)   (* the hole is the left child of i *)
| FR (red : bool) (l : tree) (i : nat).  (* the hole is the right child of i *)
Definition fidx (f : frame) : nat := match f with FL _ i _ | FR _ _ i => i end.
Definition fsib (f : frame) : tree := match f with FL _ _ t | FR _ t _ => t end.
Definition fred (f : frame) : bool := match f with FL c _ _ | FR c _ _ => c end.
Definition fplug (f : frame) (t : tree) : tree :=
  match f with FL c i r => T c t i r | FR c l i => T c l i t end.
Fixpoint plug (k : list frame) (t : tree) : tree :=
  match k with [] => t | f :: k' => plug k' (fplug f t) end.
Fixpoint idx (k : list frame) : list nat :=
  match k with [] => [] | f :: k' => fidx f :: inorder (fsib f) ++ idx k' end.
Fixpoint lo (k : list frame) : list nat :=
  match k with [] => [] | FL _ _ _ :: k' => lo k' | FR _ l i :: k' => lo k' ++ inorder l ++ [i] end.
Fixpoint hi (k : list frame) : list nat :=
  match k with [] => [] | FL _ i r :: k' => i :: inorder r ++ hi k' | FR _ _ _ :: k' => hi k' end.
Lemma inorder_plug k : forall t, inorder (plug k t) = lo k ++ inorder t ++ hi k.
Proof.
  induction k as [|[c i r|c l i] k IH]; intros t; cbn [plug fplug lo hi].
  - cbn. rewrite app_nil_r. reflexivity.
  - rewrite IH. cbn [inorder]. rewrite <- !app_assoc. reflexivity.
  - rewrite IH. cbn [inorder]. rewrite <- !app_assoc. reflexivity.
Qed.
Lemma cnt_idx x k : cnt x (idx k) = cnt x (lo k) + cnt x (hi k).
Proof.
  induction k as [|[c i r|c l i] k IH]; cbn [idx lo hi fidx fsib]; [reflexivity| |];
    rewrite ?cnt_cons, ?cnt_app, ?cnt_cons, ?cnt_nil, IH, ?cnt_app; lia.
Qed.
Definition parent_of (par : ptr) (k : list frame) : ptr := match k with [] => par | f :: _ => Some (fidx f) end.
Fixpoint root_of (k : list frame) (p : ptr) : ptr := match k with [] => p | f :: k' => root_of k' (Some (fidx f)) end.
Lemma root_plug k : forall t, root (plug k t) = root_of k (root t).
Proof. induction k as [|f k IH]; intros t; cbn; [reflexivity|]. rewrite IH. destruct f; reflexivity. Qed.

Ltac scnt := repeat (rewrite ?cnt_cons, ?cnt_app, ?cnt_nil in *; cbn [inorder idx fidx fsib app] in * ).

Section Heap.
Context {V : Type}.
Notation heap := (heap V).
Implicit Types h : heap.

Lemma upd_eq h i c : upd V h i c i = c.
Proof. unfold upd. rewrite Nat.eqb_refl. reflexivity. Qed.
Lemma upd_ne h i j c : j <> i -> upd V h i c j = h j.
Proof. intros H. unfold upd. apply Nat.eqb_neq in H. rewrite H. reflexivity. Qed.

(** The nodes along the path to the hole; [p] is the pointer at the hole, [par] the
    parent pointer of the topmost node. *)
Fixpoint ctx_ok h (par : ptr) (k : list frame) (p : ptr) : Prop :=
  match k with
  | [] => True
  | f :: k' =>
      c_par V (h (fidx f)) = parent_of par k' /\
      c_left V (h (fidx f)) = match f with FL _ _ _ => p | FR _ l _ => root l end /\
      c_right V (h (fidx f)) = match f with FL _ _ r => root r | FR _ _ _ => p end /\
      c_red V (h (fidx f)) = fred f /\
      linked h (Some (fidx f)) (fsib f) /\ ctx_ok h par k' (Some (fidx f))
  end.

Record hz h (k : list frame) (t : tree) : Prop := mk_hz
  { z_par : c_par V (h 0) = root_of k (root t);
    z_ctx : ctx_ok h (Some 0) k (root t);
    z_tree : linked h (parent_of (Some 0) k) t;
    z_nd : nd (0 :: inorder t ++ idx k) }.

Lemma linked_frame h h' t : forall par,
  (forall x, In x (inorder t) -> h' x = h x) -> linked h par t -> linked h' par t.
Proof.
  induction t as [|c l IHl i r IHr]; intros par H L; [exact I|]. cbn [linked inorder] in *.
  rewrite (H i) by (apply in_app_iff; right; left; reflexivity).
  destruct L as (A & B & C & D & L1 & L2).
  split; [assumption|]. split; [assumption|]. split; [assumption|]. split; [assumption|]. split.
  - apply IHl; [|assumption]. intros x Hx. apply H, in_app_iff. left. assumption.
  - apply IHr; [|assumption]. intros x Hx. apply H, in_app_iff. right. right. assumption.
Qed.
Lemma ctx_frame h h' k : forall par p,
  (forall x, In x (idx k) -> h' x = h x) -> ctx_ok h par k p -> ctx_ok h' par k p.
Proof.
  induction k as [|f k IH]; intros par p H L; [exact I|]. cbn [ctx_ok idx] in *.
  rewrite (H (fidx f)) by (left; reflexivity).
  destruct L as (A & B & C & D & L1 & L2).
  split; [assumption|]. split; [assumption|]. split; [assumption|]. split; [assumption|]. split.
  - eapply linked_frame; [|exact L1]. intros x Hx. apply H. right. apply in_app_iff. left. assumption.
  - apply IH; [|assumption]. intros x Hx. apply H. right. apply in_app_iff. right. assumption.
Qed.

(** Moving the focus. *)
Lemma hz_left h k c l i r : hz h k (T c l i r) <-> hz h (FL c i r :: k) l.
Proof.
  split; intros [P C L N]; constructor; cbn [ctx_ok linked root_of parent_of root fidx fsib fred] in *; try tauto.
  - intros x. specialize (N x). scnt. lia.
  - intros x. specialize (N x). scnt. lia.
Qed.
Lemma hz_right h k c l i r : hz h k (T c l i r) <-> hz h (FR c l i :: k) r.
Proof.
  split; intros [P C L N]; constructor; cbn [ctx_ok linked root_of parent_of root fidx fsib fred] in *; try tauto.
  - intros x. specialize (N x). scnt. lia.
  - intros x. specialize (N x). scnt. lia.
Qed.
Lemma hz_up h f k t : hz h (f :: k) t <-> hz h k (fplug f t).
Proof. destruct f; cbn [fplug]; [symmetry; apply hz_left|symmetry; apply hz_right]. Qed.
Lemma hz_plug h k t : hz h k t <-> hz h [] (plug k t).
Proof.
  revert t. induction k as [|f k IH]; intros t; [reflexivity|]. rewrite hz_up, IH. reflexivity.
Qed.

(** What is not touched. *)
Definition same h h' : Prop :=
  c_left V (h' 0) = c_left V (h 0) /\ c_right V (h' 0) = c_right V (h 0) /\ c_red V (h' 0) = c_red V (h 0) /\
  same_values h h'.
Lemma same_refl h : same h h.
Proof. unfold same, same_values. auto. Qed.
Lemma same_trans h h1 h2 : same h h1 -> same h1 h2 -> same h h2.
Proof. unfold same, same_values. intros (A & B & C & D) (A' & B' & C' & D'). split; [congruence|]. split; [congruence|]. split; [congruence|]. intros i. rewrite D'. apply D. Qed.
Definition out (k : list frame) (t : tree) (x : nat) : Prop := cnt x (0 :: inorder t ++ idx k) = 0.
Definition framed (k : list frame) (t : tree) h h' : Prop := forall x, out k t x -> h' x = h x.

(** [m] turns the stored zipper (k, t) into (k', t') over the same indices. *)
Definition turns_into h k t (m : M V unit) k' t' : Prop :=
  exists h', m h = Some (tt, h') /\ hz h' k' t' /\ same h h' /\ framed k t h h'.


(** Facts about distinctness. *)
Ltac scntH N := cbn [inorder idx fidx fsib app] in N; repeat (rewrite ?cnt_cons, ?cnt_app, ?cnt_nil in N; progress cbn [inorder idx fidx fsib app] in N); rewrite ?cnt_cons, ?cnt_app, ?cnt_nil in N; repeat first [rewrite cnt_cons in N | rewrite cnt_app in N]; rewrite ?e1_refl in N.
Ltac inn := repeat match goal with I : In _ _ |- _ => apply cnt_in in I; scntH I end.
Ltac nfalse :=
  match goal with
  | H : nd _, I : In ?x ?l |- False =>
      let N := fresh "N" in pose proof (H x) as N; scntH N; inn; lia
  end.
Ltac nsolve :=
  match goal with
  | |- False => nfalse
  | H : nd _ |- ?x <> ?y =>
      let E := fresh in let N := fresh in let Q := fresh in
      intros E; assert (Q : e1 x y = 1) by (apply e1_eq; exact E);
      pose proof (H x) as N; scntH N; clear - N Q; lia
  | |- ?x <> ?y => let E := fresh in intros E; subst; nfalse
  | |- ~ In ?x ?l => let I := fresh in intros I; nfalse
  end.
Ltac rend N := let x := fresh "x" in let N1 := fresh in intros x; pose proof (N x) as N1; scntH N1; scnt; clear - N1; lia.

Lemma ptr_eqb_refl p : ptr_eqb p p = true.
Proof. destruct p; cbn; [apply Nat.eqb_refl|reflexivity]. Qed.
Lemma ptr_eqb_spec p q : reflect (p = q) (ptr_eqb p q).
Proof.
  destruct p as [i|], q as [j|]; cbn; try (constructor; congruence).
  destruct (Nat.eqb_spec i j); constructor; congruence.
Qed.
Lemma ptr_eqb_ne p q : p <> q -> ptr_eqb p q = false.
Proof. intros H. destruct (ptr_eqb_spec p q); congruence. Qed.
Lemma root_in t i : root t = Some i -> In i (inorder t).
Proof. destruct t; cbn; [discriminate|]. intros [= ->]. apply in_app_iff. right. left. reflexivity. Qed.

(** ** The writes as functions on heaps *)
Definition wpar (q : ptr) (c : cell V) := mk_cell V q (c_left V c) (c_right V c) (c_red V c) (c_val V c).
Definition wleft (q : ptr) (c : cell V) := mk_cell V (c_par V c) q (c_right V c) (c_red V c) (c_val V c).
Definition wright (q : ptr) (c : cell V) := mk_cell V (c_par V c) (c_left V c) q (c_red V c) (c_val V c).
Definition wred (q : bool) (c : cell V) := mk_cell V (c_par V c) (c_left V c) (c_right V c) q (c_val V c).

(** Change the parent of the root of a subtree. *)
Definition reparent h (t : tree) (q : ptr) : heap :=
  match t with E => h | T _ _ i _ => upd V h i (wpar q (h i)) end.
Lemma reparent_run h t p q : root t = p ->
  (if is_nil p then ret V tt else set_parent V p q) h = Some (tt, reparent h t q).
Proof. intros <-. destruct t; reflexivity. Qed.
Lemma reparent_out h t q x : ~ In x (inorder t) -> reparent h t q x = h x.
Proof.
  destruct t as [|c l i r]; [reflexivity|]. cbn [inorder reparent]. intros H. apply upd_ne. intros ->. apply H.
  apply in_app_iff. right. left. reflexivity.
Qed.
Lemma reparent_linked h t par q : NoDup (inorder t) -> linked h par t -> linked (reparent h t q) q t.
Proof.
  destruct t as [|c l i r]; [trivial|]. cbn [inorder linked reparent]. intros D (A & B & C & F & L1 & L2).
  apply nd_NoDup in D. rewrite upd_eq. cbn.
  repeat (split; [assumption || reflexivity|]).
  split; (eapply linked_frame; [|eassumption]); intros x Hx; apply upd_ne; intros ->; nsolve.
Qed.

(** Change the child of the last frame (or the root). *)
Definition relink h (k : list frame) (p : ptr) : heap :=
  match k with
  | [] => upd V h 0 (wpar p (h 0))
  | FL _ i _ :: _ => upd V h i (wleft p (h i))
  | FR _ _ i :: _ => upd V h i (wright p (h i))
  end.
Definition is_left (k : list frame) : bool := match k with FL _ _ _ :: _ => true | _ => false end.
Lemma relink_run h k p : nd (0 :: idx k) ->
  set_child V p (parent_of (Some 0) k) (is_left k) h = Some (tt, relink h k p).
Proof.
  intros N. unfold set_child, header. destruct k as [|f k]; [reflexivity|]. cbn [parent_of].
  rewrite ptr_eqb_ne. 2:{ intros [= Q]. assert (0 <> fidx f) by nsolve. congruence. }
  destruct f; reflexivity.
Qed.
Lemma relink_out h k p x : x <> 0 -> ~ In x (idx k) -> relink h k p x = h x.
Proof.
  intros Z H. destruct k as [|[c i r|c l i] k]; cbn [relink idx fidx] in *; apply upd_ne.
  - assumption.
  - intros ->. apply H. left. reflexivity.
  - intros ->. apply H. left. reflexivity.
Qed.
Lemma relink_ctx h par k p0 p : nd (0 :: idx k) -> ctx_ok h par k p0 -> ctx_ok (relink h k p) par k p.
Proof.
  intros N. destruct k as [|[c i r|c l i] k]; cbn [relink ctx_ok fidx fsib fred]; [trivial| |];
    intros (A & B & C & D & L & K); rewrite upd_eq; cbn;
    repeat (split; [assumption || reflexivity|]);
    (split; [eapply linked_frame; [|eassumption]|eapply ctx_frame; [|eassumption]]);
    intros x Hx; apply upd_ne; intros ->; nsolve.
Qed.
Lemma relink_par h k p0 p : nd (0 :: idx k) -> c_par V (h 0) = root_of k p0 -> c_par V (relink h k p 0) = root_of k p.
Proof.
  intros N. destruct k as [|[c i r|c l i] k]; cbn [relink root_of]; intros H.
  - rewrite upd_eq. reflexivity.
  - rewrite upd_ne by nsolve. exact H.
  - rewrite upd_ne by nsolve. exact H.
Qed.
(** Whether the focus is a left child can be read off. *)
Lemma was_left h k i t : nd (0 :: inorder t ++ idx k) -> root t = Some i -> ctx_ok h (Some 0) k (root t) ->
  k <> [] -> exists q, parent_of (Some 0) k = Some q /\ ptr_eqb (c_left V (h q)) (Some i) = is_left k.
Proof.
  intros N R C K. destruct k as [|[c j r|c l j] k]; [congruence| |]; cbn [parent_of fidx]; eexists; (split; [reflexivity|]).
  - destruct C as (_ & C & _). cbn in C. rewrite C, R. apply ptr_eqb_refl.
  - destruct C as (_ & C & _). cbn in C. rewrite C. apply ptr_eqb_ne. intros Q.
    apply root_in in Q. apply root_in in R. apply cnt_in in R. apply cnt_in in Q. pose proof (N i) as N1. scntH N1. lia.
Qed.

(** Neither the value nor, for the header, anything but the root is changed. *)
Lemma same_reparent h t q : ~ In 0 (inorder t) -> same h (reparent h t q).
Proof.
  intros Z. unfold same. rewrite reparent_out by assumption. repeat (split; [reflexivity|]).
  destruct t; [intros i; reflexivity|]. intros j. unfold reparent, upd. destruct (Nat.eqb_spec j i); subst; reflexivity.
Qed.
Lemma same_relink h k q : nd (0 :: idx k) -> same h (relink h k q).
Proof.
  intros N. destruct k as [|f k].
  - unfold same. cbn. repeat (split; [reflexivity|]). intros j. unfold upd. destruct (Nat.eqb_spec j 0); subst; reflexivity.
  - assert (Z : 0 <> fidx f) by nsolve. unfold same.
    assert (Q : relink h (f :: k) q 0 = h 0) by (destruct f; apply upd_ne; exact Z).
    rewrite Q. repeat (split; [reflexivity|]). intros j. destruct f; cbn [relink]; unfold upd; destruct (Nat.eqb_spec j i); subst; reflexivity.
Qed.
Lemma same_upd h i c : i <> 0 -> c_val V c = c_val V (h i) -> same h (upd V h i c).
Proof.
  intros Z W. unfold same. rewrite upd_ne by auto. repeat (split; [reflexivity|]).
  intros j. unfold upd. destruct (Nat.eqb_spec j i); subst; [exact W|reflexivity].
Qed.

Lemma set_red_focus h k c l i r c' :
  hz h k (T c l i r) -> turns_into h k (T c l i r) (set_red V (Some i) c') k (T c' l i r).
Proof.
  intros [P C L N]. eexists. split; [reflexivity|].
  assert (Z : 0 <> i) by nsolve.
  cbn [linked root] in *. destruct L as (L1 & L2 & L3 & L4 & L5 & L6).
  split; [|split].
  - constructor.
    + rewrite upd_ne by assumption. exact P.
    + eapply ctx_frame; [|exact C]. intros x Hx. rewrite upd_ne; [reflexivity|]. intros ->. nsolve.
    + cbn [linked]. rewrite upd_eq. cbn [c_par c_left c_right c_red].
      split; [assumption|]. split; [assumption|]. split; [assumption|]. split; [reflexivity|].
      split; (eapply linked_frame; [|eassumption]); intros x Hx; (rewrite upd_ne; [reflexivity|intros ->; nsolve]).
    + exact N.
  - apply same_upd; [auto|reflexivity].
  - intros x Hx. apply upd_ne. intros ->. unfold out in Hx. scnt. rewrite e1_refl in Hx. lia.
Qed.

(** The heap after a rotation, as a function. *)
Definition rotl h k (b : tree) (p r : nat) : heap :=
  let h1 := upd V h p (wright (root b) (h p)) in
  let h2 := reparent h1 b (Some p) in
  let h3 := upd V h2 r (wleft (Some p) (h2 r)) in
  let h4 := upd V h3 p (wpar (Some r) (h3 p)) in
  let h5 := upd V h4 r (wpar (parent_of (Some 0) k) (h4 r)) in
  relink h5 k (Some r).

Lemma rotate_left_focus h k cp a p cr b r c :
  hz h k (T cp a p (T cr b r c)) ->
  turns_into h k (T cp a p (T cr b r c)) (rotate_left V (Some p) (Some r) (parent_of (Some 0) k)) k (T cr (T cp a p b) r c).
Proof.
  intros [P C L N].
  assert (NK : nd (0 :: idx k)) by rend N.
  assert (NB : nd (inorder b)) by rend N.
  assert (Z1 : 0 <> p) by nsolve. assert (Z2 : 0 <> r) by nsolve. assert (PR : p <> r) by nsolve.
  assert (B0 : ~ In 0 (inorder b)) by nsolve.
  assert (BP : ~ In p (inorder b)) by nsolve.
  assert (BR : ~ In r (inorder b)) by nsolve.
  assert (KP : ~ In p (idx k)) by nsolve.
  assert (KR : ~ In r (idx k)) by nsolve.
  assert (Run : rotate_left V (Some p) (Some r) (parent_of (Some 0) k) h = Some (tt, rotl h k b p r)).
  { unfold rotate_left, rotate_left_no_parent_fix, rotl, bind. cbn [linked root] in L, C.
    destruct L as (_ & _ & _ & _ & _ & (_ & R2 & _)).
    assert (exists q, parent_of (Some 0) k = Some q /\ (k <> [] -> ptr_eqb (c_left V (h q)) (Some p) = is_left k)) as (q & Hq & Hl).
    { destruct k as [|f k]; [exists 0; split; [reflexivity|congruence]|].
      destruct (was_left h (f :: k) p (T cp a p (T cr b r c))) as (q & Q1 & Q2); [exact N|reflexivity|exact C|discriminate|].
      exists q. split; [exact Q1|intros _; exact Q2]. }
    rewrite Hq. unfold get_left, get, set_right, put. rewrite R2.
    rewrite (reparent_run _ b) by reflexivity.
    unfold set_left, set_parent, put. rewrite <- Hq.
    destruct k as [|f k].
    - reflexivity.
    - rewrite Hl by discriminate. rewrite relink_run by assumption. reflexivity. }
  exists (rotl h k b p r). split; [exact Run|]. unfold rotl.
  set (h1 := upd V h p (wright (root b) (h p))).
  set (h2 := reparent h1 b (Some p)).
  set (h3 := upd V h2 r (wleft (Some p) (h2 r))).
  set (h4 := upd V h3 p (wpar (Some r) (h3 p))).
  set (h5 := upd V h4 r (wpar (parent_of (Some 0) k) (h4 r))).
  assert (O : forall x, x <> p -> x <> r -> ~ In x (inorder b) -> h5 x = h x).
  { intros x X1 X2 X3. unfold h5, h4, h3. rewrite !upd_ne by assumption. unfold h2. rewrite reparent_out by assumption.
    apply upd_ne. assumption. }
  cbn [linked root] in L, C.
  destruct L as (L1 & L2 & L3 & L4 & LA & (R1 & R2 & R3 & R4 & LB & LC)).
  assert (H2p : h2 p = wright (root b) (h p)) by (unfold h2; rewrite reparent_out by assumption; apply upd_eq).
  assert (H2r : h2 r = h r) by (unfold h2; rewrite reparent_out by assumption; apply upd_ne; auto).
  assert (H5p : h5 p = wpar (Some r) (wright (root b) (h p))).
  { unfold h5. rewrite upd_ne by assumption. unfold h4. rewrite upd_eq. unfold h3. rewrite upd_ne by assumption. rewrite H2p. reflexivity. }
  assert (H5r : h5 r = wpar (parent_of (Some 0) k) (wleft (Some p) (h r))).
  { unfold h5. rewrite upd_eq. unfold h4. rewrite upd_ne by auto. unfold h3. rewrite upd_eq, H2r. reflexivity. }
  assert (LB5 : linked h5 (Some p) b).
  { eapply linked_frame with (h := h2).
    - intros x Hx. unfold h5, h4, h3. rewrite !upd_ne; [reflexivity| | |]; intros ->; contradiction.
    - eapply reparent_linked; [apply nd_NoDup; exact NB|]. eapply linked_frame; [|exact LB].
      intros x Hx. apply upd_ne. intros ->. contradiction. }
  assert (C5 : ctx_ok h5 (Some 0) k (Some p)).
  { eapply ctx_frame; [|exact C]. intros x Hx. apply O; [intros ->; contradiction|intros ->; contradiction|nsolve]. }
  split; [|split].
  - constructor.
    + eapply relink_par; [exact NK|]. rewrite O; [exact P|auto|auto|exact B0].
    + cbn [root]. eapply relink_ctx; eassumption.
    + cbn [linked root].
      rewrite !relink_out by auto. rewrite H5r, H5p. cbn.
      repeat (split; [assumption || reflexivity|]). split.
      * repeat (split; [assumption || reflexivity|]). split.
        -- eapply linked_frame; [|exact LA]. intros x Hx. rewrite relink_out; [apply O|intros ->|]; nsolve.
        -- eapply linked_frame; [|exact LB5]. intros x Hx. rewrite relink_out; [reflexivity|intros ->|]; nsolve.
      * eapply linked_frame; [|exact LC]. intros x Hx. rewrite relink_out; [apply O|intros ->|]; nsolve.
    + rend N.
  - eapply same_trans; [|apply same_relink; exact NK].
    eapply same_trans; [|apply same_upd; [auto|reflexivity]].
    eapply same_trans; [|apply same_upd; [auto|reflexivity]].
    eapply same_trans; [|apply same_upd; [auto|reflexivity]].
    eapply same_trans; [|apply same_reparent; exact B0].
    apply same_upd; [auto|reflexivity].
  - intros x Hx. unfold out in Hx. scntH Hx.
    assert (x <> p /\ x <> r /\ x <> 0 /\ ~ In x (inorder b) /\ ~ In x (idx k)) as (X1 & X2 & X3 & X4 & X5).
    { rewrite !cnt_in. repeat split; try (intros ->; rewrite ?e1_refl in Hx); clear - Hx; lia. }
    rewrite relink_out by assumption. apply O; assumption.
Qed.

(** Rotation to the right. *)
Definition rotr h k (b : tree) (p r : nat) : heap :=
  let h1 := upd V h p (wleft (root b) (h p)) in
  let h2 := reparent h1 b (Some p) in
  let h3 := upd V h2 r (wright (Some p) (h2 r)) in
  let h4 := upd V h3 p (wpar (Some r) (h3 p)) in
  let h5 := upd V h4 r (wpar (parent_of (Some 0) k) (h4 r)) in
  relink h5 k (Some r).

Lemma rotate_right_focus h k cp a p cr b r c :
  hz h k (T cp (T cr a r b) p c) ->
  turns_into h k (T cp (T cr a r b) p c) (rotate_right V (Some p) (Some r) (parent_of (Some 0) k)) k (T cr a r (T cp b p c)).
Proof.
  intros [P C L N].
  assert (NK : nd (0 :: idx k)) by rend N.
  assert (NB : nd (inorder b)) by rend N.
  assert (Z1 : 0 <> p) by nsolve. assert (Z2 : 0 <> r) by nsolve. assert (PR : p <> r) by nsolve.
  assert (B0 : ~ In 0 (inorder b)) by nsolve.
  assert (BP : ~ In p (inorder b)) by nsolve.
  assert (BR : ~ In r (inorder b)) by nsolve.
  assert (KP : ~ In p (idx k)) by nsolve.
  assert (KR : ~ In r (idx k)) by nsolve.
  assert (Run : rotate_right V (Some p) (Some r) (parent_of (Some 0) k) h = Some (tt, rotr h k b p r)).
  { unfold rotate_right, rotate_right_no_parent_fix, rotr, bind. cbn [linked root] in L, C.
    destruct L as (_ & _ & _ & _ & (_ & _ & R2 & _) & _).
    assert (exists q, parent_of (Some 0) k = Some q /\ (k <> [] -> ptr_eqb (c_left V (h q)) (Some p) = is_left k)) as (q & Hq & Hl).
    { destruct k as [|f k]; [exists 0; split; [reflexivity|congruence]|].
      destruct (was_left h (f :: k) p (T cp (T cr a r b) p c)) as (q & Q1 & Q2); [exact N|reflexivity|exact C|discriminate|].
      exists q. split; [exact Q1|intros _; exact Q2]. }
    rewrite Hq. unfold get_left, get_right, get, set_left, put. rewrite R2.
    rewrite (reparent_run _ b) by reflexivity.
    unfold set_right, set_parent, put. rewrite <- Hq.
    destruct k as [|f k].
    - reflexivity.
    - rewrite Hl by discriminate. rewrite relink_run by assumption. reflexivity. }
  exists (rotr h k b p r). split; [exact Run|]. unfold rotr.
  set (h1 := upd V h p (wleft (root b) (h p))).
  set (h2 := reparent h1 b (Some p)).
  set (h3 := upd V h2 r (wright (Some p) (h2 r))).
  set (h4 := upd V h3 p (wpar (Some r) (h3 p))).
  set (h5 := upd V h4 r (wpar (parent_of (Some 0) k) (h4 r))).
  assert (O : forall x, x <> p -> x <> r -> ~ In x (inorder b) -> h5 x = h x).
  { intros x X1 X2 X3. unfold h5, h4, h3. rewrite !upd_ne by assumption. unfold h2. rewrite reparent_out by assumption.
    apply upd_ne. assumption. }
  cbn [linked root] in L, C.
  destruct L as (L1 & L2 & L3 & L4 & (R1 & R2 & R3 & R4 & LA & LB) & LC).
  assert (H2p : h2 p = wleft (root b) (h p)) by (unfold h2; rewrite reparent_out by assumption; apply upd_eq).
  assert (H2r : h2 r = h r) by (unfold h2; rewrite reparent_out by assumption; apply upd_ne; auto).
  assert (H5p : h5 p = wpar (Some r) (wleft (root b) (h p))).
  { unfold h5. rewrite upd_ne by assumption. unfold h4. rewrite upd_eq. unfold h3. rewrite upd_ne by assumption. rewrite H2p. reflexivity. }
  assert (H5r : h5 r = wpar (parent_of (Some 0) k) (wright (Some p) (h r))).
  { unfold h5. rewrite upd_eq. unfold h4. rewrite upd_ne by auto. unfold h3. rewrite upd_eq, H2r. reflexivity. }
  assert (LB5 : linked h5 (Some p) b).
  { eapply linked_frame with (h := h2).
    - intros x Hx. unfold h5, h4, h3. rewrite !upd_ne; [reflexivity| | |]; intros ->; contradiction.
    - eapply reparent_linked; [apply nd_NoDup; exact NB|]. eapply linked_frame; [|exact LB].
      intros x Hx. apply upd_ne. intros ->. contradiction. }
  assert (C5 : ctx_ok h5 (Some 0) k (Some p)).
  { eapply ctx_frame; [|exact C]. intros x Hx. apply O; [intros ->; contradiction|intros ->; contradiction|nsolve]. }
  split; [|split].
  - constructor.
    + eapply relink_par; [exact NK|]. rewrite O; [exact P|auto|auto|exact B0].
    + cbn [root]. eapply relink_ctx; eassumption.
    + cbn [linked root].
      rewrite !relink_out by auto. rewrite H5r, H5p. cbn.
      repeat (split; [assumption || reflexivity|]). split.
      * eapply linked_frame; [|exact LA]. intros x Hx. rewrite relink_out; [apply O|intros ->|]; nsolve.
      * repeat (split; [assumption || reflexivity|]). split.
        -- eapply linked_frame; [|exact LB5]. intros x Hx. rewrite relink_out; [reflexivity|intros ->|]; nsolve.
        -- eapply linked_frame; [|exact LC]. intros x Hx. rewrite relink_out; [apply O|intros ->|]; nsolve.
    + rend N.
  - eapply same_trans; [|apply same_relink; exact NK].
    eapply same_trans; [|apply same_upd; [auto|reflexivity]].
    eapply same_trans; [|apply same_upd; [auto|reflexivity]].
    eapply same_trans; [|apply same_upd; [auto|reflexivity]].
    eapply same_trans; [|apply same_reparent; exact B0].
    apply same_upd; [auto|reflexivity].
  - intros x Hx. unfold out in Hx. scntH Hx.
    assert (x <> p /\ x <> r /\ x <> 0 /\ ~ In x (inorder b) /\ ~ In x (idx k)) as (X1 & X2 & X3 & X4 & X5).
    { rewrite !cnt_in. repeat split; try (intros ->; rewrite ?e1_refl in Hx); clear - Hx; lia. }
    rewrite relink_out by assumption. apply O; assumption.
Qed.

(** The double rotation of the insertion, which leaves some pointers stale in between:
    left at the left child, then right. *)
Definition rot_lr h k (b d : tree) (q p g : nat) : heap :=
  let h1 := upd V h q (wright (root b) (h q)) in
  let h2 := reparent h1 b (Some q) in
  let h3 := upd V h2 p (wleft (Some q) (h2 p)) in
  let h4 := upd V h3 q (wpar (Some p) (h3 q)) in
  let h5 := upd V h4 g (wleft (root d) (h4 g)) in
  let h6 := reparent h5 d (Some g) in
  let h7 := upd V h6 p (wright (Some g) (h6 p)) in
  let h8 := upd V h7 g (wpar (Some p) (h7 g)) in
  let h9 := upd V h8 p (wpar (parent_of (Some 0) k) (h8 p)) in
  relink h9 k (Some p).

Lemma rotate_lr_focus h k cg cq a q cp b p d g e :
  hz h k (T cg (T cq a q (T cp b p d)) g e) ->
  turns_into h k (T cg (T cq a q (T cp b p d)) g e)
    (bind V (rotate_left_no_parent_fix V (Some q) (Some p)) (fun _ =>
     bind V (get_parent V (Some g)) (fun gp => rotate_right V (Some g) (Some p) gp)))
    k (T cp (T cq a q b) p (T cg d g e)).
Proof.
  intros [P C L N].
  assert (NK : nd (0 :: idx k)) by rend N.
  assert (NB : nd (inorder b)) by rend N.
  assert (ND : nd (inorder d)) by rend N.
  assert (Z1 : 0 <> p) by nsolve. assert (Z2 : 0 <> q) by nsolve. assert (Z3 : 0 <> g) by nsolve.
  assert (PQ : p <> q) by nsolve. assert (PG : p <> g) by nsolve. assert (QG : q <> g) by nsolve.
  assert (B0 : ~ In 0 (inorder b)) by nsolve.
  assert (BP : ~ In p (inorder b)) by nsolve.
  assert (BQ : ~ In q (inorder b)) by nsolve.
  assert (BG : ~ In g (inorder b)) by nsolve.
  assert (D0 : ~ In 0 (inorder d)) by nsolve.
  assert (DP : ~ In p (inorder d)) by nsolve.
  assert (DQ : ~ In q (inorder d)) by nsolve.
  assert (DG : ~ In g (inorder d)) by nsolve.
  assert (KP : ~ In p (idx k)) by nsolve.
  assert (KQ : ~ In q (idx k)) by nsolve.
  assert (KG : ~ In g (idx k)) by nsolve.
  set (t0 := T cg (T cq a q (T cp b p d)) g e) in *.
  assert (W : exists x, parent_of (Some 0) k = Some x /\ (k <> [] -> ptr_eqb (c_left V (h x)) (Some g) = is_left k /\ ~ In x (inorder t0) /\ x <> 0)).
  { destruct k as [|f k]; [exists 0; split; [reflexivity|congruence]|].
    destruct (was_left h (f :: k) g t0) as (x & Q1 & Q2); [exact N|reflexivity|exact C|discriminate|].
    exists x. split; [exact Q1|intros _; split; [exact Q2|]]. injection Q1 as <-. split.
    - intros I. apply cnt_in in I. pose proof (N (fidx f)) as N1. unfold t0 in *. scntH N1. scntH I. lia.
    - apply not_eq_sym. clear - NK. nsolve. }
  cbn [linked root t0] in L, C. unfold t0 in L, C. cbn [linked root] in L, C.
  destruct L as (L1 & L2 & L3 & L4 & (Q1 & Q2 & Q3 & Q4 & LA & (R1 & R2 & R3 & R4 & LB & LD)) & LE).
  set (h1 := upd V h q (wright (root b) (h q))).
  set (h2 := reparent h1 b (Some q)).
  set (h3 := upd V h2 p (wleft (Some q) (h2 p))).
  set (h4 := upd V h3 q (wpar (Some p) (h3 q))).
  set (h5 := upd V h4 g (wleft (root d) (h4 g))).
  set (h6 := reparent h5 d (Some g)).
  set (h7 := upd V h6 p (wright (Some g) (h6 p))).
  set (h8 := upd V h7 g (wpar (Some p) (h7 g))).
  set (h9 := upd V h8 p (wpar (parent_of (Some 0) k) (h8 p))).
  assert (O4 : forall x, x <> p -> x <> q -> ~ In x (inorder b) -> h4 x = h x).
  { intros x X1 X2 X3. unfold h4, h3. rewrite !upd_ne by assumption. unfold h2. rewrite reparent_out by assumption.
    apply upd_ne. assumption. }
  assert (O9 : forall x, x <> p -> x <> g -> ~ In x (inorder d) -> h9 x = h4 x).
  { intros x X1 X2 X3. unfold h9, h8, h7. rewrite !upd_ne by assumption. unfold h6. rewrite reparent_out by assumption.
    apply upd_ne. assumption. }
  assert (H2q : h2 q = wright (root b) (h q)) by (unfold h2; rewrite reparent_out by assumption; apply upd_eq).
  assert (H2p : h2 p = h p) by (unfold h2; rewrite reparent_out by assumption; apply upd_ne; auto).
  assert (H4p : h4 p = wleft (Some q) (h p)).
  { unfold h4. rewrite upd_ne by assumption. unfold h3. rewrite upd_eq, H2p. reflexivity. }
  assert (H4q : h4 q = wpar (Some p) (wright (root b) (h q))).
  { unfold h4. rewrite upd_eq. unfold h3. rewrite upd_ne by auto. rewrite H2q. reflexivity. }
  assert (H4g : h4 g = h g) by (apply O4; auto).
  assert (H6p : h6 p = h4 p) by (unfold h6; rewrite reparent_out by assumption; apply upd_ne; auto).
  assert (H6g : h6 g = wleft (root d) (h g)) by (unfold h6; rewrite reparent_out by assumption; unfold h5; rewrite upd_eq, H4g; reflexivity).
  assert (H9p : h9 p = wpar (parent_of (Some 0) k) (wright (Some g) (wleft (Some q) (h p)))).
  { unfold h9. rewrite upd_eq. unfold h8. rewrite upd_ne by auto. unfold h7. rewrite upd_eq, H6p, H4p. reflexivity. }
  assert (H9g : h9 g = wpar (Some p) (wleft (root d) (h g))).
  { unfold h9. rewrite upd_ne by auto. unfold h8. rewrite upd_eq. unfold h7. rewrite upd_ne by auto. rewrite H6g. reflexivity. }
  assert (H9q : h9 q = wpar (Some p) (wright (root b) (h q))) by (rewrite O9; auto).
  assert (LB4 : linked h4 (Some q) b).
  { eapply linked_frame with (h := h2).
    - intros x Hx. unfold h4, h3. rewrite !upd_ne; [reflexivity| |]; intros ->; contradiction.
    - eapply reparent_linked; [apply nd_NoDup; exact NB|]. eapply linked_frame; [|exact LB].
      intros x Hx. apply upd_ne. intros ->. contradiction. }
  assert (LD9 : linked h9 (Some g) d).
  { eapply linked_frame with (h := h6).
    - intros x Hx. unfold h9, h8, h7. rewrite !upd_ne; [reflexivity| | |]; intros ->; contradiction.
    - eapply reparent_linked; [apply nd_NoDup; exact ND|]. eapply linked_frame; [|exact LD].
      intros x Hx. unfold h5. rewrite upd_ne by (intros ->; contradiction). apply O4; [intros ->; contradiction|intros ->; contradiction|].
      unfold t0 in N; nsolve. }
  assert (Run : bind V (rotate_left_no_parent_fix V (Some q) (Some p)) (fun _ =>
     bind V (get_parent V (Some g)) (fun gp => rotate_right V (Some g) (Some p) gp)) h = Some (tt, relink h9 k (Some p))).
  { assert (Run1 : rotate_left_no_parent_fix V (Some q) (Some p) h = Some (tt, h4)).
    { unfold rotate_left_no_parent_fix, bind. unfold get_left, get, set_right, put. rewrite R2.
      rewrite (reparent_run _ b) by reflexivity. reflexivity. }
    unfold bind. rewrite Run1. unfold get_parent, get. rewrite H4g, L1.
    unfold rotate_right, rotate_right_no_parent_fix, bind. destruct W as (x & W1 & W2). rewrite W1.
    unfold get_left, get_right, get, set_left, put. rewrite H4p. cbn [c_right wleft]. rewrite R3.
    rewrite (reparent_run _ d) by reflexivity.
    unfold set_right, set_parent, put. rewrite <- W1.
    destruct k as [|f k]; [reflexivity|].
    destruct W2 as (W2 & W3 & W4); [discriminate|].
    assert (h4 x = h x) as ->.
    { unfold t0 in W3. cbn [inorder] in W3. rewrite !in_app_iff in W3. cbn [In] in W3. rewrite !in_app_iff in W3. cbn [In] in W3. apply O4; intuition. }
    rewrite W2. apply relink_run. assumption. }
  eexists. split; [exact Run|].
  unfold t0 in N.
  assert (O : forall x, x <> p -> x <> q -> x <> g -> ~ In x (inorder b) -> ~ In x (inorder d) -> h9 x = h x).
  { intros. rewrite O9, O4; auto. }
  assert (C9 : ctx_ok h9 (Some 0) k (Some g)).
  { eapply ctx_frame; [|exact C]. intros x Hx. apply O; try (intros ->; contradiction); nsolve. }
  split; [|split].
  - constructor.
    + eapply relink_par; [exact NK|]. rewrite O by auto. exact P.
    + cbn [root]. eapply relink_ctx; eassumption.
    + cbn [linked root].
      rewrite !relink_out by auto. rewrite H9p, H9q, H9g. cbn.
      repeat (split; [assumption || reflexivity|]). split.
      * repeat (split; [assumption || reflexivity|]). split.
        -- eapply linked_frame; [|exact LA]. intros x Hx. rewrite relink_out; [apply O|intros ->|]; nsolve.
        -- eapply linked_frame; [|exact LB4]. intros x Hx. rewrite relink_out; [apply O9|intros ->|]; nsolve.
      * repeat (split; [assumption || reflexivity|]). split.
        -- eapply linked_frame; [|exact LD9]. intros x Hx. rewrite relink_out; [reflexivity|intros ->|]; nsolve.
        -- eapply linked_frame; [|exact LE]. intros x Hx. rewrite relink_out; [apply O|intros ->|]; nsolve.
    + rend N.
  - eapply same_trans; [|apply same_relink; exact NK].
    do 3 (eapply same_trans; [|apply same_upd; [auto|reflexivity]]).
    eapply same_trans; [|apply same_reparent; exact D0].
    do 3 (eapply same_trans; [|apply same_upd; [auto|reflexivity]]).
    eapply same_trans; [|apply same_reparent; exact B0].
    apply same_upd; [auto|reflexivity].
  - intros x Hx. unfold out, t0 in Hx. scntH Hx.
    assert (x <> p /\ x <> q /\ x <> g /\ x <> 0 /\ ~ In x (inorder b) /\ ~ In x (inorder d) /\ ~ In x (idx k)) as (X1 & X2 & X3 & X4 & X5 & X6 & X7).
    { rewrite !cnt_in. repeat split; try (intros ->; rewrite ?e1_refl in Hx); clear - Hx; lia. }
    rewrite relink_out by assumption. apply O; assumption.
Qed.
(** The double rotation of the insertion, which leaves some pointers stale in between:
    right at the right child, then left. *)
Definition rot_rl h k (b d : tree) (q p g : nat) : heap :=
  let h1 := upd V h q (wleft (root b) (h q)) in
  let h2 := reparent h1 b (Some q) in
  let h3 := upd V h2 p (wright (Some q) (h2 p)) in
  let h4 := upd V h3 q (wpar (Some p) (h3 q)) in
  let h5 := upd V h4 g (wright (root d) (h4 g)) in
  let h6 := reparent h5 d (Some g) in
  let h7 := upd V h6 p (wleft (Some g) (h6 p)) in
  let h8 := upd V h7 g (wpar (Some p) (h7 g)) in
  let h9 := upd V h8 p (wpar (parent_of (Some 0) k) (h8 p)) in
  relink h9 k (Some p).

Lemma rotate_rl_focus h k cg cq a q cp b p d g e :
  hz h k (T cg e g (T cq (T cp d p b) q a)) ->
  turns_into h k (T cg e g (T cq (T cp d p b) q a))
    (bind V (rotate_right_no_parent_fix V (Some q) (Some p)) (fun _ =>
     bind V (get_parent V (Some g)) (fun gp => rotate_left V (Some g) (Some p) gp)))
    k (T cp (T cg e g d) p (T cq b q a)).
Proof.
  intros [P C L N].
  assert (NK : nd (0 :: idx k)) by rend N.
  assert (NB : nd (inorder b)) by rend N.
  assert (ND : nd (inorder d)) by rend N.
  assert (Z1 : 0 <> p) by nsolve. assert (Z2 : 0 <> q) by nsolve. assert (Z3 : 0 <> g) by nsolve.
  assert (PQ : p <> q) by nsolve. assert (PG : p <> g) by nsolve. assert (QG : q <> g) by nsolve.
  assert (B0 : ~ In 0 (inorder b)) by nsolve.
  assert (BP : ~ In p (inorder b)) by nsolve.
  assert (BQ : ~ In q (inorder b)) by nsolve.
  assert (BG : ~ In g (inorder b)) by nsolve.
  assert (D0 : ~ In 0 (inorder d)) by nsolve.
  assert (DP : ~ In p (inorder d)) by nsolve.
  assert (DQ : ~ In q (inorder d)) by nsolve.
  assert (DG : ~ In g (inorder d)) by nsolve.
  assert (KP : ~ In p (idx k)) by nsolve.
  assert (KQ : ~ In q (idx k)) by nsolve.
  assert (KG : ~ In g (idx k)) by nsolve.
  set (t0 := T cg e g (T cq (T cp d p b) q a)) in *.
  assert (W : exists x, parent_of (Some 0) k = Some x /\ (k <> [] -> ptr_eqb (c_left V (h x)) (Some g) = is_left k /\ ~ In x (inorder t0) /\ x <> 0)).
  { destruct k as [|f k]; [exists 0; split; [reflexivity|congruence]|].
    destruct (was_left h (f :: k) g t0) as (x & Q1 & Q2); [exact N|reflexivity|exact C|discriminate|].
    exists x. split; [exact Q1|intros _; split; [exact Q2|]]. injection Q1 as <-. split.
    - intros I. apply cnt_in in I. pose proof (N (fidx f)) as N1. unfold t0 in *. scntH N1. scntH I. lia.
    - apply not_eq_sym. clear - NK. nsolve. }
  cbn [linked root t0] in L, C. unfold t0 in L, C. cbn [linked root] in L, C.
  destruct L as (L1 & L2 & L3 & L4 & LE & (Q1 & Q2 & Q3 & Q4 & (R1 & R2 & R3 & R4 & LD & LB) & LA)).
  set (h1 := upd V h q (wleft (root b) (h q))).
  set (h2 := reparent h1 b (Some q)).
  set (h3 := upd V h2 p (wright (Some q) (h2 p))).
  set (h4 := upd V h3 q (wpar (Some p) (h3 q))).
  set (h5 := upd V h4 g (wright (root d) (h4 g))).
  set (h6 := reparent h5 d (Some g)).
  set (h7 := upd V h6 p (wleft (Some g) (h6 p))).
  set (h8 := upd V h7 g (wpar (Some p) (h7 g))).
  set (h9 := upd V h8 p (wpar (parent_of (Some 0) k) (h8 p))).
  assert (O4 : forall x, x <> p -> x <> q -> ~ In x (inorder b) -> h4 x = h x).
  { intros x X1 X2 X3. unfold h4, h3. rewrite !upd_ne by assumption. unfold h2. rewrite reparent_out by assumption.
    apply upd_ne. assumption. }
  assert (O9 : forall x, x <> p -> x <> g -> ~ In x (inorder d) -> h9 x = h4 x).
  { intros x X1 X2 X3. unfold h9, h8, h7. rewrite !upd_ne by assumption. unfold h6. rewrite reparent_out by assumption.
    apply upd_ne. assumption. }
  assert (H2q : h2 q = wleft (root b) (h q)) by (unfold h2; rewrite reparent_out by assumption; apply upd_eq).
  assert (H2p : h2 p = h p) by (unfold h2; rewrite reparent_out by assumption; apply upd_ne; auto).
  assert (H4p : h4 p = wright (Some q) (h p)).
  { unfold h4. rewrite upd_ne by assumption. unfold h3. rewrite upd_eq, H2p. reflexivity. }
  assert (H4q : h4 q = wpar (Some p) (wleft (root b) (h q))).
  { unfold h4. rewrite upd_eq. unfold h3. rewrite upd_ne by auto. rewrite H2q. reflexivity. }
  assert (H4g : h4 g = h g) by (apply O4; auto).
  assert (H6p : h6 p = h4 p) by (unfold h6; rewrite reparent_out by assumption; apply upd_ne; auto).
  assert (H6g : h6 g = wright (root d) (h g)) by (unfold h6; rewrite reparent_out by assumption; unfold h5; rewrite upd_eq, H4g; reflexivity).
  assert (H9p : h9 p = wpar (parent_of (Some 0) k) (wleft (Some g) (wright (Some q) (h p)))).
  { unfold h9. rewrite upd_eq. unfold h8. rewrite upd_ne by auto. unfold h7. rewrite upd_eq, H6p, H4p. reflexivity. }
  assert (H9g : h9 g = wpar (Some p) (wright (root d) (h g))).
  { unfold h9. rewrite upd_ne by auto. unfold h8. rewrite upd_eq. unfold h7. rewrite upd_ne by auto. rewrite H6g. reflexivity. }
  assert (H9q : h9 q = wpar (Some p) (wleft (root b) (h q))) by (rewrite O9; auto).
  assert (LB4 : linked h4 (Some q) b).
  { eapply linked_frame with (h := h2).
    - intros x Hx. unfold h4, h3. rewrite !upd_ne; [reflexivity| |]; intros ->; contradiction.
    - eapply reparent_linked; [apply nd_NoDup; exact NB|]. eapply linked_frame; [|exact LB].
      intros x Hx. apply upd_ne. intros ->. contradiction. }
  assert (LD9 : linked h9 (Some g) d).
  { eapply linked_frame with (h := h6).
    - intros x Hx. unfold h9, h8, h7. rewrite !upd_ne; [reflexivity| | |]; intros ->; contradiction.
    - eapply reparent_linked; [apply nd_NoDup; exact ND|]. eapply linked_frame; [|exact LD].
      intros x Hx. unfold h5. rewrite upd_ne by (intros ->; contradiction). apply O4; [intros ->; contradiction|intros ->; contradiction|].
      unfold t0 in N; nsolve. }
  assert (Run : bind V (rotate_right_no_parent_fix V (Some q) (Some p)) (fun _ =>
     bind V (get_parent V (Some g)) (fun gp => rotate_left V (Some g) (Some p) gp)) h = Some (tt, relink h9 k (Some p))).
  { assert (Run1 : rotate_right_no_parent_fix V (Some q) (Some p) h = Some (tt, h4)).
    { unfold rotate_right_no_parent_fix, bind. unfold get_right, get, set_left, put. rewrite R3.
      rewrite (reparent_run _ b) by reflexivity. reflexivity. }
    unfold bind. rewrite Run1. unfold get_parent, get. rewrite H4g, L1.
    unfold rotate_left, rotate_left_no_parent_fix, bind. destruct W as (x & W1 & W2). rewrite W1.
    unfold get_left, get_right, get, set_right, put. rewrite H4p. cbn [c_left wright]. rewrite R2.
    rewrite (reparent_run _ d) by reflexivity.
    unfold set_left, set_parent, put. rewrite <- W1.
    destruct k as [|f k]; [reflexivity|].
    destruct W2 as (W2 & W3 & W4); [discriminate|].
    assert (h4 x = h x) as ->.
    { unfold t0 in W3. cbn [inorder] in W3. rewrite !in_app_iff in W3. cbn [In] in W3. rewrite !in_app_iff in W3. cbn [In] in W3. apply O4; intuition. }
    rewrite W2. apply relink_run. assumption. }
  eexists. split; [exact Run|].
  unfold t0 in N.
  assert (O : forall x, x <> p -> x <> q -> x <> g -> ~ In x (inorder b) -> ~ In x (inorder d) -> h9 x = h x).
  { intros. rewrite O9, O4; auto. }
  assert (C9 : ctx_ok h9 (Some 0) k (Some g)).
  { eapply ctx_frame; [|exact C]. intros x Hx. apply O; try (intros ->; contradiction); nsolve. }
  split; [|split].
  - constructor.
    + eapply relink_par; [exact NK|]. rewrite O by auto. exact P.
    + cbn [root]. eapply relink_ctx; eassumption.
    + cbn [linked root].
      rewrite !relink_out by auto. rewrite H9p, H9q, H9g. cbn.
      repeat (split; [assumption || reflexivity|]). split.
      * repeat (split; [assumption || reflexivity|]). split.
        -- eapply linked_frame; [|exact LE]. intros x Hx. rewrite relink_out; [apply O|intros ->|]; nsolve.
        -- eapply linked_frame; [|exact LD9]. intros x Hx. rewrite relink_out; [reflexivity|intros ->|]; nsolve.
      * repeat (split; [assumption || reflexivity|]). split.
        -- eapply linked_frame; [|exact LB4]. intros x Hx. rewrite relink_out; [apply O9|intros ->|]; nsolve.
        -- eapply linked_frame; [|exact LA]. intros x Hx. rewrite relink_out; [apply O|intros ->|]; nsolve.
    + rend N.
  - eapply same_trans; [|apply same_relink; exact NK].
    do 3 (eapply same_trans; [|apply same_upd; [auto|reflexivity]]).
    eapply same_trans; [|apply same_reparent; exact D0].
    do 3 (eapply same_trans; [|apply same_upd; [auto|reflexivity]]).
    eapply same_trans; [|apply same_reparent; exact B0].
    apply same_upd; [auto|reflexivity].
  - intros x Hx. unfold out, t0 in Hx. scntH Hx.
    assert (x <> p /\ x <> q /\ x <> g /\ x <> 0 /\ ~ In x (inorder b) /\ ~ In x (inorder d) /\ ~ In x (idx k)) as (X1 & X2 & X3 & X4 & X5 & X6 & X7).
    { rewrite !cnt_in. repeat split; try (intros ->; rewrite ?e1_refl in Hx); clear - Hx; lia. }
    rewrite relink_out by assumption. apply O; assumption.
Qed.
End Heap.
