(** Rebalancing after an insertion. *)
From Coq Require Import List Bool Arith Lia.
From Verif Require Import RBModel RBSpec RBHeap.
Import ListNotations.

Section Ins.
Context {V : Type}.
Notation heap := (heap V).
Implicit Types h : heap.

Definition keeps (l : list nat) h h' : Prop := same h h' /\ forall x, cnt x (0 :: l) = 0 -> h' x = h x.
Lemma keeps_refl l h : keeps l h h.
Proof. split; [apply same_refl|auto]. Qed.
Lemma keeps_trans l h h1 h2 : keeps l h h1 -> keeps l h1 h2 -> keeps l h h2.
Proof.
  intros (A & B) (C & D). split; [eapply same_trans; eassumption|]. intros x Hx. rewrite D, B by assumption. reflexivity.
Qed.

Lemma turn h k t m k' t' : turns_into h k t m k' t' ->
  exists h', m h = Some (tt, h') /\ hz h' k' t' /\ keeps (inorder (plug k t)) h h'.
Proof.
  intros (h' & R & Z & S & F). exists h'. split; [exact R|]. split; [exact Z|]. split; [exact S|].
  intros x Hx. apply F. unfold out. rewrite cnt_cons, inorder_plug, !cnt_app in Hx. rewrite cnt_cons, cnt_app, cnt_idx. lia.
Qed.

Lemma bind_eq {A B} {m : M V A} {f : A -> M V B} {h a h1} : m h = Some (a, h1) -> bind V m f h = f a h1.
Proof. intros H. unfold bind. rewrite H. reflexivity. Qed.

Lemma bind3 {A B C D} (m : M V A) (n : M V B) (f : B -> M V C) (g : C -> M V D) h :
  bind V m (fun _ => bind V n (fun x => bind V (f x) g)) h = bind V (bind V m (fun _ => bind V n f)) g h.
Proof. unfold bind. destruct (m h) as [[a h1]|]; [|reflexivity]. destruct (n h1) as [[b h2]|]; reflexivity. Qed.

Lemma hz_move {h k t} k' t' : hz h k t -> plug k t = plug k' t' -> hz h k' t'.
Proof. intros H Q. apply hz_plug. rewrite <- Q. apply (proj1 (hz_plug _ _ _)). exact H. Qed.

(** Reading at the focus. *)
Section Read.
Context {h : heap} {k : list frame} {c : bool} {l : tree} {i : nat} {r : tree} (Z : hz h k (T c l i r)).
Lemma rd_par : get_parent V (Some i) h = Some (parent_of (Some 0) k, h).
Proof. destruct Z as [_ _ L _]. cbn in L. unfold get_parent, get. destruct L as (-> & _). reflexivity. Qed.
Lemma rd_left : get_left V (Some i) h = Some (root l, h).
Proof. destruct Z as [_ _ L _]. cbn in L. unfold get_left, get. destruct L as (_ & -> & _). reflexivity. Qed.
Lemma rd_right : get_right V (Some i) h = Some (root r, h).
Proof. destruct Z as [_ _ L _]. cbn in L. unfold get_right, get. destruct L as (_ & _ & -> & _). reflexivity. Qed.
Lemma rd_red : get_red V (Some i) h = Some (c, h).
Proof. destruct Z as [_ _ L _]. cbn in L. unfold get_red, get. destruct L as (_ & _ & _ & -> & _). reflexivity. Qed.
Lemma rd_nz : i <> 0.
Proof.
  destruct Z as [_ _ _ N]. intros Q. pose proof (N 0) as N1. rewrite cnt_cons, cnt_app in N1. cbn [inorder] in N1.
  rewrite cnt_app, cnt_cons, (e1_eq 0 i), e1_refl in N1 by auto. lia.
Qed.
Lemma rd_nh : ptr_eqb (Some i) (Some 0) = false.
Proof. apply ptr_eqb_ne. intros [= Q]. exact (rd_nz Q). Qed.
End Read.
Lemma rd_root {h t} : hz h [] t -> get_parent V (Some 0) h = Some (root t, h).
Proof. intros [P _ _ _]. cbn in P. unfold get_parent, get. rewrite P. reflexivity. Qed.

(** Two different nodes of a tree have different indices. *)
Lemma hz_ne {h k t} k1 c1 l1 i1 r1 c2 l2 i2 r2 : hz h k t -> plug k t = plug k1 (T c1 l1 i1 r1) ->
  In (T c2 l2 i2 r2) [l1; r1] -> i1 <> i2.
Proof.
  intros Z Q I. pose proof (hz_move _ _ Z Q) as [_ _ _ N]. intros J. pose proof (N i1) as N1.
  rewrite cnt_cons, cnt_app in N1. cbn [inorder] in N1. rewrite cnt_app, cnt_cons, e1_refl in N1.
  assert (K : cnt i2 (inorder (T c2 l2 i2 r2)) > 0) by (cbn [inorder]; rewrite cnt_app, cnt_cons, e1_refl; lia).
  subst i2. destruct I as [->|[->|[]]]; lia.
Qed.
Lemma hz_sib {h k c l i r} : hz h k (T c l i r) -> r <> E -> ptr_eqb (root r) (root l) = false.
Proof.
  intros [_ _ _ N] R. apply ptr_eqb_ne. intros Q. destruct r as [|cr rl j rr]; [congruence|]. cbn [root] in Q.
  symmetry in Q. apply root_in in Q. apply cnt_in in Q. pose proof (N j) as N1.
  rewrite cnt_cons, cnt_app in N1. cbn [inorder] in N1. rewrite cnt_app, cnt_cons, cnt_app, cnt_cons, e1_refl in N1. lia.
Qed.

(** ** The red-black invariant of the path *)
Fixpoint ctx_rb (k : list frame) (n : nat) : Prop :=
  match k with
  | [] => True
  | f :: k' =>
      rb (fsib f) n /\
      if fred f then black_root (fsib f) /\ ctx_rb k' n /\ match k' with [] => False | f' :: _ => fred f' = false end
      else ctx_rb k' (S n)
  end.
Definition fits (k : list frame) (t : tree) : Prop :=
  match k with f :: _ => fred f = true -> black_root t | [] => True end.
Lemma plug_rb k : forall t n, rb t n -> ctx_rb k n -> fits k t -> exists m, rb (plug k t) m.
Proof.
  induction k as [|f k IH]; intros t n R C F; [exists n; exact R|].
  cbn [plug ctx_rb fits] in *. destruct C as (S & C). destruct (fred f) eqn:Ef.
  - destruct C as (BS & C & T0). apply (IH _ n); [|exact C|].
    + destruct f as [c i s|c s i]; cbn in *; subst c; cbn; specialize (F eq_refl); tauto.
    + destruct k as [|f' k]; [exact I|]. cbn. rewrite T0. discriminate.
  - apply (IH _ (Datatypes.S n)); [|exact C|].
    + destruct f as [c i s|c s i]; cbn in *; subst c; cbn; tauto.
    + destruct k as [|f' k]; [exact I|]. cbn. intros _. destruct f as [c i s|c s i]; cbn in *; subst c; exact I.
Qed.
Lemma plug_black k : forall t, k <> [] -> (exists n, ctx_rb k n) -> black_root (plug k t).
Proof.
  induction k as [|f k IH]; intros t K (n & C); [congruence|]. cbn [plug ctx_rb] in *. destruct C as (_ & C).
  destruct k as [|f' k].
  - destruct (fred f) eqn:Ef; [tauto|]. destruct f as [c i s|c s i]; cbn in *; subst c; exact I.
  - apply IH; [discriminate|]. destruct (fred f); [exists n; tauto|exists (S n); exact C].
Qed.

Ltac kchain := repeat (eapply keeps_trans; [eassumption|]); apply keeps_refl.
Ltac setr Z0 h' :=
  let R := fresh "R" in let Z := fresh "Z" in let K := fresh "K" in
  destruct (turn _ _ _ _ _ _ Z0) as (h' & R & Z & K); rewrite (bind_eq R); clear R.

Lemma black_read h k u : hz h k u -> (if is_nil (root u) then ret V false else get_red V (root u)) h = Some (match u with T true _ _ _ => true | _ => false end, h).
Proof. intros Z. destruct u as [|c l i r]; [reflexivity|]. cbn [root is_nil]. rewrite (rd_red Z). destruct c; reflexivity. Qed.

Lemma loop_ok fuel : forall h k a p b n,
  hz h k (T true a p b) -> rb a n -> rb b n -> black_root a -> black_root b -> ctx_rb k n -> length k < fuel ->
  exists h' t', rebalance_loop V fuel (Some p) h = Some (tt, h') /\ hz h' [] t' /\
    inorder t' = inorder (plug k (T true a p b)) /\ (exists m, rb t' m) /\ keeps (inorder t') h h'.
Proof.
  induction fuel as [|fuel IH]; intros h k a p b n Z RA RB BA BB C F; [lia|].
  cbn [rebalance_loop].
  assert (RT : rb (T true a p b) n) by (cbn; tauto).
  rewrite (bind_eq (rd_par Z)).
  destruct k as [|f k].
  { cbn [parent_of]. rewrite (bind_eq (rd_root Z)). unfold get_red, get at 1. unfold bind at 1.
    cbn [ptr_eqb header Nat.eqb orb]. exists h, (T true a p b).
    split; [reflexivity|]. split; [exact Z|]. split; [reflexivity|]. split; [exists n; exact RT|apply keeps_refl]. }
  cbn [parent_of].
  assert (Zf : hz h k (fplug f (T true a p b))) by (apply (hz_move _ _ Z); reflexivity).
  assert (P1 : get_parent V (Some (fidx f)) h = Some (parent_of (Some 0) k, h)) by (destruct f; exact (rd_par Zf)).
  assert (P2 : get_red V (Some (fidx f)) h = Some (fred f, h)) by (destruct f; exact (rd_red Zf)).
  assert (P3 : ptr_eqb (Some (fidx f)) (Some 0) = false) by (destruct f; exact (rd_nh Zf)).
  rewrite (bind_eq P1), (bind_eq P2). unfold header. rewrite P3. cbn [orb].
  destruct (fred f) eqn:Ef.
  2:{ cbn [negb orb]. exists h, (plug (f :: k) (T true a p b)). split; [reflexivity|].
      split; [apply (proj1 (hz_plug _ _ _)); exact Z|]. split; [reflexivity|]. split; [|apply keeps_refl].
      apply (plug_rb _ _ n RT C). cbn. rewrite Ef. discriminate. }
  cbn [negb orb]. cbn [ctx_rb] in C. rewrite Ef in C. destruct C as (RS & BS & C & G).
  destruct k as [|g k]; [contradiction|]. cbn [parent_of]. cbn [ctx_rb] in C. rewrite G in C. destruct C as (RG & C).
  cbn [length] in F.
  destruct g as [cg g u|cg u g]; cbn [fred fidx fsib] in *; subst cg;
    destruct f as [cq q s|cq s q]; cbn [fred fidx fsib fplug] in *; subst cq.
  - (* left, left *)
    assert (Zg : hz h k (T false (T true (T true a p b) q s) g u)) by (apply (hz_move _ _ Z); reflexivity).
    rewrite (rd_nh Zg).
    setr (set_red_focus _ _ _ _ _ _ true Zg) h1.
    rewrite (bind_eq (rd_left Z0)). cbn [root]. rewrite ptr_eqb_refl.
    rewrite (bind_eq (rd_right Z0)). rewrite (bind_eq (black_read _ _ _ (proj1 (hz_right _ _ _ _ _ _) Z0))).
    assert (U : (exists ul ui ur, u = T true ul ui ur) \/ black_root u) by (destruct u as [|[] ? ? ?]; cbn; eauto 6).
    destruct U as [(ul & ui & ur & ->)|U].
    + cbn [root].
      assert (Zu : hz h1 (FR true (T true (T true a p b) q s) g :: k) (T true ul ui ur)) by (apply (hz_move _ _ Z0); reflexivity).
      setr (set_red_focus _ _ _ _ _ _ false Zu) h2.
      assert (Zq : hz h2 (FL true g (T false ul ui ur) :: k) (T true (T true a p b) q s)) by (apply (hz_move _ _ Z1); reflexivity).
      setr (set_red_focus _ _ _ _ _ _ false Zq) h3.
      destruct (IH h3 k (T false (T true a p b) q s) g (T false ul ui ur) (S n)) as (h' & t' & X1 & X2 & X3 & X4 & X5); cbn in RG |- *; try tauto.
      * apply (hz_move _ _ Z2); reflexivity.
      * lia.
      * exists h', t'. split; [exact X1|]. split; [exact X2|].
        assert (I1 : inorder t' = inorder (plug k (T false (T true (T true a p b) q s) g (T true ul ui ur)))).
        { rewrite X3, !inorder_plug. reflexivity. }
        split; [exact I1|]. split; [exact X4|].
        cbn [plug fplug] in *. rewrite !inorder_plug in *. cbn [inorder] in *. rewrite <- I1 in K, K0, K1.
        kchain.
    + assert ((match u with T true _ _ _ => true | _ => false end) = false) as -> by (destruct u as [|[] ? ? ?]; cbn in U; tauto).
      rewrite (bind_eq (rd_left (proj1 (hz_left _ _ _ _ _ _) Z0))). cbn [root]. rewrite ptr_eqb_refl.
      unfold ret at 1. unfold bind at 1. rewrite (bind_eq (rd_par Z0)).
      setr (rotate_right_focus _ _ _ _ _ _ _ _ _ Z0) h2.
      destruct (turn _ _ _ _ _ _ (set_red_focus _ _ _ _ _ _ false Z1)) as (h3 & R & Z2 & K1).
      exists h3, (plug k (T false (T true a p b) q (T true s g u))).
      split; [exact R|]. split; [apply (proj1 (hz_plug _ _ _)); exact Z2|].
      split; [cbn [plug fplug]; rewrite !inorder_plug; cbn [inorder]; repeat (rewrite <- ?app_assoc; cbn [app]); reflexivity|].
      split; [apply (plug_rb _ _ (S n)); [cbn; tauto|exact C|destruct k as [|[] k]; cbn; auto]|].
      cbn [plug fplug] in *; rewrite !inorder_plug in *; cbn [inorder] in *; repeat (rewrite <- ?app_assoc in *; cbn [app] in * ). 
      kchain.
  - (* left, right *)
    assert (Zg : hz h k (T false (T true s q (T true a p b)) g u)) by (apply (hz_move _ _ Z); reflexivity).
    rewrite (rd_nh Zg).
    setr (set_red_focus _ _ _ _ _ _ true Zg) h1.
    rewrite (bind_eq (rd_left Z0)). cbn [root]. rewrite ptr_eqb_refl.
    rewrite (bind_eq (rd_right Z0)). rewrite (bind_eq (black_read _ _ _ (proj1 (hz_right _ _ _ _ _ _) Z0))).
    assert (U : (exists ul ui ur, u = T true ul ui ur) \/ black_root u) by (destruct u as [|[] ? ? ?]; cbn; eauto 6).
    destruct U as [(ul & ui & ur & ->)|U].
    + cbn [root].
      assert (Zu : hz h1 (FR true (T true s q (T true a p b)) g :: k) (T true ul ui ur)) by (apply (hz_move _ _ Z0); reflexivity).
      setr (set_red_focus _ _ _ _ _ _ false Zu) h2.
      assert (Zq : hz h2 (FL true g (T false ul ui ur) :: k) (T true s q (T true a p b))) by (apply (hz_move _ _ Z1); reflexivity).
      setr (set_red_focus _ _ _ _ _ _ false Zq) h3.
      destruct (IH h3 k (T false s q (T true a p b)) g (T false ul ui ur) (S n)) as (h' & t' & X1 & X2 & X3 & X4 & X5); cbn in RG |- *; try tauto.
      * apply (hz_move _ _ Z2); reflexivity.
      * lia.
      * exists h', t'. split; [exact X1|]. split; [exact X2|].
        assert (I1 : inorder t' = inorder (plug k (T false (T true s q (T true a p b)) g (T true ul ui ur)))).
        { rewrite X3, !inorder_plug. reflexivity. }
        split; [exact I1|]. split; [exact X4|].
        cbn [plug fplug] in *. rewrite !inorder_plug in *. cbn [inorder] in *. rewrite <- I1 in K, K0, K1.
        kchain.
    + assert ((match u with T true _ _ _ => true | _ => false end) = false) as -> by (destruct u as [|[] ? ? ?]; cbn in U; tauto).
      rewrite (bind_eq (rd_left (proj1 (hz_left _ _ _ _ _ _) Z0))).
      assert (ptr_eqb (root s) (Some p) = false) as ->.
      { apply ptr_eqb_ne. intros Q. pose proof (hz_sib (proj1 (hz_left _ _ _ _ _ _) Z0)) as Q1. cbn [root] in Q1. rewrite Q, ptr_eqb_refl in Q1. specialize (Q1 ltac:(discriminate)). discriminate. }
      cbv zeta. rewrite bind3.
      setr (rotate_lr_focus _ _ _ _ _ _ _ _ _ _ _ _ Z0) h2.
      destruct (turn _ _ _ _ _ _ (set_red_focus _ _ _ _ _ _ false Z1)) as (h3 & R & Z2 & K1).
      exists h3, (plug k (T false (T true s q a) p (T true b g u))).
      split; [exact R|]. split; [apply (proj1 (hz_plug _ _ _)); exact Z2|].
      split; [cbn [plug fplug]; rewrite !inorder_plug; cbn [inorder]; repeat (rewrite <- ?app_assoc; cbn [app]); reflexivity|].
      split; [apply (plug_rb _ _ (S n)); [cbn; tauto|exact C|destruct k as [|[] k]; cbn; auto]|].
      cbn [plug fplug] in *; rewrite !inorder_plug in *; cbn [inorder] in *; repeat (rewrite <- ?app_assoc in *; cbn [app] in * ). 
      kchain.
  - (* right, left *)
    assert (Zg : hz h k (T false u g (T true (T true a p b) q s))) by (apply (hz_move _ _ Z); reflexivity).
    rewrite (rd_nh Zg).
    setr (set_red_focus _ _ _ _ _ _ true Zg) h1.
    rewrite (bind_eq (rd_left Z0)). pose proof (hz_sib Z0 ltac:(discriminate)) as HS. cbn [root] in HS. rewrite HS.
    unfold ret at 1. unfold bind at 1. rewrite (bind_eq (black_read _ _ _ (proj1 (hz_left _ _ _ _ _ _) Z0))).
    assert (U : (exists ul ui ur, u = T true ul ui ur) \/ black_root u) by (destruct u as [|[] ? ? ?]; cbn; eauto 6).
    destruct U as [(ul & ui & ur & ->)|U].
    + cbn [root].
      assert (Zu : hz h1 (FL true g (T true (T true a p b) q s) :: k) (T true ul ui ur)) by (apply (hz_move _ _ Z0); reflexivity).
      setr (set_red_focus _ _ _ _ _ _ false Zu) h2.
      assert (Zq : hz h2 (FR true (T false ul ui ur) g :: k) (T true (T true a p b) q s)) by (apply (hz_move _ _ Z1); reflexivity).
      setr (set_red_focus _ _ _ _ _ _ false Zq) h3.
      destruct (IH h3 k (T false ul ui ur) g (T false (T true a p b) q s) (S n)) as (h' & t' & X1 & X2 & X3 & X4 & X5); cbn in RG |- *; try tauto.
      * apply (hz_move _ _ Z2); reflexivity.
      * lia.
      * exists h', t'. split; [exact X1|]. split; [exact X2|].
        assert (I1 : inorder t' = inorder (plug k (T false (T true ul ui ur) g (T true (T true a p b) q s)))).
        { rewrite X3, !inorder_plug. reflexivity. }
        split; [exact I1|]. split; [exact X4|].
        cbn [plug fplug] in *. rewrite !inorder_plug in *. cbn [inorder] in *. rewrite <- I1 in K, K0, K1.
        kchain.
    + assert ((match u with T true _ _ _ => true | _ => false end) = false) as -> by (destruct u as [|[] ? ? ?]; cbn in U; tauto).
      rewrite (bind_eq (rd_left (proj1 (hz_right _ _ _ _ _ _) Z0))).
      cbn [root]. rewrite ptr_eqb_refl. cbv zeta. rewrite bind3.
      setr (rotate_rl_focus _ _ _ _ _ _ _ _ _ _ _ _ Z0) h2.
      destruct (turn _ _ _ _ _ _ (set_red_focus _ _ _ _ _ _ false Z1)) as (h3 & R & Z2 & K1).
      exists h3, (plug k (T false (T true u g a) p (T true b q s))).
      split; [exact R|]. split; [apply (proj1 (hz_plug _ _ _)); exact Z2|].
      split; [cbn [plug fplug]; rewrite !inorder_plug; cbn [inorder]; repeat (rewrite <- ?app_assoc; cbn [app]); reflexivity|].
      split; [apply (plug_rb _ _ (S n)); [cbn; tauto|exact C|destruct k as [|[] k]; cbn; auto]|].
      cbn [plug fplug] in *; rewrite !inorder_plug in *; cbn [inorder] in *; repeat (rewrite <- ?app_assoc in *; cbn [app] in * ). 
      kchain.
  - (* right, right *)
    assert (Zg : hz h k (T false u g (T true s q (T true a p b)))) by (apply (hz_move _ _ Z); reflexivity).
    rewrite (rd_nh Zg).
    setr (set_red_focus _ _ _ _ _ _ true Zg) h1.
    rewrite (bind_eq (rd_left Z0)). pose proof (hz_sib Z0 ltac:(discriminate)) as HS. cbn [root] in HS. rewrite HS.
    unfold ret at 1. unfold bind at 1. rewrite (bind_eq (black_read _ _ _ (proj1 (hz_left _ _ _ _ _ _) Z0))).
    assert (U : (exists ul ui ur, u = T true ul ui ur) \/ black_root u) by (destruct u as [|[] ? ? ?]; cbn; eauto 6).
    destruct U as [(ul & ui & ur & ->)|U].
    + cbn [root].
      assert (Zu : hz h1 (FL true g (T true s q (T true a p b)) :: k) (T true ul ui ur)) by (apply (hz_move _ _ Z0); reflexivity).
      setr (set_red_focus _ _ _ _ _ _ false Zu) h2.
      assert (Zq : hz h2 (FR true (T false ul ui ur) g :: k) (T true s q (T true a p b))) by (apply (hz_move _ _ Z1); reflexivity).
      setr (set_red_focus _ _ _ _ _ _ false Zq) h3.
      destruct (IH h3 k (T false ul ui ur) g (T false s q (T true a p b)) (S n)) as (h' & t' & X1 & X2 & X3 & X4 & X5); cbn in RG |- *; try tauto.
      * apply (hz_move _ _ Z2); reflexivity.
      * lia.
      * exists h', t'. split; [exact X1|]. split; [exact X2|].
        assert (I1 : inorder t' = inorder (plug k (T false (T true ul ui ur) g (T true s q (T true a p b))))).
        { rewrite X3, !inorder_plug. reflexivity. }
        split; [exact I1|]. split; [exact X4|].
        cbn [plug fplug] in *. rewrite !inorder_plug in *. cbn [inorder] in *. rewrite <- I1 in K, K0, K1.
        kchain.
    + assert ((match u with T true _ _ _ => true | _ => false end) = false) as -> by (destruct u as [|[] ? ? ?]; cbn in U; tauto).
      rewrite (bind_eq (rd_left (proj1 (hz_right _ _ _ _ _ _) Z0))).
      assert (ptr_eqb (root s) (Some p) = false) as ->.
      { apply ptr_eqb_ne. intros Q. pose proof (hz_sib (proj1 (hz_right _ _ _ _ _ _) Z0)) as Q1. cbn [root] in Q1. rewrite Q, ptr_eqb_refl in Q1. specialize (Q1 ltac:(discriminate)). discriminate. }
      unfold ret at 1. unfold bind at 1. rewrite (bind_eq (rd_par Z0)).
      setr (rotate_left_focus _ _ _ _ _ _ _ _ _ Z0) h2.
      destruct (turn _ _ _ _ _ _ (set_red_focus _ _ _ _ _ _ false Z1)) as (h3 & R & Z2 & K1).
      exists h3, (plug k (T false (T true u g s) q (T true a p b))).
      split; [exact R|]. split; [apply (proj1 (hz_plug _ _ _)); exact Z2|].
      split; [cbn [plug fplug]; rewrite !inorder_plug; cbn [inorder]; repeat (rewrite <- ?app_assoc; cbn [app]); reflexivity|].
      split; [apply (plug_rb _ _ (S n)); [cbn; tauto|exact C|destruct k as [|[] k]; cbn; auto]|].
      cbn [plug fplug] in *; rewrite !inorder_plug in *; cbn [inorder] in *; repeat (rewrite <- ?app_assoc in *; cbn [app] in * ). 
      kchain.
Qed.

Lemma unplug_rb k : forall t m, rb (plug k t) m -> (k <> [] -> black_root (plug k t)) ->
  exists n, rb t n /\ ctx_rb k n /\ fits k t.
Proof.
  induction k as [|f k IH]; intros t m R B; [exists m; cbn; tauto|]. cbn [plug] in *.
  destruct (IH (fplug f t) m R) as (n & R1 & C & F); [intros _; apply B; discriminate|].
  specialize (B ltac:(discriminate)). destruct (fred f) eqn:Ef.
  - assert (rb t n /\ rb (fsib f) n /\ black_root t /\ black_root (fsib f)) as (X1 & X2 & X3 & X4).
    { destruct f as [c i s|c s i]; cbn in Ef; subst c; cbn in R1 |- *; tauto. }
    assert (NB : ~ black_root (fplug f t)) by (destruct f as [c i s|c s i]; cbn in Ef; subst c; cbn; tauto).
    exists n. split; [exact X1|]. cbn [ctx_rb fits]. rewrite Ef. split; [|intros _; exact X3].
    split; [exact X2|]. split; [exact X4|]. split; [exact C|].
    destruct k as [|f' k]; [cbn in B; tauto|]. cbn [fits] in F. destruct (fred f'); [exfalso; auto|reflexivity].
  - destruct n as [|n]; [destruct f as [c i s|c s i]; cbn in Ef; subst c; cbn in R1; tauto|].
    exists n. cbn [ctx_rb fits]. rewrite Ef.
    destruct f as [c i s|c s i]; cbn in Ef; subst c; cbn in R1 |- *; (split; [tauto|split; [tauto|discriminate]]).
Qed.

Lemma len_plug k : forall t, length (inorder (plug k t)) >= length k + length (inorder t).
Proof.
  induction k as [|f k IH]; intros t; cbn [plug length]; [lia|]. specialize (IH (fplug f t)).
  destruct f; cbn [fplug inorder] in IH |- *; rewrite app_length in IH; cbn [length] in IH; lia.
Qed.

Lemma blacken_root_ok h t : hz h [] t -> t <> E -> (exists m, rb t m) ->
  exists h' t', bind V (get_parent V (header)) (fun r => set_red V r false) h = Some (tt, h') /\
    hz h' [] t' /\ inorder t' = inorder t /\ red_black t' /\ keeps (inorder t) h h'.
Proof.
  intros Z NE (m & R). destruct t as [|c l i r]; [congruence|].
  unfold header. rewrite (bind_eq (rd_root Z)). cbn [root].
  destruct (turn _ _ _ _ _ _ (set_red_focus _ _ _ _ _ _ false Z)) as (h' & Run & Z' & K).
  exists h', (T false l i r). split; [exact Run|]. split; [exact Z'|]. split; [reflexivity|]. split; [|exact K].
  split; [exact I|]. destruct c; cbn in R.
  - exists (S m). cbn. tauto.
  - exists m. exact R.
Qed.

(** The whole rebalancing, once the new leaf hangs in the tree. *)
Lemma rebalance_ok fuel h k c p : hz h k (T c E p E) -> red_black (plug k E) -> length (inorder (plug k E)) < fuel ->
  exists h' t', rebalance_after_insertion V fuel (Some p) h = Some (tt, h') /\ hz h' [] t' /\
    inorder t' = inorder (plug k (T c E p E)) /\ red_black t' /\ keeps (inorder t') h h'.
Proof.
  intros Z (B & m & R) F. unfold rebalance_after_insertion.
  destruct (unplug_rb k E m R) as (n & R1 & C & _); [intros _; exact B|]. cbn in R1. subst n.
  setr (set_red_focus _ _ _ _ _ _ true Z) h1.
  destruct (loop_ok fuel h1 k E p E 0 Z0) as (h2 & t2 & L1 & L2 & L3 & L4 & L5); cbn; try tauto.
  { pose proof (len_plug k E). cbn in H. lia. }
  rewrite (bind_eq L1).
  destruct (blacken_root_ok h2 t2 L2) as (h3 & t3 & M1 & M2 & M3 & M4 & M5); [|exact L4|].
  { intros ->. rewrite inorder_plug in L3. cbn in L3. destruct (lo k); discriminate. }
  exists h3, t3. split; [exact M1|]. split; [exact M2|].
  assert (I1 : inorder t2 = inorder (plug k (T c E p E))) by (rewrite L3, !inorder_plug; reflexivity).
  split; [congruence|]. split; [exact M4|]. rewrite <- I1 in K. rewrite M3. kchain.
Qed.

(** ** Hanging a new leaf into the tree *)
Definition hdr h (l : list nat) : Prop :=
  c_left V (h 0) = Some (hd 0 l) /\ c_right V (h 0) = Some (last l 0) /\ c_red V (h 0) = true.
Lemma stores_hz h t : stores h t <-> hz h [] t /\ hdr h (inorder t).
Proof.
  unfold stores, hdr. split.
  - intros (A & B & C & D & L & N). split; [|auto]. constructor; cbn; auto. rewrite app_nil_r. apply nd_NoDup. exact N.
  - intros ([A _ L N] & B & C & D). cbn in *. rewrite app_nil_r in N. apply nd_NoDup in N. tauto.
Qed.
Lemma hdr_keeps l h h' : keeps l h h' -> forall l', hdr h l' -> hdr h' l'.
Proof. intros ((A & B & C & _) & _) l' (X & Y & W). unfold hdr. rewrite A, B, C. auto. Qed.

Lemma hd_app {A} (d : A) l l' : l <> [] -> hd d (l ++ l') = hd d l.
Proof. destruct l; [congruence|reflexivity]. Qed.
Lemma last_app {A} (d : A) l l' : l' <> [] -> last (l ++ l') d = last l' d.
Proof.
  intros N. induction l as [|x l IH]; [reflexivity|]. cbn [app]. rewrite <- IH. cbn [last].
  destruct (l ++ l') eqn:Q; [|reflexivity]. apply app_eq_nil in Q. tauto.
Qed.
Lemma last_in {A} (d : A) l : l <> [] -> In (last l d) l.
Proof.
  induction l as [|x [|y l] IH]; intros N; [congruence|left; reflexivity|]. right. apply IH. discriminate.
Qed.
Lemma hd_in {A} (d : A) l : l <> [] -> In (hd d l) l.
Proof. destruct l; [congruence|left; reflexivity]. Qed.


Ltac scntH N := cbn [inorder idx fidx fsib app] in N; repeat (rewrite ?cnt_cons, ?cnt_app, ?cnt_nil in N; progress cbn [inorder idx fidx fsib app] in N); rewrite ?cnt_cons, ?cnt_app, ?cnt_nil in N; repeat first [rewrite cnt_cons in N | rewrite cnt_app in N]; rewrite ?e1_refl in N.

(** The three last writes. *)
Definition leaf h n (p : ptr) : heap :=
  let h1 := upd V h n (wpar p (h n)) in let h2 := upd V h1 n (wright None (h1 n)) in upd V h2 n (wleft None (h2 n)).
Lemma leaf_eq h n p : leaf h n p n = mk_cell V p None None (c_red V (h n)) (c_val V (h n)).
Proof. unfold leaf. rewrite !upd_eq. reflexivity. Qed.
Lemma leaf_ne h n p x : x <> n -> leaf h n p x = h x.
Proof. intros H. unfold leaf. rewrite !upd_ne by assumption. reflexivity. Qed.
Lemma leaf_ok h k n : c_par V (h 0) = root_of k (Some n) -> ctx_ok h (Some 0) k (Some n) -> nd (0 :: n :: idx k) ->
  hz (leaf h n (parent_of (Some 0) k)) k (T (c_red V (h n)) E n E).
Proof.
  intros P C N.
  assert (Z : 0 <> n). { intros Q. pose proof (N 0) as N1. rewrite !cnt_cons, (e1_eq 0 n Q), e1_refl in N1. lia. }
  constructor.
  - rewrite leaf_ne by assumption. exact P.
  - eapply ctx_frame; [|exact C]. intros x Hx. apply leaf_ne. intros ->. apply cnt_in in Hx. pose proof (N n) as N1.
    rewrite !cnt_cons, e1_refl in N1. lia.
  - cbn. rewrite leaf_eq. cbn. tauto.
  - exact N.
Qed.
Lemma commit_ok h k n ll : hz h k E -> hdr h (inorder (plug k E)) -> n <> 0 -> ~ In n (inorder (plug k E)) ->
  (k <> [] -> ll = is_left k) ->
  exists h', insert_commit V (Some n) (parent_of (Some 0) k) ll h = Some (tt, h') /\
    hz h' k (T (c_red V (h n)) E n E) /\ hdr h' (inorder (plug k (T (c_red V (h n)) E n E))) /\
    same_values h h' /\ (forall x, cnt x (0 :: n :: inorder (plug k E)) = 0 -> h' x = h x).
Proof.
  intros [P C _ N] (HL & HR & HC) NZ NI LL.
  assert (N2 : nd (0 :: n :: idx k)).
  { intros x. pose proof (N x) as N1. cbn [inorder app] in N1. rewrite !cnt_cons in *.
    destruct (Nat.eq_dec x n) as [->|D]; [|rewrite (e1_ne x n) by assumption; lia].
    rewrite e1_refl, e1_ne by assumption.
    rewrite cnt_in, inorder_plug in NI. cbn [inorder app] in NI. rewrite cnt_app in NI. rewrite cnt_idx. lia. }
  assert (NK : nd (0 :: idx k)) by exact N.
  assert (KN : ~ In n (idx k)).
  { intros I1. apply cnt_in in I1. pose proof (N2 n) as N1. rewrite !cnt_cons, e1_refl in N1. lia. }
  rewrite !inorder_plug in *. cbn [inorder app] in *.
  destruct k as [|f k].
  - (* the tree is empty *)
    cbn [lo hi app hd last] in *. cbn [parent_of]. unfold insert_commit, header. cbn [ptr_eqb Nat.eqb is_nil negb assert].
    eexists. split; [reflexivity|]. set (h1 := upd V _ 0 _).
    change (hz (leaf h1 n (parent_of (Some 0) [])) [] (T (c_red V (h n)) E n E) /\ hdr (leaf h1 n (Some 0)) [n] /\
      same_values h (leaf h1 n (Some 0)) /\ (forall x, cnt x [0; n] = 0 -> leaf h1 n (Some 0) x = h x)).
    assert (Q : c_red V (h n) = c_red V (h1 n)) by (unfold h1; rewrite !upd_ne by assumption; reflexivity).
    assert (Q0 : h1 0 = mk_cell V (Some n) (Some n) (Some n) (c_red V (h 0)) (c_val V (h 0))) by (unfold h1; rewrite !upd_eq; reflexivity).
    split; [rewrite Q; apply leaf_ok; [rewrite Q0; reflexivity|exact I|exact N2]|].
    split; [unfold hdr; rewrite !leaf_ne by auto; rewrite Q0; cbn; auto|].
    assert (O : forall x, x <> 0 -> h1 x = h x) by (intros x Hx; unfold h1; rewrite !upd_ne by assumption; reflexivity).
    split.
    + intros x. destruct (Nat.eq_dec x n) as [->|D]; [rewrite leaf_eq; cbn; rewrite O by assumption; reflexivity|].
      rewrite leaf_ne by assumption. destruct (Nat.eq_dec x 0) as [->|D0]; [rewrite Q0; reflexivity|rewrite O by assumption; reflexivity].
    + intros x Hx. rewrite !cnt_cons in Hx. assert (x <> n) by (intros ->; rewrite e1_refl in Hx; lia).
      assert (x <> 0) by (intros ->; rewrite e1_refl in Hx; lia). rewrite leaf_ne, O by assumption. reflexivity.
  - rewrite (LL ltac:(discriminate)). clear LL.
    assert (FZ : fidx f <> 0).
    { intros Q. pose proof (NK 0) as N1. cbn [idx] in N1. rewrite !cnt_cons, (e1_eq 0 (fidx f)), e1_refl in N1 by auto. lia. }
    assert (FN : fidx f <> n) by (intros Q; apply KN; cbn [idx]; left; exact Q).
    set (h1 := relink h (f :: k) (Some n)).
    assert (H10 : h1 0 = h 0) by (unfold h1; destruct f; apply upd_ne; auto).
    assert (H1n : h1 n = h n) by (apply relink_out; assumption).
    (* what the header is told *)
    assert (W : exists h2, insert_commit V (Some n) (parent_of (Some 0) (f :: k)) (is_left (f :: k)) h = Some (tt, leaf h2 n (parent_of (Some 0) (f :: k))) /\
      hdr h2 (lo (f :: k) ++ n :: hi (f :: k)) /\ (forall x, x <> 0 -> h2 x = h1 x) /\ c_par V (h2 0) = c_par V (h 0) /\ c_val V (h2 0) = c_val V (h 0)).
    { unfold insert_commit, header. cbn [parent_of]. cbn [is_nil negb assert]. unfold ret at 1. rewrite (bind_eq eq_refl).
      rewrite ptr_eqb_ne by congruence.
      destruct f as [c i r|c l i]; cbn [is_left fidx] in *.
      - unfold set_left at 1, put at 1. unfold bind at 2. unfold bind at 1.
        change (upd V h i _) with h1. unfold bind at 1. unfold get_left at 1, get at 1. rewrite H10, HL.
        cbn [lo hi] in *. destruct (ptr_eqb_spec (Some i) (Some (hd 0 (lo k ++ i :: inorder r ++ hi k)))) as [Q|Q].
        + exists (upd V h1 0 (wleft (Some n) (h1 0))). split; [reflexivity|].
          assert (LN : lo k = []).
          { injection Q as Q. destruct (lo k) as [|z l] eqn:QL; [reflexivity|]. exfalso. cbn in Q. subst z.
            pose proof (NK i) as N1. scntH N1. rewrite cnt_idx, QL in N1. rewrite cnt_cons, e1_refl in N1. lia. }
          rewrite LN in *. split; [|split; [intros x Hx; apply upd_ne; exact Hx|rewrite upd_eq, H10; split; reflexivity]].
          unfold hdr. rewrite upd_eq, H10. cbn [wleft c_left c_right c_red app hd]. split; [reflexivity|]. split; [|exact HC].
          rewrite HR. cbn [app]. reflexivity.
        + exists h1. split; [reflexivity|]. split; [|split; [auto|rewrite H10; auto]].
          unfold hdr. rewrite H10, HL, HR. split; [|split; [|exact HC]].
          * destruct (lo k) as [|z l]; [cbn in Q; congruence|reflexivity].
          * rewrite !last_app by discriminate. reflexivity.
      - unfold set_right at 1, put at 1. unfold bind at 2. unfold bind at 1.
        change (upd V h i _) with h1. unfold bind at 1. unfold get_right at 1, get at 1. rewrite H10, HR.
        cbn [lo hi] in *. destruct (ptr_eqb_spec (Some i) (Some (last ((lo k ++ inorder l ++ [i]) ++ hi k) 0))) as [Q|Q].
        + exists (upd V h1 0 (wright (Some n) (h1 0))). split; [reflexivity|].
          assert (LN : hi k = []).
          { injection Q as Q. destruct (hi k) as [|z l0] eqn:QL; [reflexivity|]. exfalso. rewrite last_app in Q by discriminate.
            assert (I1 : In i (hi k)) by (rewrite QL, Q at 1; apply last_in; discriminate).
            apply cnt_in in I1. pose proof (NK i) as N1. scntH N1. rewrite cnt_idx in N1. lia. }
          rewrite LN in *. split; [|split; [intros x Hx; apply upd_ne; exact Hx|rewrite upd_eq, H10; split; reflexivity]].
          unfold hdr. rewrite upd_eq, H10. cbn [wright c_left c_right c_red]. split; [|split; [|exact HC]].
          * rewrite HL, app_nil_r. symmetry. rewrite hd_app; [reflexivity|]. intros Q1. apply app_eq_nil in Q1 as [_ Q1]. apply app_eq_nil in Q1 as [_ Q1]. discriminate.
          * rewrite last_app by discriminate. reflexivity.
        + exists h1. split; [reflexivity|]. split; [|split; [auto|rewrite H10; auto]].
          unfold hdr. rewrite H10, HL, HR.
          assert (LN : lo k ++ inorder l ++ [i] <> []). { intros Q1. apply app_eq_nil in Q1 as [_ Q1]. apply app_eq_nil in Q1 as [_ Q1]. discriminate. }
          split; [rewrite (hd_app 0 _ (hi k)), (hd_app 0 _ (n :: hi k)) by assumption; reflexivity|]. split; [|exact HC].
          destruct (hi k) as [|z l0] eqn:QL.
          * exfalso. apply Q. rewrite app_nil_r, app_assoc, last_app by discriminate. reflexivity.
          * rewrite !last_app by discriminate. reflexivity. }
    destruct W as (h2 & Run & HD & O2 & HP & HV).
    exists (leaf h2 n (parent_of (Some 0) (f :: k))). split; [exact Run|].
    assert (Q : c_red V (h n) = c_red V (h2 n)) by (rewrite O2, H1n by assumption; reflexivity).
    assert (KZ : forall x, In x (idx (f :: k)) -> x <> 0).
    { intros x Hx ->. apply cnt_in in Hx. pose proof (NK 0) as N1. rewrite cnt_cons, e1_refl in N1. lia. }
    split.
    { rewrite Q. apply leaf_ok; [|eapply ctx_frame; [intros x Hx; apply O2, KZ; exact Hx|]|exact N2].
      - rewrite HP. exact P.
      - unfold h1. eapply relink_ctx; [exact NK|exact C]. }
    split; [unfold hdr in *; rewrite !leaf_ne by auto; exact HD|].
    split.
    + intros x. destruct (Nat.eq_dec x n) as [->|D]; [rewrite leaf_eq; cbn; rewrite O2, H1n by assumption; reflexivity|].
      rewrite leaf_ne by assumption. destruct (Nat.eq_dec x 0) as [->|D0]; [exact HV|]. rewrite O2 by assumption.
      pose proof (same_relink h (f :: k) (Some n) NK) as (_ & _ & _ & SV). apply SV.
    + intros x Hx. rewrite !cnt_cons in Hx. rewrite cnt_app in Hx. assert (x <> n) by (intros ->; rewrite e1_refl in Hx; lia).
      assert (x <> 0) by (intros ->; rewrite e1_refl in Hx; lia). rewrite leaf_ne, O2 by assumption. apply relink_out; [assumption|].
      rewrite cnt_in, cnt_idx. lia.
Qed.
End Ins.
