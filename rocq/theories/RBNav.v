(** Walking through the tree, and finding the place of a new node. *)
From Coq Require Import List Bool Arith Lia.
From Verif Require Import RBModel RBSpec RBHeap RBInsert.
Import ListNotations.

Section Nav.
Context {V : Type}.
Notation heap := (heap V).
Implicit Types h : heap.

Ltac scntH N := cbn [inorder idx fidx fsib app] in N; repeat (rewrite ?cnt_cons, ?cnt_app, ?cnt_nil in N; progress cbn [inorder idx fidx fsib app] in N); rewrite ?cnt_cons, ?cnt_app, ?cnt_nil in N; repeat first [rewrite cnt_cons in N | rewrite cnt_app in N]; rewrite ?e1_refl in N.

Lemma hang_ok fuel h k n ll : hz h k E -> hdr h (inorder (plug k E)) -> red_black (plug k E) -> n <> 0 -> ~ In n (inorder (plug k E)) ->
  (k <> [] -> ll = is_left k) -> length (inorder (plug k E)) < fuel ->
  exists h' t', bind V (insert_commit V (Some n) (parent_of (Some 0) k) ll) (fun _ => rebalance_after_insertion V fuel (Some n)) h = Some (tt, h') /\
    stores h' t' /\ red_black t' /\ inorder t' = lo k ++ n :: hi k /\ same_values h h' /\
    (forall x, ~ In x (0 :: inorder t') -> h' x = h x).
Proof.
  intros Z H RB NZ NI LL F.
  destruct (commit_ok h k n ll Z H NZ NI LL) as (h1 & R1 & Z1 & H1 & S1 & F1).
  destruct (rebalance_ok fuel h1 k _ n Z1 RB F) as (h2 & t & R2 & Z2 & I2 & RB2 & K2).
  exists h2, t. split; [rewrite (bind_eq R1); exact R2|].
  assert (I3 : inorder t = lo k ++ n :: hi k) by (rewrite I2, inorder_plug; reflexivity).
  split; [apply stores_hz; split; [exact Z2|]; rewrite I2; eapply hdr_keeps; eassumption|].
  split; [exact RB2|]. split; [exact I3|]. destruct K2 as ((_ & _ & _ & SV) & K2). split.
  - intros i. rewrite SV. apply S1.
  - intros x Hx. rewrite cnt_in in Hx. rewrite K2 by lia. apply F1. rewrite inorder_plug. rewrite I3 in Hx.
    cbn [inorder app]. rewrite !cnt_cons, !cnt_app, ?cnt_cons in *. lia.
Qed.

(** ** Extreme nodes *)
Definition all_left (k : list frame) : Prop := Forall (fun f => match f with FL _ _ _ => True | FR _ _ _ => False end) k.
Definition all_right (k : list frame) : Prop := Forall (fun f => match f with FR _ _ _ => True | FL _ _ _ => False end) k.
Lemma lo_app k1 k2 : lo (k1 ++ k2) = lo k2 ++ lo k1.
Proof. induction k1 as [|[c i r|c l i] k1 IH]; cbn; [rewrite app_nil_r; reflexivity|exact IH|]. rewrite IH, <- app_assoc. reflexivity. Qed.
Lemma hi_app k1 k2 : hi (k1 ++ k2) = hi k1 ++ hi k2.
Proof. induction k1 as [|[c i r|c l i] k1 IH]; cbn; [reflexivity| |exact IH]. rewrite IH, <- app_assoc. reflexivity. Qed.
Lemma plug_app k1 k2 t : plug (k1 ++ k2) t = plug k2 (plug k1 t).
Proof. revert t. induction k1 as [|f k1 IH]; intros t; cbn; [reflexivity|apply IH]. Qed.
Lemma all_left_lo k : all_left k -> lo k = [].
Proof. induction k as [|[c i r|c l i] k IH]; intros H; [reflexivity| |]; inversion H; subst; cbn; [auto|contradiction]. Qed.
Lemma all_right_hi k : all_right k -> hi k = [].
Proof. induction k as [|[c i r|c l i] k IH]; intros H; [reflexivity| |]; inversion H; subst; cbn; [contradiction|auto]. Qed.
Lemma lo_nil_all k : lo k = [] -> all_left k.
Proof.
  induction k as [|[c i r|c l i] k IH]; intros H; [constructor| |]; cbn in H.
  - constructor; [exact I|apply IH; exact H].
  - apply app_eq_nil in H as [_ H]. apply app_eq_nil in H as [_ H]. discriminate.
Qed.
Lemma hi_nil_all k : hi k = [] -> all_right k.
Proof. induction k as [|[c i r|c l i] k IH]; intros H; [constructor| |]; cbn in H; [discriminate|]. constructor; [exact I|apply IH; exact H]. Qed.

Lemma height_inorder t : height t <= length (inorder t).
Proof. induction t as [|c l IHl i r IHr]; cbn [height inorder length]; [lia|]. rewrite app_length. cbn [length]. lia. Qed.

Lemma min_split fuel : forall h k t, hz h k t -> t <> E -> height t <= fuel ->
  exists kl c i r, t = plug kl (T c E i r) /\ all_left kl /\ minimum V fuel (root t) h = Some (Some i, h).
Proof.
  induction fuel as [|fuel IH]; intros h k t Z N F; [destruct t; cbn in F; [congruence|lia]|].
  destruct t as [|c l i r]; [congruence|]. cbn [minimum root]. rewrite (bind_eq (rd_left Z)).
  destruct l as [|cl ll li lr].
  - exists [], c, i, r. split; [reflexivity|]. split; [constructor|reflexivity].
  - cbn [root is_nil]. apply (proj1 (hz_left _ _ _ _ _ _)) in Z. cbn [height] in F.
    destruct (IH _ _ _ Z) as (kl & c1 & i1 & r1 & Q & A & R); [discriminate|cbn [height]; lia|].
    exists (kl ++ [FL c i r]), c1, i1, r1. split; [rewrite plug_app; cbn; rewrite <- Q; reflexivity|].
    split; [apply Forall_app; split; [exact A|repeat constructor]|exact R].
Qed.
Lemma max_split fuel : forall h k t, hz h k t -> t <> E -> height t <= fuel ->
  exists kr c l i, t = plug kr (T c l i E) /\ all_right kr /\ maximum V fuel (root t) h = Some (Some i, h).
Proof.
  induction fuel as [|fuel IH]; intros h k t Z N F; [destruct t; cbn in F; [congruence|lia]|].
  destruct t as [|c l i r]; [congruence|]. cbn [maximum root]. rewrite (bind_eq (rd_right Z)).
  destruct r as [|cr rl ri rr].
  - exists [], c, l, i. split; [reflexivity|]. split; [constructor|reflexivity].
  - cbn [root is_nil]. apply (proj1 (hz_right _ _ _ _ _ _)) in Z. cbn [height] in F.
    destruct (IH _ _ _ Z) as (kl & c1 & l1 & i1 & Q & A & R); [discriminate|cbn [height]; lia|].
    exists (kl ++ [FR c l i]), c1, l1, i1. split; [rewrite plug_app; cbn; rewrite <- Q; reflexivity|].
    split; [apply Forall_app; split; [exact A|repeat constructor]|exact R].
Qed.
Lemma min_ok fuel h k t : hz h k t -> t <> E -> height t <= fuel -> minimum V fuel (root t) h = Some (Some (hd 0 (inorder t)), h).
Proof.
  intros Z N F. destruct (min_split fuel h k t Z N F) as (kl & c & i & r & Q & A & R). rewrite R, Q, inorder_plug, (all_left_lo _ A). reflexivity.
Qed.
Lemma max_ok fuel h k t : hz h k t -> t <> E -> height t <= fuel -> maximum V fuel (root t) h = Some (Some (last (inorder t) 0), h).
Proof.
  intros Z N F. destruct (max_split fuel h k t Z N F) as (kl & c & l & i & Q & A & R).
  rewrite R, Q, inorder_plug, (all_right_hi _ A). cbn [inorder]. rewrite app_nil_r, app_assoc, last_app by discriminate. reflexivity.
Qed.

(** ** Successor *)
Lemma hd_r h0 : get_right V (Some 0) h0 = Some (c_right V (h0 0), h0). Proof. reflexivity. Qed.
Lemma hd_l h0 : get_left V (Some 0) h0 = Some (c_left V (h0 0), h0). Proof. reflexivity. Qed.
Lemma hz_root_nz h k t : hz h k t -> root t <> Some 0.
Proof.
  intros Z Q. destruct t as [|c l i r]; [discriminate|]. injection Q as ->. exact (rd_nz Z eq_refl).
Qed.
Lemma next_up_ok fuel : forall h k c l i r, hz h k (T c l i r) -> hdr h (inorder (plug k (T c l i r))) -> length k + 1 < fuel ->
  next_up V fuel (Some i) (parent_of (Some 0) k) h = Some (Some (hd 0 (hi k)), h).
Proof.
  induction fuel as [|fuel IH]; intros h k c l i r Z H F; [lia|]. cbn [next_up].
  destruct k as [|f k].
  - cbn [parent_of hi hd]. rewrite (bind_eq (hd_r h)). destruct H as (_ & HR & _). cbn [plug] in HR. rewrite HR.
    destruct r as [|cr rl ri rr].
    + cbn [inorder]. rewrite last_app by discriminate. cbn [last]. rewrite ptr_eqb_refl.
      unfold header in *. rewrite (bind_eq (rd_root Z)). cbn [root]. destruct fuel as [|fuel]; [lia|]. cbn [next_up].
      rewrite (bind_eq (rd_right Z)). cbn [root ptr_eqb]. rewrite (bind_eq (hd_r h)), HR.
      cbn [inorder]. rewrite last_app by discriminate. cbn [last]. rewrite ptr_eqb_refl. reflexivity.
    + rewrite ptr_eqb_ne.
      * rewrite (bind_eq (rd_right Z)). rewrite ptr_eqb_ne; [reflexivity|].
        apply (hz_root_nz h (FR c l i :: [])). apply (proj1 (hz_right _ _ _ _ _ _)). exact Z.
      * intros [= Q]. destruct Z as [_ _ _ N].
        assert (I1 : In i (inorder (T cr rl ri rr))).
        { rewrite Q. cbn [inorder]. rewrite last_app by discriminate.
          match goal with |- In (last (?a :: ?b) 0) _ => change (last (a :: b) 0) with (last ([a] ++ b) 0) end.
          rewrite last_app by (destruct (inorder rl); discriminate). apply last_in. destruct (inorder rl); discriminate. }
        apply cnt_in in I1. pose proof (N i) as N1. scntH N1. scntH I1. lia.
  - cbn [parent_of]. cbn [length] in F. destruct f as [cf j s|cf s j]; cbn [fidx].
    + assert (Zf : hz h k (T cf (T c l i r) j s)) by (apply (proj1 (hz_up _ _ _ _)) in Z; exact Z).
      rewrite (bind_eq (rd_right Zf)).
      rewrite ptr_eqb_ne.
      * rewrite (bind_eq (rd_right Z)). rewrite ptr_eqb_ne; [reflexivity|].
        intros Q. apply root_in in Q. apply cnt_in in Q. destruct Z as [_ _ _ N]. pose proof (N j) as N1. scntH N1. lia.
      * intros Q. symmetry in Q. apply root_in in Q. apply cnt_in in Q. destruct Z as [_ _ _ N]. pose proof (N i) as N1. scntH N1. lia.
    + assert (Zf : hz h k (T cf s j (T c l i r))) by (apply (proj1 (hz_up _ _ _ _)) in Z; exact Z).
      rewrite (bind_eq (rd_right Zf)). cbn [root]. rewrite ptr_eqb_refl. rewrite (bind_eq (rd_par Zf)).
      cbn [hi]. eapply IH; [exact Zf|exact H|lia].
Qed.
Lemma next_ok fuel h k c l i r : hz h k (T c l i r) -> hdr h (inorder (plug k (T c l i r))) ->
  length (inorder (plug k (T c l i r))) < fuel ->
  next_node V fuel (Some i) h = Some (Some (hd 0 (inorder r ++ hi k)), h).
Proof.
  intros Z H F. unfold next_node. rewrite (bind_eq (rd_right Z)).
  pose proof (len_plug k (T c l i r)) as LP. cbn [inorder] in LP. rewrite app_length in LP. cbn [length] in LP.
  destruct r as [|cr rl ri rr].
  - cbn [root is_nil negb]. rewrite (bind_eq (rd_par Z)). cbn [inorder app]. eapply next_up_ok; [exact Z|exact H|].
    cbn in LP. lia.
  - cbn [root is_nil negb]. change (Some ri) with (root (T cr rl ri rr)). apply (proj1 (hz_right _ _ _ _ _ _)) in Z.
    rewrite (min_ok _ _ _ _ Z); [|discriminate|].
    + rewrite hd_app by (cbn [inorder]; destruct (inorder rl); discriminate). reflexivity.
    + pose proof (height_inorder (T cr rl ri rr)). lia.
Qed.

(** ** Predecessor *)
Lemma is_header_node h k c l i r : hz h k (T c l i r) -> is_header V (Some i) h = Some (false, h).
Proof.
  intros Z. unfold is_header. rewrite (bind_eq (rd_left Z)), (bind_eq (rd_right Z)), (bind_eq (rd_par Z)).
  assert (is_nil (parent_of (Some 0) k) = false) as -> by (destruct k; reflexivity).
  destruct l as [|cl ll li lr]; [reflexivity|]. destruct r as [|cr rl ri rr]; [reflexivity|].
  cbn [root is_nil orb].
  assert (Zl : hz h (FL c i (T cr rl ri rr) :: k) (T cl ll li lr)) by (apply (proj1 (hz_left _ _ _ _ _ _)); exact Z).
  assert (Zr : hz h (FR c (T cl ll li lr) i :: k) (T cr rl ri rr)) by (apply (proj1 (hz_right _ _ _ _ _ _)); exact Z).
  rewrite ptr_eqb_ne.
  2:{ intros [= ->]. destruct Z as [_ _ _ N]. pose proof (N ri) as N1. scntH N1. lia. }
  rewrite (bind_eq (rd_par Zl)). cbn [parent_of fidx]. rewrite ptr_eqb_refl. cbn [negb].
  rewrite (bind_eq (rd_par Zr)). cbn [parent_of fidx]. rewrite ptr_eqb_refl. reflexivity.
Qed.
(** A node is found again at some position. *)
Lemma find_node t : forall i, In i (inorder t) -> exists k c l r, t = plug k (T c l i r).
Proof.
  induction t as [|c l IHl j r IHr]; intros i; [intros []|]. cbn [inorder]. intros H. apply in_app_iff in H as [H|[->|H]].
  - destruct (IHl _ H) as (k & c1 & l1 & r1 & ->). exists (k ++ [FL c j r]), c1, l1, r1. rewrite plug_app. reflexivity.
  - exists [], c, l, r. reflexivity.
  - destruct (IHr _ H) as (k & c1 & l1 & r1 & ->). exists (k ++ [FR c l j]), c1, l1, r1. rewrite plug_app. reflexivity.
Qed.
Lemma is_header_header h t : hz h [] t -> hdr h (inorder t) -> is_header V (Some 0) h = Some (true, h).
Proof.
  intros Z (HL & HR & _). unfold is_header. rewrite (bind_eq (hd_l h)), (bind_eq (hd_r h)), (bind_eq (rd_root Z)).
  destruct t as [|c l i r]; [reflexivity|]. cbn [root is_nil]. rewrite HL, HR. cbn [is_nil orb].
  set (t := T c l i r) in *. assert (NE : inorder t <> []) by (cbn; destruct (inorder l); discriminate).
  destruct (ptr_eqb_spec (Some (hd 0 (inorder t))) (Some (last (inorder t) 0))) as [Q|Q]; [reflexivity|].
  destruct (find_node t _ (hd_in 0 _ NE)) as (k1 & c1 & l1 & r1 & Q1).
  destruct (find_node t _ (last_in 0 _ NE)) as (k2 & c2 & l2 & r2 & Q2).
  assert (Z1 : hz h k1 (T c1 l1 (hd 0 (inorder t)) r1)) by (apply (hz_move _ _ Z); exact Q1).
  assert (Z2 : hz h k2 (T c2 l2 (last (inorder t) 0) r2)) by (apply (hz_move _ _ Z); exact Q2).
  rewrite (bind_eq (rd_par Z1)). destruct k1 as [|f1 k1].
  - cbn [parent_of]. rewrite ptr_eqb_refl. cbn [negb]. rewrite (bind_eq (rd_par Z2)).
    destruct k2 as [|f2 k2].
    + exfalso. apply Q. apply (f_equal root) in Q1, Q2. cbn [plug] in Q1, Q2. unfold t in Q1 at 1, Q2 at 1. cbn [root] in Q1, Q2. congruence.
    + cbn [parent_of]. unfold ret. apply (proj1 (hz_up _ _ _ _)) in Z2.
      rewrite ptr_eqb_ne; [reflexivity|]. intros [= Q3]. assert (fidx f2 <> 0) by (destruct f2; exact (rd_nz Z2)). congruence.
  - cbn [parent_of]. apply (proj1 (hz_up _ _ _ _)) in Z1.
    rewrite ptr_eqb_ne; [reflexivity|]. intros [= Q3]. assert (fidx f1 <> 0) by (destruct f1; exact (rd_nz Z1)). congruence.
Qed.
Lemma prev_up_ok fuel : forall h k c l i r, hz h k (T c l i r) -> lo k <> [] -> length k < fuel ->
  prev_up V fuel (Some i) (parent_of (Some 0) k) h = Some (Some (last (lo k) 0), h).
Proof.
  induction fuel as [|fuel IH]; intros h k c l i r Z H F; [lia|]. cbn [prev_up].
  destruct k as [|f k]; [cbn in H; congruence|]. cbn [length] in F.
  cbn [parent_of]. destruct f as [cf j s|cf s j]; cbn [fidx].
  - assert (Zf : hz h k (T cf (T c l i r) j s)) by (apply (proj1 (hz_up _ _ _ _)) in Z; exact Z).
    rewrite (bind_eq (rd_left Zf)). cbn [root]. rewrite ptr_eqb_refl. rewrite (bind_eq (rd_par Zf)).
    cbn [lo] in *. eapply IH; [exact Zf|exact H|lia].
  - assert (Zf : hz h k (T cf s j (T c l i r))) by (apply (proj1 (hz_up _ _ _ _)) in Z; exact Z).
    rewrite (bind_eq (rd_left Zf)). rewrite ptr_eqb_ne.
    + cbn [lo]. rewrite app_assoc, last_app by discriminate. reflexivity.
    + intros Q. symmetry in Q. apply root_in in Q. apply cnt_in in Q. destruct Z as [_ _ _ N]. pose proof (N i) as N1. scntH N1. lia.
Qed.
Lemma prev_ok fuel h k c l i r : hz h k (T c l i r) -> lo k ++ inorder l <> [] ->
  length (inorder (plug k (T c l i r))) < fuel ->
  prev_node V fuel (Some i) h = Some (Some (last (lo k ++ inorder l) 0), h).
Proof.
  intros Z H F. unfold prev_node. rewrite (bind_eq (is_header_node _ _ _ _ _ _ Z)), (bind_eq (rd_left Z)).
  pose proof (len_plug k (T c l i r)) as LP. cbn [inorder] in LP. rewrite app_length in LP. cbn [length] in LP.
  destruct l as [|cl ll li lr].
  - cbn [root is_nil negb inorder]. rewrite app_nil_r in *. rewrite (bind_eq (rd_par Z)).
    eapply prev_up_ok; [exact Z|cbn in H; rewrite ?app_nil_r in H; exact H|lia].
  - cbn [root is_nil negb]. change (Some li) with (root (T cl ll li lr)). apply (proj1 (hz_left _ _ _ _ _ _)) in Z.
    rewrite (max_ok _ _ _ _ Z); [|discriminate|].
    + rewrite last_app by (cbn [inorder]; destruct (inorder ll); discriminate). reflexivity.
    + pose proof (height_inorder (T cl ll li lr)). lia.
Qed.
Lemma prev_header fuel h t : hz h [] t -> hdr h (inorder t) -> prev_node V fuel (Some 0) h = Some (Some (last (inorder t) 0), h).
Proof.
  intros Z H. unfold prev_node. rewrite (bind_eq (is_header_header _ _ Z H)), hd_r.
  destruct H as (_ & HR & _). rewrite HR. reflexivity.
Qed.

(** Stated for lists. *)
Lemma split_node t i l1 l2 : NoDup (inorder t) -> inorder t = l1 ++ i :: l2 ->
  exists k c l r, t = plug k (T c l i r) /\ l1 = lo k ++ inorder l /\ l2 = inorder r ++ hi k.
Proof.
  intros D Q. destruct (find_node t i) as (k & c & l & r & ->); [rewrite Q; apply in_app_iff; right; left; reflexivity|].
  exists k, c, l, r. split; [reflexivity|]. rewrite inorder_plug in *. cbn [inorder] in *.
  replace (lo k ++ (inorder l ++ i :: inorder r) ++ hi k) with ((lo k ++ inorder l) ++ i :: inorder r ++ hi k) in *
    by (rewrite <- !app_assoc; reflexivity).
  revert Q D. generalize (lo k ++ inorder l) (inorder r ++ hi k). clear. intros a b.
  revert l1. induction a as [|x a IH]; intros [|y l1] Q D; cbn in *.
  - injection Q as ->. auto.
  - injection Q as -> ->. exfalso. inversion D; subst. apply H1. apply in_app_iff. right. left. reflexivity.
  - injection Q as -> <-. exfalso. inversion D; subst. apply H1. apply in_app_iff. right. left. reflexivity.
  - injection Q as -> Q. inversion D; subst. destruct (IH l1 Q H2) as (-> & ->). auto.
Qed.
Lemma stores_nodup h t : stores h t -> NoDup (inorder t).
Proof. intros (_ & _ & _ & _ & _ & N). inversion N; assumption. Qed.

Lemma next_list fuel h t l1 i l2 : stores h t -> inorder t = l1 ++ i :: l2 -> length (inorder t) < fuel ->
  next_node V fuel (Some i) h = Some (Some (hd 0 l2), h).
Proof.
  intros S Q F. destruct (split_node t i l1 l2 (stores_nodup _ _ S) Q) as (k & c & l & r & -> & -> & ->).
  apply stores_hz in S as (Z & H). apply (hz_move k (T c l i r)) in Z; [|reflexivity]. apply next_ok with (c := c) (l := l); assumption.
Qed.
Lemma prev_list fuel h t l1 i l2 : stores h t -> inorder t = l1 ++ i :: l2 -> l1 <> [] -> length (inorder t) < fuel ->
  prev_node V fuel (Some i) h = Some (Some (last l1 0), h).
Proof.
  intros S Q NE F. destruct (split_node t i l1 l2 (stores_nodup _ _ S) Q) as (k & c & l & r & -> & -> & ->).
  apply stores_hz in S as (Z & H). apply (hz_move k (T c l i r)) in Z; [|reflexivity]. apply prev_ok with (c := c) (r := r); assumption.
Qed.
Lemma prev_end fuel h t : stores h t -> prev_node V fuel (Some 0) h = Some (Some (last (inorder t) 0), h).
Proof. intros S. apply stores_hz in S as (Z & H). apply (prev_header fuel h t); assumption. Qed.

(** ** Iteration *)
Lemma iterate_ok inner h t : stores h t -> length (inorder t) < inner -> forall l2 l1 fuel, inorder t = l1 ++ l2 -> length l2 <= fuel ->
  iterate V fuel inner (Some (hd 0 l2)) h = Some (l2, h).
Proof.
  intros S F. induction l2 as [|i l2 IH]; intros l1 fuel Q L.
  - cbn [hd]. destruct fuel; reflexivity.
  - cbn [hd]. assert (NZ : i <> 0).
    { destruct S as (_ & _ & _ & _ & _ & N). inversion N; subst. intros ->. apply H1. rewrite Q. apply in_app_iff. right. left. reflexivity. }
    cbn [length] in L. destruct fuel as [|fuel]; [lia|]. destruct i as [|i]; [congruence|].
    cbn [iterate]. rewrite (bind_eq (next_list inner h t l1 (Datatypes.S i) l2 S Q F)).
    rewrite (bind_eq (IH (l1 ++ [Datatypes.S i]) fuel ltac:(rewrite <- app_assoc; exact Q) ltac:(lia))). reflexivity.
Qed.
Lemma iterate_all inner fuel h t : stores h t -> length (inorder t) < inner -> length (inorder t) <= fuel ->
  bind V (begin_node V) (iterate V fuel inner) h = Some (inorder t, h).
Proof.
  intros S F L. unfold begin_node, header. rewrite (bind_eq (hd_l h)). destruct S as (A & HL & S'). rewrite HL.
  apply (iterate_ok inner h t (conj A (conj HL S')) F (inorder t) []); [reflexivity|exact L].
Qed.
Lemma iterate_back_ok inner h t : stores h t -> length (inorder t) < inner -> forall n l1 l2 fuel, length l1 = n -> inorder t = l1 ++ l2 -> n <= fuel ->
  iterate_back V fuel inner (Some (hd 0 l2)) l2 h = Some (inorder t, h).
Proof.
  intros S F. induction n as [|n IH]; intros l1 l2 fuel L Q LF.
  - destruct l1; [|discriminate]. cbn [app] in Q. rewrite <- Q.
    assert (B : begin_node V h = Some (Some (hd 0 (inorder t)), h)) by (unfold begin_node, header; rewrite hd_l; destruct S as (_ & -> & _); reflexivity).
    destruct fuel as [|fuel]; cbn [iterate_back]; rewrite (bind_eq B), ptr_eqb_refl; reflexivity.
  - destruct (rev l1) as [|y m] eqn:RL. { apply (f_equal (@length nat)) in RL. rewrite rev_length in RL. cbn in RL. lia. }
    assert (l1 = rev m ++ [y]) by (rewrite <- (rev_involutive l1), RL; reflexivity). subst l1.
    assert (B : begin_node V h = Some (Some (hd 0 (inorder t)), h)) by (unfold begin_node, header; rewrite hd_l; destruct S as (_ & -> & _); reflexivity).
    rewrite app_length in L. cbn [length] in L.
    destruct fuel as [|fuel]; [lia|]. cbn [iterate_back]. rewrite (bind_eq B).
    pose proof S as S0. destruct S0 as (_ & _ & _ & _ & _ & N). inversion N as [|? ? N0 N1]; subst.
    rewrite ptr_eqb_ne.
    + assert (P : prev_node V inner (Some (hd 0 l2)) h = Some (Some y, h)).
      { destruct l2 as [|i l2]; cbn [hd].
        - rewrite (prev_end inner h t S), Q, app_nil_r, last_app by discriminate. reflexivity.
        - rewrite (prev_list inner h t (rev m ++ [y]) i l2 S Q); [|destruct (rev m); discriminate|exact F].
          rewrite last_app by discriminate. reflexivity. }
      rewrite (bind_eq P). rewrite <- app_assoc in Q. cbn [app] in Q.
      apply (IH (rev m) (y :: l2) fuel); [lia|exact Q|lia].
    + rewrite Q in N0, N1 |- *. intros [= E1]. rewrite hd_app in E1 by (destruct (rev m); discriminate).
      assert (I1 : In (hd 0 l2) (rev m ++ [y])) by (rewrite E1; apply hd_in; destruct (rev m); discriminate).
      destruct l2 as [|i l2]; cbn [hd] in *.
      * apply N0. rewrite app_nil_r. exact I1.
      * apply NoDup_remove_2 in N1. apply N1, in_app_iff. left. exact I1.
Qed.
Lemma iterate_back_all inner fuel h t : stores h t -> length (inorder t) < inner -> length (inorder t) <= fuel ->
  iterate_back V fuel inner (Some 0) [] h = Some (inorder t, h).
Proof.
  intros S F L. apply (iterate_back_ok inner h t S F (length (inorder t)) (inorder t) [] fuel); [reflexivity|rewrite app_nil_r; reflexivity|exact L].
Qed.
End Nav.
