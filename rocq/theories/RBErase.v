(** Unlinking a node. *)
From Coq Require Import List Bool Arith Lia.
From Verif Require Import RBModel RBSpec RBHeap RBInsert RBNav RBRestore.
Import ListNotations.

Ltac scntH N := cbn [inorder idx fidx fsib app] in N; repeat (rewrite ?cnt_cons, ?cnt_app, ?cnt_nil in N; progress cbn [inorder idx fidx fsib app] in N); rewrite ?cnt_cons, ?cnt_app, ?cnt_nil in N; repeat first [rewrite cnt_cons in N | rewrite cnt_app in N]; rewrite ?e1_refl in N.
Ltac rend N := let x := fresh "x" in let N1 := fresh in intros x; pose proof (N x) as N1; scntH N1; scnt; clear - N1; lia.
Ltac inn := repeat match goal with I : In _ _ |- _ => apply cnt_in in I; scntH I end.
Ltac nfalse :=
  match goal with
  | H : nd _, I : In ?x ?l |- False =>
      let N := fresh "N" in pose proof (H x) as N; scntH N; inn; lia
  end.
Ltac nsolve :=
  match goal with
  | |- False => nfalse
  | H : nd _ |- ?x <> ?y =>
      let E := fresh in let N := fresh in let Q := fresh in
      intros E; assert (Q : e1 x y = 1) by (apply e1_eq; exact E);
      pose proof (H x) as N; scntH N; clear - N Q; lia
  | |- ?x <> ?y => let E := fresh in intros E; subst; nfalse
  | |- ~ In ?x ?l => let I := fresh in intros I; nfalse
  end.

Section Erase.
Context {V : Type}.
Notation heap := (heap V).
Implicit Types h : heap.

(** The stored tree only depends on the cells of its own nodes. *)
Lemma hz_ext h h' k t : hz h k t -> c_par V (h' 0) = c_par V (h 0) ->
  (forall x, In x (inorder t ++ idx k) -> h' x = h x) -> hz h' k t.
Proof.
  intros [P C L N] Q0 Q. constructor; [congruence| | |exact N].
  - eapply ctx_frame; [|exact C]. intros x Hx. apply Q, in_app_iff. right. exact Hx.
  - eapply linked_frame; [|exact L]. intros x Hx. apply Q, in_app_iff. left. exact Hx.
Qed.

(** A subtree takes the place of its parent. *)
Definition bypass h k (x : tree) : heap := relink (reparent h x (parent_of (Some 0) k)) k (root x).
Lemma bypass_ok h k t x par : c_par V (h 0) = root_of k (root t) -> ctx_ok h (Some 0) k (root t) -> linked h par x ->
  nd (0 :: inorder x ++ idx k) -> hz (bypass h k x) k x.
Proof.
  intros P C L N. assert (NK : nd (0 :: idx k)) by rend N. assert (NX : nd (inorder x)) by rend N.
  assert (X0 : ~ In 0 (inorder x)) by nsolve.
  constructor.
  - unfold bypass. eapply relink_par; [exact NK|]. rewrite reparent_out by exact X0. exact P.
  - unfold bypass. eapply relink_ctx; [exact NK|]. eapply ctx_frame; [|exact C].
    intros y Hy. apply reparent_out. nsolve.
  - unfold bypass. eapply linked_frame; [|eapply reparent_linked; [apply nd_NoDup; exact NX|exact L]].
    intros y Hy. apply relink_out; [intros ->; contradiction|]. nsolve.
  - exact N.
Qed.
Lemma bypass_same h k x : nd (0 :: inorder x ++ idx k) -> same h (bypass h k x).
Proof.
  intros N. eapply same_trans; [apply same_reparent|apply same_relink]; [nsolve|rend N].
Qed.
Lemma bypass_out h k x y : y <> 0 -> ~ In y (inorder x) -> ~ In y (idx k) -> bypass h k x y = h y.
Proof. intros A B C. unfold bypass. rewrite relink_out, reparent_out by assumption. reflexivity. Qed.

(** A node takes the place of another one. *)
Definition replace_node h k (l r : tree) (y : nat) : heap :=
  let h1 := reparent h l (Some y) in
  let h2 := reparent h1 r (Some y) in
  let h3 := upd V h2 y (mk_cell V (parent_of (Some 0) k) (root l) (root r) (c_red V (h y)) (c_val V (h y))) in
  relink h3 k (Some y).
Lemma replace_ok h k c l z r y : hz h k (T c l z r) -> y <> 0 -> ~ In y (inorder (T c l z r) ++ idx k) ->
  hz (replace_node h k l r y) k (T (c_red V (h y)) l y r).
Proof.
  intros [P C (_ & _ & _ & _ & LL & LR) N] Y0 YI.
  assert (NK : nd (0 :: idx k)) by rend N. assert (NL : nd (inorder l)) by rend N. assert (NR : nd (inorder r)) by rend N.
  assert (YL : ~ In y (inorder l) /\ ~ In y (inorder r) /\ ~ In y (idx k)).
  { rewrite in_app_iff in YI. cbn [inorder] in YI. rewrite in_app_iff in YI. cbn [In] in YI. tauto. }
  destruct YL as (YL & YR & YK). rewrite cnt_in in YI.
  assert (L0 : ~ In 0 (inorder l)) by nsolve. assert (R0 : ~ In 0 (inorder r)) by nsolve.
  unfold replace_node. set (h1 := reparent h l (Some y)). set (h2 := reparent h1 r (Some y)). set (h3 := upd V h2 y _).
  assert (O : forall x, x <> y -> ~ In x (inorder l) -> ~ In x (inorder r) -> h3 x = h x).
  { intros x A B D. unfold h3. rewrite upd_ne by assumption. unfold h2, h1. rewrite !reparent_out by assumption. reflexivity. }
  assert (N2 : nd (0 :: inorder (T (c_red V (h y)) l y r) ++ idx k)).
  { intros x. pose proof (N x) as N1. scntH N1. scntH YI. scnt. destruct (Nat.eq_dec x y) as [->|D]; [rewrite e1_refl; rewrite (e1_ne y 0) by assumption; lia|].
    rewrite (e1_ne x y) by assumption. lia. }
  constructor.
  - eapply relink_par; [exact NK|]. rewrite O by auto. exact P.
  - eapply relink_ctx; [exact NK|]. eapply ctx_frame; [|exact C]. intros x Hx. apply O; [intros ->; contradiction| |]; nsolve.
  - cbn [linked root]. rewrite relink_out by assumption. unfold h3 at 1 2 3 4. rewrite upd_eq. cbn.
    split; [reflexivity|]. split; [reflexivity|]. split; [reflexivity|]. split; [reflexivity|]. split.
    + eapply linked_frame; [|eapply reparent_linked; [apply nd_NoDup; exact NL|exact LL]].
      intros x Hx. rewrite relink_out; [|intros ->; contradiction|nsolve]. unfold h3. rewrite upd_ne by (intros ->; contradiction).
      unfold h2, h1. rewrite reparent_out; [reflexivity|nsolve].
    + eapply linked_frame; [|eapply reparent_linked; [apply nd_NoDup; exact NR|]].
      * intros x Hx. rewrite relink_out; [|intros ->; contradiction|nsolve]. unfold h3. rewrite upd_ne by (intros ->; contradiction). reflexivity.
      * eapply linked_frame; [|exact LR]. intros x Hx. apply reparent_out. nsolve.
  - exact N2.
Qed.

(** ** With at most one child *)
(** The header after the last node's disappearance. *)
Lemma hdr_left h l : hdr h l -> c_left V (h 0) = Some (hd 0 l). Proof. intros (A & _); exact A. Qed.

Lemma par_first k : all_left k -> parent_of (Some 0) k = Some (hd 0 (hi k)).
Proof. intros A. destruct k as [|[c i r|c l i] k]; [reflexivity|reflexivity|]. inversion A; contradiction. Qed.
Lemma par_last k : all_right k -> parent_of (Some 0) k = Some (last (lo k) 0).
Proof.
  intros A. destruct k as [|[c i r|c l i] k]; [reflexivity|inversion A; contradiction|].
  cbn [parent_of fidx lo]. rewrite app_assoc, last_app by discriminate. reflexivity.
Qed.

Definition fix_left (fuel : nat) (z z_left z_right z_parent : ptr) : M V unit :=
  bind V (get_left V header) (fun hl =>
  if ptr_eqb hl z then
    bind V (assert V (is_nil z_left)) (fun _ =>
    bind V (if is_nil z_right then ret V z_parent else minimum V fuel z_right) (fun m => set_left V header m))
  else ret V tt).
Definition fix_right (fuel : nat) (z z_left z_right z_parent : ptr) : M V unit :=
  bind V (get_right V header) (fun hl =>
  if ptr_eqb hl z then
    bind V (assert V (is_nil z_right)) (fun _ =>
    bind V (if is_nil z_left then ret V z_parent else maximum V fuel z_left) (fun m => set_right V header m))
  else ret V tt).

Definition hdr_kept h h' : Prop := (forall x, x <> 0 -> h' x = h x) /\ c_par V (h' 0) = c_par V (h 0) /\ c_red V (h' 0) = c_red V (h 0) /\ c_val V (h' 0) = c_val V (h 0).
Lemma hdr_kept_hz h h' k t : hdr_kept h h' -> hz h k t -> hz h' k t.
Proof.
  intros (A & B & _) Z. eapply hz_ext; [exact Z|exact B|]. intros x Hx. apply A. intros ->.
  destruct Z as [_ _ _ N]. pose proof (N 0) as N1. apply cnt_in in Hx. rewrite cnt_cons, e1_refl in N1. lia.
Qed.

Lemma last_mid (a b : list nat) z c : last (a ++ b ++ z :: c) 0 = last (z :: c) 0.
Proof. rewrite app_assoc, last_app by discriminate. reflexivity. Qed.
Lemma last_cons (z : nat) l : l <> [] -> last (z :: l) 0 = last l 0.
Proof. destruct l; [congruence|reflexivity]. Qed.
Lemma fix_left_ok fuel h k l z r x : (l = E \/ r = E) -> x = match l with E => r | _ => l end ->
  hz h k x -> nd (0 :: lo k ++ inorder l ++ z :: inorder r ++ hi k) ->
  c_left V (h 0) = Some (hd 0 (lo k ++ inorder l ++ z :: inorder r ++ hi k)) -> length (inorder x) <= fuel ->
  exists h', fix_left fuel (Some z) (root l) (root r) (parent_of (Some 0) k) h = Some (tt, h') /\
    c_left V (h' 0) = Some (hd 0 (lo k ++ inorder x ++ hi k)) /\ c_right V (h' 0) = c_right V (h 0) /\ hdr_kept h h'.
Proof.
  intros LR X Z N HL F. unfold fix_left, header. rewrite (bind_eq (hd_l h)), HL.
  destruct (ptr_eqb_spec (Some (hd 0 (lo k ++ inorder l ++ z :: inorder r ++ hi k))) (Some z)) as [Q|Q].
  - injection Q as Q.
    assert (LK : lo k = []).
    { destruct (lo k) as [|y m] eqn:QL; [reflexivity|]. cbn in Q. subst y. exfalso. pose proof (N z) as N1. scntH N1. lia. }
    assert (LE : l = E).
    { destruct l as [|cl ll li lr]; [reflexivity|]. exfalso. rewrite LK in Q. cbn [app] in Q. rewrite hd_app in Q by (cbn; destruct (inorder ll); discriminate).
      assert (I1 : In z (inorder (T cl ll li lr))) by (rewrite <- Q; apply hd_in; cbn; destruct (inorder ll); discriminate).
      pose proof (N z) as N1. apply cnt_in in I1. rewrite cnt_cons, !cnt_app, cnt_cons, e1_refl in N1. lia. }
    subst l. subst x. cbn [root is_nil assert]. rewrite LK. cbn [app inorder]. unfold ret at 1. rewrite (bind_eq eq_refl).
    assert (M : (if is_nil (root r) then ret V (parent_of (Some 0) k) else minimum V fuel (root r)) h = Some (Some (hd 0 (inorder r ++ hi k)), h)).
    { destruct r as [|cr rl ri rr].
      - cbn [root is_nil inorder app]. rewrite par_first by (apply lo_nil_all; exact LK). reflexivity.
      - cbn [root is_nil]. change (Some ri) with (root (T cr rl ri rr)). rewrite (min_ok _ _ _ _ Z); [|discriminate|].
        + rewrite hd_app by (cbn; destruct (inorder rl); discriminate). reflexivity.
        + pose proof (height_inorder (T cr rl ri rr)). lia. }
    rewrite (bind_eq M). eexists. split; [reflexivity|]. rewrite upd_eq. cbn. split; [reflexivity|]. split; [reflexivity|].
    unfold hdr_kept. rewrite upd_eq. split; [intros y Hy; apply upd_ne; exact Hy|]. cbn. auto.
  - exists h. split; [reflexivity|]. split; [|split; [reflexivity|unfold hdr_kept; auto]].
    rewrite HL. f_equal. destruct (lo k) as [|y m]; [|reflexivity]. cbn [app] in *.
    destruct l as [|cl ll li lr]; [cbn in Q; congruence|]. subst x. rewrite !hd_app by (cbn; destruct (inorder ll); discriminate). reflexivity.
Qed.
Lemma fix_right_ok fuel h k l z r x : (l = E \/ r = E) -> x = match l with E => r | _ => l end ->
  hz h k x -> nd (0 :: lo k ++ inorder l ++ z :: inorder r ++ hi k) ->
  c_right V (h 0) = Some (last (lo k ++ inorder l ++ z :: inorder r ++ hi k) 0) -> length (inorder x) <= fuel ->
  exists h', fix_right fuel (Some z) (root l) (root r) (parent_of (Some 0) k) h = Some (tt, h') /\
    c_right V (h' 0) = Some (last (lo k ++ inorder x ++ hi k) 0) /\ c_left V (h' 0) = c_left V (h 0) /\ hdr_kept h h'.
Proof.
  intros LR X Z N HL F. unfold fix_right, header. rewrite (bind_eq (hd_r h)), HL.
  rewrite last_mid.
  destruct (ptr_eqb_spec (Some (last (z :: inorder r ++ hi k) 0)) (Some z)) as [Q|Q].
  - apply (f_equal (fun p => match p with Some i => i | None => 0 end)) in Q. cbv beta iota in Q.
    assert (LE : inorder r ++ hi k = []).
    { assert (D : inorder r ++ hi k = [] \/ inorder r ++ hi k <> []) by (destruct (inorder r ++ hi k); [left; reflexivity|right; discriminate]).
      destruct D as [D|D]; [exact D|]. exfalso. rewrite last_cons in Q by exact D.
      pose proof (last_in 0 _ D) as I1. rewrite Q in I1.
      pose proof (N z) as N1. apply cnt_in in I1. rewrite cnt_app in I1. scntH N1. lia. }
    apply app_eq_nil in LE as (LE & LK). assert (r = E) by (destruct r; [reflexivity|cbn in LE; destruct (inorder r1); discriminate]). subst r.
    assert (XL : x = l) by (subst x; destruct l; reflexivity). rewrite XL in *. clear XL X.
    cbn [root is_nil assert]. rewrite LK. unfold ret at 1. rewrite (bind_eq eq_refl).
    assert (M : (if is_nil (root l) then ret V (parent_of (Some 0) k) else maximum V fuel (root l)) h = Some (Some (last (lo k ++ inorder l ++ []) 0), h)).
    { rewrite app_nil_r. destruct l as [|cl ll li lr].
      - cbn [root is_nil inorder app]. rewrite app_nil_r. rewrite par_last by (apply hi_nil_all; exact LK). reflexivity.
      - cbn [root is_nil]. change (Some li) with (root (T cl ll li lr)). rewrite (max_ok _ _ _ _ Z); [|discriminate|].
        + rewrite last_app by (cbn; destruct (inorder ll); discriminate). reflexivity.
        + pose proof (height_inorder (T cl ll li lr)). lia. }
    rewrite (bind_eq M). eexists. split; [reflexivity|]. rewrite upd_eq. cbn. split; [reflexivity|]. split; [reflexivity|].
    unfold hdr_kept. rewrite upd_eq. split; [intros y Hy; apply upd_ne; exact Hy|]. cbn. auto.
  - exists h. split; [reflexivity|]. split; [|split; [reflexivity|unfold hdr_kept; auto]].
    rewrite HL, last_mid. f_equal.
    destruct (inorder r ++ hi k) as [|y m] eqn:QL; [exfalso; apply Q; reflexivity|].
    rewrite last_cons by discriminate. rewrite <- QL.
    destruct (hi k) as [|y1 m1].
    + rewrite app_nil_r in *. destruct LR as [->| ->]; [|discriminate]. subst x. rewrite !app_nil_r. rewrite last_app by (rewrite QL; discriminate). reflexivity.
    + rewrite last_app, last_mid by discriminate. reflexivity.
Qed.

(** ** Cell-wise descriptions of the writes *)
Definition wchild (k : list frame) (p : ptr) : cell V -> cell V :=
  match k with [] => wpar p | FL _ _ _ :: _ => wleft p | FR _ _ _ :: _ => wright p end.
Lemma relink_at h k p j : relink h k p j = if ptr_eqb (parent_of (Some 0) k) (Some j) then wchild k p (h j) else h j.
Proof.
  destruct k as [|[c i r|c l i] k]; cbn [relink parent_of fidx wchild ptr_eqb]; unfold upd.
  - rewrite (Nat.eqb_sym 0 j). destruct (Nat.eqb_spec j 0); subst; reflexivity.
  - rewrite (Nat.eqb_sym i j). destruct (Nat.eqb_spec j i); subst; reflexivity.
  - rewrite (Nat.eqb_sym i j). destruct (Nat.eqb_spec j i); subst; reflexivity.
Qed.
Lemma reparent_at h t q j : reparent h t q j = if ptr_eqb (root t) (Some j) then wpar q (h j) else h j.
Proof. destruct t as [|c l i r]; [reflexivity|]. cbn [reparent root ptr_eqb]. unfold upd. rewrite (Nat.eqb_sym i j). destruct (Nat.eqb_spec j i); subst; reflexivity. Qed.
Lemma upd_at h i f j : upd V h i (f (h i)) j = if ptr_eqb (Some i) (Some j) then f (h j) else h j.
Proof. cbn. unfold upd. rewrite (Nat.eqb_sym i j). destruct (Nat.eqb_spec j i); subst; reflexivity. Qed.
Lemma idx_app k1 k2 : idx (k1 ++ k2) = idx k1 ++ idx k2.
Proof. induction k1 as [|f k1 IH]; cbn; [reflexivity|]. rewrite IH, app_assoc. reflexivity. Qed.
Lemma root_of_in k : k <> [] -> exists i, In i (idx k) /\ forall p, root_of k p = Some i.
Proof.
  induction k as [|f k IH]; [congruence|]. intros _. destruct k as [|g k].
  - exists (fidx f). split; [left; reflexivity|reflexivity].
  - destruct IH as (i & I1 & I2); [discriminate|]. exists i. split; [|intros p; exact (I2 (Some (fidx f)))].
    cbn [idx]. right. apply in_app_iff. right. exact I1.
Qed.
Lemma parent_app par k1 k2 : parent_of par (k1 ++ k2) = parent_of (parent_of par k2) k1.
Proof. destruct k1; reflexivity. Qed.

Definition unlinked h k l z r h' K x y : Prop :=
  hz h' K x /\ hdr h' (inorder (plug K x)) /\ inorder (plug K x) = lo k ++ inorder l ++ inorder r ++ hi k /\
  same_values h h' /\ (forall j, ~ In j (0 :: inorder (plug K x)) -> h' j = h j) /\
  ((y = z /\ K = k /\ (l = E \/ r = E) /\ x = match l with E => r | _ => l end) \/
   (y <> z /\ exists kr cy, K = kr ++ FR cy l y :: k /\ r = plug kr (T cy E y x))).

Lemma one_child fuel h k c l z r x : hz h k (T c l z r) -> hdr h (inorder (plug k (T c l z r))) ->
  length (inorder (plug k (T c l z r))) < fuel -> (l = E \/ r = E) -> x = match l with E => r | _ => l end ->
  exists h', bind V (if is_nil (root x) then ret V tt else set_parent V (root x) (parent_of (Some 0) k)) (fun _ =>
       bind V (set_child V (root x) (parent_of (Some 0) k) (is_left k)) (fun _ =>
       bind V (fix_left fuel (Some z) (root l) (root r) (parent_of (Some 0) k)) (fun _ =>
       bind V (fix_right fuel (Some z) (root l) (root r) (parent_of (Some 0) k)) (fun _ =>
       ret V (parent_of (Some 0) k))))) h = Some (parent_of (Some 0) k, h') /\
     unlinked h k l z r h' k x z.
Proof.
  intros Z H F LR X. pose proof Z as [P C L N].
  assert (IX : forall j, cnt j (inorder x) = cnt j (inorder l) + cnt j (inorder r)).
  { intros j. subst x. destruct l; [reflexivity|]. destruct LR as [Q| ->]; [discriminate|]. cbn [inorder]. rewrite cnt_nil. lia. }
  assert (NX : nd (0 :: inorder x ++ idx k)).
  { intros j. pose proof (N j) as N1. scntH N1. rewrite cnt_cons, cnt_app, IX. lia. }
  assert (NK : nd (0 :: idx k)) by rend N.
  assert (LX : linked h (Some z) x).
  { cbn [linked] in L. subst x. destruct l; tauto. }
  pose proof (bypass_ok h k _ x _ P C LX NX) as Z1.
  pose proof (bypass_same h k x NX) as (S1 & S2 & S3 & SV).
  rewrite inorder_plug in H. cbn [inorder] in H. rewrite <- app_assoc in H. cbn [app] in H. destruct H as (HL & HR & HC).
  assert (N0 : nd (0 :: lo k ++ inorder l ++ z :: inorder r ++ hi k)).
  { intros j. pose proof (N j) as N1. scntH N1. rewrite cnt_idx in N1. rewrite cnt_cons, !cnt_app, cnt_cons, cnt_app. lia. }
  assert (FX : length (inorder x) <= fuel).
  { rewrite inorder_plug in F. cbn [inorder] in F. rewrite !app_length in F. cbn [length] in F. subst x. destruct l; cbn [inorder] in *; lia. }
  destruct (fix_left_ok fuel (bypass h k x) k l z r x LR X Z1 N0 ltac:(rewrite S1; exact HL) FX) as (h2 & R2 & A1 & A2 & A3).
  pose proof (hdr_kept_hz _ _ _ _ A3 Z1) as Z2.
  destruct (fix_right_ok fuel h2 k l z r x LR X Z2 N0 ltac:(rewrite A2, S2; exact HR) FX) as (h3 & R3 & B1 & B2 & B3).
  pose proof (hdr_kept_hz _ _ _ _ B3 Z2) as Z3.
  exists h3. split.
  { rewrite (bind_eq (reparent_run h x _ _ eq_refl)). rewrite (bind_eq (relink_run _ k _ NK)). fold (bypass h k x).
    rewrite (bind_eq R2), (bind_eq R3). reflexivity. }
  assert (IN : inorder (plug k x) = lo k ++ inorder l ++ inorder r ++ hi k).
  { rewrite inorder_plug. subst x. destruct l; [reflexivity|]. destruct LR as [Q| ->]; [discriminate|]. reflexivity. }
  destruct A3 as (A3 & A4 & A5 & A6). destruct B3 as (B3 & B4 & B5 & B6).
  unfold unlinked. split; [exact Z3|]. split.
  { unfold hdr. rewrite inorder_plug. split; [rewrite B2; exact A1|]. split; [exact B1|]. rewrite B5, A5, S3. exact HC. }
  split; [exact IN|]. split; [|split; [|left; auto]].
  - intros j. destruct (Nat.eq_dec j 0) as [->|D]; [rewrite B6, A6; apply SV|]. rewrite B3, A3 by assumption. apply SV.
  - intros j Hj. rewrite IN in Hj. rewrite cnt_in, cnt_cons, !cnt_app in Hj. assert (D : j <> 0) by (intros ->; rewrite e1_refl in Hj; lia).
    rewrite B3, A3 by assumption. apply bypass_out; [assumption| |]; rewrite cnt_in, ?IX, ?cnt_idx; lia.
Qed.

Lemma was_left2 h k c l z r : hz h k (T c l z r) ->
  exists q, parent_of (Some 0) k = Some q /\ (k <> [] -> ptr_eqb (c_left V (h q)) (Some z) = is_left k).
Proof.
  intros [P C L N]. destruct k as [|f k]; [exists 0; split; [reflexivity|congruence]|].
  destruct (was_left h (f :: k) z (T c l z r)) as (q & Q1 & Q2); [exact N|reflexivity|exact C|discriminate|].
  exists q. split; [exact Q1|intros _; exact Q2].
Qed.
Lemma set_child_nil p b b' : set_child V p (Some 0) b = set_child V p (Some 0) b'.
Proof. reflexivity. Qed.

Ltac cells :=
  repeat match goal with |- context [ptr_eqb ?a ?b] => destruct (ptr_eqb_spec a b) end; try reflexivity; try congruence.

Lemma two_children_hz h k c l z kr cy y x :
  hz h k (T c l z (plug kr (T cy E y x))) -> all_left kr -> l <> E ->
  let K1 := kr ++ FR c l z :: k in
  let hC := replace_node (bypass h K1 x) k l (plug kr x) y in
  hz hC (kr ++ FR cy l y :: k) x /\ same h hC /\ (forall j, ~ In j (0 :: y :: inorder (plug K1 x)) -> hC j = h j).
Proof.
  intros Z AL LE K1 hC.
  assert (Zy : hz h K1 (T cy E y x)) by (apply (hz_move _ _ Z); unfold K1; rewrite plug_app; reflexivity).
  destruct Zy as [P C L N]. cbn [linked] in L. destruct L as (L1 & L2 & L3 & L4 & _ & LX).
  assert (NX : nd (0 :: inorder x ++ idx K1)) by rend N.
  pose proof (bypass_ok h K1 _ x _ P C LX NX) as Z1.
  pose proof (bypass_same h K1 x NX) as SM1.
  set (hB := bypass h K1 x) in *.
  assert (Y0 : y <> 0) by (apply not_eq_sym; nsolve).
  assert (YB : hB y = h y) by (apply bypass_out; [exact Y0|nsolve|nsolve]).
  assert (Z2 : hz hB k (T c l z (plug kr x))) by (apply (hz_move _ _ Z1); unfold K1; rewrite plug_app; reflexivity).
  assert (YN : ~ In y (inorder (T c l z (plug kr x)) ++ idx k)).
  { intros I1. apply cnt_in in I1. pose proof (N y) as N1. unfold K1 in N1. rewrite idx_app in N1. scntH N1. scntH I1. rewrite inorder_plug in I1. scntH I1. rewrite (cnt_idx y kr) in N1. lia. }
  pose proof (replace_ok hB k c l z (plug kr x) y Z2 Y0 YN) as Z3. rewrite YB, L4 in Z3.
  split; [apply (hz_move _ _ Z3); rewrite plug_app; reflexivity|].
  assert (N2 : nd (0 :: inorder (T c l z (plug kr x)) ++ idx k)) by (destruct Z2 as [_ _ _ N2]; exact N2).
  split.
  - eapply same_trans; [exact SM1|]. unfold hC, replace_node.
    assert (NK : nd (0 :: idx k)) by rend N2.
    eapply same_trans; [|apply same_relink; exact NK].
    eapply same_trans; [|apply same_upd; [exact Y0|]].
    + eapply same_trans; apply same_reparent; nsolve.
    + cbn. rewrite !reparent_out; [reflexivity| |]; intros I1; apply YN; rewrite in_app_iff; left; cbn [inorder]; rewrite in_app_iff; cbn [In]; auto.
  - intros j Hj. rewrite cnt_in in Hj. unfold K1 in Hj. rewrite plug_app in Hj. cbn [plug fplug] in Hj. rewrite inorder_plug in Hj. scntH Hj.
    assert (D1 : j <> 0) by (intros ->; rewrite e1_refl in Hj; lia). assert (D2 : j <> y) by (intros ->; rewrite e1_refl in Hj; lia).
    unfold hC, replace_node. rewrite relink_out; [|exact D1|rewrite cnt_in, cnt_idx; lia]. rewrite upd_ne by exact D2.
    rewrite !reparent_out; [|rewrite cnt_in; lia|rewrite cnt_in; lia].
    apply bypass_out; [exact D1| |]; rewrite cnt_in; rewrite inorder_plug in Hj; scntH Hj; [lia|].
    unfold K1. rewrite idx_app. cbn [idx fidx fsib]. rewrite cnt_app, cnt_cons, cnt_app, !cnt_idx. lia.
Qed.

(** The run in the case of two children. *)
Lemma two_children_run h k c l z kr cy y x :
  let r := plug kr (T cy E y x) in let K1 := kr ++ FR c l z :: k in let K := kr ++ FR cy l y :: k in
  let hC := replace_node (bypass h K1 x) k l (plug kr x) y in
  hz h k (T c l z r) -> all_left kr -> l <> E ->
  exists h', (forall j, j <> z -> h' j = hC j) /\ h' z = h z /\
    bind V (set_parent V (root l) (Some y)) (fun _ =>
       bind V (set_left V (Some y) (root l)) (fun _ =>
       bind V (if negb (ptr_eqb (Some y) (root r)) then
                bind V (set_right V (Some y) (root r)) (fun _ =>
                bind V (set_parent V (root r) (Some y)) (fun _ =>
                bind V (get_parent V (Some y)) (fun x_parent =>
                bind V (get_left V x_parent) (fun xpl =>
                bind V (assert V (ptr_eqb xpl (Some y))) (fun _ =>
                bind V (if is_nil (root x) then ret V tt else set_parent V (root x) x_parent) (fun _ =>
                bind V (set_left V x_parent (root x)) (fun _ =>
                ret V x_parent)))))))
              else ret V (Some y)) (fun xp =>
       bind V (set_parent V (Some y) (parent_of (Some 0) k)) (fun _ =>
       bind V (set_child V (Some y) (parent_of (Some 0) k) (is_left k)) (fun _ =>
       ret V xp))))) h = Some (parent_of (Some 0) K, h').
Proof.
  intros r K1 K hC Z AL LE.
  assert (Zy : hz h K1 (T cy E y x)) by (apply (hz_move _ _ Z); unfold K1, r; rewrite plug_app; reflexivity).
  pose proof Zy as [P C L N]. cbn [linked root] in L. destruct L as (L1 & L2 & L3 & L4 & _ & LX).
  unfold K1 in N. rewrite idx_app in N. cbn [idx fidx fsib] in N.
  assert (NK : nd (0 :: idx k)) by (clear - N; rend N).
  destruct l as [|cl ll li lr]; [congruence|]. clear LE. set (l := T cl ll li lr) in *.
  assert (IL : In li (inorder l)) by (apply root_in; reflexivity).
  assert (PK : exists q, parent_of (Some 0) k = Some q /\ In q (0 :: idx k)).
  { destruct k as [|f k]; [exists 0|exists (fidx f)]; (split; [reflexivity|]); [left; reflexivity|right; left; reflexivity]. }
  destruct PK as (q & PK & IQ).
  assert (NS : forall a A B, nd (A ++ B) -> In a A -> In a B -> False).
  { clear. intros a A B N0 IA IB. apply cnt_in in IA, IB. pose proof (N0 a) as N1. rewrite cnt_app in N1. lia. }
  assert (YL : y <> li) by (intros <-; apply cnt_in in IL; pose proof (N y) as N1; scntH N1; clear - N1 IL; lia).
  assert (ZY : z <> y) by (clear - N; intros ->; pose proof (N y) as N1; scntH N1; lia).
  assert (ZL : z <> li) by (intros <-; apply cnt_in in IL; pose proof (N z) as N1; scntH N1; clear - N1 IL; lia).
  assert (YQ : y <> q).
  { intros <-. apply cnt_in in IQ. pose proof (N y) as N1. scntH N1. rewrite cnt_cons in IQ. clear - N1 IQ. lia. }
  assert (LQ : li <> q).
  { intros <-. apply cnt_in in IQ. apply cnt_in in IL. pose proof (N li) as N1. scntH N1. rewrite cnt_cons in IQ. clear - N1 IQ IL. lia. }
  assert (ZQ : z <> q).
  { intros <-. apply cnt_in in IQ. pose proof (N z) as N1. scntH N1. rewrite cnt_cons in IQ. clear - N1 IQ. lia. }
  assert (XD : forall xi, root x = Some xi -> xi <> y /\ xi <> li /\ xi <> q /\ xi <> z).
  { intros xi Q. apply root_in, cnt_in in Q. apply cnt_in in IL, IQ. rewrite cnt_cons in IQ.
    repeat split; intros ->; match goal with H : 0 < cnt ?a (inorder x) |- _ => pose proof (N a) as N1; scntH N1; clear - N1 H IL IQ; lia end. }
  destruct kr as [|f kr].
  - (* y is the right child *)
    cbn [app] in *. subst K K1. cbn [plug] in *. unfold r. cbn [root negb]. rewrite ptr_eqb_refl. cbn [negb].
    set (h1 := reparent h l (Some y)). set (h2 := upd V h1 y (wleft (Some li) (h1 y))).
    set (h3 := upd V h2 y (wpar (parent_of (Some 0) k) (h2 y))). set (h4 := relink h3 k (Some y)).
    exists h4. split; [|split].
    + intros j JZ. unfold hC, h4, h3, h2, h1, replace_node, bypass. rewrite ?relink_at, ?reparent_at.
      assert (EY : forall (g : heap) i (c : cell V) j, upd V g i c j = if ptr_eqb (Some i) (Some j) then c else g j).
      { intros. unfold upd. cbn. rewrite Nat.eqb_sym. reflexivity. }
      rewrite ?upd_at. rewrite ?reparent_at. rewrite ?(EY _ y). rewrite ?reparent_at. cbn [parent_of fidx root l app wchild]. rewrite PK.
      rewrite ?relink_at. cbn [parent_of fidx wchild app]. rewrite ?reparent_at.
      rewrite (ptr_eqb_ne (Some z) (Some j)) by congruence.
      destruct (ptr_eqb_spec (Some y) (Some j)) as [[= <-]|Dy].
      * rewrite ?(ptr_eqb_ne (Some q) (Some y)), ?(ptr_eqb_ne (Some li) (Some y)), ?(ptr_eqb_ne (Some z) (Some y)), ?(ptr_eqb_ne (root x) (Some y)) by (try congruence; intros Q; destruct (XD _ Q); congruence).
        unfold wpar, wleft. cbn. rewrite L3. reflexivity.
      * destruct (ptr_eqb_spec (root x) (Some j)) as [Qx|Qx].
        -- destruct (XD _ Qx) as (D1 & D2 & D3 & D4).
           rewrite ?(ptr_eqb_ne (Some q) (Some j)), ?(ptr_eqb_ne (Some li) (Some j)) by congruence.
           assert (PX : c_par V (h j) = Some y) by (destruct x; [discriminate|]; cbn in Qx; injection Qx as ->; cbn in LX; tauto).
           unfold wpar. cbn. rewrite <- PX. destruct (h j); reflexivity.
        -- cells.
    + unfold h4, h3, h2, h1. rewrite relink_at, PK. rewrite (ptr_eqb_ne (Some q) (Some z)) by congruence. rewrite !upd_ne by assumption.
      rewrite reparent_at. cbn [root l]. rewrite (ptr_eqb_ne (Some li) (Some z)) by congruence. reflexivity.
    + unfold bind. cbn [root l]. unfold set_parent at 1, put at 1. fold (wpar (Some y) (h li)).
      change (upd V h li (wpar (Some y) (h li))) with h1. unfold set_left at 1, put at 1.
      change (upd V h1 y _) with h2. unfold ret at 1. unfold set_parent at 1, put at 1. change (upd V h2 y _) with h3.
      rewrite (relink_run _ k _ NK). reflexivity.
  - inversion AL as [|? ? Hf AL']; subst. destruct f as [cf xp s|]; [|contradiction]. clear Hf.
    destruct (root_of_in (FL cf xp s :: kr)) as (ri & IR & QR); [discriminate|].
    assert (RR : root r = Some ri) by (unfold r; rewrite root_plug; apply QR).
    assert (RX : root (plug (FL cf xp s :: kr) x) = Some ri) by (rewrite root_plug; apply QR).
    assert (CX : c_left V (h xp) = Some y /\ c_par V (h y) = Some xp).
    { unfold K1 in C. cbn [app ctx_ok fidx] in C. split; [tauto|]. rewrite L1. reflexivity. }
    destruct CX as (CX & CY).
    assert (IXP : In xp (idx (FL cf xp s :: kr))) by (left; reflexivity).
    apply cnt_in in IR, IXP. set (M := idx (FL cf xp s :: kr)) in *.
    assert (XP : xp <> y /\ xp <> li /\ xp <> q /\ xp <> z /\ ri <> y /\ ri <> li /\ ri <> q /\ ri <> z).
    { pose proof IL as IL1. pose proof IQ as IQ1. apply cnt_in in IL1, IQ1. rewrite cnt_cons in IQ1.
      assert (G : forall a, 0 < cnt a M -> a <> y /\ a <> li /\ a <> q /\ a <> z).
      { intros a IA. repeat split; intros ->; match goal with H : 0 < cnt ?b M |- _ => pose proof (N b) as N1; scntH N1; clear - N1 H IL1 IQ1; lia end. }
      destruct (G xp IXP) as (? & ? & ? & ?). destruct (G ri IR) as (? & ? & ? & ?). repeat split; assumption. }
    destruct XP as (X1 & X2 & X3 & X4 & X5 & X6 & X7 & X8).
    assert (XE : forall xi, root x = Some xi -> xi <> xp /\ xi <> ri).
    { intros xi Q. apply root_in, cnt_in in Q. split; intros ->; [pose proof (N xp) as N1; clear - N1 Q IXP|pose proof (N ri) as N1; clear - N1 Q IR]; scntH N1; lia. }
    rewrite RR. rewrite ptr_eqb_ne by congruence. cbn [negb].
    set (h1 := reparent h l (Some y)). set (h2 := upd V h1 y (wleft (Some li) (h1 y))).
    set (h3 := upd V h2 y (wright (Some ri) (h2 y))). set (h4 := upd V h3 ri (wpar (Some y) (h3 ri))).
    set (h5 := reparent h4 x (Some xp)). set (h6 := upd V h5 xp (wleft (root x) (h5 xp))).
    set (h7 := upd V h6 y (wpar (parent_of (Some 0) k) (h6 y))). set (h8 := relink h7 k (Some y)).
    assert (EY : forall (g : heap) i (c : cell V) j, upd V g i c j = if ptr_eqb (Some i) (Some j) then c else g j).
    { intros. unfold upd. cbn. rewrite Nat.eqb_sym. reflexivity. }
    exists h8. split; [|split].
    + assert (E1 : forall j, h1 j = if ptr_eqb (Some li) (Some j) then wpar (Some y) (h j) else h j) by (intros; apply (reparent_at h l)).
      assert (E2 : forall j, h2 j = if ptr_eqb (Some y) (Some j) then wleft (Some li) (h1 j) else h1 j) by (intros; apply upd_at).
      assert (E3 : forall j, h3 j = if ptr_eqb (Some y) (Some j) then wright (Some ri) (h2 j) else h2 j) by (intros; apply upd_at).
      assert (E4 : forall j, h4 j = if ptr_eqb (Some ri) (Some j) then wpar (Some y) (h3 j) else h3 j) by (intros; apply upd_at).
      assert (E5 : forall j, h5 j = if ptr_eqb (root x) (Some j) then wpar (Some xp) (h4 j) else h4 j) by (intros; apply reparent_at).
      assert (E6 : forall j, h6 j = if ptr_eqb (Some xp) (Some j) then wleft (root x) (h5 j) else h5 j) by (intros; apply upd_at).
      assert (E7 : forall j, h7 j = if ptr_eqb (Some y) (Some j) then wpar (Some q) (h6 j) else h6 j) by (intros; unfold h7; rewrite PK; apply upd_at).
      assert (E8 : forall j, h8 j = if ptr_eqb (Some q) (Some j) then wchild k (Some y) (h7 j) else h7 j) by (intros; unfold h8; rewrite <- PK; apply relink_at).
      intros j JZ. rewrite E8, E7, E6, E5, E4, E3, E2, E1.
      unfold hC, replace_node, bypass, K1.
      rewrite relink_at, (EY _ y), reparent_at, RX, reparent_at. cbn [root l].
      assert (EB : forall j, relink (reparent h x (parent_of (Some 0) ((FL cf xp s :: kr) ++ FR c l z :: k))) ((FL cf xp s :: kr) ++ FR c l z :: k) (root x) j =
         if ptr_eqb (Some xp) (Some j) then wleft (root x) (if ptr_eqb (root x) (Some j) then wpar (Some xp) (h j) else h j) else if ptr_eqb (root x) (Some j) then wpar (Some xp) (h j) else h j).
      { intros j0. rewrite relink_at, reparent_at. reflexivity. }
      rewrite !EB, PK. clear EB E1 E2 E3 E4 E5 E6 E7 E8.
      destruct (ptr_eqb_spec (Some y) (Some j)) as [[= <-]|Dy].
      * rewrite ?(ptr_eqb_ne (Some q) (Some y)), ?(ptr_eqb_ne (Some li) (Some y)), ?(ptr_eqb_ne (Some xp) (Some y)), ?(ptr_eqb_ne (Some ri) (Some y)), ?(ptr_eqb_ne (root x) (Some y)) by (try congruence; intros Q; destruct (XD _ Q); congruence).
        rewrite ?RX. cbn. rewrite ?PK. reflexivity.
      * destruct (ptr_eqb_spec (root x) (Some j)) as [Qx|Qx].
        -- destruct (XD _ Qx) as (D1 & D2 & D3 & D4). destruct (XE _ Qx) as (D5 & D6).
           rewrite ?(ptr_eqb_ne (Some q) (Some j)), ?(ptr_eqb_ne (Some li) (Some j)), ?(ptr_eqb_ne (Some xp) (Some j)), ?(ptr_eqb_ne (Some ri) (Some j)) by congruence. reflexivity.
        -- cells.
    + unfold h8. rewrite relink_at, PK. rewrite (ptr_eqb_ne (Some q) (Some z)) by congruence.
      unfold h7, h6. rewrite !upd_ne by auto. unfold h5. rewrite reparent_at.
      rewrite (ptr_eqb_ne (root x) (Some z)) by (intros Q; destruct (XD _ Q) as (_ & _ & _ & Q1); congruence).
      unfold h4, h3, h2. rewrite !upd_ne by auto. unfold h1. rewrite reparent_at. cbn [root l].
      rewrite (ptr_eqb_ne (Some li) (Some z)) by congruence. reflexivity.
    + assert (H4y : c_par V (h4 y) = Some xp).
      { unfold h4, h3, h2, h1. rewrite upd_ne by auto. rewrite upd_eq. cbn [c_par wright]. rewrite upd_eq. cbn [c_par wleft]. rewrite reparent_at. cbn [root l].
        rewrite (ptr_eqb_ne (Some li) (Some y)) by congruence. exact CY. }
      assert (H4x : c_left V (h4 xp) = Some y).
      { unfold h4. rewrite upd_at. unfold h3, h2, h1. rewrite !(upd_ne _ y xp) by auto. rewrite reparent_at. cbn [root l].
        rewrite (ptr_eqb_ne (Some li) (Some xp)) by congruence. destruct (ptr_eqb (Some ri) (Some xp)); exact CX. }
      assert (S1 : set_parent V (root l) (Some y) h = Some (tt, h1)) by reflexivity.
      assert (S2 : set_left V (Some y) (root l) h1 = Some (tt, h2)) by reflexivity.
      assert (S3 : set_right V (Some y) (Some ri) h2 = Some (tt, h3)) by reflexivity.
      assert (S4 : set_parent V (Some ri) (Some y) h3 = Some (tt, h4)) by reflexivity.
      assert (S5 : get_parent V (Some y) h4 = Some (Some xp, h4)) by (unfold get_parent, get; rewrite H4y; reflexivity).
      assert (S6 : get_left V (Some xp) h4 = Some (Some y, h4)) by (unfold get_left, get; rewrite H4x; reflexivity).
      pose proof (reparent_run h4 x _ (Some xp) eq_refl) as S9. fold h5 in S9.
      assert (S7 : set_left V (Some xp) (root x) h5 = Some (tt, h6)) by reflexivity.
      assert (S8 : set_parent V (Some y) (parent_of (Some 0) k) h6 = Some (tt, h7)) by reflexivity.
      pose proof (relink_run h7 k (Some y) NK) as S10. fold h8 in S10.
      clearbody h8 h7 h6 h5 h4 h3 h2 h1. clear - S1 S2 S3 S4 S5 S6 S7 S8 S9 S10.
      rewrite (bind_eq S1), (bind_eq S2).
      rewrite !bind_assoc, (bind_eq S3), !bind_assoc, (bind_eq S4), !bind_assoc, (bind_eq S5), !bind_assoc, (bind_eq S6), !bind_assoc, ptr_eqb_refl.
      cbn [assert]. unfold ret at 1. rewrite (bind_eq eq_refl). rewrite !bind_assoc.
      rewrite (bind_eq S9).
      rewrite !bind_assoc, (bind_eq S7). unfold ret at 1. rewrite (bind_eq eq_refl).
      rewrite (bind_eq S8), (bind_eq S10). reflexivity.
Qed.

Lemma bind_ext {A B} (m : M V A) (f g : A -> M V B) h : (forall a h1, f a h1 = g a h1) -> bind V m f h = bind V m g h.
Proof. intros H. unfold bind. destruct (m h) as [[a h1]|]; [apply H|reflexivity]. Qed.
Lemma check_x h K x : hz h K x ->
  (if is_nil (root x) then ret V tt else bind V (get_parent V (root x)) (fun xp => assert V (ptr_eqb xp (parent_of (Some 0) K)))) h = Some (tt, h).
Proof.
  intros Z. destruct x as [|c l i r]; [reflexivity|]. cbn [root is_nil]. rewrite (bind_eq (rd_par Z)), ptr_eqb_refl. reflexivity.
Qed.

Lemma bst_erase_ok fuel h k c l z r : hz h k (T c l z r) -> hdr h (inorder (plug k (T c l z r))) ->
  length (inorder (plug k (T c l z r))) < fuel ->
  exists h' K x y, bst_erase V fuel (Some z) h = Some (root x, parent_of (Some 0) K, Some y, h') /\ unlinked h k l z r h' K x y.
Proof.
  intros Z H F. unfold bst_erase. rewrite (bind_eq (rd_left Z)), (bind_eq (rd_right Z)).
  destruct (was_left2 _ _ _ _ _ _ Z) as (q & PK & WL).
  assert (GP : get_left V (parent_of (Some 0) k) h = Some (c_left V (h q), h)) by (rewrite PK; reflexivity).
  assert (SC : forall p, set_child V p (parent_of (Some 0) k) (ptr_eqb (c_left V (h q)) (Some z)) = set_child V p (parent_of (Some 0) k) (is_left k)).
  { intros p. destruct k as [|f k]; [reflexivity|]. rewrite WL by discriminate. reflexivity. }
  assert (ONE : forall x, (l = E \/ r = E) -> x = match l with E => r | _ => l end ->
    exists h' K x0 y, bind V (get_parent V (Some z)) (fun z_parent =>
      bind V (get_left V z_parent) (fun zpl =>
      bind V (bind V (if is_nil (root x) then ret V tt else set_parent V (root x) z_parent) (fun _ =>
       bind V (set_child V (root x) z_parent (ptr_eqb zpl (Some z))) (fun _ =>
       bind V (get_left V header) (fun hl =>
       bind V (if ptr_eqb hl (Some z) then
          bind V (assert V (is_nil (root l))) (fun _ =>
          bind V (if is_nil (root r) then ret V z_parent else minimum V fuel (root r)) (fun m => set_left V header m))
        else ret V tt) (fun _ =>
       bind V (get_right V header) (fun hr =>
       bind V (if ptr_eqb hr (Some z) then
          bind V (assert V (is_nil (root r))) (fun _ =>
          bind V (if is_nil (root l) then ret V z_parent else maximum V fuel (root l)) (fun m => set_right V header m))
        else ret V tt) (fun _ =>
       ret V z_parent))))))) (fun x_parent =>
      bind V (if is_nil (root x) then ret V tt else bind V (get_parent V (root x)) (fun xp => assert V (ptr_eqb xp x_parent))) (fun _ =>
      ret V (root x, x_parent, Some z))))) h = Some (root x0, parent_of (Some 0) K, Some y, h') /\ unlinked h k l z r h' K x0 y).
  { intros x LR X. destruct (one_child fuel h k c l z r x Z H F LR X) as (h' & R & U).
    exists h', k, x, z. split; [|exact U]. rewrite (bind_eq (rd_par Z)), (bind_eq GP), SC.
    assert (R' : bind V (if is_nil (root x) then ret V tt else set_parent V (root x) (parent_of (Some 0) k)) (fun _ =>
       bind V (set_child V (root x) (parent_of (Some 0) k) (is_left k)) (fun _ =>
       bind V (get_left V header) (fun hl =>
       bind V (if ptr_eqb hl (Some z) then
          bind V (assert V (is_nil (root l))) (fun _ =>
          bind V (if is_nil (root r) then ret V (parent_of (Some 0) k) else minimum V fuel (root r)) (fun m => set_left V header m))
        else ret V tt) (fun _ =>
       bind V (get_right V header) (fun hr =>
       bind V (if ptr_eqb hr (Some z) then
          bind V (assert V (is_nil (root r))) (fun _ =>
          bind V (if is_nil (root l) then ret V (parent_of (Some 0) k) else maximum V fuel (root l)) (fun m => set_right V header m))
        else ret V tt) (fun _ =>
       ret V (parent_of (Some 0) k))))))) h = Some (parent_of (Some 0) k, h')).
    { rewrite <- R. apply bind_ext. intros u1 g1. apply bind_ext. intros u2 g2. unfold fix_left, fix_right. rewrite bind_assoc.
      apply bind_ext. intros hl g3. apply bind_ext. intros u3 g4. rewrite bind_assoc. reflexivity. }
    rewrite (bind_eq R'). rewrite (bind_eq (check_x h' k x (proj1 U))). reflexivity. }
  destruct l as [|cl ll li lr].
  - cbn [root is_nil]. unfold ret at 1. rewrite (bind_eq eq_refl). cbv beta iota. rewrite ptr_eqb_refl. cbn [negb].
    apply (ONE r); [left; reflexivity|reflexivity].
  - destruct r as [|cr rl ri rr].
    + cbn [root is_nil]. unfold ret at 1. rewrite (bind_eq eq_refl). cbv beta iota. rewrite ptr_eqb_refl. cbn [negb].
      apply (ONE (T cl ll li lr)); [right; reflexivity|reflexivity].
    + clear ONE. set (l := T cl ll li lr) in *. set (r := T cr rl ri rr) in *. cbn [is_nil root l r].
      assert (Zr : hz h (FR c l z :: k) r) by (apply (hz_move _ _ Z); reflexivity).
      assert (Fr : height r <= fuel).
      { pose proof (height_inorder r). rewrite inorder_plug in F. cbn [inorder] in F. rewrite !app_length in F. cbn [length] in F. fold r in F. lia. }
      destruct (min_split fuel h _ r Zr ltac:(discriminate) Fr) as (kr & cy & y & x & QR & AL & RM).
      assert (Zy : hz h (kr ++ FR c l z :: k) (T cy E y x)) by (apply (hz_move _ _ Z); rewrite plug_app; cbn [plug fplug]; rewrite <- QR; reflexivity).
      assert (RM' : bind V (minimum V fuel (Some ri)) (fun y => bind V (get_right V y) (fun x => ret V (y, x))) h = Some ((Some y, root x), h)).
      { change (Some ri) with (root r). rewrite (bind_eq RM), (bind_eq (rd_right Zy)). reflexivity. }
      rewrite (bind_eq RM'). cbv beta iota. rewrite (bind_eq (rd_par Z)), (bind_eq GP).
      assert (YZ : y <> z).
      { destruct Zy as [_ _ _ N]. rewrite idx_app in N. clear - N. intros ->. pose proof (N z) as N1. scntH N1. lia. }
      rewrite (ptr_eqb_ne (Some y) (Some z)) by congruence. cbn [negb]. rewrite SC.
      assert (Z' : hz h k (T c l z (plug kr (T cy E y x)))) by (rewrite <- QR; exact Z).
      destruct (two_children_run h k c l z kr cy y x Z' AL ltac:(discriminate)) as (h' & O & OZ & R).
      rewrite <- QR in R. cbn [root l r] in R.
      destruct (two_children_hz h k c l z kr cy y x Z' AL ltac:(discriminate)) as (Z2 & (S1 & S2 & S3 & SV) & FR0).
      set (hC := replace_node (bypass h (kr ++ FR c l z :: k) x) k l (plug kr x) y) in *.
      set (K := kr ++ FR cy l y :: k) in *.
      assert (IN : inorder (plug K x) = lo k ++ inorder l ++ inorder r ++ hi k).
      { unfold K. rewrite plug_app. cbn [plug fplug]. rewrite !inorder_plug, QR. cbn [inorder]. rewrite !inorder_plug, (all_left_lo _ AL). cbn [app inorder].
        repeat (rewrite <- ?app_assoc; cbn [app]). reflexivity. }
      assert (NZ : z <> 0) by exact (rd_nz Z).
      assert (ZN : ~ In z (inorder (plug K x))).
      { intros I1. destruct Z as [_ _ _ N]. apply cnt_in in I1. rewrite IN, !cnt_app in I1. pose proof (N z) as N1. cbn [inorder] in N1. rewrite cnt_cons, !cnt_app, cnt_cons, e1_refl, cnt_idx in N1. lia. }
      assert (Z3 : hz h' K x).
      { eapply hz_ext; [exact Z2|rewrite O by auto; reflexivity|]. intros j Hj. apply O. intros ->. apply ZN.
        rewrite cnt_in in Hj |- *. rewrite cnt_app, cnt_idx in Hj. rewrite inorder_plug, !cnt_app. lia. }
      exists h', K, x, y. split.
      { rewrite (bind_eq R). rewrite (bind_eq (check_x h' K x Z3)). reflexivity. }
      unfold unlinked. split; [exact Z3|]. split.
      { rewrite inorder_plug in H. cbn [inorder] in H. repeat (rewrite <- ?app_assoc in H; cbn [app] in H). destruct H as (HL & HR & HC).
        assert (NEL : inorder l <> []) by (cbn; destruct (inorder ll); discriminate).
        assert (NER : inorder r <> []) by (cbn; destruct (inorder rl); discriminate).
        unfold hdr. rewrite !O by auto. rewrite S1, S2, S3, HL, HR, IN. split; [|split; [|exact HC]]; f_equal.
        - destruct (lo k); [|reflexivity]. cbn [app]. rewrite (hd_app 0 (inorder l)), (hd_app 0 (inorder l)) by exact NEL. reflexivity.
        - rewrite last_mid. rewrite last_cons by (destruct (inorder r); [congruence|discriminate]).
          rewrite (app_assoc (lo k)), (last_app 0 (lo k ++ inorder l)) by (destruct (inorder r); [congruence|discriminate]). reflexivity. }
      split; [exact IN|]. split; [|split; [|right; split; [exact YZ|exists kr, cy; auto]]].
      * intros j. destruct (Nat.eq_dec j z) as [->|D]; [rewrite OZ; reflexivity|rewrite O by exact D; apply SV].
      * intros j Hj. destruct (Nat.eq_dec j z) as [->|D]; [exact OZ|]. rewrite O by exact D. apply FR0.
        rewrite IN, QR, inorder_plug in Hj. rewrite plug_app. cbn [plug fplug]. rewrite inorder_plug. cbn [inorder]. rewrite inorder_plug.
        rewrite cnt_in in *. scntH Hj. rewrite !cnt_cons, !cnt_app, !cnt_cons, !cnt_app. rewrite (e1_ne j z D). lia.
Qed.

Lemma ctx_rb_swap a c l z y k : forall n, ctx_rb (a ++ FR c l z :: k) n -> ctx_rb (a ++ FR c l y :: k) n.
Proof.
  induction a as [|f a IH]; intros n; [exact (fun x => x)|]. cbn [app ctx_rb]. intros (A & B). split; [exact A|].
  destruct (fred f); [|apply IH; exact B]. destruct B as (B1 & B2 & B3). split; [exact B1|]. split; [apply IH; exact B2|].
  destruct a; exact B3.
Qed.
Lemma fits_swap a c l z y k t : fits (a ++ FR c l z :: k) t -> fits (a ++ FR c l y :: k) t.
Proof. destruct a; exact (fun x => x). Qed.

Lemma rb_lacking t n : rb t n -> lacking t n.
Proof. destruct t as [|[] ? ? ?]; cbn; tauto. Qed.

Lemma erase_ok fuel h t l1 z l2 : stores h t -> red_black t -> inorder t = l1 ++ z :: l2 -> length (inorder t) < fuel ->
  exists h' t', erase V fuel (Some z) h = Some (Some (hd 0 l2), h') /\ stores h' t' /\ red_black t' /\
    inorder t' = l1 ++ l2 /\ same_values h h' /\ (forall x, ~ In x (0 :: inorder t') -> h' x = h x).
Proof.
  intros S (BT & m & RT) Q F. pose proof (next_list fuel h t l1 z l2 S Q F) as NX.
  destruct (split_node t z l1 l2 (stores_nodup _ _ S) Q) as (k & c & l & r & QT & Q1 & Q2).
  apply stores_hz in S as (Z0 & H). rewrite QT in *.
  assert (Z : hz h k (T c l z r)) by (apply (hz_move _ _ Z0); reflexivity).
  destruct (bst_erase_ok fuel h k c l z r Z H F) as (h1 & K & x & y & R & (Z1 & H1 & IN & SV & FR0 & CS)).
  unfold erase. rewrite (bind_eq NX), (bind_eq R). cbv beta iota.
  assert (IL : inorder (plug K x) = l1 ++ l2) by (rewrite IN, Q1, Q2, <- !app_assoc; reflexivity).
  assert (NZ : z <> 0) by exact (rd_nz Z).
  assert (ZN : ~ In z (0 :: inorder (plug K x))).
  { intros I1. destruct Z as [_ _ _ N]. apply cnt_in in I1. rewrite cnt_cons, (e1_ne z 0 NZ), IN, !cnt_app in I1. pose proof (N z) as N1. cbn [inorder] in N1. rewrite cnt_cons, !cnt_app, cnt_cons, e1_refl, cnt_idx in N1. lia. }
  assert (CZ : get_red V (Some z) h1 = Some (c, h1)).
  { unfold get_red, get. rewrite FR0 by exact ZN. destruct Z as [_ _ (_ & _ & _ & -> & _) _]. reflexivity. }
  assert (LEN : length K < fuel).
  { pose proof (len_plug K x) as LP. rewrite IL in LP. rewrite Q in F. rewrite !app_length in *. cbn [length] in *. lia. }
  assert (W : exists h' t', rebalance_after_erasure V fuel (Some z) (root x) (parent_of (Some 0) K) (Some y) h1 = Some (tt, h') /\
    hz h' [] t' /\ inorder t' = l1 ++ l2 /\ red_black t' /\ keeps (l1 ++ l2) h1 h').
  { unfold rebalance_after_erasure. rewrite (bind_eq CZ). rewrite <- IL.
    destruct (unplug_rb k (T c l z r) m RT) as (n & RZ & CK & FK); [intros _; exact BT|].
    destruct CS as [(-> & -> & LR & X)|(YZ & kr & cy & -> & QR)].
    - rewrite ptr_eqb_refl. cbn [negb]. unfold ret at 1. rewrite (bind_eq eq_refl).
      destruct c.
      + destruct RZ as (R1 & R2 & B1 & B2).
        assert (RX : rb x n /\ black_root x) by (subst x; destruct l; auto). destruct RX as (RX & BX).
        exists h1, (plug k x). split; [reflexivity|]. split; [apply (proj1 (hz_plug _ _ _)); exact Z1|]. split; [reflexivity|]. split; [|apply keeps_refl].
        split; [destruct k as [|f k]; [exact BX|apply plug_black; [discriminate|eauto]]|].
        apply (plug_rb _ _ n RX CK). destruct k; cbn; auto.
      + destruct n as [|n]; [contradiction|]. destruct RZ as (R1 & R2).
        assert (RX : rb x n) by (subst x; destruct l; auto).
        apply (restore_ok fuel h1 k x n Z1); [apply rb_lacking; exact RX|exact CK|exact LEN].
    - rewrite ptr_eqb_ne by congruence. cbn [negb].
      set (K := kr ++ FR cy l y :: k) in *.
      assert (Zy : hz h1 k (T cy l y (plug kr x))) by (apply (hz_move _ _ Z1); unfold K; rewrite plug_app; reflexivity).
      destruct (turn2 (inorder (plug K x)) (set_red_focus _ _ _ _ _ _ c Zy) ltac:(unfold K; rewrite plug_app; reflexivity)) as (h2 & R2 & Z2 & K2).
      assert (Z3 : hz h2 (kr ++ FR c l y :: k) x) by (apply (hz_move _ _ Z2); rewrite plug_app; reflexivity).
      rewrite bind_assoc, (bind_eq (rd_red Zy)), bind_assoc, (bind_eq R2). unfold ret at 1. rewrite (bind_eq eq_refl).
      assert (IO : inorder (plug (kr ++ FR c l y :: k) x) = inorder (plug K x)) by (unfold K; rewrite !plug_app; cbn [plug fplug]; rewrite !inorder_plug; reflexivity).
      assert (PO : parent_of (Some 0) K = parent_of (Some 0) (kr ++ FR c l y :: k)) by (unfold K; destruct kr; reflexivity).
      assert (RP : rb (plug (kr ++ FR c l z :: k) (T cy E y x)) m) by (rewrite plug_app; cbn [plug fplug]; rewrite <- QR; exact RT).
      destruct (unplug_rb _ _ _ RP) as (n' & RY & CY & FY).
      { intros _. rewrite plug_app. cbn [plug fplug]. rewrite <- QR. exact BT. }
      apply (ctx_rb_swap _ _ _ _ y) in CY.
      destruct cy.
      + destruct RY as (R1 & R3 & B1 & B2).
        exists h2, (plug (kr ++ FR c l y :: k) x). split; [reflexivity|]. split; [apply (proj1 (hz_plug _ _ _)); exact Z3|]. split; [exact IO|]. split; [|exact K2].
        split; [apply plug_black; [destruct kr; discriminate|eauto]|].
        apply (plug_rb _ _ n' R3 CY). destruct kr; cbn; auto.
      + destruct n' as [|n']; [contradiction|]. destruct RY as (R1 & R3). rewrite PO.
        destruct (restore_ok fuel h2 _ x n' Z3 (rb_lacking _ _ R3) CY) as (h' & t' & A1 & A2 & A3 & A4 & A5).
        { unfold K in LEN. rewrite app_length in LEN |- *. exact LEN. }
        rewrite IO in A3, A5. exists h', t'. split; [exact A1|]. split; [exact A2|]. split; [exact A3|]. split; [exact A4|]. eapply keeps_trans; eassumption. }
  destruct W as (h' & t' & A1 & A2 & A3 & A4 & A5). exists h', t'. rewrite (bind_eq A1). split; [reflexivity|].
  split; [apply stores_hz; split; [exact A2|]; rewrite A3; eapply hdr_keeps; [exact A5|]; rewrite <- IL; exact H1|].
  split; [exact A4|]. split; [exact A3|]. destruct A5 as ((_ & _ & _ & SV2) & FR2). split.
  - intros i. rewrite SV2. apply SV.
  - intros i Hi. rewrite A3, cnt_in in Hi. rewrite FR2 by lia. apply FR0. rewrite IL, cnt_in. exact Hi.
Qed.
End Erase.
