(** Looking up the elements equivalent to a key: property C66. *)
From Coq Require Import List Bool Arith ZArith Lia.
From Verif Require Import RBModel RBSpec RBHeap RBInsert RBNav RBSearch RBProps.
Import ListNotations.

Section Count.
Context {V : Type}.
Notation heap := (heap V).
Implicit Types h : heap.
Variable comp : V -> V -> bool.
Definition first_of (l : list nat) (y : ptr) : ptr := match l with [] => y | i :: _ => Some i end.
(** Where an element with a known answer is in a list of two parts. *)
Lemma cut_left {P : nat -> Prop} (l r a c : list nat) i : l ++ i :: r = a ++ c -> Forall (fun x => ~ P x) c -> P i -> exists a', a = l ++ i :: a' /\ r = a' ++ c.
Proof.
  intros Q F H. apply app_eq_app in Q as (m & [(-> & ->)|(-> & Q)]).
  - apply Forall_app in F as (_ & F). inversion F; subst. contradiction.
  - destruct m as [|j m]; cbn in Q; [subst c; inversion F; subst; contradiction|]. injection Q as <- ->. exists m. auto.
Qed.
Lemma cut_right {P : nat -> Prop} (l r a c : list nat) i : l ++ i :: r = a ++ c -> Forall (fun x => ~ P x) a -> P i -> exists c', l = a ++ c' /\ c = c' ++ i :: r.
Proof.
  intros Q F H. apply app_eq_app in Q as (m & [(-> & ->)|(-> & Q)]); [exists m; auto|].
  destruct m as [|j m]; cbn in Q; [subst c; exists []; rewrite !app_nil_r; auto|]. injection Q as <- ->. apply Forall_app in F as (_ & F). inversion F; subst. contradiction.
Qed.
Lemma lower_ok key : forall fuel h k t y a c, hz h k t -> height t <= fuel -> inorder t = a ++ c ->
  Forall (fun i => comp (c_val V (h i)) key = true) a -> Forall (fun i => comp (c_val V (h i)) key = false) c ->
  lower_bound_loop V comp fuel (root t) y key h = Some (first_of c y, h).
Proof.
  induction fuel as [|fuel IH]; intros h k t y a c Z F Q A C; destruct t as [|cl l i r]; try (cbn in F; lia).
  1,2: cbn in Q; destruct a; [|discriminate]; cbn in Q; subst c; reflexivity.
  cbn [root lower_bound_loop is_nil]. unfold get_val at 1, get at 1. unfold bind at 1. cbn [inorder height] in *. destruct (comp (c_val V (h i)) key) eqn:E.
  - rewrite (bind_eq (rd_right Z)). apply (proj1 (hz_right _ _ _ _ _ _)) in Z.
    destruct (cut_left (P := fun x => comp (c_val V (h x)) key = true) _ _ _ _ _ Q) as (a' & -> & Q'); [eapply Forall_impl; [|exact C]; cbn; congruence|exact E|].
    apply Forall_app in A as (_ & A). inversion A; subst. apply (IH h _ r y a' c Z); auto; lia.
  - rewrite (bind_eq (rd_left Z)). apply (proj1 (hz_left _ _ _ _ _ _)) in Z.
    destruct (cut_right (P := fun x => comp (c_val V (h x)) key = false) _ _ _ _ _ Q) as (c' & Q' & ->); [eapply Forall_impl; [|exact A]; cbn; congruence|exact E|].
    apply Forall_app in C as (C & _). rewrite (IH h _ l (Some i) a c' Z); auto; [|lia]. destruct c'; reflexivity.
Qed.
Lemma upper_ok key : forall fuel h k t y a c, hz h k t -> height t <= fuel -> inorder t = a ++ c ->
  Forall (fun i => comp key (c_val V (h i)) = false) a -> Forall (fun i => comp key (c_val V (h i)) = true) c ->
  upper_bound_loop V comp fuel (root t) y key h = Some (first_of c y, h).
Proof.
  induction fuel as [|fuel IH]; intros h k t y a c Z F Q A C; destruct t as [|cl l i r]; try (cbn in F; lia).
  1,2: cbn in Q; destruct a; [|discriminate]; cbn in Q; subst c; reflexivity.
  cbn [root upper_bound_loop is_nil]. unfold get_val at 1, get at 1. unfold bind at 1. cbn [inorder height] in *. destruct (comp key (c_val V (h i))) eqn:E.
  - rewrite (bind_eq (rd_left Z)). apply (proj1 (hz_left _ _ _ _ _ _)) in Z.
    destruct (cut_right (P := fun x => comp key (c_val V (h x)) = true) _ _ _ _ _ Q) as (c' & Q' & ->); [eapply Forall_impl; [|exact A]; cbn; congruence|exact E|].
    apply Forall_app in C as (C & _). rewrite (IH h _ l (Some i) a c' Z); auto; [|lia]. destruct c'; reflexivity.
  - rewrite (bind_eq (rd_right Z)). apply (proj1 (hz_right _ _ _ _ _ _)) in Z.
    destruct (cut_left (P := fun x => comp key (c_val V (h x)) = false) _ _ _ _ _ Q) as (a' & -> & Q'); [eapply Forall_impl; [|exact C]; cbn; congruence|exact E|].
    apply Forall_app in A as (_ & A). inversion A; subst. apply (IH h _ r y a' c Z); auto; lia.
Qed.
Lemma range_ok key : forall fuel h k t y a e b, hz h k t -> height t <= fuel -> inorder t = a ++ e ++ b ->
  Forall (fun i => comp (c_val V (h i)) key = true) a -> Forall (fun i => comp (c_val V (h i)) key = false /\ comp key (c_val V (h i)) = false) e ->
  Forall (fun i => comp (c_val V (h i)) key = false /\ comp key (c_val V (h i)) = true) b ->
  equal_range_loop V comp fuel (root t) y key h = Some ((first_of (e ++ b) y, first_of b y), h).
Proof.
  induction fuel as [|fuel IH]; intros h k t y a e b Z F Q A EE B; destruct t as [|cl l i r]; try (cbn in F; lia).
  1,2: cbn in Q; destruct a; [|discriminate]; destruct e; [|discriminate]; cbn in Q; subst b; reflexivity.
  cbn [root equal_range_loop is_nil]. unfold get_val at 1, get at 1. unfold bind at 1. cbn [inorder height] in *. destruct (comp (c_val V (h i)) key) eqn:E1.
  - rewrite (bind_eq (rd_right Z)). apply (proj1 (hz_right _ _ _ _ _ _)) in Z.
    destruct (cut_left (P := fun x => comp (c_val V (h x)) key = true) _ _ _ _ _ Q) as (a' & -> & Q'); [apply Forall_app; split; [eapply Forall_impl; [|exact EE]|eapply Forall_impl; [|exact B]]; cbn; intros ? (? & ?); congruence|exact E1|].
    apply Forall_app in A as (_ & A). inversion A; subst. apply (IH h _ r y a' e b Z); auto; lia.
  - destruct (comp key (c_val V (h i))) eqn:E2.
    + rewrite (bind_eq (rd_left Z)). apply (proj1 (hz_left _ _ _ _ _ _)) in Z. rewrite app_assoc in Q.
      destruct (cut_right (P := fun x => comp (c_val V (h x)) key = false /\ comp key (c_val V (h x)) = true) _ _ _ _ _ Q) as (c' & Q' & ->); [apply Forall_app; split; [eapply Forall_impl; [|exact A]|eapply Forall_impl; [|exact EE]]; cbn; [intros ? ? (? & ?)|intros ? (? & ?) (? & ?)]; congruence|auto|].
      apply Forall_app in B as (B & _). rewrite <- app_assoc in Q'. rewrite (IH h _ l (Some i) a e c' Z); auto; [|lia]. destruct e, c'; reflexivity.
    + pose proof Z as Z2. apply (proj1 (hz_left _ _ _ _ _ _)) in Z2. rewrite (bind_eq (rd_left Z)). pose proof Q as Q2.
      destruct (cut_right (P := fun x => comp (c_val V (h x)) key = false) _ _ _ _ _ Q) as (c' & Q' & Q3); [eapply Forall_impl; [|exact A]; cbn; congruence|exact E1|].
      assert (EC : exists e', c' = [] ++ c' /\ e = c' ++ i :: e' /\ r = r /\ inorder r = e' ++ b).
      { destruct (cut_left (P := fun x => comp key (c_val V (h x)) = false) c' (inorder r) e b i) as (e' & -> & Q4); [symmetry; exact Q3|eapply Forall_impl; [|exact B]; cbn; intros ? (? & ?); congruence|exact E2|]. exists e'. auto. }
      destruct EC as (e' & _ & -> & _ & QR). apply Forall_app in EE as (EL & ER). inversion ER as [|? ? _ ER']; subst.
      rewrite (bind_eq (lower_ok key fuel h _ l (Some i) a c' Z2 ltac:(lia) Q' A ltac:(eapply Forall_impl; [|exact EL]; cbn; tauto))).
      rewrite (bind_eq (rd_right Z)). pose proof Z as Z3. apply (proj1 (hz_right _ _ _ _ _ _)) in Z3.
      rewrite (bind_eq (upper_ok key fuel h _ r y e' b Z3 ltac:(lia) QR ltac:(eapply Forall_impl; [|exact ER']; cbn; tauto) ltac:(eapply Forall_impl; [|exact B]; cbn; tauto))).
      unfold ret. destruct c'; reflexivity.
Qed.
Lemma count_loop_ok inner h t : stores h t -> length (inorder t) < inner -> forall e l1 b fuel, inorder t = l1 ++ e ++ b -> length e <= fuel ->
  count_loop V fuel inner (Some (hd 0 (e ++ b))) (Some (hd 0 b)) h = Some (length e, h).
Proof.
  intros S F. induction e as [|i e IH]; intros l1 b fuel Q L.
  - cbn [app length]. destruct fuel; cbn [count_loop]; rewrite ptr_eqb_refl; reflexivity.
  - cbn [length] in L. destruct fuel as [|fuel]; [lia|]. cbn [app hd count_loop].
    assert (NE : i <> hd 0 b).
    { destruct S as (_ & _ & _ & _ & _ & N). rewrite Q in N. destruct b as [|j b]; cbn [hd].
      - intros ->. inversion N; subst. apply H1. apply in_app_iff. right. left. reflexivity.
      - intros ->. inversion N; subst.  apply (NoDup_remove_2 (l1 ++ []) ((e ++ j :: b)) j); [rewrite app_nil_r; exact H2|]. apply in_app_iff. right. apply in_app_iff. right. left. reflexivity. }
    rewrite ptr_eqb_ne by congruence. cbn [app] in Q.
    rewrite (bind_eq (next_list inner h t l1 i (e ++ b) S Q F)).
    rewrite (bind_eq (IH (l1 ++ [i]) b fuel ltac:(rewrite <- app_assoc; exact Q) ltac:(lia))). reflexivity.
Qed.
End Count.

(** C66: count gives the number of elements equivalent to a key, and changes nothing,
    whenever the elements before the key come first and those after it last. *)
Theorem C66_count : forall (V : Type) (comp : V -> V -> bool) fuel (h : heap V) a e b key,
  let val i := c_val V (h i) in
  holds h (a ++ e ++ b) -> length (a ++ e ++ b) < fuel ->
  Forall (fun i => comp (val i) key = true) a ->
  Forall (fun i => comp (val i) key = false /\ comp key (val i) = false) e ->
  Forall (fun i => comp (val i) key = false /\ comp key (val i) = true) b ->
  count V comp fuel key h = Some (length e, h).
Proof.
  intros V comp fuel h a e b key val (t & S & RB & Q) F A EE B. unfold count.
  pose proof S as S'. destruct S' as (P & _). unfold get_parent at 1, get at 1. unfold bind at 1. cbn [header]. rewrite P.
  pose proof S as S'. apply stores_hz in S' as (Z & _).
  assert (HT : height t <= fuel) by (pose proof (height_inorder t); rewrite <- Q in F; lia).
  rewrite (bind_eq (range_ok comp key fuel h [] t (Some 0) a e b Z HT Q A EE B)). cbn [fst snd].
  assert (G : forall l, first_of l (Some 0) = Some (hd 0 l)) by (intros []; reflexivity). rewrite !G. apply (count_loop_ok fuel h t S) with (l1 := a); [rewrite Q; exact F|exact Q|].
  rewrite !app_length in F. lia.
Qed.
Print Assumptions C66_count.

(** A set with three equivalent elements among others. *)
Definition count_heap : heap Z := fun i => mk_cell Z None None None false (nth i [0; 4; 7; 4; 9; 2; 4; 6] 0)%Z.
Definition count_fill : M Z unit :=
  bind Z (init_header Z) (fun _ => bind Z (insert_before Z 20 (Some 0) (Some 5)) (fun _ => bind Z (insert_before Z 20 (Some 0) (Some 1)) (fun _ => bind Z (insert_before Z 20 (Some 0) (Some 3)) (fun _ =>
  bind Z (insert_before Z 20 (Some 0) (Some 6)) (fun _ => bind Z (insert_before Z 20 (Some 0) (Some 7)) (fun _ => bind Z (insert_before Z 20 (Some 0) (Some 2)) (fun _ => bind Z (insert_before Z 20 (Some 0) (Some 4)) (fun _ => ret Z tt)))))))).
Example C66_example : match count_fill count_heap with
  | Some (_, h) => count Z Z.ltb 20 4%Z h = Some (3, h) /\ count Z Z.ltb 20 5%Z h = Some (0, h) | None => False end.
Proof. vm_compute. split; reflexivity. Qed.
(** The hypotheses hold for the set of RBProps, compared by thirds. *)
Example C66_meets : exists h, holds h ([8; 5] ++ [2; 7] ++ [4; 9]) /\ count Z (fun a b => a / 3 <? b / 3)%Z 20 4%Z h = Some (2, h).
Proof.
  destruct (C38_operations Z ex_lt 20 ex_heap ex_ops) as (h0 & h' & t & _ & _ & S & R & Q & _ & SV); [vm_compute; lia|exact ex_ops_allowed|].
  exists h'. assert (H : holds h' ([8; 5] ++ [2; 7] ++ [4; 9])) by (exists t; split; [exact S|]; split; [exact R|]; rewrite Q; vm_compute; reflexivity).
  split; [exact H|]. apply (C66_count Z (fun a b => a / 3 <? b / 3)%Z 20 h' [8; 5] [2; 7] [4; 9] 4%Z H); [cbn; lia| | |]; repeat constructor; cbv beta; rewrite SV; vm_compute; reflexivity.
Qed.
