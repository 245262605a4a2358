(** Whether an element is in a set: property C79. *)
From Coq Require Import List Bool Arith ZArith Lia.
From Verif Require Import RBModel RBSpec RBHeap RBNav RBSearch RBErase RBProofs RBProps.
Import ListNotations.

Section Unique.
Context {V : Type}.
Lemma linked_parent (h : heap V) t : forall par, linked h par t -> par <> None -> forall i, In i (inorder t) -> c_par V (h i) <> None.
Proof.
  induction t as [|c l IHl i r IHr]; intros par L P j I; [destruct I|]. cbn [linked inorder] in *. destruct L as (A & _ & _ & _ & L1 & L2).
  apply in_app_iff in I as [I|[<-|I]]; [apply (IHl (Some i)); [exact L1|discriminate|exact I]|congruence|apply (IHr (Some i)); [exact L2|discriminate|exact I]].
Qed.
Lemma stores_frame (h h' : heap V) t : stores h t -> (forall x, In x (0 :: inorder t) -> h' x = h x) -> stores h' t.
Proof.
  intros (A & B & C & D & L & N) F. unfold stores. rewrite (F 0) by (left; reflexivity). repeat (split; [assumption|]). split; [|exact N]. apply (linked_frame h); [|exact L]. intros x I. apply F. right. exact I.
Qed.
Lemma unique_at (h : heap V) i : unique V (Some i) h = Some (is_nil (c_par V (h i)), h).
Proof. reflexivity. Qed.
End Unique.

(** unique is false for the elements, and empty tells whether there are none. *)
Theorem C79_elements : forall (V : Type) (h : heap V) l, holds h l ->
  (forall i, In i l -> unique V (Some i) h = Some (false, h)) /\
  exists b, unique V header h = Some (b, h) /\ (b = true <-> l = []).
Proof.
  intros V h l (t & S & _ & <-). pose proof S as (A & _ & _ & _ & L & _). split.
  - intros i I. rewrite unique_at. pose proof (linked_parent h t (Some 0) L ltac:(discriminate) i I) as P. destruct (c_par V (h i)); [reflexivity|congruence].
  - exists (is_nil (root t)). split; [unfold header; rewrite unique_at, A; reflexivity|]. destruct t as [|c l i r]; cbn; [tauto|]. split; [discriminate|]. intros H. apply app_eq_nil in H as (_ & H). discriminate.
Qed.
Print Assumptions C79_elements.

(** init_node of an element that is not in the set makes unique true for it, and changes
    neither the set nor any other element. *)
Theorem C79_init : forall (V : Type) (h : heap V) l n, holds h l -> n <> 0 -> ~ In n l ->
  exists h', init V (Some n) h = Some (tt, h') /\ unique V (Some n) h' = Some (true, h') /\ holds h' l /\
    same_values h h' /\ (forall i, i <> n -> h' i = h i).
Proof.
  intros V h l n (t & S & RB & <-) NZ NI. eexists. split; [reflexivity|].
  split; [rewrite unique_at, !upd_eq; reflexivity|]. split; [|split].
  - exists t. split; [|split; [exact RB|reflexivity]]. apply (stores_frame h); [exact S|]. intros x [<-|I]; rewrite !upd_ne by congruence; reflexivity.
  - intros i. destruct (Nat.eq_dec i n) as [->|D]; [rewrite !upd_eq; reflexivity|rewrite !upd_ne by exact D; reflexivity].
  - intros i D. rewrite !upd_ne by exact D. reflexivity.
Qed.
Print Assumptions C79_init.

(** Without debugging, unique stays false for every element that was taken out of a set; so it
    does not tell whether an element is in it. *)
Theorem C79_erased : forall (V : Type) fuel (h : heap V) l z, holds h l -> In z l -> length l < fuel ->
  exists r h' l', erase V fuel (Some z) h = Some (r, h') /\ holds h' l' /\ ~ In z l' /\ unique V (Some z) h' = Some (false, h').
Proof.
  intros V fuel h l z H I F. pose proof (proj1 (C79_elements V h l H) z I) as U. destruct H as (t & S & RB & <-). apply in_split in I as (l1 & l2 & Q).
  destruct (erase_ok fuel h t l1 z l2 S RB Q F) as (h' & t' & R & X1 & X2 & X3 & X4 & X5). pose proof (stores_nodup _ _ S) as N. rewrite Q in N. apply NoDup_remove_2 in N.
  exists (Some (hd 0 l2)), h', (l1 ++ l2). split; [exact R|]. split; [exists t'; auto|]. split; [exact N|]. rewrite unique_at, X5.
  - rewrite unique_at in U. injection U as U. rewrite U. reflexivity.
  - rewrite X3. intros [<-|I2]; [|exact (N I2)]. destruct S as (_ & _ & _ & _ & _ & N0). inversion N0 as [|? ? N1 _]. apply N1. rewrite Q. apply in_app_iff. right. left. reflexivity.
Qed.
Print Assumptions C79_erased.

(** With the assignment that is made for debugging, unique is true for it. *)
Theorem C79_debug : forall (V : Type) fuel (h : heap V) l z, holds h l -> In z l -> length l < fuel ->
  exists h' l', bind V (erase V fuel (Some z)) (fun _ => set_parent V (Some z) None) h = Some (tt, h') /\ holds h' l' /\ ~ In z l' /\
    (forall i, In i l <-> i = z \/ In i l') /\ unique V (Some z) h' = Some (true, h').
Proof.
  intros V fuel h l z (t & S & RB & <-) I F. apply in_split in I as (l1 & l2 & Q).
  destruct (erase_ok fuel h t l1 z l2 S RB Q F) as (h' & t' & R & X1 & X2 & X3 & X4 & X5). pose proof (stores_nodup _ _ S) as N. rewrite Q in N. apply NoDup_remove_2 in N.
  assert (NZ : z <> 0) by (intros ->; destruct S as (_ & _ & _ & _ & _ & N0); inversion N0 as [|? ? N1 _]; apply N1; rewrite Q; apply in_app_iff; right; left; reflexivity).
  eexists. exists (l1 ++ l2). split; [unfold bind; rewrite R; reflexivity|]. split; [|split; [exact N|split]].
  - exists t'. split; [|auto]. apply (stores_frame h'); [exact X1|]. rewrite X3. intros x [<-|I]; rewrite upd_ne by congruence; reflexivity.
  - intros i. rewrite Q, !in_app_iff. cbn. intuition.
  - rewrite unique_at, upd_eq. reflexivity.
Qed.
Print Assumptions C79_debug.

(** The set of C38: 8, 5, 2, 7, 4, 9; after erasing 7, unique is false for it, and true with the
    debugging assignment or after init_node. *)
Example ex_C79 : exists h, holds h [8; 5; 2; 7; 4; 9] /\ (exists r h', erase Z 20 (Some 7) h = Some (r, h') /\ unique Z (Some 7) h' = Some (false, h')) /\
  (exists h', bind Z (erase Z 20 (Some 7)) (fun _ => set_parent Z (Some 7) None) h = Some (tt, h') /\ unique Z (Some 7) h' = Some (true, h')) /\
  (exists h', init Z (Some 3) h = Some (tt, h') /\ unique Z (Some 3) h' = Some (true, h') /\ holds h' [8; 5; 2; 7; 4; 9]).
Proof.
  destruct (C38_operations Z ex_lt 20 ex_heap ex_ops) as (h0 & h & t & _ & _ & S & R & Q & _ & SV); [vm_compute; lia|exact ex_ops_allowed|].
  exists h. assert (H : holds h [8; 5; 2; 7; 4; 9]) by (exists t; split; [exact S|]; split; [exact R|]; rewrite Q; vm_compute; reflexivity). split; [exact H|]. split; [|split].
  - destruct (C79_erased Z 20 h _ 7 H) as (r & h' & l' & A & _ & _ & B); [cbn; tauto|cbn; lia|]. exists r, h'. auto.
  - destruct (C79_debug Z 20 h _ 7 H) as (h' & l' & A & _ & _ & _ & B); [cbn; tauto|cbn; lia|]. exists h'. auto.
  - destruct (C79_init Z h _ 3 H) as (h' & A & B & C & _); [discriminate|cbn; lia|]. exists h'. auto.
Qed.
(** So it is not the case that unique is true for just the elements that are not in the set. *)
Theorem C79_unique_refuted : exists (h : heap Z) r h' l z, holds h l /\ In z l /\ erase Z 20 (Some z) h = Some (r, h') /\
  exists l', holds h' l' /\ ~ In z l' /\ unique Z (Some z) h' = Some (false, h').
Proof.
  destruct ex_C79 as (h & H & _). destruct (C79_erased Z 20 h _ 7 H) as (r & h' & l' & A & B & C & D); [cbn; tauto|cbn; lia|].
  exists h, r, h', [8; 5; 2; 7; 4; 9], 7. split; [exact H|]. split; [cbn; tauto|]. split; [exact A|]. exists l'. auto.
Qed.
Print Assumptions C79_unique_refuted.
