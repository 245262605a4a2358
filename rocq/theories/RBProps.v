(** The set behind the sweep line: properties C37 to C40. Fuel only has to exceed the
    number of elements; running out of it, or following a null pointer, is the outcome
    None, so each "= Some" below also says that no null pointer is followed and no
    assertion of the code fails. *)
From Coq Require Import List Bool Arith ZArith Lia.
From Verif Require Import RBModel RBSpec RBHeap RBNav RBSearch RBErase RBProofs.
Import ListNotations.

(** C37: forward and backward iteration give the elements in the same order, once each. *)
Theorem C37_iteration : forall (V : Type) inner fuel (h : heap V) l,
  holds h l -> length l < inner -> length l <= fuel ->
  NoDup l /\
  bind V (begin_node V) (iterate V fuel inner) h = Some (l, h) /\
  iterate_back V fuel inner (Some 0) [] h = Some (l, h).
Proof.
  intros V inner fuel h l (t & S & RB & <-) A B.
  split; [exact (stores_nodup _ _ S)|]. split; [apply iterate_all; assumption|apply iterate_back_all; assumption].
Qed.
Print Assumptions C37_iteration.

(** C37: insertion keeps the comparison order; it adds one element, unless an equivalent
    one is present, which is then returned with nothing changed. *)
Theorem C37_insert_sorted : forall (V : Type) (comp : V -> V -> bool) fuel (h : heap V) l n,
  let val i := c_val V (h i) in
  let lt i j := comp (val i) (val j) = true in
  holds h l -> n <> 0 -> ~ In n l -> length l < fuel ->
  transitive_on V comp val (n :: l) -> ordered lt l ->
  (exists h' l', insert V comp fuel (Some n) h = Some (Some n, true, h') /\
     holds h' l' /\ ordered lt l' /\ length l' = S (length l) /\
     (exists l1 l2, l = l1 ++ l2 /\ l' = l1 ++ n :: l2) /\
     same_values h h' /\ (forall x, ~ In x (0 :: l') -> h' x = h x)) \/
  (exists i, In i l /\ comp (val n) (val i) = false /\ comp (val i) (val n) = false /\
     insert V comp fuel (Some n) h = Some (Some i, false, h)).
Proof.
  intros V comp fuel h l n val lt (t & S & RB & <-) NZ NI F TR OD.
  destruct (insert_ok comp fuel h t n S RB NZ NI F) as (l1 & l2 & Q & A & B & C); [|exact OD|].
  { intros x y z (i & I1 & ->) (j & J1 & ->) (k & K1 & ->). apply TR; assumption. }
  destruct C as [(C & h' & t' & R & X1 & X2 & X3 & X4 & X5)|(l0 & i & C1 & C2 & R)].
  - left. exists h', (l1 ++ n :: l2). split; [exact R|]. split; [exists t'; auto|].
    split; [|split; [rewrite Q, !app_length; cbn; lia|split; [exists l1, l2; auto|split; [exact X4|rewrite <- X3; exact X5]]]].
    rewrite <- (put_split comp val n l1 l2 A B), <- Q. apply put_ordered; try assumption.
    apply exists_false. rewrite Q. apply Forall_app. split; [eapply Forall_impl; [|exact C]|eapply Forall_impl; [|exact B]];
      cbn; intros i Hi; unfold equivalent, before_, val; rewrite Hi; [apply andb_false_r|reflexivity].
  - right. exists i. rewrite C1 in A. apply Forall_app in A as (_ & A). inversion A; subst.
    split; [rewrite Q; apply in_app_iff; left; apply in_app_iff; right; left; reflexivity|auto].
Qed.
Print Assumptions C37_insert_sorted.

(** C37: erasure keeps the comparison order and takes exactly one element away. *)
Theorem C37_erase_sorted : forall (V : Type) (comp : V -> V -> bool) fuel (h : heap V) l z,
  let lt i j := comp (c_val V (h i)) (c_val V (h j)) = true in
  holds h l -> In z l -> length l < fuel -> ordered lt l ->
  exists r h' l', erase V fuel (Some z) h = Some (r, h') /\ holds h' l' /\ ordered lt l' /\
    length l = S (length l') /\ same_values h h'.
Proof.
  intros V comp fuel h l z lt (t & S & RB & <-) I1 F OD. apply in_split in I1 as (l1 & l2 & Q).
  destruct (erase_ok fuel h t l1 z l2 S RB Q F) as (h' & t' & R & X1 & X2 & X3 & X4 & X5).
  exists (Some (hd 0 l2)), h', (l1 ++ l2). split; [exact R|]. split; [exists t'; auto|]. split; [|split; [rewrite Q, !app_length; cbn; lia|exact X4]].
  rewrite <- (erase_split z l1 l2) by (rewrite <- Q; exact (stores_nodup _ _ S)). rewrite <- Q.
  apply (erase_ordered comp (fun i => c_val V (h i))). exact OD.
Qed.
Print Assumptions C37_erase_sorted.

(** C38: any sequence of operations, from a fresh set, never fails, gives what the
    operations give on a plain sequence, and leaves a red-black tree of logarithmic height. *)
Theorem C38_operations : forall (V : Type) (comp : V -> V -> bool) fuel (h : heap V) os,
  let val i := c_val V (h i) in
  length os < fuel -> all_allowed V comp val [] os ->
  exists h0 h' t, init_header V h = Some (tt, h0) /\ run_ops V comp fuel os h0 = Some h' /\
    stores h' t /\ red_black t /\ inorder t = fold_left (seq_step V comp val) os [] /\
    height t <= 2 * Nat.log2 (length (inorder t) + 1) /\ same_values h h'.
Proof.
  intros V comp fuel h os val F AL. destruct (init_ok h) as (h0 & I0 & S0 & V0).
  destruct (run_ok comp fuel val os h0 E S0) as (h' & t & R & X1 & X2 & X3 & X4).
  - split; [exact I|]. exists 0. reflexivity.
  - exact F.
  - exact V0.
  - exact AL.
  - exists h0, h', t. repeat (split; [first [assumption|apply red_black_height; assumption]|]). exact X4.
Qed.
Print Assumptions C38_operations.

(** C38: the height bound of any red-black tree. *)
Theorem C38_height : forall t, red_black t -> height t <= 2 * Nat.log2 (length (inorder t) + 1).
Proof. exact red_black_height. Qed.
Print Assumptions C38_height.

(** C39: erase takes out exactly the given node and returns the following element (the
    header, 0, stands for the end); every other element keeps its value, and from each of
    them iteration goes on to its neighbour in what remains. Nothing outside the set is
    written, and of the erased node only its own links may change. *)
Theorem C39_erase : forall (V : Type) fuel (h : heap V) l1 z l2,
  holds h (l1 ++ z :: l2) -> length (l1 ++ z :: l2) < fuel ->
  exists h', erase V fuel (Some z) h = Some (Some (hd 0 l2), h') /\
    holds h' (l1 ++ l2) /\ same_values h h' /\
    (forall x, ~ In x (0 :: l1 ++ l2) -> h' x = h x) /\
    (forall m1 i m2, l1 ++ l2 = m1 ++ i :: m2 ->
       next_node V fuel (Some i) h' = Some (Some (hd 0 m2), h') /\
       (m1 <> [] -> prev_node V fuel (Some i) h' = Some (Some (last m1 0), h'))).
Proof.
  intros V fuel h l1 z l2 (t & S & RB & Q) F.
  destruct (erase_ok fuel h t l1 z l2 S RB Q ltac:(rewrite Q; exact F)) as (h' & t' & R & X1 & X2 & X3 & X4 & X5).
  exists h'. split; [exact R|]. split; [exists t'; auto|]. split; [exact X4|]. split; [rewrite <- X3; exact X5|].
  intros m1 i m2 M. assert (length (inorder t') < fuel) by (rewrite X3; rewrite app_length in *; cbn in F; lia).
  rewrite <- X3 in M. split; [eapply next_list; eassumption|]. intros NE. eapply prev_list; eassumption.
Qed.
Print Assumptions C39_erase.

(** C40: insert_before puts the new element immediately before the given position. *)
Theorem C40_insert_before : forall (V : Type) fuel (h : heap V) l1 l2 n,
  holds h (l1 ++ l2) -> n <> 0 -> ~ In n (l1 ++ l2) -> length (l1 ++ l2) < fuel ->
  exists h', insert_before V fuel (Some (hd 0 l2)) (Some n) h = Some (Some n, h') /\
    holds h' (l1 ++ n :: l2) /\ same_values h h' /\
    (forall x, ~ In x (0 :: l1 ++ n :: l2) -> h' x = h x).
Proof.
  intros V fuel h l1 l2 n (t & S & RB & Q) NZ NI F. rewrite <- Q in NI, F.
  destruct (insert_before_ok fuel h t n l1 l2 S RB NZ NI F Q) as (h' & t' & R & X1 & X2 & X3 & X4 & X5).
  exists h'. split; [exact R|]. split; [exists t'; auto|]. split; [exact X4|]. rewrite <- X3. exact X5.
Qed.
Print Assumptions C40_insert_before.

(** * Concrete cases *)
Definition ex_heap : heap Z := fun i => mk_cell Z None None None false (Z.of_nat ((i * 7) mod 11)).
Definition ex_ops : list operation :=
  [Insert 1; Insert 2; Insert 3; Insert 4; Insert 5; Insert 6; Insert 12; Insert 7; Erase 3; Erase 6; Insert 8; Insert 9; Erase 1].
Definition ex_lt := Z.ltb.
Definition ex_val (i : nat) : Z := c_val Z (ex_heap i).
Definition ex_allowed : Prop := all_allowed Z ex_lt ex_val [] ex_ops.

Lemma ex_trans l : transitive_on Z ex_lt ex_val l.
Proof. intros i j k _ _ _. unfold before_, ex_lt. rewrite !Z.ltb_lt. apply Z.lt_trans. Qed.
Example ex_ops_allowed : ex_allowed.
Proof.
  unfold ex_allowed, ex_ops. cbn [all_allowed].
  repeat split; try (apply ex_trans); try discriminate; try (vm_compute; intuition discriminate);
    try (vm_compute; repeat (split || constructor)); vm_compute; tauto.
Qed.
Example ex_ops_sequence : fold_left (seq_step Z ex_lt ex_val) ex_ops [] = [8; 5; 2; 7; 4; 9].
Proof. vm_compute. reflexivity. Qed.
Definition ex_result : option (list nat * list nat * list Z) :=
  match init_header Z ex_heap with
  | Some (_, h0) =>
      match run_ops Z ex_lt 20 ex_ops h0 with
      | Some h' =>
          match bind Z (begin_node Z) (iterate Z 20 20) h', iterate_back Z 20 20 (Some 0) [] h' with
          | Some (a, _), Some (b, _) => Some (a, b, map (fun i => c_val Z (h' i)) a)
          | _, _ => None
          end
      | None => None
      end
  | None => None
  end.
Example ex_run : ex_result = Some ([8; 5; 2; 7; 4; 9], [8; 5; 2; 7; 4; 9], [1; 2; 3; 5; 6; 8]%Z).
Proof. vm_compute. reflexivity. Qed.
Example ex_holds : exists h, holds h [8; 5; 2; 7; 4; 9] /\
  erase Z 20 (Some 2) h <> None /\ insert_before Z 20 (Some 7) (Some 10) h <> None.
Proof.
  destruct (C38_operations Z ex_lt 20 ex_heap ex_ops) as (h0 & h' & t & _ & _ & S & R & Q & _); [vm_compute; lia|exact ex_ops_allowed|].
  exists h'. assert (H : holds h' [8; 5; 2; 7; 4; 9]) by (exists t; split; [exact S|]; split; [exact R|]; rewrite Q; vm_compute; reflexivity).
  split; [exact H|]. split.
  - destruct (C39_erase Z 20 h' [8; 5] 2 [7; 4; 9] H) as (h1 & E1 & _); [cbn; lia|]. rewrite E1. discriminate.
  - destruct (C40_insert_before Z 20 h' [8; 5; 2] [7; 4; 9] 10 H) as (h1 & E1 & _); [discriminate|cbn; lia|cbn; lia|].
    cbn [hd] in E1. rewrite E1. discriminate.
Qed.
