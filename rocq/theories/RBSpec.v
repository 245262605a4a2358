(** Red-black search trees and what it means that the nodes store one. *)
From Coq Require Import List Bool Arith.
From Verif Require Import RBModel.
Import ListNotations.

(** Trees of node indices; the flag says whether the node is red. *)
Inductive tree : Type := E | T (red : bool) (l : tree) (i : nat) (r : tree).

Fixpoint inorder (t : tree) : list nat :=
  match t with E => [] | T _ l i r => inorder l ++ i :: inorder r end.
Fixpoint height (t : tree) : nat :=
  match t with E => 0 | T _ l _ r => S (Nat.max (height l) (height r)) end.
Definition root (t : tree) : ptr := match t with E => None | T _ _ i _ => Some i end.
Definition black_root (t : tree) : Prop := match t with T true _ _ _ => False | _ => True end.

(** No red node has a red child and every path has [n] black nodes. *)
Fixpoint rb (t : tree) (n : nat) : Prop :=
  match t with
  | E => n = 0
  | T true l _ r => rb l n /\ rb r n /\ black_root l /\ black_root r
  | T false l _ r => match n with 0 => False | S m => rb l m /\ rb r m end
  end.
Definition red_black (t : tree) : Prop := black_root t /\ exists n, rb t n.

Section Stores.
Context {V : Type}.
Fixpoint linked (h : heap V) (parent : ptr) (t : tree) : Prop :=
  match t with
  | E => True
  | T c l i r =>
      c_par V (h i) = parent /\ c_left V (h i) = root l /\ c_right V (h i) = root r /\ c_red V (h i) = c /\
      linked h (Some i) l /\ linked h (Some i) r
  end.

(** The nodes store the tree [t]: they are linked in both directions, and the header
    knows the root, the first and the last node (itself if there is none). *)
Definition stores (h : heap V) (t : tree) : Prop :=
  c_par V (h 0) = root t /\ c_left V (h 0) = Some (hd 0 (inorder t)) /\ c_right V (h 0) = Some (last (inorder t) 0) /\
  c_red V (h 0) = true /\ linked h (Some 0) t /\ NoDup (0 :: inorder t).

(** No value is changed. *)
Definition same_values (h h' : heap V) : Prop := forall i, c_val V (h' i) = c_val V (h i).
End Stores.

(** The elements of [l] are in increasing order for [lt]. *)
Fixpoint ordered {A} (lt : A -> A -> Prop) (l : list A) : Prop :=
  match l with [] => True | x :: l' => Forall (lt x) l' /\ ordered lt l' end.

(** The operations on the sequence of elements. *)
Section Sequence.
Variable V : Type.
Variable comp : V -> V -> bool.
Variable val : nat -> V.
Definition before_ (i j : nat) : bool := comp (val i) (val j).
Fixpoint put_in_order (n : nat) (l : list nat) : list nat :=
  match l with [] => [n] | x :: l' => if before_ n x then n :: x :: l' else x :: put_in_order n l' end.
Definition equivalent (i j : nat) : bool := negb (before_ i j) && negb (before_ j i).
Definition seq_insert (n : nat) (l : list nat) : list nat :=
  if existsb (equivalent n) l then l else put_in_order n l.
(** Position 0 is the end. *)
Fixpoint seq_insert_before (pos n : nat) (l : list nat) : list nat :=
  match l with [] => [n] | x :: l' => if Nat.eqb x pos then n :: x :: l' else x :: seq_insert_before pos n l' end.
Definition seq_erase (n : nat) (l : list nat) : list nat := filter (fun x => negb (Nat.eqb x n)) l.

Inductive operation : Type := Insert (n : nat) | InsertBefore (pos n : nat) | Erase (n : nat).
Definition seq_step (l : list nat) (o : operation) : list nat :=
  match o with Insert n => seq_insert n l | InsertBefore pos n => seq_insert_before pos n l | Erase n => seq_erase n l end.
Definition transitive_on (l : list nat) : Prop :=
  forall i j k, In i l -> In j l -> In k l -> before_ i j = true -> before_ j k = true -> before_ i k = true.
(** What the caller has to provide: the node is new and not the header, the position
    is an element or the end, an erased node is an element; insertion by the order needs
    that the elements are in order. *)
Definition allowed (l : list nat) (o : operation) : Prop :=
  match o with
  | Insert n => n <> 0 /\ ~ In n l /\ ordered (fun i j => before_ i j = true) l /\ transitive_on (n :: l)
  | InsertBefore pos n => n <> 0 /\ ~ In n l /\ In pos (0 :: l)
  | Erase n => In n l
  end.
Fixpoint all_allowed (l : list nat) (os : list operation) : Prop :=
  match os with [] => True | o :: os' => allowed l o /\ all_allowed (seq_step l o) os' end.

Definition run_op (fuel : nat) (o : operation) (h : heap V) : option (heap V) :=
  match o with
  | Insert n => option_map snd (insert V comp fuel (Some n) h)
  | InsertBefore pos n => option_map snd (insert_before V fuel (Some pos) (Some n) h)
  | Erase n => option_map snd (erase V fuel (Some n) h)
  end.
Fixpoint run_ops (fuel : nat) (os : list operation) (h : heap V) : option (heap V) :=
  match os with [] => Some h | o :: os' => match run_op fuel o h with Some h' => run_ops fuel os' h' | None => None end end.
End Sequence.

(** The heap holds the elements l, in this order, in a red-black tree. *)
Definition holds {V} (h : heap V) (l : list nat) : Prop :=
  exists t, stores h t /\ red_black t /\ inorder t = l.
