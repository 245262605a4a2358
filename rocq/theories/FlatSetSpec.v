(** What a set of numbers stored in increasing order is. *)
From Coq Require Import List Sorted.
From Verif Require Import FlatSetModel.

(** [s] holds exactly the increasing list [l]. *)
Definition holds (s : fset) (l : list nat) : Prop :=
  contents s = Ok l /\ fs_size s = length l /\ StronglySorted lt l.

(** What a fresh set and every operation establish about the representation. *)
Definition well_formed (s : fset) : Prop :=
  (exists l, holds s l) /\
  (1 < fs_size s -> exists cap items, fs_u s = UData cap items /\ length items = fs_size s /\ fs_size s <= cap).
