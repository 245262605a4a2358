(** The length of loops in horizontal and vertical steps. *)
From Coq Require Import ZArith List.
From Verif Require Import GeomModel OutModel ClipModel.
Import ListNotations.
Local Open Scope Z_scope.

Definition steps (a b : point) : Z := Z.abs (px b - px a) + Z.abs (py b - py a).
Definition sum (l : list Z) : Z := fold_right Z.add 0 l.
Definition edge_steps (pts : list cpoint) (p : cpoint) : Z := match nth_error pts (c_next p) with Some q => steps (c_data p) (c_data q) | None => 0 end.
(** The steps of all edges. *)
Definition around (pts : list cpoint) : Z := sum (map (edge_steps pts) pts).
