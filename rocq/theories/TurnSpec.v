(** Turning at a corner, stated without the code. *)
From Coq Require Import ZArith QArith.
From Verif Require Import GeomModel.
Local Open Scope Z_scope.

(** How far a path that comes from a to p and goes on to q turns clockwise (the y-axis points
    down): 0 straight on, 1 a right angle clockwise, 2 straight back, below 0 counterclockwise.
    It grows with the angle. *)
Definition ahead (a p q : point) : Z := (px p - px a) * (px q - px p) + (py p - py a) * (py q - py p).
Definition aside (a p q : point) : Z := (px p - px a) * (py q - py p) - (py p - py a) * (px q - px p).
Definition turn (a p q : point) : Q :=
  let share := (inject_Z (ahead a p q) / inject_Z (Z.abs (ahead a p q) + Z.abs (aside a p q)))%Q in
  if 0 <=? aside a p q then (1 - share)%Q else (share - 1)%Q.
(** q is straight back from p towards a. *)
Definition straight_back (a p q : point) : Prop := aside a p q = 0 /\ ahead a p q < 0.
(** q is straight on. *)
Definition straight_on (a p q : point) : Prop := aside a p q = 0 /\ 0 < ahead a p q.
