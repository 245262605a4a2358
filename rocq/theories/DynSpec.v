(** Polygons whose edges cross at points with whole coordinates, stated on the polygons alone. *)
From Coq Require Import ZArith QArith List Arith.
From Verif Require Import GeomModel GeomSpec PointSinkModel PointSinkSpec WholeSpec.
Import ListNotations.

(** Two edges that are not parallel meet, if they do, at a point with whole coordinates. *)
Definition meet_on_grid (es : list (point * point)) : Prop :=
  forall e f X Y, In e es -> In f es ->
  ((px (snd e) - px (fst e)) * (py (snd f) - py (fst f)) <> (py (snd e) - py (fst e)) * (px (snd f) - px (fst f)))%Z ->
  on_seg (fst e) (snd e) X Y -> on_seg (fst f) (snd f) X Y ->
  exists x y, (X == inject_Z x)%Q /\ (Y == inject_Z y)%Q.
(** The way from q to r goes back along the way from p to q. *)
Definition goes_back (p q r : point) : Prop :=
  ((px q - px p) * (py r - py q) = (py q - py p) * (px r - px q))%Z /\ ((px q - px p) * (px r - px q) + (py q - py p) * (py r - py q) < 0)%Z.
(** No edge of a polygon goes back along the edge before it. *)
Definition no_going_back (l : list point) : Prop :=
  forall k p q r, nth_error l k = Some p -> nth_error l (S k mod length l) = Some q -> nth_error l (S (S k) mod length l) = Some r -> ~ goes_back p q r.
