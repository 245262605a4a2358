(** Specification vocabulary for the geometric predicates.  Points have integer
    coordinates; points on segments are rational. *)
From Coq Require Import ZArith QArith List Bool.
From Verif Require Import GeomModel.
Import ListNotations.
Local Open Scope Z_scope.

(** Twice the signed area of a triangle (shoelace formula). *)
Definition area2 (p1 p2 p3 : point) : Z :=
  px p1 * (py p2 - py p3) + px p2 * (py p3 - py p1) + px p3 * (py p1 - py p2).

(** Three points on a common line a*x + b*y = c. *)
Definition collinear (p1 p2 p3 : point) : Prop :=
  exists a b c, (a <> 0 \/ b <> 0) /\
    a * px p1 + b * py p1 = c /\ a * px p2 + b * py p2 = c /\ a * px p3 + b * py p3 = c.

(** The edges of a closed polygon given by its vertices. *)
Definition closed_edges (l : list point) : list (point * point) :=
  match l with
  | [] => []
  | f :: r => combine l (r ++ [f])
  end.

Definition sumZ (l : list Z) : Z := fold_right Z.add 0 l.

(** Shoelace sum: twice the signed area of a closed polygon. *)
Definition shoelace (l : list point) : Z :=
  sumZ (map (fun e => px (fst e) * py (snd e) - px (snd e) * py (fst e)) (closed_edges l)).

(** The rational point (X,Y) lies on the closed segment ab. *)
Definition on_seg (a b : point) (X Y : Q) : Prop :=
  exists t : Q, (0 <= t <= 1)%Q /\
    (X == inject_Z (px a) + t * inject_Z (px b - px a))%Q /\
    (Y == inject_Z (py a) + t * inject_Z (py b - py a))%Q.

(** Cross product of the directions of two segments; zero means parallel. *)
Definition dir_cross (a b c d : point) : Z :=
  (px b - px a) * (py d - py c) - (py b - py a) * (px d - px c).

(** Bounding box of a segment. *)
Definition in_bbox (a b p : point) : Prop :=
  Z.min (px a) (px b) <= px p <= Z.max (px a) (px b) /\
  Z.min (py a) (py b) <= py p <= Z.max (py a) (py b).

Definition injX (p : point) : Q := inject_Z (px p).
Definition injY (p : point) : Q := inject_Z (py p).

(** y coordinate of a non-vertical line through a and b at abscissa x. *)
Definition line_y (a b : point) (x : Q) : Q :=
  (injY a + (x - injX a) * (inject_Z (py b - py a) / inject_Z (px b - px a)))%Q.

(** Magnitude bound on coordinates. *)
Definition coord_lt (m : Z) (p : point) : Prop := - m < px p < m /\ - m < py p < m.

(** The two segments have no vertex in common. *)
Definition no_shared (s1 s2 : cseg) : Prop :=
  sg_a s1 <> sg_a s2 /\ sg_a s1 <> sg_b s2 /\ sg_b s1 <> sg_a s2 /\ sg_b s1 <> sg_b s2.

(** The edge marker of a point with respect to a segment: which end it is. *)
Definition edge_ok (e : at_edge) (a b p : point) : Prop :=
  match e with
  | AEstart => p = a
  | AEend => p = b
  | AEno => p <> a /\ p <> b
  | AEboth => False
  end.

(** The two segments have more than one point in common. *)
Definition overlap (s1 s2 : cseg) : Prop :=
  exists X Y X' Y',
    on_seg (sg_pa s1) (sg_pb s1) X Y /\ on_seg (sg_pa s2) (sg_pb s2) X Y /\
    on_seg (sg_pa s1) (sg_pb s1) X' Y' /\ on_seg (sg_pa s2) (sg_pb s2) X' Y' /\
    ~ (X == X' /\ Y == Y')%Q.

(** The two segments join the same two vertices (in either direction). *)
Definition same_vertices (s1 s2 : cseg) : Prop :=
  (sg_pa s1 = sg_pa s2 /\ sg_pb s1 = sg_pb s2 /\ sg_a s1 = sg_a s2 /\ sg_b s1 = sg_b s2) \/
  (sg_pa s1 = sg_pb s2 /\ sg_pb s1 = sg_pa s2 /\ sg_a s1 = sg_b s2 /\ sg_b s1 = sg_a s2).

(** Coincident segments whose vertices are pairwise distinct. *)
Definition coincident (s1 s2 : cseg) : Prop :=
  (sg_pa s1 = sg_pa s2 /\ sg_pb s1 = sg_pb s2 /\ sg_a s1 <> sg_a s2 /\ sg_b s1 <> sg_b s2) \/
  (sg_pa s1 = sg_pb s2 /\ sg_pb s1 = sg_pa s2 /\ sg_a s1 <> sg_b s2 /\ sg_b s1 <> sg_a s2).

(** Segment [s1] is never below [s2] where both have points with the same x, and
    somewhere it is strictly above ("above" means greater y). *)
Definition above (s1 s2 : cseg) : Prop :=
  (forall X Y1 Y2, on_seg (sg_pa s1) (sg_pb s1) X Y1 -> on_seg (sg_pa s2) (sg_pb s2) X Y2 -> (Y2 <= Y1)%Q) /\
  (exists X Y1 Y2, on_seg (sg_pa s1) (sg_pb s1) X Y1 /\ on_seg (sg_pa s2) (sg_pb s2) X Y2 /\ (Y2 < Y1)%Q).

(** The two segments do not cross: one is above the other, or they coincide. *)
Definition ordered (s1 s2 : cseg) : Prop :=
  above s1 s2 \/ above s2 s1 \/ (sg_pa s1 = sg_pa s2 /\ sg_pb s1 = sg_pb s2).
