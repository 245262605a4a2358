(** The topological winding number of a closed polygon around a point, counted in
    quarter turns, and the sets of points selected by the boolean operations. *)
From Coq Require Import ZArith QArith List Bool.
From Verif Require Import GeomModel GeomSpec.
Import ListNotations.
Local Open Scope Z_scope.

(** Quadrant (0 to 3) of [q] seen from [o], in the direction of increasing angle. *)
Definition quadrant (o q : point) : Z :=
  let dx := px q - px o in
  let dy := py q - py o in
  if (0 <? dx) && (0 <=? dy) then 0
  else if (dx <=? 0) && (0 <? dy) then 1
  else if (dx <? 0) && (dy <=? 0) then 2
  else 3.

(** Number of quadrant steps made by an edge; an edge between opposite quadrants
    makes two steps on the side of [o] on which it passes. *)
Definition quarter_turns (o : point) (e : point * point) : Z :=
  let d := (quadrant o (snd e) - quadrant o (fst e)) mod 4 in
  if d =? 0 then 0
  else if d =? 1 then 1
  else if d =? 3 then -1
  else if 0 <? area2 o (fst e) (snd e) then 2 else -2.

(** Four times the winding number of a closed polygon around [o]. *)
Definition turns (l : list point) (o : point) : Z :=
  sumZ (map (quarter_turns o) (closed_edges l)).

(** An integer point on an edge. *)
Definition on_edge (e : point * point) (o : point) : Prop :=
  on_seg (fst e) (snd e) (injX o) (injY o).

(** Which points the operations select, given the winding numbers of the two sets
    of polygons around a point.  Polygons in the direction of positive winding are
    solid.  The union counts both sets together. *)
Definition selected (op : bool_op) (ws wc : Z) : bool :=
  match op with
  | OpUnion => 0 <? ws + wc
  | OpIntersection => (0 <? ws) && (0 <? wc)
  | OpXor => xorb (0 <? ws) (0 <? wc)
  | OpDifference => (0 <? ws) && negb (0 <? wc)
  | OpNormalize => Z.odd (ws + wc)
  end.

(** What has to happen to an edge, given whether the points on its left and on its
    right are selected: solid must be on the right of an output edge. *)
Inductive edge_fate : Type := Dropped | Kept | Reversed.
Definition wanted (left right : bool) : edge_fate :=
  match left, right with
  | false, true => Kept
  | true, false => Reversed
  | _, _ => Dropped
  end.

(** What the library does with a line in a given state. *)
Definition fate_of (s : lstate) : edge_fate :=
  match s with
  | LSkeep => Kept
  | LSkeep_rev => Reversed
  | LSdiscard | LSdiscard_rev => Dropped
  end.

(** Points arbitrarily close to an edge: all coordinates are magnified N*N times;
    from the start [p] of the edge go N times along its direction [d] and once to its
    left (or right).  As N grows, the point, seen at the original scale, moves towards
    [p] in the direction of the edge, and stays ever closer to the edge. *)
Definition scale (k : Z) (p : point) : point := (k * px p, k * py p).
Definition left_near (N : Z) (p d : point) : point :=
  (N * N * px p + N * px d + py d, N * N * py p + N * py d - px d).
Definition right_near (N : Z) (p d : point) : point :=
  (N * N * px p + N * px d - py d, N * N * py p + N * py d + px d).

(** Winding number of a family of polygons around a point near an edge. *)
Definition turns_all (ls : list (list point)) (o : point) : Z := sumZ (map (fun l => turns l o) ls).

(** Two edges have more than one point in common. *)
Definition edges_overlap (e1 e2 : point * point) : Prop :=
  exists X Y X' Y',
    on_seg (fst e1) (snd e1) X Y /\ on_seg (fst e2) (snd e2) X Y /\
    on_seg (fst e1) (snd e1) X' Y' /\ on_seg (fst e2) (snd e2) X' Y' /\ ~ (X == X' /\ Y == Y')%Q.

(** A family of polygons, each in one of the two sets, and its edges. *)
Definition family : Type := list (bool_set * list point).
Definition loops_of (c : bool_set) (F : family) : list (list point) :=
  map snd (filter (fun s => bset_eqb (fst s) c) F).
Definition family_edges (F : family) : list (bool_set * (point * point)) :=
  flat_map (fun s => map (pair (fst s)) (closed_edges (snd s))) F.

(** [w] is the winding number of the polygons of set [c], magnified N*N times. *)
Definition winds (F : family) (c : bool_set) (N : Z) (o : point) (w : Z) : Prop :=
  turns_all (map (map (scale (N * N))) (loops_of c F)) o = 4 * w.

(** The vertical line at abscissa [x] meets the edge. *)
Definition spans (x : Z) (e : point * point) : Prop :=
  Z.min (px (fst e)) (px (snd e)) <= x <= Z.max (px (fst e)) (px (snd e)).
