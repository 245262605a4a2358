(** What a boolean operation on polygons has to give, stated on the polygons alone. *)
From Coq Require Import ZArith QArith List Bool.
From Verif Require Import GeomModel GeomSpec PointSinkModel PointSinkSpec WindSpec ArrangeSpec RegionProps.
Import ListNotations.

(** The polygons added to a clipper, each with the set it is added to. *)
Definition polygons := list (bool_set * list point).
(** The edges of a closed polygon. *)
Definition edges (l : list point) : list (point * point) := match l with [] => [] | a :: l' => combine l (l' ++ [a]) end.
(** The edges of all the polygons, without repeated points and polygons of fewer than three points. *)
Definition all_edges (ps : polygons) : list (bool_set * (point * point)) := flat_map (fun sp => map (pair (fst sp)) (edges (norm (snd sp)))) ps.
Definition edges_of (c : bool_set) (ps : polygons) : list (point * point) := map snd (filter (fun e => bset_eqb (fst e) c) (all_edges ps)).
(** Any two edges have the same ends or meet only where both end. *)
Definition only_meet_at_ends (es : list (point * point)) : Prop :=
  forall i j e f, nth_error es i = Some e -> nth_error es j = Some f -> i <> j ->
  same_ends e f \/ forall X Y, on_seg (fst e) (snd e) X Y -> on_seg (fst f) (snd f) X Y -> end_of e X Y /\ end_of f X Y.
(** The edges out wind once around the points that the operation selects by the winding numbers
    of the subject and of the clip polygons, and not around the others. *)
Definition region_of (op : bool_op) (ps : polygons) (out : list (point * point)) : Prop :=
  forall k p, (0 < k)%Z -> off_lines k p (map snd (all_edges ps)) ->
  exists ws wc, wind_around k p (edges_of Subject ps) ws /\ wind_around k p (edges_of Clip ps) wc /\
    wind_around k p out (if selected op ws wc then 1 else 0).

(** The calls of add_loop, one for each polygon. *)
Fixpoint add_all (c : clip_state) (log : list tcall) (pt : bool) (ps : polygons) : PointSinkModel.outcome (clip_state * list tcall) :=
  match ps with
  | [] => Done (c, log)
  | (cat, l) :: ps' => match add_loop c log cat pt l with Done (c', log') => add_all c' log' pt ps' | OutOfBounds => OutOfBounds end
  end.
(** No polygon has one point only, repeats its first point twice at its end, or starts with the
    last point kept of the polygons before it. *)
Fixpoint plain_input (last : option point) (ps : polygons) : Prop :=
  match ps with
  | [] => True
  | (_, l) :: ps' => length l <> 1%nat /\ ~ trailing_repeat l /\ (forall p, first_is l p -> last <> Some p) /\
      plain_input (match rev (norm l) with [] => last | p :: _ => Some p end) ps'
  end.
