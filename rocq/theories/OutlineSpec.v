(** The outline that offsetting a sequence of points gives. *)
From Coq Require Import ZArith List Bool Arith.
From Verif Require Import GeomModel PointSinkModel PointSinkSpec OffsetModel OffsetSpec WholeSpec.
Import ListNotations.
Local Open Scope Z_scope.

Definition shifted (p d : point) : point := (px p + px d, py p + py d).
Section Outline.
(** How far a line is moved; the positions and the number of the points of an arc around a
    corner; whether the distance is negative, or positive; the same for a circle. *)
Variable moved : point -> point -> point.
Variable rotated : point -> point -> point -> nat -> point.
Variable steps : point -> point -> point -> Z.
Variable negative positive : bool.
Variable lone_steps : Z.
Variable lone_rotated : nat -> point.

(** The gap that opens at a corner, or at the end of a line, is filled by an arc; inside out
    for negative distances. *)
Definition gap (a b c : point) : bool := xorb negative (point_eqb a c || (0 <? triangle_winding a b c)).
Definition side (t : point * point * point) : list point :=
  let '(a, b, c) := t in
  [shifted a (moved a b); shifted b (moved a b)] ++
  (if gap a b c then map (fun n => shifted b (rotated a b c n)) (seq 1 (Z.to_nat (Z.abs (steps a b c)) - 1)) else []).
Definition circle (p : point) : list point :=
  if positive then map (fun n => shifted p (lone_rotated n)) (seq 1 (Z.to_nat (Z.max lone_steps 3) - 1)) else [].
(** Repeated points do not count. An open line is gone along there and back. *)
Definition outline (closed : bool) (l : list point) : list point :=
  match uniq l with
  | [] => []
  | [p] => circle p
  | u => flat_map side (corners (if closed then open_end u else there_and_back u))
  end.

(** A sequence to be offset: its set, whether it is closed, and its points. *)
Definition sequences := list (bool_set * bool * list point).
Definition outlines (ss : sequences) : polygons := map (fun s => (fst (fst s), outline (snd (fst s)) (snd s))) ss.
(** No open line ends with the same point three times. *)
Definition no_thrice (ss : sequences) : Prop := forall cat l, In (cat, false, l) ss -> ~ ends_thrice l.
(** The calls of add_offset, one for each sequence. *)
Fixpoint offset_all (c : clip_state) (log : list tcall) (pt : bool) (ss : sequences) : outcome (clip_state * list tcall) :=
  match ss with
  | [] => Done (c, log)
  | (cat, closed, l) :: ss' =>
      match offset_loop moved rotated steps negative positive lone_steps lone_rotated c log cat pt closed l with
      | Done (c', log') => offset_all c' log' pt ss'
      | OutOfBounds => OutOfBounds
      end
  end.
End Outline.
