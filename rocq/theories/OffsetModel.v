(** Model of offset.hpp: which corners are built from a sequence of points, with which
    original indices, and the points that are put into the clipper for them.

    Simplifications: the position of a moved line and the points of an arc come from
    sqrt, acos, sin and cos of doubles; here they are arbitrary functions. The number of
    steps of an arc is computed as in the code from the angle. Index is a 64 bit unsigned
    type. A magnitude is given by its sign where only the sign matters; it is a number. *)
From Coq Require Import ZArith List Bool Arith SpecFloat.
From Verif Require Import GeomModel PointSinkModel FloatModel.
Import ListNotations.
Local Open Scope Z_scope.

(** signed_add, offset.hpp:170-172, and unsigned increments. *)
Definition wrap (i : Z) : Z := i mod 2 ^ 64.
Definition signed_add (a b : Z) : Z := wrap (a + b).

(** A call of add_offset_point (95-134) with its indices and points, or of
    offset_lone_point (137-167). *)
Inductive work : Type :=
| Corner (i1 i2 : Z) (p1 p2 p3 : point)
| Lone (i : Z) (p : point).

(** The loop of _add_offset_tail_open, 193-204: the corners, the next index and the last two
    points. *)
Fixpoint tail_open (input : list point) (step i : Z) (prev2 prev1 : point) : list work * (Z * point * point) :=
  match input with
  | [] => ([], (i, prev2, prev1))
  | p :: l =>
      if negb (point_eqb p prev1) then
        let '(ws, r) := tail_open l step (signed_add i step) prev1 p in
        (Corner i (signed_add i step) prev2 prev1 p :: ws, r)
      else tail_open l step (signed_add i step) prev2 prev1
  end.
(** _add_offset_tail_open, 181-205. *)
Definition add_tail_open (input : list point) (step i : Z) (prev2 prev1 : point) : list work * (Z * point * point) :=
  let '(ws, (i', q2, q1)) := tail_open input step i prev2 prev1 in
  (ws ++ [Corner i' (signed_add i' step) q2 q1 q2], (signed_add i' step, q1, q2)).

(** The value returned by offset_lone_point, 149 and 166. *)
Definition lone_end (positive : bool) (i : Z) : Z := if positive then wrap (i + 1) else i.

(** The loop of _add_offset_open, 235-266; input is the whole sequence, l what is left. *)
Fixpoint open_from (positive : bool) (base : Z) (input l : list point) (prev2 : point) : list work * Z :=
  match l with
  | [] => ([Lone base prev2], lone_end positive base)
  | prev1 :: l' =>
      if negb (point_eqb prev1 prev2) then
        let '(ws, (e, prev1b, prev2b)) := add_tail_open l' 1 base prev2 prev1 in
        let '(ws', _) := add_tail_open (skipn 2 (rev input)) (-1) e prev1b prev2b in
        (ws ++ ws', e)
      else open_from positive base input l' prev2
  end.
(** _add_offset_open, 208-269; None for an empty sequence. *)
Definition plan_open (positive : bool) (base : Z) (input : list point) : option (list work * Z) :=
  match input with
  | [] => None
  | p :: l => Some (open_from positive base input l p)
  end.

(** The loop over the points of _add_offset_closed, 312-319. *)
Fixpoint closed_loop (input : list point) (i : Z) (prev2 prev1 : point) : list work * (Z * point * point) :=
  match input with
  | [] => ([], (i, prev2, prev1))
  | p :: l =>
      if negb (point_eqb p prev1) then
        let '(ws, r) := closed_loop l (wrap (i + 1)) prev1 p in
        (Corner i (wrap (i + 1)) prev2 prev1 p :: ws, r)
      else closed_loop l (wrap (i + 1)) prev2 prev1
  end.
(** 300-344. *)
Fixpoint closed_from (positive : bool) (base : Z) (l : list point) (first : point) : list work * Z :=
  match l with
  | [] => ([Lone base first], lone_end positive base)
  | second :: l' =>
      if negb (point_eqb second first) then
        let '(ws, (i, prev2, prev1)) := closed_loop l' base first second in
        let ws1 := if negb (point_eqb prev2 prev1)
                   then [Corner i (wrap (i + 1)) prev2 prev1 (if point_eqb prev1 first then second else first)] else [] in
        let i1 := wrap (i + 1) in
        let ws2 := if negb (point_eqb prev1 first) then [Corner i1 base prev1 first second] else [] in
        (ws ++ ws1 ++ ws2, wrap (i1 + 1))
      else closed_from positive base l' first
  end.
(** _add_offset_closed, 272-348. *)
Definition plan_closed (positive : bool) (base : Z) (input : list point) : option (list work * Z) :=
  match input with
  | [] => None
  | p :: l => Some (closed_from positive base l p)
  end.

Definition padd (p q : point) : point := (px p + px q, py p + py q).

(** The points put into the sink. *)
Section Emit.
(** vround(perp_vector(p1,p2,magnitude)); the rounded offset after i rotations; the number
    of steps for a corner. *)
Variable moved : point -> point -> point.
Variable rotated : point -> point -> point -> nat -> point.
Variable steps : point -> point -> point -> Z.
(** magnitude < 0, magnitude > 0, and the same for lone points. *)
Variable negative positive : bool.
Variable lone_steps : Z.
Variable lone_rotated : nat -> point.

(** 116-117. *)
Definition concave (p1 p2 p3 : point) : bool :=
  let c := point_eqb p1 p3 || (0 <? triangle_winding p1 p2 p3) in
  if negative then negb c else c.
(** 119-133: i from 1 to lsteps - 1. *)
Definition arc_points (p1 p2 p3 : point) : list point :=
  if concave p1 p2 p3 then
    let lsteps := Z.abs (steps p1 p2 p3) in
    if 1 <? lsteps then map (fun i => padd p2 (rotated p1 p2 p3 i)) (seq 1 (Z.to_nat lsteps - 1)) else []
  else [].
Definition emit (w : work) : list (point * Z) :=
  match w with
  | Corner i1 i2 p1 p2 p3 =>
      let offset := moved p1 p2 in
      (padd p1 offset, i1) :: (padd p2 offset, i2) :: map (fun q => (q, i2)) (arc_points p1 p2 p3)
  | Lone i p =>
      if positive then
        let lsteps := Z.max lone_steps 3 in
        map (fun k => (padd p (lone_rotated k), i)) (seq 1 (Z.to_nat lsteps - 1))
      else []
  end.

(** One sequence: 208-269 and 272-348. *)
Definition offset_loop (c : clip_state) (log : list tcall) (cat : bool_set) (pt closed : bool) (input : list point)
  : outcome (clip_state * list tcall) :=
  let st := sink_open c log cat pt in
  let base := Z.of_nat (cs_next_orig (ss_clip st)) in
  match (if closed then plan_closed positive base input else plan_open positive base input) with
  | None => Done (c, log)
  | Some (ws, e) =>
      match sink_close (fold_left (fun st pi => sink_put st (fst pi) (Z.to_nat (snd pi))) (flat_map emit ws) st) with
      | Done (c', log') => Done (set_orig c' (Z.to_nat e), log')
      | OutOfBounds => OutOfBounds
      end
  end.
(** add_offset for a range of ranges, 393-408. *)
Fixpoint offset_loops (c : clip_state) (log : list tcall) (cat : bool_set) (pt closed : bool) (ls : list (list point))
  : outcome (clip_state * list tcall) :=
  match ls with
  | [] => Done (c, log)
  | l :: ls' =>
      match offset_loop c log cat pt closed l with
      | Done (c', log') => offset_loops c' log' cat pt closed ls'
      | OutOfBounds => OutOfBounds
      end
  end.
End Emit.

(** The number of steps of a full circle, 153-154: to_coord(magnitude * 2 pi / arc_step_size)
    with doubles; to_coord truncates. *)
Definition dbl_pi : spec_float := S754_finite false 7074237752028440 (-51).
Definition trunc (f : spec_float) : option Z :=
  match f with
  | S754_zero _ => Some 0
  | S754_finite s m e =>
      let a := if 0 <=? e then Z.pos m * 2 ^ e else Z.pos m / 2 ^ (- e) in
      Some (if s then - a else a)
  | _ => None
  end.
Definition circle_steps (magnitude : spec_float) (arc_step_size : Z) : option Z :=
  trunc (fdiv (fmul magnitude (fmul dbl_pi (of_int 2))) (of_int arc_step_size)).
