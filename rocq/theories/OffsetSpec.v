(** What offsetting should build. *)
From Coq Require Import ZArith List Bool Arith.
From Verif Require Import GeomModel PointSinkSpec OffsetModel.
Import ListNotations.
Local Open Scope Z_scope.

(** Consecutive triples. *)
Fixpoint windows (l : list point) : list (point * point * point) :=
  match l with
  | a :: ((b :: c :: _) as t) => (a, b, c) :: windows t
  | _ => []
  end.
(** The corners of a closed polygon, each with the line that leads to it and the one that
    follows. *)
Definition corners (l : list point) : list (point * point * point) := windows (l ++ firstn 2 l).
(** Along an open line and back. *)
Definition there_and_back (l : list point) : list point := l ++ rev (tl (removelast l)).
(** The corners that are built. *)
Definition shape (ws : list work) : list (point * point * point) :=
  flat_map (fun w => match w with Corner _ _ p1 p2 p3 => [(p1, p2, p3)] | Lone _ _ => [] end) ws.
(** No two neighbours are equal; the last and the first may be. *)
Definition no_repeat (l : list point) : Prop :=
  forall k p q, nth_error l k = Some p -> nth_error l (S k) = Some q -> p <> q.
(** i is the index of the point p of a sequence whose first point has the index base. *)
Definition index_of (base : Z) (l : list point) (i : Z) (p : point) : Prop :=
  exists k, i = base + Z.of_nat k /\ nth_error l k = Some p.
Definition all_equal (l : list point) : Prop := forall p q, In p l -> In q l -> p = q.
(** The last three points are equal. *)
Definition ends_thrice (l : list point) : Prop := exists m p, l = m ++ [p; p; p].
