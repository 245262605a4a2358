(** Model of origin_point_tracker, offset.hpp:357-390: the calls that the clipper makes (TAdded,
    TReset in PointSinkModel; the lists of new_point_between and point_merge calls of do_op in
    ClipModel) change a list of sets (FlatSetModel), one for each point.

    None is a call with the index of a point that does not exist, a set read wrongly, or a set
    merged with itself (whose elements would be read while they are moved). *)
From Coq Require Import List Arith.
From Verif Require Import FlatSetModel OutModel PointSinkModel.
Import ListNotations.
Local Open Scope nat_scope.

(** point_added, 369-372, and reset, 389. *)
Definition track_call (t : list fset) (c : tcall) : option (list fset) :=
  match c with
  | TReset => Some []
  | TAdded o => match insert_one fs_new o with Ok (s, _, _) => Some (t ++ [s]) | Bad => None end
  end.
(** new_point_between, 374-376. *)
Definition track_between (t : list fset) (ab : nat * nat) : list fset := t ++ [fs_new].
(** point_merge, 378-380. *)
Definition track_merge (t : list fset) (ft : nat * nat) : option (list fset) :=
  let '(from, to) := ft in
  if Nat.eqb from to then None
  else
    match nth_error t to, nth_error t from with
    | Some a, Some b => match merge a b with Ok (a', b') => Some (put (put t to a') from b') | Bad => None end
    | _, _ => None
    end.
Fixpoint track_all {A} (f : list fset -> A -> option (list fset)) (t : list fset) (l : list A) : option (list fset) :=
  match l with [] => Some t | x :: l' => match f t x with Some t' => track_all f t' l' | None => None end end.
(** All the calls of a fresh tracker: points added, lines split, points merged. *)
Definition track (calls : list tcall) (log merged : list (nat * nat)) : option (list fset) :=
  match track_all track_call [] calls with
  | None => None
  | Some t => track_all track_merge (fold_left track_between log t) merged
  end.
(** get_value, 384-387: the recorded indices. *)
Definition get_value (t : list fset) (i : nat) : option (list nat) :=
  match nth_error t i with Some s => match contents s with Ok l => Some l | Bad => None end | None => None end.
