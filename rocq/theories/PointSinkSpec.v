(** What adding a polygon should store. *)
From Coq Require Import ZArith List Bool Arith Sorted.
From Verif Require Import GeomModel PointSinkModel.
Import ListNotations.

(** Remove points equal to their predecessor. *)
Fixpoint uniq (l : list point) : list point :=
  match l with
  | p :: ((q :: _) as l') => if point_eqb p q then uniq l' else p :: uniq l'
  | _ => l
  end.

(** Also remove a last point equal to the first. *)
Definition open_end (l : list point) : list point :=
  match l with
  | f :: (_ :: _) => if point_eqb (last l f) f then removelast l else l
  | _ => l
  end.

(** The polygon to be stored: nothing if fewer than three points remain. *)
Definition norm (l : list point) : list point :=
  let u := open_end (uniq l) in if Nat.ltb (length u) 3 then [] else u.

(** No two neighbours of the closed polygon are equal. *)
Definition no_equal_neighbours (l : list point) : Prop :=
  forall i p q, nth_error l i = Some p -> nth_error l (S i mod length l) = Some q -> p <> q.

(** [l] stored as a closed cycle from index [base] on: every point is linked to the
    following one and the last to the first; the last is marked. *)
Definition ring (base : nat) (cat : bool_set) (l : list point) : list lpoint :=
  map (fun ip => let '(i, p) := ip in
         if Nat.eqb (S i) (length l) then mk_lpoint p base cat true else mk_lpoint p (base + S i) cat false)
    (combine (seq 0 (length l)) l).

Definition first_is (l : list point) (p : point) : Prop := hd_error l = Some p.
Definition last_is (l : list point) (p : point) : Prop := exists m, l = m ++ [p].
(** The last stored point of the clipper. *)
Definition last_stored (c : clip_state) (p : point) : Prop :=
  exists m b, cs_points c = m ++ [b] /\ lp_data b = p.

(** The last two points of [l] equal the first although another point differs. *)
Definition trailing_repeat (l : list point) : Prop :=
  exists p m, l = m ++ [p; p] /\ first_is l p /\ exists q, In q l /\ q <> p.

(** [idx] gives, for the stored points in order, increasing positions in the input at
    which exactly these points stand. *)
Definition calls_ok (pts : list lpoint) (idx : list nat) (input : list point) : Prop :=
  length idx = length pts /\ StronglySorted lt idx /\
  forall k i p, nth_error idx k = Some i -> nth_error pts k = Some p -> nth_error input i = Some (lp_data p).
