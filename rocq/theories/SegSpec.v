(** Edges of loops that only meet at their ends, stated without the helpers of the model. *)
From Coq Require Import ZArith QArith List Bool.
From Verif Require Import GeomModel GeomSpec OutModel ClipModel ArrangeSpec.
Import ListNotations.
Local Open Scope Z_scope.

(** Edge i goes from P to Q: from point i to the point after it. *)
Definition edge_of (pts : list cpoint) (i : nat) (P Q : point) : Prop :=
  exists p q, nth_error pts i = Some p /\ nth_error pts (c_next p) = Some q /\ c_data p = P /\ c_data q = Q.
(** Edge i has an end at P, which is point number a; its other end is at Q. *)
Definition tip (pts : list cpoint) (i a : nat) (P Q : point) : Prop :=
  (a = i /\ edge_of pts i P Q) \/ (edge_of pts i Q P /\ exists p, nth_error pts i = Some p /\ a = c_next p).
(** Any two edges have the same two ends or meet only where both end. *)
Definition apart (pts : list cpoint) : Prop :=
  forall i j P Q P' Q', edge_of pts i P Q -> edge_of pts j P' Q' -> i <> j ->
  same_ends (P, Q) (P', Q') \/
  forall X Y, on_seg P Q X Y -> on_seg P' Q' X Y -> end_of (P, Q) X Y /\ end_of (P', Q') X Y.
(** From P, Q is to the left and Q' to the right, or the other way around; or one is straight
    below P and the other straight above. *)
Definition across (P Q Q' : point) : Prop :=
  (px Q - px P) * (px Q' - px P) < 0 \/ (px Q = px P /\ px Q' = px P /\ (py Q - py P) * (py Q' - py P) < 0).
(** The point has to be judged. *)
Definition to_judge (pts : list cpoint) (i : nat) : Prop := exists p, nth_error pts i = Some p /\ c_state p = Check.
(** Where two edges end that do not lie across from each other, both points are to be judged,
    unless it is one point. *)
Definition marked (pts pts' : list cpoint) : Prop :=
  forall i j a b P Q Q', tip pts i a P Q -> tip pts j b P Q' -> i <> j -> a <> b -> ~ across P Q Q' -> to_judge pts' a /\ to_judge pts' b.
