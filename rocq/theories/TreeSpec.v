(** How the loops of a result are nested, stated without the helpers of the model. *)
From Coq Require Import ZArith List Bool Arith.
From Verif Require Import GeomModel OutModel OutSpec JoinSpec RegionProps.
Import ListNotations.

(** Different loops have no coordinates in common. *)
Definition loops_apart (fps : list fpoint) (Ls : list (list nat)) : Prop :=
  forall a b La Lb x y, nth_error Ls a = Some La -> nth_error Ls b = Some Lb -> a <> b -> In x La -> In y Lb -> fpos fps x <> fpos fps y.
(** The loop a is around the loop x: it winds around every point of the loop x. *)
Definition around (fps : list fpoint) (Ls : list (list nat)) (a x : nat) : Prop :=
  a <> x /\ exists La Lx, nth_error Ls a = Some La /\ nth_error Ls x = Some Lx /\
    forall i, In i Lx -> exists w, wind_around 1 (fpos fps i) (loop_lines fps La) w /\ w <> 0%Z.
(** The hierarchy is a forest of all loops, with each loop in the innermost loop around it. *)
Definition tree_right (fps : list fpoint) (Ls : list (list nat)) (n : nat) (top : list nat) (children : list (list nat)) : Prop :=
  forest n top children /\
  (forall x, In x top <-> x < n /\ forall a, ~ around fps Ls a x) /\
  (forall o c x, nth_error children o = Some c -> In x c <-> innermost (around fps Ls) o x).
