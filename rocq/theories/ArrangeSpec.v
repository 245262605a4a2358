(** Lines that only meet at common ends, stated without the helpers of the model. *)
From Coq Require Import ZArith QArith List Bool Arith.
From Verif Require Import GeomModel GeomSpec BalanceModel JoinSpec WindSpec.
Import ListNotations.

(** The two lines have the same two ends. *)
Definition same_ends (e1 e2 : point * point) : Prop := e1 = e2 \/ e1 = (snd e2, fst e2).
(** The rational point (X,Y) is an end of the line. *)
Definition end_of (e : point * point) (X Y : Q) : Prop :=
  (X == injX (fst e) /\ Y == injY (fst e))%Q \/ (X == injX (snd e) /\ Y == injY (snd e))%Q.
(** Any two lines have the same ends or meet only where both end. *)
Definition planar (es : list (point * point)) : Prop :=
  forall e1 e2, In e1 es -> In e2 es -> same_ends e1 e2 \/
    forall X Y, on_seg (fst e1) (snd e1) X Y -> on_seg (fst e2) (snd e2) X Y -> end_of e1 X Y /\ end_of e2 X Y.
(** No line has two equal ends. *)
Definition proper_lines (es : list (point * point)) : Prop := forall e, In e es -> fst e <> snd e.
(** Closed loops split wherever they meet: lines with different numbers, which only meet at
    common ends, and of each set as many end at any point as start there. *)
Definition arranged (ls : list line) : Prop :=
  NoDup (map ln_i ls) /\ planar (map ln_e ls) /\ proper_lines (map ln_e ls) /\
  forall c, balanced (map ln_e (filter (fun l => bset_eqb (ln_set l) c) ls)).
(** The lines met by the vertical line through the start of l, each once. *)
Definition column (l : line) (ls ck : list line) : Prop :=
  NoDup ck /\ forall m, In m ck <-> In m ls /\ spans (px (fst (ln_e l))) (ln_e m).
(** What a judgement puts into the output, and what it reverses. *)
Definition output_of (r : lstate) (e : point * point) : list (point * point) :=
  match r with LSkeep => [e] | LSkeep_rev => [turned e] | _ => [] end.
Definition reversed_of (r : lstate) (e : point * point) : list (point * point) :=
  match r with LSkeep_rev | LSdiscard_rev => [e] | _ => [] end.
