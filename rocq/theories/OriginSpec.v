(** Where the index of an input point ends up when points are merged in order. *)
From Coq Require Import List Arith.
Import ListNotations.

Definition lands (merged : list (nat * nat)) (i : nat) : nat := fold_left (fun i ft => if Nat.eqb i (fst ft) then snd ft else i) merged i.
(** No point is merged into one that was discarded before. *)
Definition in_order (merged : list (nat * nat)) : Prop :=
  forall a f t b, merged = a ++ (f, t) :: b -> ~ In t (map fst a).
(** Going from i through the discarded points reaches k, which is not discarded. *)
Inductive leads (merged : list (nat * nat)) : nat -> nat -> Prop :=
| leads_here k : ~ In k (map fst merged) -> leads merged k k
| leads_on i j k : In (i, j) merged -> leads merged j k -> leads merged i k.
