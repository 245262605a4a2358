(** What it means that the loops never turn back on themselves during a sweep. *)
From Coq Require Import ZArith List Arith.
From Verif Require Import GeomModel BalanceModel EventsModel OutModel ClipModel DynSpec.
Import ListNotations.

(** No edge of a loop goes back along the edge before it. *)
Definition loops_go_on (pts : list cpoint) : Prop :=
  forall i p q r, nth_error pts i = Some p -> nth_error pts (c_next p) = Some q -> nth_error pts (c_next q) = Some r -> ~ goes_back (c_data p) (c_data q) (c_data r).
(** The states before each step of a sweep, and the last one. *)
Inductive visits (step : cstate -> option cstate) : cstate -> cstate -> Prop :=
| visit_here st : visits step st st
| visit_step st st1 st2 : more _ (s_events st) = true -> step st = Some st1 -> visits step st1 st2 -> visits step st st2.
(** At no moment of the sweep does a loop go back. *)
Definition never_goes_back (step : cstate -> option cstate) (pts : list cpoint) (rand : Z) : Prop :=
  forall st1 st2, add_lines (mk_cs pts [] (q_empty _) [] rand []) (length pts) 0 = Some st1 -> visits step st1 st2 -> loops_go_on (s_pts st2).
