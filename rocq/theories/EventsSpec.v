(** What the event queue should do, seen from outside. *)
From Coq Require Import List Bool Arith ZArith Permutation Sorted.
From Verif Require Import EventsModel.
Import ListNotations.

Section Spec.
Variable A K : Type.
(** What the comparison looks at, and the comparison. *)
Variable key : A -> K.
Variable ltk : K -> K -> bool.

Record strict_weak_order : Prop := {
  swo_asym : forall x y, ltk x y = true -> ltk y x = false;
  swo_neg : forall x y z, ltk x y = false -> ltk y z = false -> ltk x z = false }.
Definition not_after (x y : K) : Prop := ltk y x = false.
Definition in_order (l : list K) : Prop := StronglySorted not_after l.

Definition lt_ev (x y : A) : bool := ltk (key x) (key y).
Definition lt_new (x y : A * nat) : bool :=
  if negb (snd x =? snd y) then snd x <? snd y else lt_ev (fst x) (fst y).
(** A sorting function as the library promises. *)
Definition sorts {B} (lt : B -> B -> bool) (f : list B -> list B) : Prop :=
  forall l, Permutation l (f l) /\ StronglySorted (fun x y => lt y x = false) (f l).

Variable sort_events : list A -> list A.
Variable sort_new : list (A * nat) -> list (A * nat).
Notation next := (next A lt_ev sort_events sort_new).

(** [history q done all undoing]: the queue q was made by some sequence of calls, [done]
    are the events delivered and not undone, latest first, [all] are all that were added,
    and [undoing] tells that the latest call of next was an undo. Events are added only when it was not. Events may be changed in place,
    but not in what the comparison looks at. *)
Inductive history : queue A -> list K -> list K -> bool -> Prop :=
| h_new : history (q_empty A) [] [] false
| h_add q s all e : history q s all false -> history (add_event A e q) s (key e :: all) false
| h_update q s all u f i q' : history q s all u -> (forall x, key (f x) = key x) ->
    update_at A f i q = Some q' -> history q' s all u
| h_forward q s all u e q' : history q s all u -> more A q = true -> next q = Some (e, true, q') ->
    history q' (key e :: s) all false
| h_undo q s all u e q' : history q s all u -> more A q = true -> next q = Some (e, false, q') ->
    history q' (tl s) all true
| h_rewind q s all q' : history q s all false -> more A q = false -> rewind A q = Some q' -> history q' [] all false.
End Spec.
