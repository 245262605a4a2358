(** What the last stage of an operation should do, stated without its helpers. *)
From Coq Require Import ZArith List Bool Arith Permutation.
From Verif Require Import GeomModel OutModel.
Import ListNotations.

(** Points still in use: -1 is an ordinary point, -3 an anchor. *)
Definition in_use (p : fpoint) : Prop := f_index p = (-1)%Z \/ f_index p = (-3)%Z.
(** The links of the points in use form a permutation. *)
Definition links_ok (pts : list fpoint) : Prop :=
  (forall i p, nth_error pts i = Some p -> in_use p -> exists q, nth_error pts (f_next p) = Some q /\ in_use q) /\
  (forall i j p q, nth_error pts i = Some p -> nth_error pts j = Some q -> in_use p -> in_use q -> f_next p = f_next q -> i = j).
(** The indices of the ordinary points. *)
Definition ordinary (pts : list fpoint) : list nat :=
  filter (fun i => match nth_error pts i with Some p => (f_index p =? -1)%Z | None => false end) (seq 0 (length pts)).
(** The next ordinary point after a point, skipping anchors. *)
Inductive leads_to (pts : list fpoint) : nat -> nat -> Prop :=
| leads_direct : forall i p q, nth_error pts i = Some p -> nth_error pts (f_next p) = Some q -> f_index q = (-1)%Z -> leads_to pts i (f_next p)
| leads_skip : forall i p q j, nth_error pts i = Some p -> nth_error pts (f_next p) = Some q -> f_index q = (-3)%Z -> leads_to pts (f_next p) j -> leads_to pts i j.
(** Neighbours in a cyclic sequence. *)
Definition cyclic_next (l : list nat) (a b : nat) : Prop :=
  exists k, nth_error l k = Some a /\ nth_error l (S k mod length l) = Some b.

(** * The hierarchy *)
(** Nesting: a strict order in which the loops around any one loop are themselves nested. *)
Definition nesting (n : nat) (encl : nat -> nat -> Prop) : Prop :=
  (forall a b, encl a b -> a < n /\ b < n) /\ (forall a, ~ encl a a) /\ (forall a b c, encl a b -> encl b c -> encl a c) /\
  (forall a b c, encl a c -> encl b c -> a = b \/ encl a b \/ encl b a).
(** The closest loop around another. *)
Definition innermost (encl : nat -> nat -> Prop) (o i : nat) : Prop := encl o i /\ forall a, encl a i -> a = o \/ encl a o.
(** Every loop once, at the top or in one other loop. *)
Definition forest (n : nat) (top : list nat) (children : list (list nat)) : Prop :=
  length children = n /\ Permutation (top ++ concat children) (seq 0 n).
(** The signed number of the given lines that belong to a loop: lines going left, or straight
    down, count 1; the others count -1. *)
Definition goes_left (p q : point) : bool := ((px q <? px p) || ((px q =? px p) && (py q <? py p)))%Z.
Fixpoint signed_count (pts : list fpoint) (l : nat) (lines : list nat) : Z :=
  match lines with
  | [] => 0
  | i :: lines' =>
      (match nth_error pts i with
       | Some p => if (f_index p =? Z.of_nat l)%Z then
                     match nth_error pts (f_next p) with Some q => if goes_left (f_data p) (f_data q) then 1 else -1 | None => 0 end
                   else 0
       | None => 0
       end + signed_count pts l lines')%Z
  end.
(** A line the counting can use: an index in range, a known loop, two different ends. *)
Definition countable (pts : list fpoint) (n : nat) (i : nat) : Prop :=
  exists p, nth_error pts i = Some p /\
    ((f_index p < 0)%Z \/ (f_index p < Z.of_nat n)%Z /\ exists q, nth_error pts (f_next p) = Some q /\ f_data q <> f_data p).
