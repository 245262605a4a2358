(** The event queue of the clipper: clip.hpp:829-1014.

    Modelled for any type of events with a comparison. The comparison of the code
    (event_cmp) is at the end. Simplifications: std::ranges::sort and std::lower_bound are
    library functions; the sorts are parameters (any function, the theorems ask for what
    the standard guarantees) and lower_bound is the first position whose element is not
    less, which is what the standard guarantees on a sorted range. Reading outside of an
    array, and the failed assertion in next, are the outcome None. *)
From Coq Require Import List Bool Arith ZArith.
Import ListNotations.

Section Queue.
Variable A : Type.
Variable lt : A -> A -> bool.
Variable sort_events : list A -> list A.
(** The sort of new_events by position first and event second, clip.hpp:938-943. *)
Variable sort_new : list (A * nat) -> list (A * nat).

(** clip.hpp:845-853: events, new_events, current_i, last_size. *)
Record queue : Type := mk_queue { q_events : list A; q_new : list (A * nat); q_cur : Z; q_last : nat }.

(** Constructor and clear, 870-878. *)
Definition q_empty : queue := mk_queue [] [] (-1) 0.

Fixpoint set_at (l : list A) (i : nat) (x : A) : option (list A) :=
  match l, i with
  | [], _ => None
  | _ :: l', O => Some (x :: l')
  | y :: l', S i' => option_map (cons y) (set_at l' i' x)
  end.

(** The inner while loop of incorporate_new, 858-861, n steps. *)
Fixpoint shift_up (n i j : nat) (ev : list A) : option (nat * list A) :=
  match n with
  | O => Some (j, ev)
  | S n' =>
      if j <? i then None
      else match nth_error ev (j - i) with
           | None => None
           | Some x => match set_at ev j x with None => None | Some ev' => shift_up n' i (j - 1) ev' end
           end
  end.
(** The outer loop, 857-863; rnew are the remaining new events, last one first. *)
Fixpoint incorporate_loop (rnew : list (A * nat)) (j : nat) (ev : list A) : option (list A) :=
  match rnew with
  | [] => Some ev
  | (e, p) :: rest =>
      match shift_up (j - p) (length rnew) j ev with
      | None => None
      | Some (j', ev') =>
          match set_at ev' j' e with
          | None => None
          | Some ev'' => match rest with [] => Some ev'' | _ => if j' =? 0 then None else incorporate_loop rest (j' - 1) ev'' end
          end
      end
  end.
(** 855-867. *)
Definition incorporate_new (q : queue) : option queue :=
  let new_count := length (q_events q) - q_last q in
  if length (q_new q) <? new_count then None
  else match incorporate_loop (rev (firstn new_count (q_new q))) (length (q_events q) - 1) (q_events q) with
       | None => None
       | Some ev => Some (mk_queue ev [] (q_cur q) (length ev))
       end.

(** std::lower_bound over the elements l. *)
Fixpoint lower_bound (l : list A) (x : A) : nat :=
  match l with [] => 0 | y :: l' => if lt y x then S (lower_bound l' x) else 0 end.

(** 888-900: the position found, or None if the assertion fails. *)
Definition find_event (same : A -> A -> bool) (q : queue) (x : A) (upto : nat) : option nat :=
  let i := lower_bound (firstn upto (q_events q)) x in
  match nth_error (firstn upto (q_events q)) i with
  | Some y => if same y x then Some i else None
  | None => None
  end.

(** 906-908. *)
Definition more (q : queue) : bool :=
  (q_cur q + 1 <? Z.of_nat (length (q_events q)))%Z || negb (match q_new q with [] => true | _ => false end).

Definition at_cur (q : queue) : option A :=
  if (q_cur q <? 0)%Z then None else nth_error (q_events q) (Z.to_nat (q_cur q)).

(** The last line of next, 957. *)
Definition deliver (q : queue) : option (A * bool * queue) :=
  let q' := mk_queue (q_events q) (q_new q) (q_cur q + 1) (q_last q) in
  match at_cur q' with Some e => Some (e, true, q') | None => None end.
Definition undo (q : queue) : option (A * bool * queue) :=
  match at_cur q with Some e => Some (e, false, q) | None => None end.

Fixpoint renumber (i : nat) (l : list (A * nat)) : list (A * nat) :=
  match l with [] => [] | (e, p) :: l' => (e, p + i) :: renumber (S i) l' end.

(** 910-958. *)
Definition next (q : queue) : option (A * bool * queue) :=
  if (Z.of_nat (length (q_events q)) <=? q_cur q)%Z then None
  else
    match q_new q with
    | (_, p0) :: _ =>
        let q1 := mk_queue (q_events q) (q_new q) (q_cur q - 1) (q_last q) in
        if (Z.of_nat p0 <=? q_cur q1)%Z then undo q1
        else match incorporate_new q1 with None => None | Some q2 => deliver q2 end
    | [] =>
        if q_last q <? length (q_events q) then
          if q_last q =? 0 then
            let ev := sort_events (q_events q) in
            deliver (mk_queue ev [] (q_cur q) (length ev))
          else
            let found := map (fun e => (e, lower_bound (firstn (q_last q) (q_events q)) e)) (skipn (q_last q) (q_events q)) in
            let q1 := mk_queue (q_events q) (renumber 0 (sort_new found)) (q_cur q) (q_last q) in
            match q_new q1 with
            | [] => deliver q1
            | (_, p0) :: _ =>
                if (Z.of_nat p0 <=? q_cur q1)%Z then undo q1
                else match incorporate_new q1 with None => None | Some q2 => deliver q2 end
            end
        else deliver q
    end.

(** add_event, 960-962. *)
Definition add_event (e : A) (q : queue) : queue := mk_queue (q_events q ++ [e]) (q_new q) (q_cur q) (q_last q).
(** rewind, 880-883. *)
Definition rewind (q : queue) : option queue :=
  match q_new q with [] => Some (mk_queue (q_events q) [] (-1) (q_last q)) | _ => None end.
(** operator[] and current() used to change an event in place, 885-886, 1007-1008. *)
Definition update_at (f : A -> A) (i : nat) (q : queue) : option queue :=
  match nth_error (q_events q) i with
  | None => None
  | Some x => match set_at (q_events q) i (f x) with None => None | Some ev => Some (mk_queue ev (q_new q) (q_cur q) (q_last q)) end
  end.
End Queue.

(** The events of the clipper, 293-319. The x coordinate of the first point, which the
    comparison looks up in the points, is kept in the event here; it never changes. *)
Inductive event_type : Type := VForward | Backward | Forward | VBackward.
Record event : Type := mk_event { e_x : Z; e_a : nat; e_b : nat; e_node : nat; e_type : event_type; e_deleted : bool }.
Definition type_rank (t : event_type) : nat := match t with VForward => 0 | Backward => 1 | Forward => 2 | VBackward => 3 end.
Definition type_eqb (t u : event_type) : bool := type_rank t =? type_rank u.

(** event_cmp, 829-839. *)
Definition event_lt (l1 l2 : event) : bool :=
  if negb (e_x l1 =? e_x l2)%Z then (e_x l1 <? e_x l2)%Z
  else if negb (type_eqb (e_type l1) (e_type l2)) then type_rank (e_type l1) <? type_rank (e_type l2)
  else if negb (e_a l1 =? e_a l2) then e_a l1 <? e_a l2
  else e_b l1 <? e_b l2.
(** operator==, 316-318. *)
Definition event_same (l1 l2 : event) : bool :=
  type_eqb (e_type l1) (e_type l2) && (e_a l1 =? e_a l2) && (e_b l1 =? e_b l2).
