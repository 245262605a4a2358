(** Model of the way polygons are added to a clipper: clip.hpp:1789-2077 and
    reset, 2488-2495.

    The vector [lpoints] is a list.  Reading an element that does not exist is the
    explicit outcome [OutOfBounds].  The tracker is represented by the list of calls
    made to it.  Simplifications: indices are unbounded naturals, memory allocation
    is not modelled and of a clipper only the parts that survive an operation are
    represented. *)
From Coq Require Import ZArith List Bool Arith.
From Verif Require Import GeomModel.
Import ListNotations.

(** loop_point, clip.hpp:250-282; [lp_check] is state() == line_state::check. *)
Record lpoint : Type := mk_lpoint { lp_data : point; lp_next : nat; lp_set : bool_set; lp_check : bool }.

(** Calls made to i_point_tracker, clip.hpp:48-111. *)
Inductive tcall : Type := TAdded (original_i : nat) | TReset.

(** rand_generator (std::minstd_rand: multiplier 48271, modulus 2^31-1, seed 1) and
    rand_bool, clip.hpp:433-441. *)
Definition rand_seed : Z := 1.
Definition rand_next (s : Z) : Z := (s * 48271) mod 2147483647.
Definition rand_bool (s : Z) : bool * Z :=
  let s' := rand_next s in
  (Z.ltb (1 + (2147483646 - 1) / 2) s', s')%Z.

(** clipper, clip.hpp:1789-1815: lpoints, _next_orig_i, ran and rgen. *)
Record clip_state : Type := mk_clip
  { cs_points : list lpoint; cs_next_orig : nat; cs_ran : bool; cs_rand : Z }.
Definition clip_new : clip_state := mk_clip [] 0 false rand_seed.

(** clipper::reset, clip.hpp:2488-2495. *)
Definition clip_reset (c : clip_state) : clip_state := mk_clip [] 0 false (cs_rand c).

(** point_sink, clip.hpp:1839-1885; [sk_prev] is (prev, prev_orig_i) if started. *)
Record sink : Type := mk_sink
  { sk_prev : option (point * nat); sk_first : nat; sk_o1 : nat; sk_o2 : nat; sk_cat : bool_set; sk_pt : bool }.

(** The clipper, the calls made to the tracker so far and the sink. *)
Record sink_state : Type := mk_ss { ss_clip : clip_state; ss_log : list tcall; ss_sink : sink }.

Definition set_points (c : clip_state) (l : list lpoint) : clip_state :=
  mk_clip l (cs_next_orig c) (cs_ran c) (cs_rand c).
Definition set_orig (c : clip_state) (i : nat) : clip_state :=
  mk_clip (cs_points c) i (cs_ran c) (cs_rand c).

Definition back (l : list lpoint) : option lpoint := nth_error l (length l - 1).

(** point_sink::finalize_prev, clip.hpp:2028-2050, for prev = [p], prev_orig_i = [o]. *)
Definition finalize_prev (st : sink_state) (p : point) (o : nat) : sink_state :=
  let c := ss_clip st in let s := ss_sink st in
  let dup := match back (cs_points c) with
             | Some b => point_eqb p (lp_data b)
             | None => false
             end in
  if dup then st
  else
    let n := (length (cs_points c) - sk_first s)%nat in
    let s' :=
      if sk_pt s then
        match n with
        | 0%nat => mk_sink (sk_prev s) (sk_first s) o (sk_o2 s) (sk_cat s) (sk_pt s)
        | 1%nat => mk_sink (sk_prev s) (sk_first s) (sk_o1 s) o (sk_cat s) (sk_pt s)
        | _ => s
        end
      else s in
    let log' :=
      if sk_pt s then
        match n with
        | 0%nat | 1%nat => ss_log st
        | 2%nat => ss_log st ++ [TAdded (sk_o1 s); TAdded (sk_o2 s); TAdded o]
        | _ => ss_log st ++ [TAdded o]
        end
      else ss_log st in
    mk_ss (set_points c (cs_points c ++ [mk_lpoint p (S (length (cs_points c))) (sk_cat s) false])) log' s'.

(** point_sink::operator(), clip.hpp:2052-2059. *)
Definition sink_put (st : sink_state) (p : point) (orig : nat) : sink_state :=
  let st1 := match sk_prev (ss_sink st) with
             | Some (q, o) => finalize_prev st q o
             | None => st
             end in
  let s := ss_sink st1 in
  mk_ss (set_orig (ss_clip st1) (S orig)) (ss_log st1)
    (mk_sink (Some (p, orig)) (sk_first s) (sk_o1 s) (sk_o2 s) (sk_cat s) (sk_pt s)).

Inductive outcome (A : Type) : Type := Done (a : A) | OutOfBounds.
Arguments Done {A} a.
Arguments OutOfBounds {A}.

Definition set_last (l : list lpoint) (f : lpoint -> lpoint) : list lpoint :=
  match rev l with [] => [] | x :: r => rev (f x :: r) end.

(** point_sink::~point_sink, clip.hpp:2060-2077. *)
Definition sink_close (st : sink_state) : outcome (clip_state * list tcall) :=
  match sk_prev (ss_sink st) with
  | None => Done (ss_clip st, ss_log st)
  | Some (p, o) =>
      match nth_error (cs_points (ss_clip st)) (sk_first (ss_sink st)) with
      | None => OutOfBounds
      | Some f =>
          let st1 := if negb (point_eqb p (lp_data f)) then finalize_prev st p o else st in
          let c := ss_clip st1 in
          let first := sk_first (ss_sink st1) in
          let added := (length (cs_points c) - first)%nat in
          if Nat.ltb added 3 then Done (set_points c (firstn (length (cs_points c) - added) (cs_points c)), ss_log st1)
          else Done (set_points c (set_last (cs_points c)
                 (fun l => mk_lpoint (lp_data l) first (lp_set l) true)), ss_log st1)
      end
  end.

(** clipper::add_loop, clip.hpp:1948-1961. *)
Definition sink_open (c : clip_state) (log : list tcall) (cat : bool_set) (pt : bool) : sink_state :=
  let c' := if cs_ran c then clip_reset c else c in
  let log' := if cs_ran c && pt then log ++ [TReset] else log in
  mk_ss c' log' (mk_sink None (length (cs_points c')) 0 0 cat pt).

(** operator()(p): the original index defaults to _next_orig_i, clip.hpp:1881. *)
Definition sink_put_next (st : sink_state) (p : point) : sink_state :=
  sink_put st p (cs_next_orig (ss_clip st)).

(** _add_loop, clip.hpp:1833-1836. *)
Definition add_loop (c : clip_state) (log : list tcall) (cat : bool_set) (pt : bool) (l : list point)
  : outcome (clip_state * list tcall) :=
  sink_close (fold_left sink_put_next l (sink_open c log cat pt)).

(** add_loops for a range of ranges, clip.hpp:1909-1917. *)
Fixpoint add_loops (c : clip_state) (log : list tcall) (cat : bool_set) (pt : bool) (ls : list (list point))
  : outcome (clip_state * list tcall) :=
  match ls with
  | [] => Done (c, log)
  | l :: ls' =>
      match add_loop c log cat pt l with
      | Done (c', log') => add_loops c' log' cat pt ls'
      | OutOfBounds => OutOfBounds
      end
  end.
