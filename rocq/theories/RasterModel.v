(** The rasteriser: polydraw.hpp.

    Simplifications: coordinates are integers without overflow (RasterProps states how
    large they may be); the division inside "intersects" is the one proved for the code in
    LargeIntsProps (C07_euclid_actual_partial); the sweep set is a sequence (RBProps shows
    that the tree behaves like one), where insertion goes before the first element that
    the new one is less than; sorting and std::lower_bound as in EventsModel. Reading
    outside of an array is the outcome None, as is running out of fuel. A failing
    assertion is recorded, and the run goes on as in a build without assertions. The
    generator that is re-entered for every scan line is a function that gives the list of
    all scan lines. *)
From Coq Require Import List Bool Arith ZArith.
From Verif Require Import GeomModel.
From Verif Require EventsModel.
Import ListNotations.
Local Open Scope Z_scope.

(** * Exact fractions *)
(** fraction, 26-68. *)
Record fraction : Type := mk_frac { fr_num : Z; fr_den : Z }.
(** The constructor, 35-41; the assertion denom <> 0 is left to the theorems. *)
Definition make_frac (n d : Z) : fraction := if d <? 0 then mk_frac (- n) (- d) else mk_frac n d.
(** operator<=>, 50-57. *)
Definition frac_cmp (a b : fraction) : comparison := (fr_num a * fr_den b ?= fr_num b * fr_den a).
Definition frac_cmp_int (a : fraction) (b : Z) : comparison := (fr_num a ?= b * fr_den a).
(** operator==, 58-61. *)
Definition frac_eqb (a b : fraction) : bool := fr_num a * fr_den b =? fr_num b * fr_den a.

(** whole_and_frac, 70-98. *)
Record wfrac : Type := mk_wfrac { wf_whole : Z; wf_frac : fraction }.
(** 74-75. *)
Definition wf_of_int (w : Z) : wfrac := mk_wfrac w (make_frac 0 1).
(** round, 78-80. *)
Definition wf_round (a : wfrac) : Z :=
  wf_whole a + (if Z.quot (fr_den (wf_frac a)) 2 <=? fr_num (wf_frac a) + fr_den (wf_frac a) - 1 then 1 else 0).
(** 82-91. *)
Definition wf_cmp (a b : wfrac) : comparison :=
  match wf_whole a ?= wf_whole b with Eq => frac_cmp (wf_frac a) (wf_frac b) | c => c end.
Definition wf_cmp_int (a : wfrac) (b : Z) : comparison :=
  match wf_whole a ?= b with Eq => frac_cmp_int (wf_frac a) 0 | c => c end.
(** 92-94. *)
Definition wf_eqb (a b : wfrac) : bool := (wf_whole a =? wf_whole b) && frac_eqb (wf_frac a) (wf_frac b).

(** unmul(a,b,euclid) as computed by the code: quotient and remainder. *)
Definition code_euclid (a b : Z) : Z * Z :=
  let q := Z.abs a / Z.abs b in
  let r := Z.abs a mod Z.abs b in
  if xorb (a <? 0) (b <? 0) then (-1 - q, Z.abs b - r) else (q, r).

(** * Edges *)
(** intersects, 126-160. *)
Definition rintersects (s1 s2 : cseg) : option wfrac :=
  let x1 := px (sg_pa s1) in let y1 := py (sg_pa s1) in
  let x2 := px (sg_pb s1) in let y2 := py (sg_pb s1) in
  let x3 := px (sg_pa s2) in let y3 := py (sg_pa s2) in
  let x4 := px (sg_pb s2) in let y4 := py (sg_pb s2) in
  if (Nat.eqb (sg_a s1) (sg_a s2) || Nat.eqb (sg_a s1) (sg_b s2) || Nat.eqb (sg_b s1) (sg_a s2) || Nat.eqb (sg_b s1) (sg_b s2))%bool then None
  else
    let d := (x1 - x2) * (y3 - y4) - (y1 - y2) * (x3 - x4) in
    if d =? 0 then None
    else
      let t := (x1 - x3) * (y3 - y4) - (y1 - y3) * (x3 - x4) in
      let u := (x1 - x3) * (y1 - y2) - (y1 - y3) * (x1 - x2) in
      if (if 0 <? d then (t <=? 0) || (d <=? t) || (u <=? 0) || (d <=? u)
          else (0 <=? t) || (t <=? d) || (0 <=? u) || (u <=? d))%bool then None
      else
        let '(q, r) := code_euclid (t * (y2 - y1) + d * y1) d in
        Some (mk_wfrac q (mk_frac r (Z.abs d))).

(** x_intercept, 162-170. *)
Definition x_intercept (s e : point) (y : Z) : fraction :=
  make_frac (px s * (y - py e) + px e * (py s - y)) (py s - py e).

(** sweep_cmp, 172-183: larger x first. *)
Definition rsweep_cmp (cur : Z) (s1 s2 : cseg) : bool :=
  match frac_cmp (x_intercept (sg_pa s1) (sg_pb s1) cur) (x_intercept (sg_pa s2) (sg_pb s2) cur) with
  | Gt => true
  | Lt => false
  | Eq =>
      match frac_cmp (x_intercept (sg_pa s1) (sg_pb s1) (cur + 1)) (x_intercept (sg_pa s2) (sg_pb s2) (cur + 1)) with
      | Gt => true
      | Lt => false
      | Eq => if Nat.eqb (sg_b s1) (sg_b s2) then Nat.ltb (sg_a s2) (sg_a s1) else Nat.ltb (sg_b s2) (sg_b s1)
      end
  end.

(** clamp, 398-403, and to_coord, 405-407. *)
Definition clamp (x lo hi : Z) : Z := if x <? lo then lo else if hi <? x then hi else x.
Definition to_coord (x : fraction) (lo hi : Z) : Z := clamp (Z.quot (fr_num x) (fr_den x)) lo hi.

(** fill rules, 22 and 409-422. *)
Inductive fill_rule : Type := NonZero | EvenOdd | Positive | Negative.
Definition should_fill (rule : fill_rule) (winding : Z) : bool :=
  match rule with
  | NonZero => negb (winding =? 0)
  | EvenOdd => negb (Z.rem winding 2 =? 0)
  | Positive => 0 <? winding
  | Negative => winding <? 0
  end.

(** * Events *)
(** 221-252; a_y is looked up in the points by the code. *)
Inductive rtype : Type := RBackward | RForward | RSwap.
Definition rrank (t : rtype) : nat := match t with RBackward => 0 | RForward => 1 | RSwap => 2 end.
Record revent : Type := mk_revent { re_type : rtype; re_a : nat; re_b : nat; re_y : Z; re_node : nat; re_intr : wfrac }.
Definition is_swap (e : revent) : bool := match re_type e with RSwap => true | _ => false end.
Definition rtype_eqb (t u : rtype) : bool := Nat.eqb (rrank t) (rrank u).

(** event_cmp, 254-275. The third case is the reversed comparison with an integer. *)
Definition revent_ord (l1 l2 : revent) : comparison :=
  if is_swap l1 then if is_swap l2 then wf_cmp (re_intr l1) (re_intr l2) else wf_cmp_int (re_intr l1) (re_y l2)
  else if is_swap l2 then CompOpp (wf_cmp_int (re_intr l2) (re_y l1)) else (re_y l1 ?= re_y l2).
Definition revent_lt (l1 l2 : revent) : bool :=
  match revent_ord l1 l2 with
  | Lt => true
  | Gt => false
  | Eq =>
      if negb (rtype_eqb (re_type l1) (re_type l2)) then Nat.ltb (rrank (re_type l1)) (rrank (re_type l2))
      else if negb (Nat.eqb (re_a l1) (re_a l2)) then Nat.ltb (re_a l1) (re_a l2)
      else Nat.ltb (re_b l1) (re_b l2)
  end.
(** less_than_or_equal, 277-284. *)
Definition at_or_before (e : revent) (y : Z) : bool :=
  if is_swap e then match wf_cmp_int (re_intr e) y with Gt => false | _ => true end else re_y e <=? y.

(** * Points *)
(** loop_point, 101-117. *)
Record rpoint : Type := mk_rpoint { rp_data : point; rp_next : nat }.
Record rsink : Type := mk_rsink { rk_pts : list rpoint; rk_prev : point; rk_first : nat; rk_started : bool }.
Definition rback (l : list rpoint) : option rpoint := nth_error l (length l - 1).
(** point_sink::operator(), 505-524. *)
Definition rsink_put (s : rsink) (p : point) : rsink :=
  if rk_started s then
    match rback (rk_pts s) with
    | Some b =>
        if point_eqb (rk_prev s) (rp_data b) then mk_rsink (rk_pts s) p (rk_first s) true
        else mk_rsink (rk_pts s ++ [mk_rpoint (rk_prev s) (S (length (rk_pts s)))]) p (rk_first s) true
    | None => s
    end
  else mk_rsink (rk_pts s ++ [mk_rpoint p (S (length (rk_pts s)))]) p (length (rk_pts s)) true.
(** ~point_sink, 526-541. *)
Definition rsink_close (s : rsink) : list rpoint :=
  if rk_started s then
    let pts :=
      match rback (rk_pts s), nth_error (rk_pts s) (rk_first s) with
      | Some b, Some f =>
          if negb (point_eqb (rk_prev s) (rp_data b)) && negb (point_eqb (rk_prev s) (rp_data f))
          then rk_pts s ++ [mk_rpoint (rk_prev s) 0] else rk_pts s
      | _, _ => rk_pts s
      end in
    let new_points := (length pts - rk_first s)%nat in
    if (new_points <? 3)%nat then firstn (length pts - new_points) pts
    else match rback pts with
         | Some b => firstn (length pts - 1) pts ++ [mk_rpoint (rp_data b) (rk_first s)]
         | None => pts
         end
  else rk_pts s.
(** _add_loop, 446-449. *)
Definition radd_loop (pts : list rpoint) (l : list point) : list rpoint :=
  rsink_close (fold_left rsink_put l (mk_rsink pts (0, 0) 0 false)).
(** add_loops, 483-489, on a rasteriser that was not yet run. *)
Definition radd_loops (pts : list rpoint) (ls : list (list point)) : list rpoint := fold_left radd_loop ls pts.

(** * The sweep *)
Section Run.
Variable sort_events : list revent -> list revent.
Variable sort_new : list (revent * nat) -> list (revent * nat).
Variable pts : list rpoint.
(** Width in bits of the coordinate type. *)
Variable wbits : Z.
Variable width height : Z.

Record rstate : Type := mk_rstate {
  rs_events : list revent; rs_last : nat; rs_cur : Z;
  rs_sweep : list nat; rs_nodes : list cseg; rs_ok : bool }.

Definition with_events (st : rstate) ev last cur := mk_rstate ev last cur (rs_sweep st) (rs_nodes st) (rs_ok st).
Definition with_sweep (st : rstate) sw := mk_rstate (rs_events st) (rs_last st) (rs_cur st) sw (rs_nodes st) (rs_ok st).
(** POLY_OPS_ASSERT. *)
Definition check (b : bool) (st : rstate) := mk_rstate (rs_events st) (rs_last st) (rs_cur st) (rs_sweep st) (rs_nodes st) (rs_ok st && b).

(** at_end, 331-333. *)
Definition at_end (st : rstate) : bool := Z.of_nat (length (rs_events st)) <=? rs_cur st.
(** current, 393-394. *)
Definition current (st : rstate) : option revent :=
  if rs_cur st <? 0 then None else nth_error (rs_events st) (Z.to_nat (rs_cur st)).

(** events_t::next, 335-373 (the assertion that no equal event is present is left out). *)
Definition rnext (st : rstate) : option rstate :=
  let st := check (rs_cur st <? Z.of_nat (length (rs_events st))) st in
  if (rs_last st <? length (rs_events st))%nat then
    if (rs_last st =? 0)%nat then
      let ev := sort_events (rs_events st) in Some (with_events st ev (length ev) (rs_cur st + 1))
    else
      let old := firstn (rs_last st) (rs_events st) in
      let found := map (fun e => (e, EventsModel.lower_bound revent revent_lt old e)) (skipn (rs_last st) (rs_events st)) in
      let new := EventsModel.renumber revent 0 (sort_new found) in
      let st := check (match new with (_, p0) :: _ => rs_cur st <? Z.of_nat p0 | [] => true end) st in
      match EventsModel.incorporate_new revent (EventsModel.mk_queue revent (rs_events st) new (rs_cur st) (rs_last st)) with
      | None => None
      | Some q => Some (with_events st (EventsModel.q_events revent q) (EventsModel.q_last revent q) (rs_cur st + 1))
      end
  else Some (with_events st (rs_events st) (rs_last st) (rs_cur st + 1)).

Definition push_event (st : rstate) (e : revent) : rstate :=
  check (match current st with Some c => revent_lt c e | None => false end)
    (with_events st (rs_events st ++ [e]) (rs_last st) (rs_cur st)).
Definition swap_event (s1 s2 : nat) (w : wfrac) : revent := mk_revent RSwap s1 s2 0 0 w.
Definition not_before (w : wfrac) (c : comparison) : bool := match c with Lt => false | _ => true end.

(** check_intersection, 549-560. *)
Definition check_intersection (st : rstate) (s1 s2 : nat) (y : Z) : option rstate :=
  match nth_error (rs_nodes st) s1, nth_error (rs_nodes st) s2 with
  | Some e1, Some e2 =>
      match rintersects e1 e2 with
      | Some w => if not_before w (wf_cmp_int w y) then Some (push_event st (swap_event s1 s2 w)) else Some st
      | None => Some st
      end
  | _, _ => None
  end.

(** Neighbours in the sweep. *)
Fixpoint next_of (x : nat) (l : list nat) : option nat :=
  match l with a :: (b :: _) as l' => if Nat.eqb a x then Some b else next_of x l' | _ => None end.
Fixpoint prev_of (x : nat) (l : list nat) : option nat :=
  match l with a :: (b :: _) as l' => if Nat.eqb b x then Some a else prev_of x l' | _ => None end.
Definition erase_node (x : nat) (l : list nat) : list nat := filter (fun i => negb (Nat.eqb i x)) l.
Fixpoint put_before (pos x : nat) (l : list nat) : list nat :=
  match l with [] => [x] | y :: l' => if Nat.eqb y pos then x :: y :: l' else y :: put_before pos x l' end.
Definition opt_nat_eqb (a b : option nat) : bool :=
  match a, b with Some x, Some y => Nat.eqb x y | None, None => true | _, _ => false end.

(** swap_and_check, 588-605, with check_intersection_after_swap, 564-586, inside.
    A node that is not in the sweep is the outcome None. *)
Fixpoint swap_and_check (fuel : nat) (st : rstate) (s1 s2 : nat) (y : wfrac) : option rstate :=
  match fuel with
  | O => None
  | S f =>
      let after_swap (st : rstate) (s1 s2 : nat) : option rstate :=
        match nth_error (rs_nodes st) s1, nth_error (rs_nodes st) s2 with
        | Some e1, Some e2 =>
            match rintersects e1 e2 with
            | Some w =>
                if not_before w (wf_cmp w y) then
                  if wf_eqb w y then swap_and_check f st s1 s2 y
                  else Some (push_event st (swap_event s1 s2 w))
                else Some st
            | None => Some st
            end
        | _, _ => None
        end in
      if negb (existsb (Nat.eqb s1) (rs_sweep st) && existsb (Nat.eqb s2) (rs_sweep st)) then None
      else if negb (opt_nat_eqb (next_of s1 (rs_sweep st)) (Some s2)) then Some st
      else
        let st := with_sweep st (put_before s1 s2 (erase_node s2 (rs_sweep st))) in
        match (match prev_of s2 (rs_sweep st) with Some p => after_swap st p s2 | None => Some st end) with
        | None => None
        | Some st => match next_of s1 (rs_sweep st) with Some n => after_swap st s1 n | None => Some st end
        end
  end.

(** The three loops of a row, 631-684. *)
Definition is_type (t : rtype) (e : revent) : bool := rtype_eqb (re_type e) t.
Section Loop.
Variable t : rtype.
Variable handle : rstate -> revent -> option rstate.
Variable y : Z.
Fixpoint event_loop (fuel : nat) (st : rstate) : option rstate :=
  if at_end st then Some st
  else match current st with
       | None => None
       | Some e =>
           if at_or_before e y && is_type t e then
             match fuel with
             | O => None
             | S f => match handle st e with
                      | None => None
                      | Some st1 => match rnext st1 with None => None | Some st2 => event_loop f st2 end
                      end
             end
           else Some st
       end.
End Loop.
Definition on_swap (fuel : nat) (st : rstate) (e : revent) : option rstate :=
  swap_and_check fuel st (re_a e) (re_b e) (re_intr e).
(** 648-663: erase returns the following element. *)
Definition on_backward (st : rstate) (e : revent) : option rstate :=
  if negb (existsb (Nat.eqb (re_node e)) (rs_sweep st)) then None
  else
    let nxt := next_of (re_node e) (rs_sweep st) in
    let prv := prev_of (re_node e) (rs_sweep st) in
    let st := with_sweep st (erase_node (re_node e) (rs_sweep st)) in
    match prv, nxt with
    | Some p, Some n => check_intersection st p n (re_y e)
    | _, _ => Some st
    end.
(** 664-684. *)
Fixpoint insert_sorted (nodes : list cseg) (cur : Z) (n : nat) (e : cseg) (l : list nat) : option (list nat) :=
  match l with
  | [] => Some [n]
  | x :: l' =>
      match nth_error nodes x with
      | None => None
      | Some ex => if rsweep_cmp cur e ex then Some (n :: l) else option_map (cons x) (insert_sorted nodes cur n e l')
      end
  end.
Definition on_forward (y : Z) (st : rstate) (e : revent) : option rstate :=
  match nth_error (rs_nodes st) (re_node e) with
  | None => None
  | Some se =>
      match insert_sorted (rs_nodes st) y (re_node e) se (rs_sweep st) with
      | None => None
      | Some sw =>
          let st := with_sweep st sw in
          match (match prev_of (re_node e) sw with Some p => check_intersection st p (re_node e) (re_y e) | None => Some st end) with
          | None => None
          | Some st => match next_of (re_node e) sw with Some n => check_intersection st (re_node e) n (re_y e) | None => Some st end
          end
      end
  end.

(** consistent_order, 196-219. *)
Definition consistent (nodes : list cseg) (cur : Z) (l : list nat) : bool :=
  let cmp i j := match nth_error nodes i, nth_error nodes j with Some a, Some b => rsweep_cmp cur a b | _, _ => true end in
  (fix go (l : list nat) : bool := match l with [] => true | x :: l' => negb (cmp x x) && forallb (fun z => negb (cmp z x)) l' && go l' end) l.

(** scan_line, 607-612. *)
Record scan_line : Type := mk_scan { sl_x1 : Z; sl_x2 : Z; sl_y : Z; sl_winding : Z }.
Definition to_uint (z : Z) : Z := z mod 2 ^ 32.
(** static_cast<Coord>(width-1), with unsigned arithmetic. *)
Definition hi_x : Z :=
  let u := (width - 1) mod 2 ^ 32 in
  let m := u mod 2 ^ wbits in if m <? 2 ^ (wbits - 1) then m else m - 2 ^ wbits.
(** a_is_main, base.hpp:576-579. *)
Definition goes_down (s : cseg) : option bool :=
  match nth_error pts (sg_a s) with Some p => Some (Nat.eqb (rp_next p) (sg_b s)) | None => None end.
(** The spans of a row, 689-709. *)
Fixpoint row_spans (nodes : list cseg) (y : Z) (l : list nat) (winding x : Z) : option (list scan_line) :=
  match l with
  | [] => Some []
  | i :: l' =>
      match nth_error nodes i with
      | None => None
      | Some s =>
          match goes_down s with
          | None => None
          | Some main =>
              let w := winding + (if main then 1 else -1) in
              let x' := to_coord (x_intercept (sg_pa s) (sg_pb s) y) 0 hi_x in
              match row_spans nodes y l' w x' with
              | None => None
              | Some rest =>
                  Some (if winding =? 0 then rest else mk_scan (to_uint x') (to_uint x) (to_uint y) winding :: rest)
              end
          end
      end
  end.

(** The rows, 628-712; n is the number of rows that are left. The lists of the rows are
    also kept, for the statements: each row comes with the sweep it was made from. *)
Fixpoint rows (fuel n : nat) (y : Z) (st : rstate) : option (list (Z * list nat * list scan_line) * rstate) :=
  match n with
  | O => Some ([], st)
  | S n' =>
      if at_end st then Some ([], st)
      else
        match event_loop RSwap (on_swap fuel) y fuel st with
        | None => None
        | Some st =>
            match event_loop RBackward on_backward y fuel st with
            | None => None
            | Some st =>
                match event_loop RForward (on_forward y) y fuel st with
                | None => None
                | Some st =>
                    let done := match current st with Some e => at_end st || negb (at_or_before e y) | None => at_end st end in
                    let st := check (done && consistent (rs_nodes st) y (rs_sweep st)) st in
                    match (if 0 <=? y then row_spans (rs_nodes st) y (rs_sweep st) 0 0 else Some []) with
                    | None => None
                    | Some spans =>
                        match rows fuel n' (y + 1) st with
                        | None => None
                        | Some (out, st') => Some ((y, rs_sweep st, spans) :: out, st')
                        end
                    end
                end
            end
        end
  end.

(** scan_lines, 717-739. *)
Definition edge_of (i : nat) (p : rpoint) : option (list cseg) :=
  match nth_error pts (rp_next p) with
  | None => None
  | Some q =>
      if py (rp_data p) =? py (rp_data q) then Some []
      else if py (rp_data q) <? py (rp_data p) then Some [mk_cseg (rp_next p) i (rp_data q) (rp_data p)]
      else Some [mk_cseg i (rp_next p) (rp_data p) (rp_data q)]
  end.
Fixpoint edges_from (i : nat) (l : list rpoint) : option (list cseg) :=
  match l with
  | [] => Some []
  | p :: l' => match edge_of i p, edges_from (S i) l' with Some a, Some b => Some (a ++ b) | _, _ => None end
  end.
(** add_fb_events, 375-378 and 543-547. *)
Definition fb_events (node : nat) (s : cseg) : list revent :=
  [mk_revent RForward (sg_a s) (sg_b s) (py (sg_pa s)) node (wf_of_int 0);
   mk_revent RBackward (sg_b s) (sg_a s) (py (sg_pb s)) node (wf_of_int 0)].
Fixpoint all_events (node : nat) (l : list cseg) : list revent :=
  match l with [] => [] | s :: l' => fb_events node s ++ all_events (S node) l' end.
Definition dummy_node : cseg := mk_cseg 0 0 (0, 0) (0, 0).
Definition scan_start : option (Z * rstate) :=
  match edges_from 0 pts with
  | None => None
  | Some es =>
      match rnext (mk_rstate (all_events 1 es) 0 (-1) [] (dummy_node :: es) true) with
      | None => None
      | Some st =>
          if at_end st then Some (0, st)
          else match current st with Some e => Some (re_y e, st) | None => None end
      end
  end.
Definition scan_rows (fuel : nat) : option (list (Z * list nat * list scan_line) * rstate) :=
  match scan_start with
  | None => None
  | Some (y, st) => rows fuel (Z.to_nat (height - y)) y st
  end.
(** All scan lines in order. *)
Definition scan_all (fuel : nat) : option (list scan_line * rstate) :=
  match scan_rows fuel with Some (out, st) => Some (concat (map snd out), st) | None => None end.
(** draw, 741-748: the calls of fill_row. *)
Definition draw (fuel : nat) (rule : fill_rule) : option (list (Z * Z * Z)) :=
  match scan_all fuel with
  | Some (l, _) => Some (map (fun s => (sl_x1 s, sl_x2 s, sl_y s)) (filter (fun s => should_fill rule (sl_winding s)) l))
  | None => None
  end.
End Run.

(** A sort to run the model with. *)
Fixpoint ins_by {B} (lt : B -> B -> bool) (x : B) (l : list B) : list B :=
  match l with [] => [x] | y :: l' => if lt y x then y :: ins_by lt x l' else x :: l end.
Definition sort_by {B} (lt : B -> B -> bool) (l : list B) : list B := fold_right (ins_by lt) [] l.
Definition new_lt (x y : revent * nat) : bool :=
  if negb (Nat.eqb (snd x) (snd y)) then Nat.ltb (snd x) (snd y) else revent_lt (fst x) (fst y).
Definition rsort := sort_by revent_lt.
Definition rsort_new := sort_by new_lt.
