(** Model of line_balance and dual_line_balance, clip.hpp:624-826.

    Simplification: a line is given by the index of its first point, its two end
    points in loop order and its set; the code looks these up in [lpoints]. *)
From Coq Require Import ZArith List Bool.
From Verif Require Import GeomModel.
Import ListNotations.
Local Open Scope Z_scope.

(** A line: index of its first point (main_i), end points in loop order and the set
    it belongs to (loop_point, clip.hpp:250-282). *)
Record line : Type := mk_line { ln_i : nat; ln_e : point * point; ln_set : bool_set }.

(** The segment stored for an edge: ends swapped if the first is to the right of the
    second (self_intersection, clip.hpp:2195-2203), and a_is_main as a sign. *)
Definition edge_lo (e : point * point) : point := if px (snd e) <? px (fst e) then snd e else fst e.
Definition edge_hi (e : point * point) : point := if px (snd e) <? px (fst e) then fst e else snd e.
Definition edge_sign (e : point * point) : Z := if px (snd e) <? px (fst e) then -1 else 1.

(** line_delta, clip.hpp:618-622. *)
Definition line_delta (l : line) : point := psub (snd (ln_e l)) (fst (ln_e l)).

(** wn[2], indexed by set. *)
Definition wn_get (w : Z * Z) (c : bool_set) : Z := match c with Subject => fst w | Clip => snd w end.
Definition wn_add (w : Z * Z) (c : bool_set) (d : Z) : Z * Z :=
  match c with Subject => (fst w + d, snd w) | Clip => (fst w, snd w + d) end.

(** line_balance::line_balance, clip.hpp:759-765. *)
Definition lb_init (l1 : line) : Z * Z :=
  if px (line_delta l1) <? 0 then wn_add (0, 0) (ln_set l1) (-1) else (0, 0).

(** The ray test made by line_balance::check for the line [l]. *)
Definition lb_hit (l1 l : line) : bool :=
  up_ray (edge_lo (ln_e l)) (edge_hi (ln_e l)) (fst (ln_e l1)) (hsign_of (line_delta l1))
    (line_delta l1) (Nat.ltb (ln_i l1) (ln_i l)).

(** line_balance::check, clip.hpp:767-788.  State: wn and the hits recorded. *)
Definition lb_check (l1 : line) (st : (Z * Z) * list nat) (l : line) : (Z * Z) * list nat :=
  if Nat.eqb (ln_i l) (ln_i l1) then st
  else if lb_hit l1 l then (wn_add (fst st) (ln_set l) (edge_sign (ln_e l)), snd st ++ [ln_i l])
  else st.

(** A line_balance object after checking a list of lines. *)
Definition line_balance (l1 : line) (ls : list line) : (Z * Z) * list nat :=
  fold_left (lb_check l1) ls (lb_init l1, []).

(** The state computed for line [l1] by calc_line_bal's scan, clip.hpp:2278-2290. *)
Definition line_result (op : bool_op) (l1 : line) (ls : list line) : lstate :=
  let w := fst (line_balance l1 ls) in
  line_balance_result op (ln_set l1) (fst w) (snd w).
