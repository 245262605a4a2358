(** What splitting lines should do, stated without the helpers of the model. *)
From Coq Require Import ZArith List Bool Arith Permutation.
From Verif Require Import GeomModel BalanceModel OutModel ClipModel WindSpec.
Import ListNotations.

(** The links of the points. *)
Definition links (pts : list cpoint) : list nat := map c_next pts.
(** Closed loops of at least three points, each in one set. *)
Definition proper_loops (pts : list cpoint) : Prop :=
  (forall i p, nth_error pts i = Some p -> exists q r, nth_error pts (c_next p) = Some q /\ nth_error pts (c_next q) = Some r /\
     c_next p <> i /\ c_next q <> i /\ c_set q = c_set p) /\
  (forall i j p q, nth_error pts i = Some p -> nth_error pts j = Some q -> c_next p = c_next q -> i = j).
(** Every entry (a,b) puts one new point, numbered next, between a and the point b after it. *)
Inductive grown : list nat -> list (nat * nat) -> list nat -> Prop :=
| grown_nil l : grown l [] l
| grown_cons l a b log l' : nth_error l a = Some b -> grown (put l a (length l) ++ [b]) log l' -> grown l ((a, b) :: log) l'.
(** The links lead from each element of the list to the next one, and from the last to e. *)
Fixpoint chain (l : list nat) (p : list nat) (e : nat) : Prop :=
  match p with [] => True | a :: p' => nth_error l a = Some (hd e p') /\ chain l p' e end.
(** A search that puts a line right after one that comes before it. *)
Definition places (place : list cseg -> cseg -> nat) : Prop :=
  forall gs g, (forall h, In h gs -> (sg_a h, sg_b h) <> (sg_a g, sg_b g)) ->
  let k := Nat.min (place gs g) (length gs) in
  k = 0 \/ exists h, nth_error gs (k - 1) = Some h /\ sweep_cmp h g = true.
(** The lines of the points, each with the number of its first point. *)
Definition lines (pts : list cpoint) : list line :=
  map (fun ip => mk_line (fst ip) (c_data (snd ip), match nth_error pts (c_next (snd ip)) with Some q => c_data q | None => c_data (snd ip) end) (c_set (snd ip)))
    (combine (seq 0 (length pts)) pts).
(** Every line that was to be judged was judged, once, by the lines above and below its
    first point: those met by the vertical line through it, each looked at once. *)
Definition judged (op : bool_op) (pts pts' : list cpoint) (ss : list sample) : Prop :=
  length pts' = length pts /\
  (forall i p, nth_error pts i = Some p -> exists p', nth_error pts' i = Some p' /\ c_data p' = c_data p /\ c_next p' = c_next p /\ c_set p' = c_set p /\
     (c_state p <> Check -> c_state p' = c_state p)) /\
  NoDup (map fst ss) /\
  (forall i, In i (map fst ss) <-> exists p, nth_error pts i = Some p /\ c_state p = Check) /\
  (forall i hits, In (i, hits) ss -> exists l1 ck p', In l1 (lines pts) /\ ln_i l1 = i /\
     NoDup ck /\ (forall l, In l ck <-> In l (lines pts) /\ spans (px (fst (ln_e l1))) (ln_e l)) /\
     nth_error pts' i = Some p' /\ c_state p' = Res (line_result op l1 ck) /\ hits = snd (line_balance l1 ck)).
