(** What joining the kept lines into loops should do, stated without the helpers of the
    model. *)
From Coq Require Import ZArith List Bool Arith Permutation.
From Verif Require Import GeomModel OutModel.
Import ListNotations.

(** The position of a point. *)
Definition pos (pts : list opoint) (i : nat) : point := match nth_error pts i with Some p => o_data p | None => (0, 0)%Z end.
Definition fpos (pts : list fpoint) (i : nat) : point := match nth_error pts i with Some p => f_data p | None => (0, 0)%Z end.
(** The lines between consecutive positions, and those with two different ends. *)
Definition segs (l : list point) : list (point * point) := combine l (tl l).
Definition nonzero : list (point * point) -> list (point * point) := filter (fun e => negb (point_eqb (fst e) (snd e))).
Definition turned (e : point * point) : point * point := (snd e, fst e).

(** Going from n along the links: the unjudged points c and then the judged point e. *)
Fixpoint trail (pts : list opoint) (n : nat) (c : list nat) (e : nat) : Prop :=
  match c with
  | [] => n = e /\ exists q r, nth_error pts e = Some q /\ o_state q = Res r
  | x :: c' => x = n /\ exists q, nth_error pts n = Some q /\ o_state q = Undef /\ trail pts (o_next q) c' e
  end.
(** A run: a judged point, the unjudged points after it, and the judged point after those. *)
Definition run : Type := (nat * list nat * nat)%type.
Definition is_run (pts : list opoint) (R : run) : Prop :=
  let '(i, c, e) := R in exists p r, nth_error pts i = Some p /\ o_state p = Res r /\ trail pts (o_next p) c e.
(** The lines of a run, and those that should be in the output: the judgement of its first
    point holds for all of them. *)
Definition run_lines (pts : list opoint) (R : run) : list (point * point) := let '(i, c, e) := R in segs (map (pos pts) (i :: c ++ [e])).
Definition judgement (pts : list opoint) (R : run) : pstate := match nth_error pts (fst (fst R)) with Some p => o_state p | None => Undef end.
Definition wanted (pts : list opoint) (R : run) : list (point * point) :=
  match judgement pts R with
  | Res LSkeep => run_lines pts R
  | Res LSkeep_rev => map turned (run_lines pts R)
  | _ => []
  end.
(** The lines of the runs judged to be reversed, kept or not. *)
Definition reversed (pts : list opoint) (R : run) : list (point * point) :=
  match judgement pts R with Res LSkeep_rev | Res LSdiscard_rev => run_lines pts R | _ => [] end.

(** The points, as they are after judging: closed loops, no anchors, and the samples are
    exactly the judged points, once each, with indices of points as lines above them. *)
Definition judged_points (pts : list opoint) (ss : list sample) : Prop :=
  Permutation (map o_next pts) (seq 0 (length pts)) /\
  (forall p, In p pts -> o_anchor p = false /\ o_state p <> Check) /\
  NoDup (map fst ss) /\
  (forall i, In i (map fst ss) <-> exists p r, nth_error pts i = Some p /\ o_state p = Res r) /\
  (forall s i, In s ss -> In i (snd s) -> i < length pts).
(** No line has two equal ends. *)
Definition no_zero_lines (pts : list opoint) : Prop := forall i p, nth_error pts i = Some p -> o_data p <> pos pts (o_next p).
(** As many lines end at any position as start there. *)
Definition ends_at (k : point) (l : list (point * point)) : nat := length (filter (fun e => point_eqb (snd e) k) l).
Definition starts_at (k : point) (l : list (point * point)) : nat := length (filter (fun e => point_eqb (fst e) k) l).
Definition balanced (l : list (point * point)) : Prop := forall k, ends_at k l = starts_at k l.

(** The lines of an output loop. *)
Definition loop_lines (pts : list fpoint) (L : list nat) : list (point * point) := segs (map (fpos pts) (L ++ firstn 1 L)).
