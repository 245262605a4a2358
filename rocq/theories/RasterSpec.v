(** What the rasteriser should compute. *)
From Coq Require Import List Bool Arith ZArith QArith.
From Verif Require Import GeomModel GeomSpec RasterModel.
Import ListNotations.
Local Open Scope Z_scope.

(** The rational that a fraction with a positive denominator stands for. *)
Definition frac_val (f : fraction) : Q := (fr_num f # Z.to_pos (fr_den f))%Q.
Definition wf_val (w : wfrac) : Q := (inject_Z (wf_whole w) + frac_val (wf_frac w))%Q.
Definition frac_valid (f : fraction) : Prop := 0 < fr_den f.
(** The fractional part is below one. *)
Definition proper (w : wfrac) : Prop := frac_valid (wf_frac w) /\ 0 <= fr_num (wf_frac w) < fr_den (wf_frac w).
Definition same_order (c : comparison) (x y : Q) : Prop :=
  match c with Lt => (x < y)%Q | Eq => (x == y)%Q | Gt => (y < x)%Q end.

(** The point of the line through a and b at height y. *)
Definition line_x (a b : point) (y : Q) : Q :=
  (injX a + (injX b - injX a) * ((y - injY a) / (injY b - injY a)))%Q.

(** The open segments cross in the point (X, Y), and are not parallel. *)
Definition cross_at (s1 s2 : cseg) (X Y : Q) : Prop :=
  dir_cross (sg_pa s1) (sg_pb s1) (sg_pa s2) (sg_pb s2) <> 0 /\
  exists t u : Q, (0 < t /\ t < 1 /\ 0 < u /\ u < 1 /\
    X == injX (sg_pa s1) + t * (injX (sg_pb s1) - injX (sg_pa s1)) /\
    Y == injY (sg_pa s1) + t * (injY (sg_pb s1) - injY (sg_pa s1)) /\
    X == injX (sg_pa s2) + u * (injX (sg_pb s2) - injX (sg_pa s2)) /\
    Y == injY (sg_pa s2) + u * (injY (sg_pb s2) - injY (sg_pa s2)))%Q.
(** Ends with the same index are the same point. *)
Definition ends_agree (s1 s2 : cseg) : Prop :=
  (sg_a s1 = sg_a s2 -> sg_pa s1 = sg_pa s2) /\ (sg_a s1 = sg_b s2 -> sg_pa s1 = sg_pb s2) /\
  (sg_b s1 = sg_a s2 -> sg_pb s1 = sg_pa s2) /\ (sg_b s1 = sg_b s2 -> sg_pb s1 = sg_pb s2).

(** A loop of points stored from index base on, each linked to the following one and the
    last to the first. *)
Definition rring (base : nat) (l : list point) : list rpoint :=
  map (fun ip => let '(i, p) := ip in mk_rpoint p (if Nat.eqb (S i) (length l) then base else (base + S i)%nat))
    (combine (seq 0 (length l)) l).

(** The edges that a row meets: from their upper end on, without the lower one. *)
Definition active (y : Z) (s : cseg) : bool := (py (sg_pa s) <=? y) && (y <? py (sg_pb s)).
(** Exact place of an edge on a row. *)
Definition place (y : Z) (s : cseg) : Q := line_x (sg_pa s) (sg_pb s) (inject_Z y).

(** An edge of a polygon that is not horizontal: upper end, lower end, and 1 or -1 for
    the polygon going down or up along it. *)
Definition sedge : Type := point * point * Z.
Definition edge_between (p q : point) : list sedge :=
  if py p =? py q then [] else if py q <? py p then [(q, p, -1)] else [(p, q, 1)].
Fixpoint path_edges (p : point) (l : list point) (close : point) : list sedge :=
  match l with [] => edge_between p close | q :: l' => edge_between p q ++ path_edges q l' close end.
Definition polygon_edges (l : list point) : list sedge :=
  match l with [] => [] | p :: l' => path_edges p l' p end.
(** Two edges cross: a point is inside both, and they are not parallel. *)
Definition edges_cross (e f : sedge) : Prop :=
  let '(a, b, _) := e in let '(c, d, _) := f in
  dir_cross a b c d <> 0 /\
  exists X Y t u : Q, (0 < t /\ t < 1 /\ 0 < u /\ u < 1 /\
    X == injX a + t * (injX b - injX a) /\ Y == injY a + t * (injY b - injY a) /\
    X == injX c + u * (injX d - injX c) /\ Y == injY c + u * (injY d - injY c))%Q.
(** (X, Y) is inside the edge e, not at an end. *)
Definition inside_edge (e : sedge) (X Y : Q) : Prop :=
  let '(a, b, _) := e in
  exists t : Q, (0 < t /\ t < 1 /\ X == injX a + t * (injX b - injX a) /\ Y == injY a + t * (injY b - injY a))%Q.
(** e and f cross in (X, Y). *)
Definition cross_in_point (e f : sedge) (X Y : Q) : Prop :=
  let '(a, b, _) := e in let '(c, d, _) := f in dir_cross a b c d <> 0 /\ inside_edge e X Y /\ inside_edge f X Y.
(** No third edge passes through a crossing. *)
Definition two_at_a_crossing (E : list sedge) : Prop :=
  forall i j e f X Y k g, nth_error E i = Some e -> nth_error E j = Some f -> cross_in_point e f X Y ->
    nth_error E k = Some g -> inside_edge g X Y -> k = i \/ k = j.
(** Nor is a crossing at a whole height. *)
Definition plain_crossings (E : list sedge) : Prop :=
  (forall i j e f X Y (z : Z), nth_error E i = Some e -> nth_error E j = Some f -> cross_in_point e f X Y -> ~ (Y == inject_Z z)%Q) /\
  two_at_a_crossing E.
Definition crosses_row (y : Z) (e : sedge) : bool := let '(a, b, _) := e in (py a <=? y) && (y <? py b).
Definition edge_x (y : Z) (e : sedge) : Q := let '(a, b, _) := e in line_x a b (inject_Z y).
Definition edge_dir (e : sedge) : Z := snd e.
Definition total (l : list Z) : Z := fold_right Z.add 0 l.
(** The winding number at (x, y): the edges met by the ray to the right. *)
Definition ray (E : list sedge) (y : Z) (x : Q) : Z :=
  total (map (fun e => if crosses_row y e then if Qlt_le_dec x (edge_x y e) then edge_dir e else 0 else 0) E).
(** The same for the ray to the left. *)
Definition left_ray (E : list sedge) (y : Z) (x : Q) : Z :=
  total (map (fun e => if crosses_row y e then if Qlt_le_dec (edge_x y e) x then edge_dir e else 0 else 0) E).
(** The pixel of a place in a row of the given width. *)
Definition pixel (width : Z) (x : Q) : Z := Z.max 0 (Z.min (width - 1) (Z.quot (Qnum x) (QDen x))).
