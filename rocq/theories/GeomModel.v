(** Model of the geometric predicates: include/poly_ops/base.hpp and the first
    part of include/poly_ops/clip.hpp.

    The functions here compute with unbounded integers.  GeomMachine.v gives the
    same functions with every machine-integer step checked for overflow and
    GeomProps.v shows that they agree for coordinates below 2^(W-2).  Floating
    point appears only in the interior-crossing branch of [intersects]; here it
    is replaced by exact rational arithmetic followed by floor or ceil
    (FloatModel.v treats the rounding). *)
From Coq Require Import ZArith List Bool.
Import ListNotations.
Local Open Scope Z_scope.

(** point_t, base.hpp:294-418. *)
Definition point : Type := (Z * Z)%type.
Definition px (p : point) : Z := fst p.
Definition py (p : point) : Z := snd p.
Definition psub (a b : point) : point := (px a - px b, py a - py b).
Definition point_eqb (a b : point) : bool := (px a =? px b) && (py a =? py b).

(** point_less, base.hpp:424-429. *)
Definition point_less (a b : point) : bool :=
  if px a =? px b then py a <? py b else px a <? px b.

(** triangle_winding, base.hpp:476-483. *)
Definition triangle_winding (p1 p2 p3 : point) : Z :=
  (px p2 - px p1) * (py p3 - py p1) - (px p3 - px p1) * (py p2 - py p1).

(** winding_dir_sink, base.hpp:528-545: state (first, prev, r). *)
Definition winding_dir_step (st : point * Z) (p : point) : point * Z :=
  let '(prev, r) := st in
  (p, r + (px prev - px p) * (py prev + py p)).
(** winding_dir, base.hpp:556-564. *)
Definition winding_dir (points : list point) : Z :=
  match points with
  | [] => 0
  | first :: rest =>
      let '(prev, r) := fold_left winding_dir_step rest (first, 0) in
      r + (px prev - px first) * (py prev + py first)
  end.

(** cached_segment, base.hpp:600-614. *)
Record cseg : Type := mk_cseg { sg_a : nat; sg_b : nat; sg_pa : point; sg_pb : point }.

(** at_edge_t, clip.hpp:322-326. *)
Inductive at_edge : Type := AEstart | AEno | AEend | AEboth.

(** is_edge, clip.hpp:328-332. *)
Definition is_edge (val end_val : Z) : at_edge :=
  if val =? 0 then AEstart else if val =? end_val then AEend else AEno.

(** between, clip.hpp:334-336. *)
Definition between (x lo hi : Z) : bool := (lo <? x) && (x <? hi).

(** int_dot, clip.hpp:338-340. *)
Definition int_dot (a b : point) : Z := px a * px b + py a * py b.

(** Result of the two intersection routines: [None] is a false return; [Some]
    holds the value written to [p] (if it is written) and at_edge[0], at_edge[1]. *)
Definition isect : Type := option (option point * at_edge * at_edge).

(** intersects_parallel, clip.hpp:343-429. *)
Definition intersects_parallel (s1 s2 : cseg) : isect :=
  if negb (triangle_winding (sg_pa s1) (sg_pb s1) (sg_pa s2) =? 0) then None
  else
    let v1b := psub (sg_pb s1) (sg_pa s1) in
    let d1a := 0 in
    let d1b := int_dot v1b v1b in
    let d2a := int_dot (psub (sg_pa s2) (sg_pa s1)) v1b in
    let d2b := int_dot (psub (sg_pb s2) (sg_pa s1)) v1b in
    let lo1 := Z.min d1a d1b in let hi1 := Z.max d1a d1b in
    let lo2 := Z.min d2a d2b in let hi2 := Z.max d2a d2b in
    if between d1a lo2 hi2 then Some (Some (sg_pa s1), AEstart, AEno)
    else if between d1b lo2 hi2 then Some (Some (sg_pb s1), AEend, AEno)
    else if between d2a lo1 hi1 then Some (Some (sg_pa s2), AEno, AEstart)
    else if between d2b lo1 hi1 then Some (Some (sg_pb s2), AEno, AEend)
    else if (lo1 =? lo2) && (hi1 =? hi2) then
      if d1a =? d2a then
        if negb (Nat.eqb (sg_a s1) (sg_a s2)) then
          if negb (Nat.eqb (sg_b s1) (sg_b s2)) then Some (None, AEboth, AEboth)
          else Some (Some (sg_pa s1), AEstart, AEstart)
        else if negb (Nat.eqb (sg_b s1) (sg_b s2)) then Some (Some (sg_pb s1), AEend, AEend)
        else None
      else
        if negb (Nat.eqb (sg_a s1) (sg_b s2)) then
          if negb (Nat.eqb (sg_b s1) (sg_a s2)) then Some (None, AEboth, AEboth)
          else Some (Some (sg_pa s1), AEstart, AEend)
        else if negb (Nat.eqb (sg_b s1) (sg_a s2)) then Some (Some (sg_pb s1), AEend, AEstart)
        else None
    else None.

(** Exact floor and ceil of n/d (coord_ops::floor and ceil, base.hpp:110-146,
    applied to an exact quotient). *)
Definition qfloor (n d : Z) : Z := n / d.
Definition qceil (n d : Z) : Z := - ((- n) / d).

(** intersects, clip.hpp:451-527.  [rx] and [ry] are the two results of
    rand_bool (437-441). *)
Definition intersects (rx ry : bool) (s1 s2 : cseg) : isect :=
  let x1 := px (sg_pa s1) in let y1 := py (sg_pa s1) in
  let x2 := px (sg_pb s1) in let y2 := py (sg_pb s1) in
  let x3 := px (sg_pa s2) in let y3 := py (sg_pa s2) in
  let x4 := px (sg_pb s2) in let y4 := py (sg_pb s2) in
  let d := (x1 - x2) * (y3 - y4) - (y1 - y2) * (x3 - x4) in
  if d =? 0 then intersects_parallel s1 s2
  else if Nat.eqb (sg_a s1) (sg_a s2) || Nat.eqb (sg_a s1) (sg_b s2)
       || Nat.eqb (sg_b s1) (sg_a s2) || Nat.eqb (sg_b s1) (sg_b s2) then None
  else
    let t := (x1 - x3) * (y3 - y4) - (y1 - y3) * (x3 - x4) in
    let u := (x1 - x3) * (y1 - y2) - (y1 - y3) * (x1 - x2) in
    if (if 0 <? d then (t <? 0) || (d <? t) || (u <? 0) || (d <? u)
        else (0 <? t) || (t <? d) || (0 <? u) || (u <? d)) then None
    else if t =? 0 then Some (Some (x1, y1), AEstart, is_edge u d)
    else if t =? d then Some (Some (x2, y2), AEend, is_edge u d)
    else if u =? 0 then Some (Some (x3, y3), AEno, AEstart)
    else if u =? d then Some (Some (x4, y4), AEno, AEend)
    else
      let p := (x1 + (if rx then qfloor (t * (x2 - x1)) d else qceil (t * (x2 - x1)) d),
                y1 + (if ry then qfloor (t * (y2 - y1)) d else qceil (t * (y2 - y1)) d)) in
      Some (Some p,
            (if point_eqb p (x1, y1) then AEstart else if point_eqb p (x2, y2) then AEend else AEno),
            (if point_eqb p (x3, y3) then AEstart else if point_eqb p (x4, y4) then AEend else AEno)).

(** lower_angle, clip.hpp:530-534. *)
Definition lower_angle (ds dp : point) (tie_breaker : bool) : bool :=
  let v := py ds * px dp in
  let w := py dp * px ds in
  (v <? w) || ((v =? w) && tie_breaker).

(** vert_overlap, clip.hpp:537-546. *)
Definition vert_overlap (sa sb p dp : point) (tie_breaker : bool) : bool :=
  tie_breaker && (px dp =? 0) && Bool.eqb (0 <? py dp) (py sa <? py sb) && (py p =? py sa).

(** line_segment_up_ray_intersection, clip.hpp:550-569. *)
Definition up_ray (sa sb p : point) (hsign : Z) (dp : point) (tie_breaker : bool) : bool :=
  let ds := psub sb sa in
  if px ds =? 0 then vert_overlap sa sb p dp tie_breaker
  else if (px p <? px sa) || ((px p =? px sa) && (hsign <? 0)) then false
  else if (px sb <? px p) || ((px p =? px sb) && (0 <? hsign)) then false
  else
    let t := (px p - px sa) * py ds in
    let u := (py p - py sa) * px ds in
    (t <? u) || ((t =? u) && lower_angle ds dp tie_breaker).

(** dual_line_segment_up_ray_intersection, clip.hpp:577-610. *)
Definition dual_up_ray (sa sb p : point) (hsign1 : Z) (dp1 : point) (tie1 : bool)
    (hsign2 : Z) (dp2 : point) (tie2 : bool) : bool * bool :=
  let ds := psub sb sa in
  if px ds =? 0 then (vert_overlap sa sb p dp1 tie1, vert_overlap sa sb p dp2 tie2)
  else if (px p <? px sa) || (px sb <? px p) then (false, false)
  else
    let r :=
      if px p =? px sa then (0 <? hsign1, 0 <? hsign2)
      else if px p =? px sb then (hsign1 <? 0, hsign2 <? 0)
      else (true, true) in
    let t := (px p - px sa) * py ds in
    let u := (py p - py sa) * px ds in
    if u <? t then (false, false)
    else if t =? u then (fst r && lower_angle ds dp1 tie1, snd r && lower_angle ds dp2 tie2)
    else r.

(** hsign_of, clip.hpp:612-616. *)
Definition hsign_of (delta : point) : Z := if px delta =? 0 then py delta else px delta.

(** event_type_t in declaration order, clip.hpp:293. *)
Inductive event_type : Type := Evforward | Ebackward | Eforward | Evbackward.
Definition etype_rank (t : event_type) : nat :=
  match t with Evforward => 0 | Ebackward => 1 | Eforward => 2 | Evbackward => 3 end.
Definition etype_eqb (a b : event_type) : bool := Nat.eqb (etype_rank a) (etype_rank b).

(** event_status_t 299 and event 301-319. *)
Inductive event_status : Type := ESnormal | ESdeleted.
Record event : Type := mk_event
  { ev_a : nat; ev_b : nat; ev_node : nat; ev_type : event_type; ev_status : event_status }.

(** event_cmp, clip.hpp:829-839; [x i] is the x coordinate of point i. *)
Definition event_cmp (x : nat -> Z) (l1 l2 : event) : bool :=
  if negb (x (ev_a l1) =? x (ev_a l2)) then x (ev_a l1) <? x (ev_a l2)
  else if negb (etype_eqb (ev_type l1) (ev_type l2))
  then Nat.ltb (etype_rank (ev_type l1)) (etype_rank (ev_type l2))
  else if negb (Nat.eqb (ev_a l1) (ev_a l2)) then Nat.ltb (ev_a l1) (ev_a l2)
  else Nat.ltb (ev_b l1) (ev_b l2).

(** Equality of events, clip.hpp:316-318. *)
Definition event_eqb (a b : event) : bool :=
  etype_eqb (ev_type a) (ev_type b) && (Nat.eqb (ev_a a) (ev_a b) && Nat.eqb (ev_b a) (ev_b b)).

(** sweep_cmp, clip.hpp:1030-1059. *)
Definition sweep_cmp_tie (s1 s2 : cseg) : bool :=
  if Nat.eqb (sg_b s1) (sg_b s2) then Nat.ltb (sg_a s2) (sg_a s1)
  else Nat.ltb (sg_b s2) (sg_b s1).
Definition sweep_cmp (s1 s2 : cseg) : bool :=
  if px (sg_pa s1) =? px (sg_pa s2) then
    let r := py (sg_pa s1) - py (sg_pa s2) in
    if negb (r =? 0) then 0 <? r
    else
      let r2 := triangle_winding (sg_pb s1) (sg_pa s1) (sg_pb s2) in
      if negb (r2 =? 0) then 0 <? r2
      else
        let r3 := py (sg_pb s1) - py (sg_pb s2) in
        if negb (r3 =? 0) then 0 <? r3 else sweep_cmp_tie s1 s2
  else if px (sg_pa s1) <? px (sg_pa s2) then
    if negb (px (sg_pa s1) =? px (sg_pb s1)) then
      let r := triangle_winding (sg_pb s1) (sg_pa s1) (sg_pa s2) in
      if negb (r =? 0) then 0 <? r
      else
        let r' := triangle_winding (sg_pb s1) (sg_pa s1) (sg_pb s2) in
        if negb (r' =? 0) then 0 <? r' else sweep_cmp_tie s1 s2
    else sweep_cmp_tie s1 s2
  else
    if negb (px (sg_pa s2) =? px (sg_pb s2)) then
      let r := triangle_winding (sg_pa s2) (sg_pb s2) (sg_pa s1) in
      if negb (r =? 0) then 0 <? r
      else
        let r' := triangle_winding (sg_pa s2) (sg_pb s2) (sg_pb s1) in
        if negb (r' =? 0) then 0 <? r' else sweep_cmp_tie s1 s2
    else sweep_cmp_tie s1 s2.

(** line_state, clip.hpp:207-238, as the result of [line_balance::result]. *)
Inductive lstate : Type := LSdiscard | LSkeep | LSdiscard_rev | LSkeep_rev.

(** bool_op, clip.hpp:150-196, and bool_set, 203. *)
Inductive bool_op : Type := OpUnion | OpIntersection | OpXor | OpDifference | OpNormalize.
Inductive bool_set : Type := Subject | Clip.
Definition bset_eqb (a b : bool_set) : bool :=
  match a, b with Subject, Subject | Clip, Clip => true | _, _ => false end.

(** line_balance::result, clip.hpp:790-825. *)
Definition line_balance_result (op : bool_op) (cat : bool_set) (ws wc : Z) : lstate :=
  let w := ws + wc in
  match op with
  | OpUnion => if w =? 0 then LSkeep else LSdiscard
  | OpIntersection =>
      let '(ws, wc) := match cat with Clip => (wc, ws) | Subject => (ws, wc) end in
      if (ws =? 0) && (0 <? wc) then LSkeep else LSdiscard
  | OpXor =>
      let '(ws, wc) := match cat with Clip => (wc, ws) | Subject => (ws, wc) end in
      if ws =? 0 then (if 0 <? wc then LSkeep_rev else LSkeep) else LSdiscard
  | OpDifference =>
      match cat with
      | Subject => if ws =? 0 then (if 0 <? wc then LSdiscard else LSkeep) else LSdiscard
      | Clip => if wc =? 0 then (if 0 <? ws then LSkeep_rev else LSdiscard_rev) else LSdiscard
      end
  | OpNormalize => if Z.rem w 2 =? 0 then LSkeep else LSkeep_rev
  end.
