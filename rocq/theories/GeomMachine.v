(** The geometric predicates with every machine-integer step checked.

    Coordinates have [w] bits; a difference of coordinates is computed with [w]
    bits (Coord) and a product, sum or difference of products with [2*w] bits
    (long_coord_t, base.hpp:33-146).  A step whose exact result does not fit gives
    [Overflow].  Simplifications: for coordinate types narrower than int the code
    computes the differences as int, so fewer overflows occur there; for 64-bit
    coordinates long_coord_t is compound_int, which wraps instead. *)
From Coq Require Import ZArith List Bool.
From Verif Require Import GeomModel.
Import ListNotations.
Local Open Scope Z_scope.

Inductive mres (A : Type) : Type := Ok (a : A) | Overflow.
Arguments Ok {A} a.
Arguments Overflow {A}.
Definition mbind {A B} (r : mres A) (f : A -> mres B) : mres B :=
  match r with Ok a => f a | Overflow => Overflow end.

(** A signed result of [w] bits. *)
Definition chk (w z : Z) : mres Z :=
  if (- 2 ^ (w - 1) <=? z) && (z <? 2 ^ (w - 1)) then Ok z else Overflow.

Section Width.
  Variable w : Z.

  Definition msub (a b : Z) : mres Z := chk w (a - b).
  (** coord_ops::mul, base.hpp:60-62. *)
  Definition mmul (a b : Z) : mres Z := chk (2 * w) (a * b).
  Definition mlsub (a b : Z) : mres Z := chk (2 * w) (a - b).
  Definition mladd (a b : Z) : mres Z := chk (2 * w) (a + b).
  (** point_t::operator-, base.hpp:363-367. *)
  Definition mpsub (a b : point) : mres point :=
    mbind (msub (px a) (px b)) (fun x => mbind (msub (py a) (py b)) (fun y => Ok (x, y))).
  (** (a - b) * (c - d) - (e - f) * (g - h) *)
  Definition mdet (a b c d e f g h : Z) : mres Z :=
    mbind (msub a b) (fun ab => mbind (msub c d) (fun cd =>
    mbind (msub e f) (fun ef => mbind (msub g h) (fun gh =>
    mbind (mmul ab cd) (fun m1 => mbind (mmul ef gh) (fun m2 => mlsub m1 m2)))))).

  (** triangle_winding, base.hpp:476-483. *)
  Definition triangle_winding_m (p1 p2 p3 : point) : mres Z :=
    mdet (px p2) (px p1) (py p3) (py p1) (px p3) (px p1) (py p2) (py p1).

  (** winding_dir_sink, base.hpp:528-545. *)
  Definition wd_term_m (prev p : point) : mres Z :=
    mbind (msub (px prev) (px p)) (fun dx =>
    mbind (chk w (py prev + py p)) (fun sy => mmul dx sy)).
  Fixpoint wd_loop_m (first prev : point) (r : Z) (rest : list point) : mres Z :=
    match rest with
    | [] => mbind (wd_term_m prev first) (fun t => mladd r t)
    | p :: rest' => mbind (wd_term_m prev p) (fun t => mbind (mladd r t) (fun r' => wd_loop_m first p r' rest'))
    end.
  (** winding_dir, base.hpp:556-564. *)
  Definition winding_dir_m (points : list point) : mres Z :=
    match points with [] => Ok 0 | first :: rest => wd_loop_m first first 0 rest end.

  (** int_dot, clip.hpp:338-340. *)
  Definition int_dot_m (a b : point) : mres Z :=
    mbind (mmul (px a) (px b)) (fun m1 => mbind (mmul (py a) (py b)) (fun m2 => mladd m1 m2)).

  (** intersects_parallel, clip.hpp:343-429: the arithmetic, then the comparisons. *)
  Definition intersects_parallel_m (s1 s2 : cseg) : mres isect :=
    mbind (triangle_winding_m (sg_pa s1) (sg_pb s1) (sg_pa s2)) (fun tw =>
    if negb (tw =? 0) then Ok None
    else
    mbind (mpsub (sg_pb s1) (sg_pa s1)) (fun v1b =>
    mbind (int_dot_m v1b v1b) (fun d1b =>
    mbind (mpsub (sg_pa s2) (sg_pa s1)) (fun va =>
    mbind (int_dot_m va v1b) (fun d2a =>
    mbind (mpsub (sg_pb s2) (sg_pa s1)) (fun vb =>
    mbind (int_dot_m vb v1b) (fun d2b =>
    let d1a := 0 in
    let lo1 := Z.min d1a d1b in let hi1 := Z.max d1a d1b in
    let lo2 := Z.min d2a d2b in let hi2 := Z.max d2a d2b in
    Ok (if between d1a lo2 hi2 then Some (Some (sg_pa s1), AEstart, AEno)
    else if between d1b lo2 hi2 then Some (Some (sg_pb s1), AEend, AEno)
    else if between d2a lo1 hi1 then Some (Some (sg_pa s2), AEno, AEstart)
    else if between d2b lo1 hi1 then Some (Some (sg_pb s2), AEno, AEend)
    else if (lo1 =? lo2) && (hi1 =? hi2) then
      if d1a =? d2a then
        if negb (Nat.eqb (sg_a s1) (sg_a s2)) then
          if negb (Nat.eqb (sg_b s1) (sg_b s2)) then Some (None, AEboth, AEboth)
          else Some (Some (sg_pa s1), AEstart, AEstart)
        else if negb (Nat.eqb (sg_b s1) (sg_b s2)) then Some (Some (sg_pb s1), AEend, AEend)
        else None
      else
        if negb (Nat.eqb (sg_a s1) (sg_b s2)) then
          if negb (Nat.eqb (sg_b s1) (sg_a s2)) then Some (None, AEboth, AEboth)
          else Some (Some (sg_pa s1), AEstart, AEend)
        else if negb (Nat.eqb (sg_b s1) (sg_a s2)) then Some (Some (sg_pb s1), AEend, AEstart)
        else None
    else None)))))))).

  (** intersects, clip.hpp:451-527, with exact quotients. *)
  Definition intersects_m (rx ry : bool) (s1 s2 : cseg) : mres isect :=
    let x1 := px (sg_pa s1) in let y1 := py (sg_pa s1) in
    let x2 := px (sg_pb s1) in let y2 := py (sg_pb s1) in
    let x3 := px (sg_pa s2) in let y3 := py (sg_pa s2) in
    let x4 := px (sg_pb s2) in let y4 := py (sg_pb s2) in
    mbind (mdet x1 x2 y3 y4 y1 y2 x3 x4) (fun d =>
    if d =? 0 then intersects_parallel_m s1 s2
    else if Nat.eqb (sg_a s1) (sg_a s2) || Nat.eqb (sg_a s1) (sg_b s2)
         || Nat.eqb (sg_b s1) (sg_a s2) || Nat.eqb (sg_b s1) (sg_b s2) then Ok None
    else
      mbind (mdet x1 x3 y3 y4 y1 y3 x3 x4) (fun t =>
      mbind (mdet x1 x3 y1 y2 y1 y3 x1 x2) (fun u =>
      if (if 0 <? d then (t <? 0) || (d <? t) || (u <? 0) || (d <? u)
          else (0 <? t) || (t <? d) || (0 <? u) || (u <? d)) then Ok None
      else if t =? 0 then Ok (Some (Some (x1, y1), AEstart, is_edge u d))
      else if t =? d then Ok (Some (Some (x2, y2), AEend, is_edge u d))
      else if u =? 0 then Ok (Some (Some (x3, y3), AEno, AEstart))
      else if u =? d then Ok (Some (Some (x4, y4), AEno, AEend))
      else
        mbind (msub x2 x1) (fun dx => mbind (msub y2 y1) (fun dy =>
        mbind (chk w (if rx then qfloor (t * dx) d else qceil (t * dx) d)) (fun fx =>
        mbind (chk w (if ry then qfloor (t * dy) d else qceil (t * dy) d)) (fun fy =>
        mbind (chk w (x1 + fx)) (fun ix => mbind (chk w (y1 + fy)) (fun iy =>
        let p := (ix, iy) in
        Ok (Some (Some p,
            (if point_eqb p (x1, y1) then AEstart else if point_eqb p (x2, y2) then AEend else AEno),
            (if point_eqb p (x3, y3) then AEstart else if point_eqb p (x4, y4) then AEend else AEno)))))))))))).

  (** lower_angle, clip.hpp:530-534. *)
  Definition lower_angle_m (ds dp : point) (tie_breaker : bool) : mres bool :=
    mbind (mmul (py ds) (px dp)) (fun v => mbind (mmul (py dp) (px ds)) (fun u =>
    Ok ((v <? u) || ((v =? u) && tie_breaker)))).

  (** line_segment_up_ray_intersection, clip.hpp:550-569. *)
  Definition up_ray_m (sa sb p : point) (hsign : Z) (dp : point) (tie_breaker : bool) : mres bool :=
    mbind (mpsub sb sa) (fun ds =>
    if px ds =? 0 then Ok (vert_overlap sa sb p dp tie_breaker)
    else if (px p <? px sa) || ((px p =? px sa) && (hsign <? 0)) then Ok false
    else if (px sb <? px p) || ((px p =? px sb) && (0 <? hsign)) then Ok false
    else
      mbind (msub (px p) (px sa)) (fun dx => mbind (mmul dx (py ds)) (fun t =>
      mbind (msub (py p) (py sa)) (fun dy => mbind (mmul dy (px ds)) (fun u =>
      if t <? u then Ok true
      else if t =? u then lower_angle_m ds dp tie_breaker else Ok false))))).

  (** sweep_cmp, clip.hpp:1030-1059. *)
  Definition sweep_cmp_m (s1 s2 : cseg) : mres bool :=
    if px (sg_pa s1) =? px (sg_pa s2) then
      mbind (msub (py (sg_pa s1)) (py (sg_pa s2))) (fun r =>
      if negb (r =? 0) then Ok (0 <? r)
      else
        mbind (triangle_winding_m (sg_pb s1) (sg_pa s1) (sg_pb s2)) (fun r2 =>
        if negb (r2 =? 0) then Ok (0 <? r2)
        else
          mbind (msub (py (sg_pb s1)) (py (sg_pb s2))) (fun r3 =>
          Ok (if negb (r3 =? 0) then 0 <? r3 else sweep_cmp_tie s1 s2))))
    else if px (sg_pa s1) <? px (sg_pa s2) then
      if negb (px (sg_pa s1) =? px (sg_pb s1)) then
        mbind (triangle_winding_m (sg_pb s1) (sg_pa s1) (sg_pa s2)) (fun r =>
        if negb (r =? 0) then Ok (0 <? r)
        else
          mbind (triangle_winding_m (sg_pb s1) (sg_pa s1) (sg_pb s2)) (fun r' =>
          Ok (if negb (r' =? 0) then 0 <? r' else sweep_cmp_tie s1 s2)))
      else Ok (sweep_cmp_tie s1 s2)
    else
      if negb (px (sg_pa s2) =? px (sg_pb s2)) then
        mbind (triangle_winding_m (sg_pa s2) (sg_pb s2) (sg_pa s1)) (fun r =>
        if negb (r =? 0) then Ok (0 <? r)
        else
          mbind (triangle_winding_m (sg_pa s2) (sg_pb s2) (sg_pb s1)) (fun r' =>
          Ok (if negb (r' =? 0) then 0 <? r' else sweep_cmp_tie s1 s2)))
      else Ok (sweep_cmp_tie s1 s2).
End Width.
