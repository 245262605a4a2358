(** The interior-crossing branch of intersects (clip.hpp:493-523) with IEEE double
    arithmetic, using the executable specification of binary floating point in the
    standard library (Floats.SpecFloat; round to nearest, ties to even).

    Simplification: the conversions of integers to double round once to nearest;
    for 64-bit coordinates the code converts long_coord_t through compound_int's own
    conversion (see C57). *)
From Coq Require Import ZArith List Bool SpecFloat.
From Verif Require Import GeomModel.
Local Open Scope Z_scope.

Definition dbl_prec : Z := 53.
Definition dbl_emax : Z := 1024.
(** static_cast<real_coord_t<Coord>>(integer) *)
Definition of_int (z : Z) : spec_float := binary_normalize dbl_prec dbl_emax z 0 false.
Definition fdiv (a b : spec_float) : spec_float := SFdiv dbl_prec dbl_emax a b.
Definition fmul (a b : spec_float) : spec_float := SFmul dbl_prec dbl_emax a b.

(** coord_ops::floor and ceil, base.hpp:110-127 (std::floor, then conversion);
    [None] for infinities and NaN, where the conversion is undefined. *)
Definition ffloor (x : spec_float) : option Z :=
  match x with
  | S754_zero _ => Some 0
  | S754_finite s m e =>
      let v := if s then Z.neg m else Z.pos m in
      Some (if 0 <=? e then v * 2 ^ e else v / 2 ^ (- e))
  | _ => None
  end.
Definition fceil (x : spec_float) : option Z :=
  match x with
  | S754_zero _ => Some 0
  | S754_finite s m e =>
      let v := if s then Z.neg m else Z.pos m in
      Some (if 0 <=? e then v * 2 ^ e else - ((- v) / 2 ^ (- e)))
  | _ => None
  end.

(** clip.hpp:493-513: offset of the crossing from x1 (or y1). *)
Definition fl_offset (r : bool) (t d delta : Z) : option Z :=
  let x := fmul (fdiv (of_int t) (of_int d)) (of_int delta) in
  if r then ffloor x else fceil x.

(** intersects, clip.hpp:451-527, interior-crossing branch in doubles; the outer
    [None] means an undefined conversion. *)
Definition intersects_fl (rx ry : bool) (s1 s2 : cseg) : option isect :=
  let x1 := px (sg_pa s1) in let y1 := py (sg_pa s1) in
  let x2 := px (sg_pb s1) in let y2 := py (sg_pb s1) in
  let x3 := px (sg_pa s2) in let y3 := py (sg_pa s2) in
  let x4 := px (sg_pb s2) in let y4 := py (sg_pb s2) in
  let d := (x1 - x2) * (y3 - y4) - (y1 - y2) * (x3 - x4) in
  if d =? 0 then Some (intersects_parallel s1 s2)
  else if Nat.eqb (sg_a s1) (sg_a s2) || Nat.eqb (sg_a s1) (sg_b s2)
       || Nat.eqb (sg_b s1) (sg_a s2) || Nat.eqb (sg_b s1) (sg_b s2) then Some None
  else
    let t := (x1 - x3) * (y3 - y4) - (y1 - y3) * (x3 - x4) in
    let u := (x1 - x3) * (y1 - y2) - (y1 - y3) * (x1 - x2) in
    if (if 0 <? d then (t <? 0) || (d <? t) || (u <? 0) || (d <? u)
        else (0 <? t) || (t <? d) || (0 <? u) || (u <? d)) then Some None
    else if t =? 0 then Some (Some (Some (x1, y1), AEstart, is_edge u d))
    else if t =? d then Some (Some (Some (x2, y2), AEend, is_edge u d))
    else if u =? 0 then Some (Some (Some (x3, y3), AEno, AEstart))
    else if u =? d then Some (Some (Some (x4, y4), AEno, AEend))
    else
      match fl_offset rx t d (x2 - x1), fl_offset ry t d (y2 - y1) with
      | Some fx, Some fy =>
          let p := (x1 + fx, y1 + fy) in
          Some (Some (Some p,
            (if point_eqb p (x1, y1) then AEstart else if point_eqb p (x2, y2) then AEend else AEno),
            (if point_eqb p (x3, y3) then AEstart else if point_eqb p (x4, y4) then AEend else AEno)))
      | _, _ => None
      end.
