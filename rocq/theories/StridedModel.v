(** Model of strided_itr.hpp:16-140.

    A pointer is a byte address in Z.  Pointer arithmetic is on unbounded integers;
    [base]-relative validity of pointers is not modelled.  The reads made by
    blob_to_point_range go through a function from addresses to coordinates. *)
From Coq Require Import ZArith List Bool.
Import ListNotations.
Local Open Scope Z_scope.

(** strided_itr, 16-25. *)
Record sitr : Type := mk_sitr { it_ptr : Z; it_stride : Z }.

(** operator[], 29-31; the increments 37-51; +=, -= 53-60; + and - 62-75. *)
Definition it_index (a : sitr) (i : Z) : Z := it_ptr a + i * it_stride a.
Definition it_next (a : sitr) : sitr := mk_sitr (it_ptr a + it_stride a) (it_stride a).
Definition it_prev (a : sitr) : sitr := mk_sitr (it_ptr a - it_stride a) (it_stride a).
Definition it_add (a : sitr) (n : Z) : sitr := mk_sitr (it_ptr a + n * it_stride a) (it_stride a).
Definition it_sub (a : sitr) (n : Z) : sitr := mk_sitr (it_ptr a - n * it_stride a) (it_stride a).
(** operator-(ptrdiff_t, strided_itr), 73-75. *)
Definition it_rsub (n : Z) (b : sitr) : sitr := mk_sitr (it_ptr b - n * it_stride b) (it_stride b).
(** The distance, 77-79; the comparisons, 81-87. *)
Definition it_diff (a b : sitr) : Z := it_ptr a - it_ptr b.
Definition it_cmp (a b : sitr) : comparison := it_ptr a ?= it_ptr b.
Definition it_eqb (a b : sitr) : bool := it_ptr a =? it_ptr b.

(** _make_strided_range, 91-95: begin and end. *)
Definition range_begin (start stride : Z) : sitr := mk_sitr start stride.
Definition range_end (start stride : Z) (length : nat) : sitr := it_add (mk_sitr start stride) (Z.of_nat length).

(** Iteration of a range: dereference and increment until equal to the end; [None]
    when [fuel] steps did not reach it. *)
Fixpoint visit (fuel : nat) (it last : sitr) : option (list Z) :=
  if it_eqb it last then Some []
  else match fuel with
       | O => None
       | S f => match visit f (it_next it) last with
                | Some l => Some (it_ptr it :: l)
                | None => None
                end
       end.

(** blob_to_point_range, 108-123: the point read at address [a]. *)
Definition blob_point (mem : Z -> Z) (coord_stride a : Z) : Z * Z := (mem a, mem (a + coord_stride)).
Definition blob_to_point_range (mem : Z -> Z) (data coord_stride point_stride : Z) (n : nat) (fuel : nat)
  : option (list (Z * Z)) :=
  option_map (map (blob_point mem coord_stride)) (visit fuel (range_begin data point_stride) (range_end data point_stride n)).

(** The size a subrange of random-access iterators reports: the distance from begin
    to end. *)
Definition range_size (start stride : Z) (n : nat) : Z :=
  it_diff (range_end start stride n) (range_begin start stride).
