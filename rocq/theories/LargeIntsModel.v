(** Model of include/poly_ops/large_ints.hpp.

    Words are elements of [Z] in [0, 2^64) (full_uint is the 64-bit type, the
    default configuration).  Every operation that wraps in C++ carries an
    explicit [mod B].  Undefined behaviour is the constructor [UB] of [outcome].

    Simplification used throughout: C++ template recursion over
    [compi_hi<N>]/[compi_lo<N>] is modelled by recursion on the word count with
    the word of index [i] of an operand obtained from [word_at]. *)
From Coq Require Import ZArith List Bool.
Import ListNotations.
Local Open Scope Z_scope.

(** large_ints.hpp:129-135 (full_uint, 64-bit target): one machine word has 64 bits. *)
Definition Bw : Z := 2 ^ 64.
(** The sign bit of a word as a weight. *)
Definition Hw : Z := 2 ^ 63.

(** Outcome of an operation whose C++ original may have undefined behaviour. *)
Inductive outcome (A : Type) : Type :=
| Ok (a : A)
| UB.
Arguments Ok {A} a.
Arguments UB {A}.

(** static_cast<full_int>(w), used at large_ints.hpp:187, 438, 805. *)
Definition sword (w : Z) : Z := if w <? Hw then w else w - Bw.

(** static_cast<full_uint>(z): conversion of any integer to a word. *)
Definition uword (z : Z) : Z := z mod Bw.

(** extended_word, large_ints.hpp:185-191. *)
Definition extended_word (sg : bool) (w : Z) : Z :=
  if sg then (if sword w <? 0 then Bw - 1 else 0) else 0.

(** Operands: compound_xint<N,Signed> (364-473, [N = length ws]) or a built-in
    integer of [bytes] bytes holding the mathematical value [v]. *)
Inductive operand : Type :=
| OComp (sg : bool) (ws : list Z)
| OBuiltin (sg : bool) (bytes : nat) (v : Z).

(** signed_type, large_ints.hpp:244 and 489. *)
Definition op_signed (o : operand) : bool :=
  match o with OComp sg _ => sg | OBuiltin sg _ _ => sg end.

(** int_count<Signed,T>, large_ints.hpp:206-222 and 484-485. *)
Definition int_count (signed_ : bool) (o : operand) : nat :=
  match o with
  | OComp sg ws => length ws + (if signed_ && negb sg then 1 else 0)
  | OBuiltin sg bytes _ =>
      Nat.div (bytes + 8 - (if sg || negb signed_ then 1 else 0)) 8
  end.

(** max_int_count, large_ints.hpp:224. *)
Definition max_int_count (signed_ : bool) (a b : operand) : nat :=
  Nat.max (int_count signed_ a) (int_count signed_ b).

(** compi_hi<i+1>(x), large_ints.hpp:226-239 (built-in) and 263-271 (compound):
    word number [i], or the extension word beyond the end. *)
Definition word_at (o : operand) (i : nat) : Z :=
  match o with
  | OComp sg ws =>
      if Nat.ltb i (length ws) then nth i ws 0
      else extended_word sg (nth (length ws - 1) ws 0)
  | OBuiltin sg bytes v =>
      if Nat.ltb (int_count false o) (S i)
      then (if sg && (v <? 0) then Bw - 1 else 0)
      else uword (v / Bw ^ Z.of_nat i)
  end.

(** The words of [o] converted to compound_xint<N,_>; constructor 383-389 and
    [set] 315-322 / operator= 398-404. *)
Fixpoint to_words (n : nat) (o : operand) : list Z :=
  match n with
  | O => []
  | S n' => to_words n' o ++ [word_at o n']
  end.

(** ** Carry primitives *)

(** GCC builtin version, large_ints.hpp:538-541 (two overflow steps). *)
Definition adc (a b : Z) (c : bool) : Z * bool :=
  let out1 := (a + b) mod Bw in
  let c2 := Bw <=? a + b in
  let cz := if c then 1 else 0 in
  ((out1 + cz) mod Bw, c2 || (Bw <=? out1 + cz)).

(** large_ints.hpp:552-555. *)
Definition sbb (a b : Z) (c : bool) : Z * bool :=
  let out1 := (a - b) mod Bw in
  let c2 := a <? b in
  let cz := if c then 1 else 0 in
  ((out1 - cz) mod Bw, c2 || (out1 <? cz)).

(** Portable fall-back, large_ints.hpp:568-573. *)
Definition adc_portable (a b : Z) (c : bool) : Z * bool :=
  let cz := if c then 1 else 0 in
  let out := (a + b) mod Bw in
  let cr := out <? a in
  let out' := (out + cz) mod Bw in
  (out', (out' <? a) || cr).

(** Portable in-place version, large_ints.hpp:574-579. *)
Definition adc_to_portable (a b : Z) (c : bool) : Z * bool :=
  let cz := if c then 1 else 0 in
  let a1 := (a + b) mod Bw in
  let cr := a1 <? b in
  let a2 := (a1 + cz) mod Bw in
  (a2, (a2 <? b) || cr).

(** Portable, large_ints.hpp:580-585 (and 586-592, which compares with the
    saved previous value and is the same function). *)
Definition sbb_portable (a b : Z) (c : bool) : Z * bool :=
  let cz := if c then 1 else 0 in
  let out := (a - b) mod Bw in
  let cr := a <? out in
  let out' := (out - cz) mod Bw in
  (out', (a <? out') || cr).

(** addcarry<N>(a,b,out), large_ints.hpp:737-747, and the in-place form
    748-757: result words and final carry. *)
Fixpoint addcarry (n : nat) (a b : operand) : list Z * bool :=
  match n with
  | O => ([], false)
  | S n' =>
      let '(lo, c) := addcarry n' a b in
      let '(w, c') := adc (word_at a n') (word_at b n') c in
      (lo ++ [w], c')
  end.

(** subborrow<N>(a,b,out), large_ints.hpp:758-778. *)
Fixpoint subborrow (n : nat) (a b : operand) : list Z * bool :=
  match n with
  | O => ([], false)
  | S n' =>
      let '(lo, c) := subborrow n' a b in
      let '(w, c') := sbb (word_at a n') (word_at b n') c in
      (lo ++ [w], c')
  end.

(** The same chain built on the portable primitive (566-593). *)
Fixpoint addcarry_portable (n : nat) (a b : operand) : list Z * bool :=
  match n with
  | O => ([], false)
  | S n' =>
      let '(lo, c) := addcarry_portable n' a b in
      let '(w, c') := adc_portable (word_at a n') (word_at b n') c in
      (lo ++ [w], c')
  end.

Fixpoint subborrow_portable (n : nat) (a b : operand) : list Z * bool :=
  match n with
  | O => ([], false)
  | S n' =>
      let '(lo, c) := subborrow_portable n' a b in
      let '(w, c') := sbb_portable (word_at a n') (word_at b n') c in
      (lo ++ [w], c')
  end.

(** subborrow_or<N>, large_ints.hpp:780-794: borrow and OR of the words. *)
Fixpoint subborrow_or (n : nat) (a b : operand) : Z * bool :=
  match n with
  | O => (0, false)
  | S n' =>
      let '(o, c) := subborrow_or n' a b in
      let '(w, c') := sbb (word_at a n') (word_at b n') c in
      (Z.lor o w, c')
  end.

(** ar_add / ar_sub on plain arrays, large_ints.hpp:870-881. *)
Fixpoint ar_add_loop (a b : list Z) (c : bool) : list Z :=
  match a, b with
  | x :: a', y :: b' =>
      let '(w, c') := adc x y c in w :: ar_add_loop a' b' c'
  | _, _ => []
  end.
Definition ar_add (a b : list Z) : list Z := ar_add_loop a b false.
Fixpoint ar_sub_loop (a b : list Z) (c : bool) : list Z :=
  match a, b with
  | x :: a', y :: b' =>
      let '(w, c') := sbb x y c in w :: ar_sub_loop a' b' c'
  | _, _ => []
  end.
Definition ar_sub (a b : list Z) : list Z := ar_sub_loop a b false.

(** Signedness of results of mixed operations, e.g. large_ints.hpp:839. *)
Definition res_signed (a b : operand) : bool := op_signed a || op_signed b.

(** add, large_ints.hpp:838-844. *)
Definition add (a b : operand) : operand :=
  let sg := res_signed a b in
  OComp sg (fst (addcarry (max_int_count sg a b) a b)).

(** sub, large_ints.hpp:845-851. *)
Definition sub (a b : operand) : operand :=
  let sg := res_signed a b in
  OComp sg (fst (subborrow (max_int_count sg a b) a b)).

(** operator+= and operator-=, large_ints.hpp:973-980: the width and signedness
    of the left operand are kept. *)
Definition add_assign (sg : bool) (ws : list Z) (b : operand) : operand :=
  OComp sg (fst (addcarry (length ws) (OComp sg ws) b)).
Definition sub_assign (sg : bool) (ws : list Z) (b : operand) : operand :=
  OComp sg (fst (subborrow (length ws) (OComp sg ws) b)).

(** safe_comp_or_single_i, large_ints.hpp:361-362. *)
Definition safe_operand (n : nat) (sg : bool) (o : operand) : bool :=
  Nat.leb (int_count sg o) n && (sg || negb (op_signed o)).

(** compound_int<N>::operator-, large_ints.hpp:406-412.  For N=1 the negation
    is done on full_int and overflows (UB) for the most negative value; for
    N>1 it is full_uint(0) - *this. *)
Definition neg (ws : list Z) : outcome operand :=
  match ws with
  | [w] => if w =? Hw then UB else Ok (OComp true [uword (- sword w)])
  | _ => Ok (sub (OBuiltin false 8 0) (OComp true ws))
  end.

(** compound_xint::negative, large_ints.hpp:437-439. *)
Definition is_negative (sg : bool) (ws : list Z) : bool :=
  sg && (sword (nth (length ws - 1) ws 0) <? 0).

(** abs for compound operands, large_ints.hpp:853-868. *)
Definition abs (sg : bool) (ws : list Z) : outcome operand :=
  if negb sg then Ok (OComp sg ws)
  else match ws with
  | [w] => if w =? Hw then UB else Ok (OComp true [Z.abs (sword w)])
  | _ => if sword (nth (length ws - 1) ws 0) <? 0 then neg ws
         else Ok (OComp sg ws)
  end.

(** compound_xint::operator bool, large_ints.hpp:441-446. *)
Fixpoint to_bool (ws : list Z) : bool :=
  match ws with
  | [] => false
  | w :: r => if w =? 0 then to_bool r else true
  end.

(** ** Shifts *)

(** _ext_shift_right_to, large_ints.hpp:615-618; the shift of [fill] left wraps. *)
Definition ext_shift_right (a fill : Z) (amount : Z) : Z :=
  if amount =? 0 then a
  else Z.lor (a / 2 ^ amount) ((fill * 2 ^ (64 - amount)) mod Bw).

(** _ext_shift_left_to, large_ints.hpp:619-622. *)
Definition ext_shift_left (a fill : Z) (amount : Z) : Z :=
  if amount =? 0 then a
  else Z.lor ((a * 2 ^ amount) mod Bw) (fill / 2 ^ (64 - amount)).

(** full_xint<Signed>(w) >> bit, large_ints.hpp:805. *)
Definition word_shr (sg : bool) (w bit : Z) : Z :=
  if sg then uword (sword w / 2 ^ bit) else w / 2 ^ bit.

(** Store into an array, r[i] = w. *)
Fixpoint upd (l : list Z) (i : nat) (w : Z) : list Z :=
  match l, i with
  | [], _ => []
  | _ :: r, O => w :: r
  | x :: r, S i' => x :: upd r i' w
  end.

(** _shift_right, large_ints.hpp:796-810, written as the sequence of array
    stores of the C++ loops into [r]; [src r] is the array read: the constant
    source for the two-operand form, [r] itself for the in-place form.
    First loop: [i] from 0 while i < N-1-word ([k] iterations left). *)
Fixpoint shr_loop1 (inplace : bool) (a r : list Z) (word : nat) (bit : Z)
    (i k : nat) : list Z * nat :=
  match k with
  | O => (r, i)
  | S k' =>
      let s := if inplace then r else a in
      let w := ext_shift_right (nth (i + word) s 0) (nth (i + 1 + word) s 0) bit in
      shr_loop1 inplace a (upd r i w) word bit (S i) k'
  end.
(** Last loop (807-809): fill with the extension word. *)
Fixpoint shr_loop2 (inplace : bool) (sg : bool) (a r : list Z) (n i k : nat) : list Z :=
  match k with
  | O => r
  | S k' =>
      let s := if inplace then r else a in
      shr_loop2 inplace sg a (upd r i (extended_word sg (nth (n - 1) s 0))) n (S i) k'
  end.
(** Amounts of 64*N or more make N-1-word wrap around and the loop run out of
    bounds: UB. *)
Definition shift_right_arr (inplace : bool) (sg : bool) (a r : list Z) (amount : Z)
  : outcome (list Z) :=
  let n := length a in
  let word := Z.to_nat (amount / 64) in
  let bit := amount mod 64 in
  if Nat.leb n word then UB
  else
    let '(r1, i) := shr_loop1 inplace a r word bit 0 (n - 1 - word) in
    let s := if inplace then r1 else a in
    let r2 := if Nat.ltb i (n - word)
              then upd r1 i (word_shr sg (nth (i + word) s 0) bit) else r1 in
    Ok (shr_loop2 inplace sg a r2 n (S i) (n - S i)).

(** shift_right 893-899 / operator>>; the result array starts uninitialised,
    modelled by arbitrary contents [junk] of the right length. *)
Definition shift_right (sg : bool) (a junk : list Z) (amount : Z) : outcome (list Z) :=
  shift_right_arr false sg a junk amount.
(** operator>>=, 986-989. *)
Definition shift_right_assign (sg : bool) (a : list Z) (amount : Z) : outcome (list Z) :=
  shift_right_arr true sg a a amount.

(** _shift_left, large_ints.hpp:812-829.  First loop: while i > word+1. *)
Fixpoint shl_loop1 (inplace : bool) (a r : list Z) (word : nat) (bit : Z)
    (i k : nat) : list Z * nat :=
  match k with
  | O => (r, i)
  | S k' =>
      let s := if inplace then r else a in
      let i' := (i - 1)%nat in
      let w := ext_shift_left (nth (i' - word) s 0) (nth (i' - 1 - word) s 0) bit in
      shl_loop1 inplace a (upd r i' w) word bit i' k'
  end.
Fixpoint shl_loop2 (r : list Z) (i : nat) : list Z :=
  match i with
  | O => r
  | S i' => shl_loop2 (upd r i' 0) i'
  end.
Definition shift_left_arr (inplace : bool) (a r : list Z) (amount : Z) : list Z :=
  let n := length a in
  let word := Z.to_nat (amount / 64) in
  let bit := amount mod 64 in
  let '(r1, i) := shl_loop1 inplace a r word bit n (n - (word + 1)) in
  let s := if inplace then r1 else a in
  if Nat.ltb word i
  then let i' := (i - 1)%nat in
       shl_loop2 (upd r1 i' ((nth (i' - word) s 0 * 2 ^ bit) mod Bw)) i'
  else shl_loop2 r1 i.
Definition shift_left (a junk : list Z) (amount : Z) : list Z :=
  shift_left_arr false a junk amount.
Definition shift_left_assign (a : list Z) (amount : Z) : list Z :=
  shift_left_arr true a a amount.

(** countl_zero, large_ints.hpp:883-891; std::countl_zero of a word. *)
Definition word_clz (w : Z) : Z := if w =? 0 then 64 else 63 - Z.log2 w.
Fixpoint countl_zero (n : nat) (ws : list Z) : Z :=
  match n with
  | O => 0
  | S n' =>
      if (nth n' ws 0 =? 0) && negb (Nat.eqb n' 0)
      then countl_zero n' ws + 64
      else word_clz (nth n' ws 0)
  end.

(** ** Comparison *)

(** eq, large_ints.hpp:909-915. *)
Fixpoint eq_words (n : nat) (a b : operand) : bool :=
  match n with
  | O => true
  | S n' => if eq_words n' a b then word_at a n' =? word_at b n' else false
  end.
Definition eq (a b : operand) : bool :=
  eq_words (max_int_count (res_signed a b) a b) a b.

(** cmp, large_ints.hpp:917-943. *)
Definition cmp (a b : operand) : comparison :=
  let sg := res_signed a b in
  let n := max_int_count sg a b in
  if Nat.ltb 1 n then
    if sg then
      let '(diff, c) := subborrow_or (n - 1) a b in
      let ah := sword (word_at a (n - 1)) in
      let bh := sword (word_at b (n - 1)) in
      if ah =? bh then (if diff =? 0 then Eq else if c then Lt else Gt)
      else (ah ?= bh)
    else
      let '(diff, c) := subborrow_or n a b in
      if c then Lt else if diff =? 0 then Eq else Gt
  else
    if sg then sword (word_at a 0) ?= sword (word_at b 0)
    else word_at a 0 ?= word_at b 0.

(** ** Multiplication *)

(** mul1x1 with a 128-bit integer type (1009-1011) or MSVC intrinsics
    (1012-1019): the two words of the product of two (un)signed words. *)
Definition mul1x1 (sg : bool) (a b : Z) : list Z :=
  let x := if sg then sword a * sword b else a * b in
  [uword x; uword (x / Bw)].

(** Portable mul1x1, large_ints.hpp:1021-1037; all on uint64. *)
Definition mul1x1_portable (sg : bool) (a b : Z) : list Z :=
  let M := 2 ^ 32 in
  let lo_lo := uword ((a mod M) * (b mod M)) in
  let hi_lo := uword ((a / M) * (b mod M)) in
  let lo_hi := uword ((a mod M) * (b / M)) in
  let hi_hi := uword ((a / M) * (b / M)) in
  let cross := uword (uword (lo_lo / M + hi_lo mod M) + lo_hi) in
  let r_hi := uword (uword (hi_lo / M + cross / M) + hi_hi) in
  let r_lo := Z.lor (uword (cross * M)) (lo_lo mod M) in
  let r_hi' :=
    if sg then
      uword (r_hi + uword (uword (b * extended_word true a)
                           + uword (a * extended_word true b)))
    else r_hi in
  [r_lo; r_hi'].

(** shift<Shift>(x): padded_compound_int, large_ints.hpp:644-680. *)
Definition pad (shift : nat) (ws : list Z) : operand :=
  OComp false (repeat 0 shift ++ ws).

(** Words of a compound operand. *)
Definition words_of (o : operand) : list Z :=
  match o with OComp _ ws => ws | OBuiltin _ _ _ => [] end.

(** umulnx1<N>, large_ints.hpp:1045-1051. *)
Fixpoint umulnx1 (n : nat) (a : list Z) (b : Z) : list Z :=
  match n with
  | O => []
  | S n' =>
      if Nat.eqb n' 0 then mul1x1 false (nth 0 a 0) b
      else words_of (add (OComp false (umulnx1 n' a b))
                         (pad n' (mul1x1 false (nth n' a 0) b)))
  end.

(** offset_add<N,Shift>, large_ints.hpp:1053-1058; [k] is N-Shift, [x] has [k]
    words to begin with and only its low [k] words are used. *)
Fixpoint offset_add (n shift : nat) (r x : list Z) (k : nat) : list Z :=
  match k with
  | O => r
  | S k' =>
      let r' := words_of (add_assign false r (pad shift (firstn k x))) in
      offset_add n (S shift) r' x k'
  end.

(** offset_mul_add<N>, large_ints.hpp:1060-1068. *)
Fixpoint offset_mul_add (n : nat) (a b : list Z) : list Z :=
  match n with
  | O => []
  | S n' =>
      let hi := [uword (nth n' a 0 * nth 0 b 0)] in
      if Nat.eqb n' 0 then hi
      else words_of
             (add (add (OComp false (umulnx1 n' a (nth 0 b 0))) (pad n' hi))
                  (pad 1 (offset_mul_add n' a (tl b))))
  end.

(** small_xints, large_ints.hpp:182-183. *)
Definition is_small (o : operand) : bool :=
  match o with OBuiltin _ bytes _ => Nat.ltb bytes 8 | OComp _ _ => false end.
Definition op_bytes (o : operand) : nat :=
  match o with OBuiltin _ bytes _ => bytes | OComp _ _ => 0 end.

(** bltin_sized_int<Size>, large_ints.hpp:194-201, for the sizes that occur:
    bytes of the signed type chosen. *)
Definition bltin_bytes (size : nat) : nat :=
  if Nat.leb size 1 then 1 else if Nat.leb size 2 then 2
  else if Nat.leb size 4 then 4 else 8.

(** Range check of a signed built-in of [bytes] bytes. *)
Definition fits_signed (bytes : nat) (v : Z) : bool :=
  let h := 2 ^ (8 * Z.of_nat bytes - 1) in (- h <=? v) && (v <? h).
(** Conversion to a signed type of [bytes] bytes (C++20: modulo). *)
Definition wrap_signed (bytes : nat) (v : Z) : Z :=
  let h := 2 ^ (8 * Z.of_nat bytes - 1) in
  (v + h) mod (2 * h) - h.

(** The branch for two small built-ins, large_ints.hpp:1081-1082 and
    1379-1381: [static_cast<bltin_sized_int<sizeof(T)+sizeof(U)>>(a) * b].
    The usual arithmetic conversions promote both to at least int (4 bytes);
    the right operand is converted to the common type, which is signed because
    the left type is at least as wide as either operand and never narrower
    than the right one.  Signed overflow is UB. *)
Definition mul_small (ba bb : nat) (a b : Z) : outcome Z :=
  let rb := Nat.max 4 (bltin_bytes (ba + bb)) in
  let x := wrap_signed (bltin_bytes (ba + bb)) a * b in
  if fits_signed rb x then Ok x else UB.

(** Results of mul: a compound value, a built-in value, or no return value at
    all (flowing off the end of a function with a deduced non-... type). *)
Inductive mul_result : Type :=
| MWords (o : operand)
| MBuiltin (bytes : nat) (v : Z)
| MNoReturn        (* the unsigned Nb==1 branch 1091-1096 has no return *)
| MUB.

(** The branches of mul once Na >= Nb, large_ints.hpp:1089-1107. *)
Definition mul_ord (sg : bool) (a b : operand) : mul_result :=
  let na := int_count sg a in
  let nb := int_count sg b in
  if Nat.eqb na 1 then MWords (OComp sg (mul1x1 sg (word_at a 0) (word_at b 0)))
  else if Nat.eqb nb 1 then
    let alo := to_words (na - 1) a in
    let r := words_of
      (add (OComp false (umulnx1 (na - 1) alo (word_at b 0)))
           (pad (na - 1) (mul1x1 sg (word_at a (na - 1)) (word_at b 0)))) in
    if sg then
      MWords (OComp true
        (offset_add (na + 1) 1 r (umulnx1 (na - 1) alo (word_at b 1)) na))
    else MNoReturn
  else
    MWords (OComp sg
      (offset_mul_add (na + nb) (to_words (na + nb) a) (to_words (na + nb) b))).

(** mul, large_ints.hpp:1078-1109. *)
Definition mul (a b : operand) : mul_result :=
  match a, b with
  | OBuiltin _ ba va, OBuiltin _ bb vb =>
      if Nat.ltb ba 8 && Nat.ltb bb 8 then
        match mul_small ba bb va vb with
        | Ok v => MBuiltin (bltin_bytes (ba + bb)) v
        | UB => MUB
        end
      else
        let sg := res_signed a b in
        if Nat.ltb (int_count sg a) (int_count sg b) then mul_ord sg b a else mul_ord sg a b
  | _, _ =>
      let sg := res_signed a b in
      if Nat.ltb (int_count sg a) (int_count sg b) then mul_ord sg b a else mul_ord sg a b
  end.

(** ** Division *)

(** One-word division instruction (large_ints.hpp:1155-1180): the unsigned
    128/64 divide traps (UB) when the quotient does not fit or b is 0. *)
Definition udiv_insn (hi lo b : Z) : outcome (Z * Z) :=
  let v := hi * Bw + lo in
  if b =? 0 then UB
  else if Bw <=? v / b then UB else Ok (v / b, v mod b).

(** divmod_each_word_long<N>, large_ints.hpp:1201-1215: quotient words for the
    low [n] words of [a] given the running remainder [hi]. *)
Fixpoint divmod_each_word_long (n : nat) (a : list Z) (b hi : Z)
  : outcome (list Z * Z) :=
  match n with
  | O => Ok ([], hi)
  | S n' =>
      match udiv_insn hi (nth n' a 0) b with
      | UB => UB
      | Ok (q, r) =>
          match divmod_each_word_long n' a b r with
          | UB => UB
          | Ok (qs, r') => Ok (qs ++ [q], r')
          end
      end
  end.

(** udivmod_long<N>, large_ints.hpp:1216-1228: quotient and new contents of a. *)
Definition udivmod_long (a : list Z) (b : Z) : outcome (list Z * list Z) :=
  match a with
  | [w] => if b =? 0 then UB else Ok ([w / b], [w mod b])
  | _ =>
      match divmod_each_word_long (length a) a b 0 with
      | UB => UB
      | Ok (q, r) => Ok (q, r :: repeat 0 (length a - 1))
      end
  end.

(** Inner loop of udivmod_shift_sub, large_ints.hpp:1274-1282: [k] iterations
    of the [for(; shift >= end; --shift)] loop for the quotient word [q]. *)
Fixpoint shift_sub_bits (k : nat) (a b : list Z) (q : Z)
  : outcome (list Z * list Z * Z) :=
  match k with
  | O => Ok (a, b, q)
  | S k' =>
      let q1 := uword (q * 2) in
      let '(tmp, c) := subborrow (length a) (OComp false a) (OComp false b) in
      let '(a', q2) := if c then (a, q1) else (tmp, Z.lor q1 1) in
      match shift_right_assign false b 1 with
      | UB => UB
      | Ok b' => shift_sub_bits k' a' b' q2
      end
  end.

(** Outer loop, large_ints.hpp:1268-1283: quotient words from index n-1 down. *)
Fixpoint shift_sub_words (n : nat) (a b : list Z) (shift : Z)
  : outcome (list Z * list Z) :=
  match n with
  | O => Ok (a, [])
  | S n' =>
      let end_ := 64 * Z.of_nat n' in
      let k := Z.to_nat (shift - end_ + 1) in
      match shift_sub_bits k a b 0 with
      | UB => UB
      | Ok (a', b', q) =>
          let shift' := if end_ <=? shift then end_ - 1 else shift in
          match shift_sub_words n' a' b' shift' with
          | UB => UB
          | Ok (a'', qs) => Ok (a'', qs ++ [q])
          end
      end
  end.

(** udivmod_shift_sub<N>, large_ints.hpp:1249-1289: (remainder, quotient).  The
    recursion for zero top words works on the low n words of the arrays. *)
Fixpoint udivmod_shift_sub (n : nat) (a b : list Z) : outcome (list Z * list Z) :=
  match n with
  | O => Ok ([], [])
  | S n' =>
      if Nat.eqb n' 0 then
        if nth 0 b 0 =? 0 then UB
        else Ok ([nth 0 a 0 mod nth 0 b 0], [nth 0 a 0 / nth 0 b 0])
      else if (nth n' a 0 =? 0) && (nth n' b 0 =? 0) then
        match udivmod_shift_sub n' a b with
        | UB => UB
        | Ok (r, q) => Ok (r ++ [0], q ++ [0])
        end
      else
        let a' := firstn n a in
        let b' := firstn n b in
        let shift := countl_zero n b' - countl_zero n a' in
        if shift <? 0 then Ok (a', repeat 0 n)
        else shift_sub_words n a' (shift_left_assign b' shift) shift
  end.

Inductive modulo_t := truncate | euclid.

(** sign(x), large_ints.hpp:1070-1072, as a boolean (all ones / zero). *)
Definition top_neg (ws : list Z) : bool := sword (nth (length ws - 1) ws 0) <? 0.

(** Bind for outcomes. *)
Definition obind {A B} (x : outcome A) (f : A -> outcome B) : outcome B :=
  match x with Ok a => f a | UB => UB end.

(** abs(b) for any operand, large_ints.hpp:853-868 (built-ins use std::abs,
    undefined for the most negative value of int, long and wider). *)
Definition abs_op (o : operand) : outcome operand :=
  match o with
  | OComp sg ws => abs sg ws
  | OBuiltin sg bytes v =>
      if sg then
        if Nat.leb 4 bytes && (v =? - 2 ^ (8 * Z.of_nat bytes - 1)) then UB
        else Ok (OBuiltin true (Nat.max 4 bytes) (Z.abs v))
      else Ok o
  end.

(** divmod, large_ints.hpp:1292-1365.  [divx] says whether the platform has the
    double-word divide (x86 asm or MSVC).  Result: quotient and remainder. *)
Definition divmod (divx : bool) (m : modulo_t) (a b : operand)
  : outcome (operand * operand) :=
  let sg := res_signed a b in
  let n := max_int_count sg a b in
  let nr := int_count sg b in            (* words of r.rem, 1298 *)
  let nb := if divx && Nat.eqb (int_count sg b) 1 then 1%nat else n in
  if Nat.eqb n 1 then
    if sg then
      let av := sword (word_at a 0) in
      let bv := sword (word_at b 0) in
      if bv =? 0 then UB
      else if (av =? - Hw) && (bv =? -1) then UB
      else
        let q := Z.quot av bv in
        let r := Z.rem av bv in
        match m with
        | truncate => Ok (OComp true [uword q], OComp true [uword r])
        | euclid =>
            obind (abs true [uword r]) (fun ra =>
            if xorb (av <? 0) (bv <? 0) then
              obind (abs_op (OBuiltin true 8 bv)) (fun bab =>
              Ok (sub_assign true [uword q] (OBuiltin true 4 1),
                  OComp true (to_words 1 (sub bab ra))))
            else Ok (OComp true [uword q], ra))
        end
    else
      let av := word_at a 0 in
      let bv := word_at b 0 in
      if bv =? 0 then UB
      else Ok (OComp false [av / bv], OComp false [av mod bv])
  else if sg then
    let aw := to_words n a in
    let bw := to_words nb b in
    let sa := top_neg aw in
    let sb := top_neg bw in
    obind (if sa then neg aw else Ok (OComp true aw)) (fun a1 =>
    obind (if sb then neg bw else Ok (OComp true bw)) (fun b1 =>
    obind (if Nat.eqb nb 1
           then obind (udivmod_long (words_of a1) (nth 0 (words_of b1) 0))
                  (fun qr => Ok (snd qr, fst qr))
           else udivmod_shift_sub n (words_of a1) (words_of b1)) (fun rq =>
    let '(rw, qw) := rq in
    (* 1338: truncation to compound_int<int_count<false,U>>, then assignment *)
    let rem0 := to_words nr (OComp true (to_words (int_count false b) (OComp true rw))) in
    match m with
    | truncate =>
        obind (if xorb sa sb then neg qw else Ok (OComp true qw)) (fun q =>
        obind (if sa then neg rem0 else Ok (OComp true rem0)) (fun r =>
        Ok (q, r)))
    | euclid =>
        if xorb sa sb then
          obind (abs_op b) (fun bab =>
          Ok (OComp true (to_words n (sub (OBuiltin true 4 (-1)) (OComp true qw))),
              OComp true (to_words nr (sub bab (OComp true rem0)))))
        else Ok (OComp true qw, OComp true rem0)
    end)))
  else
    let aw := to_words n a in
    let bw := to_words nb b in
    obind (if Nat.eqb nb 1
           then obind (udivmod_long aw (nth 0 bw 0)) (fun qr => Ok (snd qr, fst qr))
           else udivmod_shift_sub n aw bw) (fun rq =>
    let '(rw, qw) := rq in
    Ok (OComp false qw,
        OComp false (to_words nr (OComp false (to_words (int_count false b) (OComp false rw)))))).

(** Signed double-word divide instruction (1148-1152, 1164): truncating; traps
    when the quotient does not fit a signed word. *)
Definition idiv_insn (hi lo b : Z) : outcome (Z * Z) :=
  let v := sword hi * Bw + lo in
  let d := sword b in
  if d =? 0 then UB
  else let q := Z.quot v d in
       if (- Hw <=? q) && (q <? Hw) then Ok (uword q, uword (Z.rem v d)) else UB.

(** unmul<Nr>, large_ints.hpp:1135-1197. *)
Definition unmul (divx : bool) (nr : nat) (m : modulo_t) (a b : operand)
  : outcome (operand * operand) :=
  let sg := res_signed a b in
  let nb := int_count sg b in
  if divx && Nat.eqb nr 1 && Nat.eqb (int_count sg a) 2 && Nat.eqb nb 1 then
    if sg then
      obind (idiv_insn (word_at a 1) (word_at a 0) (word_at b 0)) (fun qr =>
      let '(q, r) := qr in
      match m with
      | truncate => Ok (OComp true [q], OComp true [r])
      | euclid =>
          obind (abs true [r]) (fun ra =>
          if negb (word_at a 2 =? word_at b 1) then
            obind (abs_op b) (fun bab =>
            Ok (sub_assign true [q] (OBuiltin true 4 1),
                OComp true (to_words 1 (sub bab ra))))
          else Ok (OComp true [q], ra))
      end)
    else
      obind (udiv_insn (word_at a 1) (word_at a 0) (word_at b 0)) (fun qr =>
      Ok (OComp false [fst qr], OComp false [snd qr]))
  else
    obind (divmod divx m a b) (fun qr =>
    Ok (OComp sg (to_words nr (fst qr)), OComp sg (to_words nb (snd qr)))).

(** ** Conversions *)

(** cast<T> to a built-in of [bits] bits, large_ints.hpp:283-292, as coded: the
    high word is shifted by (N-1)*8 bits.  [tc] is int_count<false,T>.  The
    result is the bit pattern modulo 2^bits. *)
Fixpoint cast_bits (bits : Z) (tc n : nat) (o : operand) : Z :=
  match n with
  | O => 0
  | S n' =>
      if Nat.eqb n' 0 then word_at o 0 mod 2 ^ bits
      else if Nat.leb n tc
      then Z.lor ((word_at o n' * 2 ^ (8 * Z.of_nat n')) mod 2 ^ bits)
                 (cast_bits bits tc n' o)
      else cast_bits bits tc n' o
  end.
Definition cast_to (bits : Z) (ws : list Z) (sg : bool) : Z :=
  cast_bits bits (Z.to_nat ((bits + 63) / 64)) (length ws) (OComp sg ws).

(** unsigned_to_float, large_ints.hpp:348-354, with exact arithmetic in place
    of floating point: ldexp(hi, 32*N) + lower part. *)
Fixpoint unsigned_to_float (n : nat) (ws : list Z) : Z :=
  match n with
  | O => 0
  | S n' =>
      if Nat.eqb n' 0 then nth 0 ws 0
      else nth n' ws 0 * 2 ^ (32 * Z.of_nat n) + unsigned_to_float n' ws
  end.

(** Conversion to a floating point type, large_ints.hpp:420-434, in exact
    arithmetic. *)
Definition to_float (sg : bool) (ws : list Z) : outcome Z :=
  if Nat.ltb 1 (length ws) then
    if is_negative sg ws then
      obind (neg ws) (fun m => Ok (- unsigned_to_float (length ws) (words_of m)))
    else Ok (unsigned_to_float (length ws) ws)
  else Ok (if sg then sword (nth 0 ws 0) else nth 0 ws 0).

(** ** Hexadecimal literals *)

(** hex_value, large_ints.hpp:1411-1428, on the reversed digit list (1430-1448).
    [acc] is the full_uint_pack, most significant word first. *)
Fixpoint hex_value (ds : list Z) (nybble : nat) (cur : Z) (vals : list Z) : list Z :=
  match ds with
  | [] => cur :: vals
  | d :: r =>
      if Nat.leb 16 nybble then hex_value r 1 d (cur :: vals)
      else
        let cur' := Z.lor cur (uword (d * 2 ^ (4 * Z.of_nat nybble))) in
        match r with
        | [] => if Nat.eqb (S nybble) 16 && (8 <=? d) then 0 :: cur' :: vals
                else cur' :: vals
        | _ => hex_value r (S nybble) cur' vals
        end
  end.
(** operator""_compi on the digits (most significant first) after 0x; the
    result is a compound_int, words little-endian (1402-1414). *)
Definition compi_literal (digits : list Z) : operand :=
  OComp true (rev (hex_value (rev digits) 0 0 [])).
