(** Specification vocabulary for wide integers: the mathematical value of an
    operand, the range of a type and two's complement reduction.  None of these
    use the model's arithmetic functions. *)
From Coq Require Import ZArith List Bool.
From Verif Require Import LargeIntsModel.
Import ListNotations.
Local Open Scope Z_scope.

(** Little-endian positional value of a list of words. *)
Fixpoint le_val (ws : list Z) : Z :=
  match ws with
  | [] => 0
  | w :: r => w + 2 ^ 64 * le_val r
  end.

Definition is_word (w : Z) : Prop := 0 <= w < 2 ^ 64.

(** Number of bits of an [n]-word value. *)
Definition wbits (n : nat) : Z := 64 * Z.of_nat n.

(** Two's complement reading of an [n]-word pattern. *)
Definition as_signed (n : nat) (x : Z) : Z :=
  if x <? 2 ^ (wbits n - 1) then x else x - 2 ^ wbits n.

(** The integer an operand denotes. *)
Definition op_value (o : operand) : Z :=
  match o with
  | OComp false ws => le_val ws
  | OComp true ws => as_signed (length ws) (le_val ws)
  | OBuiltin _ _ v => v
  end.

(** Representable range of an [n]-word type. *)
Definition in_range (sg : bool) (n : nat) (z : Z) : Prop :=
  if sg then - 2 ^ (wbits n - 1) <= z < 2 ^ (wbits n - 1)
  else 0 <= z < 2 ^ wbits n.

(** Reduction of an integer to an [n]-word type (two's complement if signed). *)
Definition wrap (sg : bool) (n : nat) (z : Z) : Z :=
  if sg then (z + 2 ^ (wbits n - 1)) mod 2 ^ wbits n - 2 ^ (wbits n - 1)
  else z mod 2 ^ wbits n.

(** Range of a built-in integer type. *)
Definition builtin_range (sg : bool) (bytes : nat) (v : Z) : Prop :=
  if sg then - 2 ^ (8 * Z.of_nat bytes - 1) <= v < 2 ^ (8 * Z.of_nat bytes - 1)
  else 0 <= v < 2 ^ (8 * Z.of_nat bytes).

(** Well-formed operands: at least one word, words in range; built-ins of 1 to
    16 bytes holding a value of their type. *)
Definition op_wf (o : operand) : Prop :=
  match o with
  | OComp _ ws => ws <> [] /\ Forall is_word ws
  | OBuiltin sg bytes v => (1 <= bytes <= 16)%nat /\ builtin_range sg bytes v
  end.

(** The type of a compound result: signedness and number of words. *)
Definition has_type (sg : bool) (n : nat) (o : operand) : Prop :=
  match o with
  | OComp s ws => s = sg /\ length ws = n /\ Forall is_word ws
  | OBuiltin _ _ _ => False
  end.

(** Values representable in the static type of an operand. *)
Definition type_range (o : operand) (z : Z) : Prop :=
  match o with
  | OComp sg ws => in_range sg (length ws) z
  | OBuiltin sg bytes _ => builtin_range sg bytes z
  end.

(** Every value of the type of [o] is representable in [n] words. *)
Definition holds_type (sg : bool) (n : nat) (o : operand) : Prop :=
  forall z, type_range o z -> in_range sg n z.

(** [n] is the least number of words whose (signed or unsigned) type can hold
    every value of the types of both operands. *)
Definition common_width (sg : bool) (n : nat) (a b : operand) : Prop :=
  (0 < n)%nat /\ holds_type sg n a /\ holds_type sg n b /\
  forall m, (0 < m)%nat -> holds_type sg m a -> holds_type sg m b -> (n <= m)%nat.

(** [n] is the least number of words whose type holds every value of [o]'s. *)
Definition least_width (sg : bool) (n : nat) (o : operand) : Prop :=
  (0 < n)%nat /\ holds_type sg n o /\
  forall m, (0 < m)%nat -> holds_type sg m o -> (n <= m)%nat.
