(** Model of mini_flat_set, mini_flat_set.hpp:18-240, for elements of an unsigned
    integer type.

    The union [u] remembers which member was last written; reading the other one is
    the outcome [Bad].  Of an allocated block the capacity and the elements written
    and not yet discarded are kept; what std::unique leaves behind the new end is
    dropped.  std::sort, std::inplace_merge, std::unique, std::copy and
    std::upper_bound are modelled by their specifications (insertion sort, stable
    merge, removal of repeated neighbours, first larger element).  Freeing memory is
    not modelled. *)
From Coq Require Import List Bool Arith.
Import ListNotations.

Inductive umem : Type := URaw | UItem (v : nat) | UData (cap : nat) (items : list nat).
Record fset : Type := mk_fset { fs_size : nat; fs_u : umem }.

Inductive res (A : Type) : Type := Ok (a : A) | Bad.
Arguments Ok {A} a.
Arguments Bad {A}.

(** mini_flat_set(), 106-108. *)
Definition fs_new : fset := mk_fset 0 URaw.

(** size and empty, 158-159. *)
Definition fs_empty (s : fset) : bool := negb (Nat.eqb (fs_size s) 0).

(** The elements from begin() to end(), 160-163. *)
Definition contents (s : fset) : res (list nat) :=
  if Nat.ltb 1 (fs_size s) then
    match fs_u s with
    | UData _ items => if Nat.leb (fs_size s) (length items) then Ok (firstn (fs_size s) items) else Bad
    | _ => Bad
    end
  else if Nat.eqb (fs_size s) 0 then Ok []
  else match fs_u s with UItem v => Ok [v] | _ => Bad end.

(** std::upper_bound on a sorted range: the position of the first larger element. *)
Fixpoint upper_bound (v : nat) (l : list nat) : nat :=
  match l with
  | [] => 0
  | x :: l' => if Nat.ltb v x then 0 else S (upper_bound v l')
  end.

(** insert of one value, 165-202: the set, the position of the returned pointer relative
    to the stored elements, and the flag. *)
Definition insert_one (s : fset) (v : nat) : res (fset * nat * bool) :=
  if Nat.eqb (fs_size s) 0 then Ok (mk_fset 1 (UItem v), 0, true)
  else if Nat.eqb (fs_size s) 1 then
    match fs_u s with
    | UItem x =>
        if Nat.eqb v x then Ok (s, 0, false)
        else if Nat.ltb v x then Ok (mk_fset (fs_size s) (UData 2 [v; x]), 0, true)
        else Ok (mk_fset (fs_size s) (UData 2 [x; v]), 1, true)
    | _ => Bad
    end
  else
    match fs_u s with
    | UData cap items =>
        if negb (Nat.leb (fs_size s) (length items)) then Bad
        else
          let l := firstn (fs_size s) items in
          let pos := upper_bound v l in
          if negb (Nat.eqb pos 0) && Nat.eqb (nth (pos - 1) l 0) v then Ok (s, pos - 1, false)
          else
            let l' := firstn pos l ++ v :: skipn pos l in
            if Nat.eqb (fs_size s) cap then Ok (mk_fset (S (fs_size s)) (UData (fs_size s * 2) l'), pos, true)
            else Ok (mk_fset (S (fs_size s)) (UData cap l'), pos, true)
    | _ => Bad
    end.

(** std::sort, std::inplace_merge and std::unique. *)
Fixpoint ins_sorted (x : nat) (l : list nat) : list nat :=
  match l with
  | [] => [x]
  | y :: l' => if Nat.leb x y then x :: l else y :: ins_sorted x l'
  end.
Definition sort (l : list nat) : list nat := fold_right ins_sorted [] l.

Fixpoint merge_lists (a : list nat) : list nat -> list nat :=
  match a with
  | [] => fun b => b
  | x :: a' =>
      fix go (b : list nat) : list nat :=
        match b with
        | [] => a
        | y :: b' => if Nat.ltb y x then y :: go b' else x :: merge_lists a' b
        end
  end.

Fixpoint unique (l : list nat) : list nat :=
  match l with
  | x :: ((y :: _) as l') => if Nat.eqb x y then unique l' else x :: unique l'
  | _ => l
  end.

(** The loop of insert at 211-215: skip values equal to the single item. *)
Fixpoint drop_equal (x : nat) (l : list nat) : list nat :=
  match l with
  | [] => []
  | y :: l' => if Nat.eqb y x then drop_equal x l' else l
  end.

(** insert of a range, 204-229, with create_items (forward iterators, 60-70) and
    append_items (89-103). *)
Definition insert_range (s : fset) (l : list nat) : res fset :=
  let '(s, l) :=
    if Nat.eqb (fs_size s) 0 then
      match l with
      | [] => (s, l)
      | x :: l' => (mk_fset 1 (UItem x), l')
      end
    else (s, l) in
  if Nat.eqb (fs_size s) 0 then Ok s
  else if Nat.eqb (fs_size s) 1 then
    match fs_u s with
    | UItem x =>
        match drop_equal x l with
        | [] => Ok s
        | l' =>
            let items := unique (sort (x :: l')) in
            Ok (mk_fset (length items) (UData (length l' + 1) items))
        end
    | _ => Bad
    end
  else
    match l with
    | [] => Ok s
    | _ =>
        match fs_u s with
        | UData cap items =>
            if negb (Nat.leb (fs_size s) (length items)) then Bad
            else
              let total := fs_size s + length l in
              let cap' := if Nat.ltb cap total then total else cap in
              let items' := unique (merge_lists (firstn (fs_size s) items) (sort l)) in
              Ok (mk_fset (length items') (UData cap' items'))
        | _ => Bad
        end
    end.

(** merge, 231-234, for two different sets: both afterwards. *)
Definition merge (a b : fset) : res (fset * fset) :=
  let swapped :=
    if Nat.ltb 1 (fs_size b) then
      match fs_u b with
      | UData cap _ => Ok (Nat.leb (fs_size a + fs_size b) cap)
      | _ => Bad
      end
    else Ok false in
  match swapped with
  | Bad => Bad
  | Ok sw =>
      let '(a, b) := if sw then (b, a) else (a, b) in
      match contents b with
      | Bad => Bad
      | Ok l => match insert_range a l with Ok a' => Ok (a', b) | Bad => Bad end
      end
  end.

(** The copying constructor, 110-116, and copy assignment, 129-144; a union without
    an active member is copied as it is when the size is 0. *)
Definition copy (b : fset) : res fset :=
  if Nat.eqb (fs_size b) 0 then Ok (mk_fset 0 URaw)
  else match contents b with
       | Bad => Bad
       | Ok l => match l with
                 | [x] => Ok (mk_fset 1 (UItem x))
                 | _ => Ok (mk_fset (fs_size b) (UData (fs_size b) l))
                 end
       end.
Definition assign (a b : fset) : res fset :=
  if Nat.leb (fs_size b) 1 then
    if Nat.eqb (fs_size b) 0 then Ok (mk_fset 0 URaw)
    else match fs_u b with UItem x => Ok (mk_fset 1 (UItem x)) | _ => Bad end
  else
    match fs_u b, fs_u a with
    | UData _ items, UData cap _ =>
        if Nat.leb (fs_size a) 1 || Nat.ltb cap (fs_size b)
        then Ok (mk_fset (fs_size b) (UData (fs_size b) (firstn (fs_size b) items)))
        else Ok (mk_fset (fs_size b) (UData cap (firstn (fs_size b) items)))
    | UData _ items, _ =>
        if Nat.leb (fs_size a) 1 then Ok (mk_fset (fs_size b) (UData (fs_size b) (firstn (fs_size b) items)))
        else Bad
    | _, _ => Bad
    end.

(** Moving construction and assignment, 118-124 and 146-152: the target and the source. *)
Definition move (b : fset) : fset * fset := (b, mk_fset 0 (fs_u b)).
