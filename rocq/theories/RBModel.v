(** Model of the red-black tree: rbtree_algorithms.hpp and sweep_set.hpp.

    The node vector is a function from indices to nodes; node 0 is the header
    (sweep_set.hpp:318-320).  A pointer is an index or NIL ([None]).  A computation
    yields [None] when it dereferences NIL, when an assertion fails or when a loop has
    run for more than [fuel] steps; the theorems show that this never happens.
    Simplifications: indices are unbounded and the vector has a node at every index. *)
From Coq Require Import List Bool Arith.
Import ListNotations.

Section Tree.
Variable V : Type.

Definition ptr : Type := option nat.

(** set_node, sweep_set.hpp:17-31. *)
Record cell : Type := mk_cell { c_par : ptr; c_left : ptr; c_right : ptr; c_red : bool; c_val : V }.
Definition heap : Type := nat -> cell.
Definition upd (h : heap) (i : nat) (c : cell) : heap := fun j => if Nat.eqb j i then c else h j.

Definition M (A : Type) : Type := heap -> option (A * heap).
Definition ret {A} (a : A) : M A := fun h => Some (a, h).
Definition bind {A B} (m : M A) (k : A -> M B) : M B :=
  fun h => match m h with Some (a, h') => k a h' | None => None end.
Definition fail {A} : M A := fun _ => None.
Notation "x <- m ;; k" := (bind m (fun x => k)) (at level 90, m at next level, right associativity).
Notation "m ;;; k" := (bind m (fun _ => k)) (at level 90, right associativity).

Definition ptr_eqb (p q : ptr) : bool :=
  match p, q with Some i, Some j => Nat.eqb i j | None, None => true | _, _ => false end.
Definition is_nil (p : ptr) : bool := match p with None => true | Some _ => false end.
Definition header : ptr := Some 0.

(** _node_traits, sweep_set.hpp:99-114. *)
Definition get {A} (f : cell -> A) (p : ptr) : M A :=
  fun h => match p with Some i => Some (f (h i), h) | None => None end.
Definition get_parent : ptr -> M ptr := get c_par.
Definition get_left : ptr -> M ptr := get c_left.
Definition get_right : ptr -> M ptr := get c_right.
Definition get_red : ptr -> M bool := get c_red.
Definition get_val : ptr -> M V := get c_val.
Definition put (f : cell -> cell) (p : ptr) : M unit :=
  fun h => match p with Some i => Some (tt, upd h i (f (h i))) | None => None end.
Definition set_parent (p q : ptr) : M unit :=
  put (fun c => mk_cell q (c_left c) (c_right c) (c_red c) (c_val c)) p.
Definition set_left (p q : ptr) : M unit :=
  put (fun c => mk_cell (c_par c) q (c_right c) (c_red c) (c_val c)) p.
Definition set_right (p q : ptr) : M unit :=
  put (fun c => mk_cell (c_par c) (c_left c) q (c_red c) (c_val c)) p.
Definition set_red (p : ptr) (r : bool) : M unit :=
  put (fun c => mk_cell (c_par c) (c_left c) (c_right c) r (c_val c)) p.

Definition assert (b : bool) : M unit := if b then ret tt else fail.

(** minimum and maximum, rbtree_algorithms.hpp:102-120. *)
Fixpoint minimum (fuel : nat) (n : ptr) : M ptr :=
  match fuel with
  | O => fail
  | S f => l <- get_left n;; if is_nil l then ret n else minimum f l
  end.
Fixpoint maximum (fuel : nat) (n : ptr) : M ptr :=
  match fuel with
  | O => fail
  | S f => r <- get_right n;; if is_nil r then ret n else maximum f r
  end.

(** next_node, 67-81. *)
Fixpoint next_up (fuel : nat) (n p : ptr) : M ptr :=
  match fuel with
  | O => fail
  | S f =>
      r <- get_right p;;
      if ptr_eqb n r then q <- get_parent p;; next_up f p q
      else rn <- get_right n;; ret (if ptr_eqb rn p then n else p)
  end.
Definition next_node (fuel : nat) (n : ptr) : M ptr :=
  r <- get_right n;;
  if negb (is_nil r) then minimum fuel r
  else p <- get_parent n;; next_up fuel n p.

(** is_header, 122-137 (the version without the colour, which prev_node uses). *)
Definition is_header (p : ptr) : M bool :=
  l <- get_left p;;
  r <- get_right p;;
  par <- get_parent p;;
  if is_nil par then ret true
  else if is_nil l || is_nil r then ret false
  else if ptr_eqb l r then ret true
  else
    lp <- get_parent l;;
    if negb (ptr_eqb lp p) then ret true
    else rp <- get_parent r;; ret (negb (ptr_eqb rp p)).

(** prev_node, 83-100. *)
Fixpoint prev_up (fuel : nat) (p x : ptr) : M ptr :=
  match fuel with
  | O => fail
  | S f =>
      l <- get_left x;;
      if ptr_eqb p l then q <- get_parent x;; prev_up f x q else ret x
  end.
Definition prev_node (fuel : nat) (n : ptr) : M ptr :=
  b <- is_header n;;
  if b then get_right n
  else
    l <- get_left n;;
    if negb (is_nil l) then maximum fuel l
    else x <- get_parent n;; prev_up fuel n x.

(** begin_node, 181; unique, 193; init, 196-201; init_header, 210-215 and 1037-1041. *)
Definition begin_node : M ptr := get_left header.
Definition unique (n : ptr) : M bool := p <- get_parent n;; ret (is_nil p).
Definition init (n : ptr) : M unit := set_parent n None;;; set_left n None;;; set_right n None.
Definition init_header : M unit :=
  set_parent header None;;; set_left header header;;; set_right header header;;; set_red header true.

(** set_child, 835-843; the rotations, 845-881. *)
Definition set_child (new_child new_parent : ptr) (link_left : bool) : M unit :=
  if ptr_eqb new_parent header then set_parent header new_child
  else if link_left then set_left new_parent new_child
  else set_right new_parent new_child.
Definition rotate_left_no_parent_fix (p p_right : ptr) : M unit :=
  prl <- get_left p_right;;
  set_right p prl;;;
  (if is_nil prl then ret tt else set_parent prl p);;;
  set_left p_right p;;;
  set_parent p p_right.
Definition rotate_left (p p_right p_parent : ptr) : M unit :=
  pl <- get_left p_parent;;
  let p_was_left := ptr_eqb pl p in
  rotate_left_no_parent_fix p p_right;;;
  set_parent p_right p_parent;;;
  set_child p_right p_parent p_was_left.
Definition rotate_right_no_parent_fix (p p_left : ptr) : M unit :=
  plr <- get_right p_left;;
  set_left p plr;;;
  (if is_nil plr then ret tt else set_parent plr p);;;
  set_right p_left p;;;
  set_parent p p_left.
Definition rotate_right (p p_left p_parent : ptr) : M unit :=
  pl <- get_left p_parent;;
  let p_was_left := ptr_eqb pl p in
  rotate_right_no_parent_fix p p_left;;;
  set_parent p_left p_parent;;;
  set_child p_left p_parent p_was_left.

(** insert_commit, 809-833. *)
Definition insert_commit (new_node parent_node : ptr) (link_left : bool) : M unit :=
  assert (negb (is_nil parent_node));;;
  (if ptr_eqb parent_node header then
     set_parent header new_node;;; set_right header new_node;;; set_left header new_node
   else if link_left then
     set_left parent_node new_node;;;
     l <- get_left header;;
     if ptr_eqb parent_node l then set_left header new_node else ret tt
   else
     set_right parent_node new_node;;;
     r <- get_right header;;
     if ptr_eqb parent_node r then set_right header new_node else ret tt);;;
  set_parent new_node parent_node;;;
  set_right new_node None;;;
  set_left new_node None.

(** rebalance_after_insertion, 1214-1263. *)
Fixpoint rebalance_loop (fuel : nat) (p : ptr) : M unit :=
  match fuel with
  | O => fail
  | S f =>
      p_parent <- get_parent p;;
      p_grandparent <- get_parent p_parent;;
      red <- get_red p_parent;;
      if ptr_eqb p_parent header || negb red || ptr_eqb p_grandparent header then ret tt
      else
        set_red p_grandparent true;;;
        gl <- get_left p_grandparent;;
        let parent_is_left := ptr_eqb p_parent gl in
        x <- (if parent_is_left then get_right p_grandparent else ret gl);;
        x_red <- (if is_nil x then ret false else get_red x);;
        if x_red then
          set_red x false;;; set_red p_parent false;;; rebalance_loop f p_grandparent
        else
          pl <- get_left p_parent;;
          let is_left := ptr_eqb pl p in
          if parent_is_left then
            (if is_left then ret tt else rotate_left_no_parent_fix p_parent p);;;
            let p_parent := if is_left then p_parent else p in
            gp <- get_parent p_grandparent;;
            rotate_right p_grandparent p_parent gp;;;
            set_red p_parent false
          else
            (if is_left then rotate_right_no_parent_fix p_parent p else ret tt);;;
            let p_parent := if is_left then p else p_parent in
            gp <- get_parent p_grandparent;;
            rotate_left p_grandparent p_parent gp;;;
            set_red p_parent false
  end.
Definition rebalance_after_insertion (fuel : nat) (p : ptr) : M unit :=
  set_red p true;;;
  rebalance_loop fuel p;;;
  root <- get_parent header;;
  set_red root false.

(** insert_unique_check, 372-406: the previous node, whether the key is new, and the
    commit data. *)
Section Search.
Variable comp : V -> V -> bool.
Fixpoint check_loop (fuel : nat) (key : V) (x y prev : ptr) (left_child : bool) : M (ptr * ptr * bool) :=
  if is_nil x then ret (y, prev, left_child)
  else
    match fuel with
    | O => fail
    | S f =>
        v <- get_val x;;
        if comp key v then l <- get_left x;; check_loop f key l x prev true
        else r <- get_right x;; check_loop f key r x x false
    end.
Definition insert_unique_check (fuel : nat) (key : V) : M (ptr * bool * ptr * bool) :=
  x <- get_parent header;;
  c <- check_loop fuel key x header None true;;
  let '(y, prev, left_child) := c in
  absent <- (if is_nil prev then ret true else v <- get_val prev;; ret (comp v key));;
  ret (prev, absent, y, left_child).

(** sweep_set::_insert, sweep_set.hpp:350-362; insert_unique_commit, 1098-1103. *)
Definition insert (fuel : nat) (n : ptr) : M (ptr * bool) :=
  key <- get_val n;;
  c <- insert_unique_check fuel key;;
  let '(prev, absent, node, link_left) := c in
  if absent then
    insert_commit n node link_left;;; rebalance_after_insertion fuel n;;; ret (n, true)
  else ret (prev, false).

(** lower_bound_loop and upper_bound_loop, 965-994. *)
Fixpoint lower_bound_loop (fuel : nat) (x y : ptr) (key : V) : M ptr :=
  if is_nil x then ret y
  else match fuel with
  | O => fail
  | S f =>
      v <- get_val x;;
      if comp v key then r <- get_right x;; lower_bound_loop f r y key
      else l <- get_left x;; lower_bound_loop f l x key
  end.
Fixpoint upper_bound_loop (fuel : nat) (x y : ptr) (key : V) : M ptr :=
  if is_nil x then ret y
  else match fuel with
  | O => fail
  | S f =>
      v <- get_val x;;
      if comp key v then l <- get_left x;; upper_bound_loop f l x key
      else r <- get_right x;; upper_bound_loop f r y key
  end.

(** equal_range, 335-340, that is bounded_range, 266-319, with both bounds [key] and both
    ends closed; count, 322-333. *)
Fixpoint equal_range_loop (fuel : nat) (x y : ptr) (key : V) : M (ptr * ptr) :=
  if is_nil x then ret (y, y)
  else match fuel with
  | O => fail
  | S f =>
      v <- get_val x;;
      if comp v key then r <- get_right x;; equal_range_loop f r y key
      else if comp key v then l <- get_left x;; equal_range_loop f l x key
      else
        l <- get_left x;; a <- lower_bound_loop f l x key;;
        r <- get_right x;; b <- upper_bound_loop f r y key;;
        ret (a, b)
  end.
Fixpoint count_loop (fuel : nat) (inner : nat) (a b : ptr) : M nat :=
  if ptr_eqb a b then ret 0
  else match fuel with
  | O => fail
  | S f => a' <- next_node inner a;; n <- count_loop f inner a' b;; ret (S n)
  end.
Definition count (fuel : nat) (key : V) : M nat :=
  x <- get_parent header;;
  ab <- equal_range_loop fuel x header key;;
  count_loop fuel fuel (fst ab) (snd ab).
End Search.

(** insert_before, 469-478 and 1078-1084, with insert_before_check, 701-716. *)
Definition insert_before_check (fuel : nat) (pos : ptr) : M (ptr * bool) :=
  hl <- get_left header;;
  prev <- (if ptr_eqb pos hl then ret pos else prev_node fuel pos);;
  u <- unique header;;
  link_left <- (if u then ret true else l <- get_left pos;; ret (is_nil l));;
  ret (if link_left then pos else prev, link_left).
Definition insert_before (fuel : nat) (pos new_node : ptr) : M ptr :=
  c <- insert_before_check fuel pos;;
  insert_commit new_node (fst c) (snd c);;;
  rebalance_after_insertion fuel new_node;;;
  ret new_node.

(** The erasure of the binary tree, 577-657: x, x_parent, y. *)
Definition bst_erase (fuel : nat) (z : ptr) : M (ptr * ptr * ptr) :=
  z_left <- get_left z;;
  z_right <- get_right z;;
  yx <- (if is_nil z_left then ret (z, z_right)
         else if is_nil z_right then ret (z, z_left)
         else y <- minimum fuel z_right;; x <- get_right y;; ret (y, x));;
  let '(y, x) := yx in
  z_parent <- get_parent z;;
  zpl <- get_left z_parent;;
  let z_is_left := ptr_eqb zpl z in
  x_parent <-
    (if negb (ptr_eqb y z) then
       set_parent z_left y;;;
       set_left y z_left;;;
       xp <- (if negb (ptr_eqb y z_right) then
                set_right y z_right;;;
                set_parent z_right y;;;
                x_parent <- get_parent y;;
                xpl <- get_left x_parent;;
                assert (ptr_eqb xpl y);;;
                (if is_nil x then ret tt else set_parent x x_parent);;;
                set_left x_parent x;;;
                ret x_parent
              else ret y);;
       set_parent y z_parent;;;
       set_child y z_parent z_is_left;;;
       ret xp
     else
       (if is_nil x then ret tt else set_parent x z_parent);;;
       set_child x z_parent z_is_left;;;
       hl <- get_left header;;
       (if ptr_eqb hl z then
          assert (is_nil z_left);;;
          m <- (if is_nil z_right then ret z_parent else minimum fuel z_right);;
          set_left header m
        else ret tt);;;
       hr <- get_right header;;
       (if ptr_eqb hr z then
          assert (is_nil z_right);;;
          m <- (if is_nil z_left then ret z_parent else maximum fuel z_left);;
          set_right header m
        else ret tt);;;
       ret z_parent);;
  (if is_nil x then ret tt else xp <- get_parent x;; assert (ptr_eqb xp x_parent));;;
  ret (x, x_parent, y).

(** rebalance_after_erasure, 1113-1212. *)
Definition black_or_nil (p : ptr) : M bool := if is_nil p then ret true else r <- get_red p;; ret (negb r).
Fixpoint restore_loop (fuel : nat) (x x_parent : ptr) : M ptr :=
  match fuel with
  | O => fail
  | S f =>
      x_black <- black_or_nil x;;
      if ptr_eqb x_parent header || negb x_black then ret x
      else
        x_parent_left <- get_left x_parent;;
        if ptr_eqb x x_parent_left then
          w <- get_right x_parent;;
          assert (negb (is_nil w));;;
          w_red <- get_red w;;
          w <- (if w_red then
                  set_red w false;;; set_red x_parent true;;;
                  pp <- get_parent x_parent;;
                  rotate_left x_parent w pp;;;
                  get_right x_parent
                else ret w);;
          assert (negb (is_nil w));;;
          w_left <- get_left w;;
          w_right <- get_right w;;
          bl <- black_or_nil w_left;;
          br <- black_or_nil w_right;;
          if bl && br then
            set_red w true;;; pp <- get_parent x_parent;; restore_loop f x_parent pp
          else
            w <- (if br then
                    set_red w_left false;;; set_red w true;;;
                    wp <- get_parent w;;
                    rotate_right w w_left wp;;;
                    w' <- get_right x_parent;;
                    assert (negb (is_nil w'));;; ret w'
                  else ret w);;
            c <- get_red x_parent;;
            set_red w c;;;
            set_red x_parent false;;;
            new_wright <- get_right w;;
            (if is_nil new_wright then ret tt else set_red new_wright false);;;
            pr <- get_right x_parent;;
            pp <- get_parent x_parent;;
            rotate_left x_parent pr pp;;;
            ret x
        else
          let w := x_parent_left in
          w_red <- get_red w;;
          w <- (if w_red then
                  set_red w false;;; set_red x_parent true;;;
                  pp <- get_parent x_parent;;
                  rotate_right x_parent w pp;;;
                  w' <- get_left x_parent;;
                  assert (negb (is_nil w'));;; ret w'
                else ret w);;
          w_left <- get_left w;;
          w_right <- get_right w;;
          br <- black_or_nil w_right;;
          bl <- black_or_nil w_left;;
          if br && bl then
            set_red w true;;; pp <- get_parent x_parent;; restore_loop f x_parent pp
          else
            w <- (if bl then
                    set_red w_right false;;; set_red w true;;;
                    wp <- get_parent w;;
                    rotate_left w w_right wp;;;
                    w' <- get_left x_parent;;
                    assert (negb (is_nil w'));;; ret w'
                  else ret w);;
            c <- get_red x_parent;;
            set_red w c;;;
            set_red x_parent false;;;
            new_wleft <- get_left w;;
            (if is_nil new_wleft then ret tt else set_red new_wleft false);;;
            pl <- get_left x_parent;;
            pp <- get_parent x_parent;;
            rotate_right x_parent pl pp;;;
            ret x
  end.
Definition restore_invariants (fuel : nat) (x x_parent : ptr) : M unit :=
  x <- restore_loop fuel x x_parent;;
  if is_nil x then ret tt else set_red x false.
Definition rebalance_after_erasure (fuel : nat) (z x x_parent y : ptr) : M unit :=
  zr <- get_red z;;
  new_z_red <- (if negb (ptr_eqb y z) then
                  r <- get_red y;; set_red y zr;;; ret r
                else ret zr);;
  if new_z_red then ret tt else restore_invariants fuel x x_parent.

(** rbtree_algorithms::erase, 1043-1049, and sweep_set::_erase, sweep_set.hpp:340-348
    (without the debug-only assignment). *)
Definition erase (fuel : nat) (z : ptr) : M ptr :=
  r <- next_node fuel z;;
  i <- bst_erase fuel z;;
  let '(x, x_parent, y) := i in
  rebalance_after_erasure fuel z x x_parent y;;;
  ret r.

(** Iteration from begin to end, and from end to begin. *)
Fixpoint iterate (fuel inner : nat) (p : ptr) : M (list nat) :=
  match p with
  | Some 0 => ret []
  | None => fail
  | Some i =>
      match fuel with
      | O => fail
      | S f => q <- next_node inner p;; l <- iterate f inner q;; ret (i :: l)
      end
  end.
Fixpoint iterate_back (fuel inner : nat) (p : ptr) (acc : list nat) : M (list nat) :=
  b <- begin_node;;
  if ptr_eqb p b then ret acc
  else match fuel with
       | O => fail
       | S f =>
           q <- prev_node inner p;;
           match q with Some i => iterate_back f inner q (i :: acc) | None => fail end
       end.
End Tree.
