(** The clipper: splitting lines at intersections and computing the states of lines.
    clip.hpp:2079-2314, 2330-2344, 2440-2495.

    The event queue is the one of EventsModel, the predicates are those of GeomModel and
    BalanceModel and what follows the sweeps is OutModel. Simplifications: the sweep-line set is the
    list of its elements in order; where a new element is put is a parameter (the theorems
    about the tree itself are in RBProps); node 0, which the tree reserves, is left out, so
    nodes are numbered from 0; the intersection routine and the sorts are parameters. A
    failed assertion, a read outside of an array, and running for more than [fuel] events
    are the outcome None. Calls of new_point_between are recorded in a list. *)
From Coq Require Import ZArith List Bool Arith.
From Verif Require Import GeomModel BalanceModel EventsModel OutModel PointSinkModel.
Import ListNotations.

(** loop_point, 250-282. *)
Record cpoint : Type := mk_cp { c_data : point; c_next : nat; c_set : bool_set; c_state : pstate }.
Definition c_set_next (p : cpoint) (n : nat) : cpoint := mk_cp (c_data p) n (c_set p) (c_state p).
Definition c_set_state (p : cpoint) (s : pstate) : cpoint := mk_cp (c_data p) (c_next p) (c_set p) s.

(** The members of clipper used by the sweeps, 1797-1811. *)
Record cstate : Type := mk_cs
  { s_pts : list cpoint; s_nodes : list cseg; s_events : queue EventsModel.event; s_sweep : list nat; s_rand : Z; s_log : list (nat * nat) }.
Definition with_pts (st : cstate) (p : list cpoint) : cstate := mk_cs p (s_nodes st) (s_events st) (s_sweep st) (s_rand st) (s_log st).
Definition with_events (st : cstate) (q : queue EventsModel.event) : cstate := mk_cs (s_pts st) (s_nodes st) q (s_sweep st) (s_rand st) (s_log st).
Definition with_sweep (st : cstate) (l : list nat) : cstate := mk_cs (s_pts st) (s_nodes st) (s_events st) l (s_rand st) (s_log st).
Definition with_rand (st : cstate) (r : Z) : cstate := mk_cs (s_pts st) (s_nodes st) (s_events st) (s_sweep st) r (s_log st).
Definition with_log (st : cstate) (l : list (nat * nat)) : cstate := mk_cs (s_pts st) (s_nodes st) (s_events st) (s_sweep st) (s_rand st) l.

Notation "'do' x <- m ; k" := (match m with Some x => k | None => None end) (at level 200, x pattern, m at level 100, k at level 200).

Section Clip.
(** intersects (451-527), given the two random bits. *)
Variable isect : bool -> bool -> cseg -> cseg -> isect.
(** The position the search of the tree ends at. *)
Variable place : list cseg -> cseg -> nat.
Variable sort_events : list EventsModel.event -> list EventsModel.event.
Variable sort_new : list (EventsModel.event * nat) -> list (EventsModel.event * nat).

(** events_t::add_fb_events, 964-976, and clipper::add_fb_events, 2079-2083. *)
Definition add_fb_events (st : cstate) (sa sb : nat) : option cstate :=
  do pa <- nth_error (s_pts st) sa;
  do pb <- nth_error (s_pts st) sb;
  let xa := px (c_data pa) in
  let xb := px (c_data pb) in
  let vert := (xa =? xb)%Z in
  if vert && negb (c_next pa =? sb) then None
  else
    let node := length (s_nodes st) in
    let f := if vert then VForward else Forward in
    let b := if vert then VBackward else Backward in
    let q := add_event _ (EventsModel.mk_event xb sb sa node b false) (add_event _ (EventsModel.mk_event xa sa sb node f false) (s_events st)) in
    Some (mk_cs (s_pts st) (s_nodes st ++ [mk_cseg sa sb (c_data pa) (c_data pb)]) q (s_sweep st) (s_rand st) (s_log st)).

(** sweep_set::erase: the set without the node, which must be in it. *)
Definition erase_node (l : list nat) (n : nat) : option (list nat) :=
  if in_dec Nat.eq_dec n l then Some (remove Nat.eq_dec n l) else None.

(** split_segment, 2085-2136: the index of the point at c. *)
Definition split_segment (st : cstate) (s : nat) (c : option point) (e : at_edge) : option (cstate * nat) :=
  do seg <- nth_error (s_nodes st) s;
  let sa := sg_a seg in
  let sb := sg_b seg in
  match e with
  | AEboth => None
  | AEstart => Some (st, sa)
  | AEend => Some (st, sb)
  | AEno =>
      do c <- c;
      do sweep <- erase_node (s_sweep st) s;
      do pa <- nth_error (s_pts st) sa;
      do pb <- nth_error (s_pts st) sb;
      let f := if (px (c_data pa) =? px (c_data pb))%Z then VForward else Forward in
      do i <- find_event _ event_lt event_same (s_events st) (EventsModel.mk_event (px (c_data pa)) sa sb 0 f false) (q_last _ (s_events st));
      do q <- update_at _ (fun e => EventsModel.mk_event (e_x e) (e_a e) (e_b e) (e_node e) (e_type e) true) i (s_events st);
      if point_eqb (c_data pa) c || point_eqb (c_data pb) c then None
      else
        let st := with_sweep (with_events st q) sweep in
        let main := c_next pa =? sb in
        let '(sa, sb, pa, pb) := if main then (sa, sb, pa, pb) else (sb, sa, pb, pa) in
        let mid := length (s_pts st) in
        if negb (bset_eqb (c_set pa) (c_set pb)) then None
        else
          let st := with_pts st (put (s_pts st) sa (c_set_next pa mid) ++ [mk_cp c sb (c_set pa) Undef]) in
          let st := with_log st (s_log st ++ [(sa, sb)]) in
          do st <- (if (px (c_data pa) <=? px c)%Z then add_fb_events st sa mid else add_fb_events st mid sa);
          do st <- (if (px c <=? px (c_data pb))%Z then add_fb_events st mid sb else add_fb_events st sb mid);
          Some (st, mid)
  end.

Definition mark (st : cstate) (i : nat) : option cstate :=
  do p <- nth_error (s_pts st) i; Some (with_pts st (put (s_pts st) i (c_set_state p Check))).
Definition at_edge_eqb (a b : at_edge) : bool :=
  match a, b with AEstart, AEstart | AEno, AEno | AEend, AEend | AEboth, AEboth => true | _, _ => false end.

(** check_intersection, 2138-2185. The two random bits are drawn by intersects (437-441,
    518-521); they are only used up when the lines cross in their interiors, which the model
    leaves to [draws]. *)
Variable draws : cseg -> cseg -> bool.
Definition check_intersection (st : cstate) (s1 s2 : nat) : option (cstate * bool) :=
  do g1 <- nth_error (s_nodes st) s1;
  do g2 <- nth_error (s_nodes st) s2;
  let '(rx, r1) := rand_bool (s_rand st) in
  let '(ry, r2) := rand_bool r1 in
  let st := if draws g1 g2 then with_rand st r2 else st in
  match isect rx ry g1 g2 with
  | None => Some (st, false)
  | Some (c, e1, e2) =>
      if negb (Bool.eqb (at_edge_eqb e1 AEboth) (at_edge_eqb e2 AEboth)) then None
      else if at_edge_eqb e1 AEno || at_edge_eqb e2 AEno then
        do (st, i1) <- split_segment st s1 c e1;
        do (st, i2) <- split_segment st s2 c e2;
        do st <- mark st i1;
        do st <- mark st i2;
        Some (st, true)
      else if at_edge_eqb e1 AEboth then
        do st <- mark st (sg_a g1);
        do st <- mark st (sg_b g1);
        do st <- mark st (sg_a g2);
        do st <- mark st (sg_b g2);
        Some (st, false)
      else
        do st <- mark st (if at_edge_eqb e1 AEstart then sg_a g1 else sg_b g1);
        do st <- mark st (if at_edge_eqb e2 AEstart then sg_a g2 else sg_b g2);
        Some (st, false)
  end.

(** The lines of the given nodes. *)
Fixpoint node_values (st : cstate) (l : list nat) : option (list cseg) :=
  match l with
  | [] => Some []
  | n :: l' => do g <- nth_error (s_nodes st) n; do gs <- node_values st l'; Some (g :: gs)
  end.
(** sweep_set::insert: the set, the element before and the element after the new one, or None
    as the middle component if an equivalent element exists. *)
Definition insert_node (cmp : cseg -> cseg -> bool) (st : cstate) (n : nat) : option (list nat * option (option nat * option nat)) :=
  do g <- nth_error (s_nodes st) n;
  do gs <- node_values st (s_sweep st);
  let k := Nat.min (place gs g) (length gs) in
  let before := if k =? 0 then None else nth_error (s_sweep st) (k - 1) in
  let ok := if k =? 0 then true else match nth_error gs (k - 1) with Some h => cmp h g | None => false end in
  if ok then Some (firstn k (s_sweep st) ++ n :: skipn k (s_sweep st), Some (before, nth_error (s_sweep st) k))
  else Some (s_sweep st, None).
(** The elements before and after a node in the set. *)
Fixpoint around_node (prev : option nat) (l : list nat) (n : nat) : option nat * option nat :=
  match l with
  | [] => (prev, None)
  | a :: l' => if a =? n then (prev, match l' with [] => None | b :: _ => Some b end) else around_node (Some a) l' n
  end.

(** The body of the loop of self_intersection, 2223-2268. *)
Definition sweep_step (st : cstate) : option cstate :=
  do (e, fwd, q) <- next _ event_lt sort_events sort_new (s_events st);
  let st := with_events st q in
  let n := e_node e in
  if e_deleted e then Some st
  else
    match e_type e with
    | Forward | VForward =>
        if fwd then
          do (sweep, r) <- insert_node sweep_cmp st n;
          do (before, after) <- r;
          let st := with_sweep st sweep in
          do (st, split) <- match before with None => Some (st, false) | Some b => check_intersection st n b end;
          if split then Some st
          else match after with
               | None => Some st
               | Some a => do (st, _) <- check_intersection st n a; Some st
               end
        else do sweep <- erase_node (s_sweep st) n; Some (with_sweep st sweep)
    | Backward | VBackward =>
        if fwd then
          if in_dec Nat.eq_dec n (s_sweep st) then
            let '(before, after) := around_node None (s_sweep st) n in
            do sweep <- erase_node (s_sweep st) n;
            let st := with_sweep st sweep in
            match before, after with
            | Some b, Some a => do (st, _) <- check_intersection st b a; Some st
            | _, _ => Some st
            end
          else
            do q <- update_at _ (fun e => EventsModel.mk_event (e_x e) (e_a e) (e_b e) (e_node e) (e_type e) true) (Z.to_nat (q_cur _ q)) q;
            Some (with_events st q)
        else
          do (sweep, _) <- insert_node sweep_cmp st n;
          Some (with_sweep st sweep)
    end.
Fixpoint sweep_loop (fuel : nat) (st : cstate) : option cstate :=
  if more _ (s_events st) then
    match fuel with O => None | S f => do st <- sweep_step st; sweep_loop f st end
  else Some st.

(** 2194-2204: the lines of the input. *)
Fixpoint add_lines (st : cstate) (k i : nat) : option cstate :=
  match k with
  | O => Some st
  | S k' =>
      do p <- nth_error (s_pts st) i;
      do q <- nth_error (s_pts st) (c_next p);
      do st <- (if (px (c_data q) <? px (c_data p))%Z then add_fb_events st (c_next p) i else add_fb_events st i (c_next p));
      add_lines st k' (S i)
  end.
(** self_intersection, 2187-2270. *)
Definition self_intersection (fuel : nat) (pts : list cpoint) (rand : Z) : option cstate :=
  do st <- add_lines (mk_cs pts [] (q_empty _) [] rand []) (length pts) 0;
  sweep_loop fuel st.

(** * calc_line_bal *)
(** The line that starts at point i. *)
Definition line_at (pts : list cpoint) (i : nat) : option line :=
  do p <- nth_error pts i;
  do q <- nth_error pts (c_next p);
  Some (mk_line i (c_data p, c_data q) (c_set p)).
(** line_balance::check for the segment (a,b): the line it stands for (768-772). *)
Definition seg_line (pts : list cpoint) (ab : nat * nat) : option line :=
  do pa <- nth_error pts (fst ab);
  do pb <- nth_error pts (snd ab);
  if (px (c_data pb) <? px (c_data pa))%Z then None
  else if c_next pa =? snd ab then line_at pts (fst ab) else line_at pts (snd ab).
Fixpoint seg_lines (pts : list cpoint) (l : list (nat * nat)) : option (list line) :=
  match l with
  | [] => Some []
  | s :: l' => do x <- seg_line pts s; do xs <- seg_lines pts l'; Some (x :: xs)
  end.
(** touching_removed, 982-993, and touching_pending, 995-1006. *)
Fixpoint take_x (x : Z) (l : list EventsModel.event) : list EventsModel.event :=
  match l with [] => [] | e :: l' => if (e_x e =? x)%Z then e :: take_x x l' else [] end.
Definition is_back (e : EventsModel.event) : bool := match e_type e with Backward | VBackward => negb (e_deleted e) | _ => false end.
Definition is_fwd (e : EventsModel.event) : bool := match e_type e with Forward | VForward => negb (e_deleted e) | _ => false end.
Definition touching_removed (q : queue EventsModel.event) (x : Z) : list (nat * nat) :=
  map (fun e => (e_b e, e_a e)) (take_x x (filter is_back (rev (firstn (Z.to_nat (q_cur _ q)) (q_events _ q))))).
Definition touching_pending (q : queue EventsModel.event) (x : Z) : list (nat * nat) :=
  map (fun e => (e_a e, e_b e)) (take_x x (filter is_fwd (skipn (S (Z.to_nat (q_cur _ q))) (q_events _ q)))).

(** The lambda scan, 2278-2290. State: the points and the samples. *)
Definition scan (op : bool_op) (q : queue EventsModel.event) (x : Z) (sweep : list cseg) (i : nat) (pts : list cpoint) (ss : list sample)
  : option (list cpoint * list sample) :=
  do p <- nth_error pts i;
  match c_state p with
  | Check =>
      do l1 <- line_at pts i;
      do ls <- seg_lines pts (map (fun g => (sg_a g, sg_b g)) sweep ++ touching_removed q x ++ touching_pending q x);
      let hits := snd (line_balance l1 ls) in
      Some (put pts i (c_set_state p (Res (line_result op l1 ls))), ss ++ [(i, hits)])
  | _ => Some (pts, ss)
  end.
(** 2295-2313: one event; the order of the set (line_bal_sweep_cmp) only affects the order in
    which lines are looked at. *)
Definition bal_step (op : bool_op) (nodes : list cseg) (st : queue EventsModel.event * list nat * list cpoint * list sample)
  : option (queue EventsModel.event * list nat * list cpoint * list sample) :=
  let '(q, sweep, pts, ss) := st in
  do (e, fwd, q) <- next _ event_lt sort_events sort_new q;
  if negb fwd then None
  else if e_deleted e then Some (q, sweep, pts, ss)
  else
    let vals l := node_values (mk_cs pts nodes q [] 0 []) l in
    match e_type e with
    | Forward | VForward =>
        do g <- nth_error nodes (e_node e);
        do gs <- vals sweep;
        let k := Nat.min (place gs g) (length gs) in
        let sweep := firstn k sweep ++ e_node e :: skipn k sweep in
        do gs <- vals sweep;
        do (pts, ss) <- scan op q (e_x e) gs (e_a e) pts ss;
        Some (q, sweep, pts, ss)
    | Backward | VBackward =>
        do gs <- vals sweep;
        do (pts, ss) <- scan op q (e_x e) gs (e_a e) pts ss;
        do sweep <- erase_node sweep (e_node e);
        Some (q, sweep, pts, ss)
    end.
Fixpoint bal_loop (fuel : nat) (op : bool_op) (nodes : list cseg) (st : queue EventsModel.event * list nat * list cpoint * list sample)
  : option (queue EventsModel.event * list nat * list cpoint * list sample) :=
  if more _ (fst (fst (fst st))) then
    match fuel with O => None | S f => do st <- bal_step op nodes st; bal_loop f op nodes st end
  else Some st.
(** calc_line_bal, 2272-2314. *)
Definition calc_line_bal (fuel : nat) (op : bool_op) (st : cstate) : option (list cpoint * list sample) :=
  do q <- rewind _ (s_events st);
  do r <- bal_loop fuel op (s_nodes st) (q, [], s_pts st, []);
  Some (snd (fst r), snd r).

Definition to_out (p : cpoint) : opoint := mk_op (c_data p) (c_next p) (c_state p) false.
(** do_op, 2330-2437: output points, loops, samples, calls of new_point_between and
    point_merge, and the state of the random generator. *)
Definition do_op (fuel : nat) (op : bool_op) (tree : bool) (pts : list cpoint) (rand : Z)
  : option (list fpoint * list loop_loc * list sample * list (nat * nat) * list (nat * nat) * Z) :=
  do st <- self_intersection fuel pts rand;
  do (pts, ss) <- calc_line_bal fuel op st;
  do (fps, loops, ss, merged) <- finish fuel tree (map to_out pts) ss;
  Some (fps, loops, ss, s_log st, merged, s_rand st).
End Clip.

(** The points stored by add_loop (PointSinkModel). *)
Definition stored (l : list lpoint) : list cpoint :=
  map (fun p => mk_cp (lp_data p) (lp_next p) (lp_set p) (if lp_check p then Check else Undef)) l.

(** Whether intersects reaches the branch that draws random bits, 451-521. *)
Definition interior (s1 s2 : cseg) : bool :=
  match intersects true true s1 s2 with
  | None => false
  | Some _ =>
      let x1 := px (sg_pa s1) in let y1 := py (sg_pa s1) in
      let x2 := px (sg_pb s1) in let y2 := py (sg_pb s1) in
      let x3 := px (sg_pa s2) in let y3 := py (sg_pa s2) in
      let x4 := px (sg_pb s2) in let y4 := py (sg_pb s2) in
      let d := ((x1 - x2) * (y3 - y4) - (y1 - y2) * (x3 - x4))%Z in
      let t := ((x1 - x3) * (y3 - y4) - (y1 - y3) * (x3 - x4))%Z in
      let u := ((x1 - x3) * (y1 - y2) - (y1 - y3) * (x1 - x2))%Z in
      negb ((d =? 0) || (t =? 0) || (t =? d) || (u =? 0) || (u =? d))%Z
  end.
(** The position in a list whose elements before it are all less: the first element that is
    greater (what the search of a tree finds when the order is consistent). *)
Fixpoint first_greater (cmp : cseg -> cseg -> bool) (l : list cseg) (g : cseg) : nat :=
  match l with [] => 0 | h :: l' => if cmp g h then 0 else S (first_greater cmp l' g) end.
