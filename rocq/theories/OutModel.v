(** The last stage of an operation: from the state computed for every intersection to the
    output loops. clip.hpp:1140-1456, 1585-1680, 2316-2437.

    Simplifications: the set a point belongs to is left out (not used any more at this
    stage); the union of state and loop index is two different records, before and after
    the states are replaced by indices; std::map is an association list (its order is not
    observed); std::ranges::sort is a parameter. A failed assertion, a read outside of an
    array and a loop that runs for more than [fuel] steps are the outcome None. Calls of
    point_merge are recorded in a list. *)
From Coq Require Import ZArith List Bool Arith.
From Verif Require Import GeomModel.
Import ListNotations.

(** line_state, 207-238: undef, check or a result, and the anchor bit. *)
Inductive pstate : Type := Undef | Check | Res (r : lstate).
Definition keeps (r : lstate) : bool := match r with LSkeep | LSkeep_rev => true | _ => false end.
Definition revs (r : lstate) : bool := match r with LSdiscard_rev | LSkeep_rev => true | _ => false end.

(** loop_point, 250-282. *)
Record opoint : Type := mk_op { o_data : point; o_next : nat; o_state : pstate; o_anchor : bool }.
Definition set_next (p : opoint) (n : nat) : opoint := mk_op (o_data p) n (o_state p) (o_anchor p).
Definition set_state (p : opoint) (s : pstate) : opoint := mk_op (o_data p) (o_next p) s (o_anchor p).

(** Assignment to an element that exists. *)
Fixpoint put {A} (l : list A) (i : nat) (x : A) : list A :=
  match l, i with [], _ => [] | _ :: l', O => x :: l' | y :: l', S i' => y :: put l' i' x end.

(** std::map from points to vectors; an absent key is an empty vector. *)
Definition pmap (A : Type) : Type := list (point * list A).
Fixpoint pm_get {A} (m : pmap A) (k : point) : list A :=
  match m with [] => [] | (k', v) :: m' => if point_eqb k k' then v else pm_get m' k end.
Fixpoint pm_set {A} (m : pmap A) (k : point) (v : list A) : pmap A :=
  match m with [] => [(k, v)] | (k', v') :: m' => if point_eqb k k' then (k', v) :: m' else (k', v') :: pm_set m' k v end.
Definition pm_push {A} (m : pmap A) (k : point) (x : A) : pmap A := pm_set m k (pm_get m k ++ [x]).

(** virt_point, 1144-1148, and breaks_t, 1173-1189. *)
Record virt : Type := mk_virt { v_next : nat; v_keep : bool; v_end : bool }.
Record breaks : Type := mk_breaks { b_starts : pmap nat; b_ends : list nat; b_virt : pmap virt; b_orphans : list nat }.
Definition no_breaks : breaks := mk_breaks [] [] [] [].

(** The data of the point after i: end_point, 1352-1354. *)
Definition end_point (pts : list opoint) (i : nat) : option point :=
  match nth_error pts i with
  | None => None
  | Some p => option_map o_data (nth_error pts (o_next p))
  end.

(** The loop of follow_balance, 1210-1229, for a line with the result r. *)
Fixpoint follow_loop (fuel : nat) (r : lstate) (pts : list opoint) (merged : list (nat * nat)) (prev next : nat)
  : option (list opoint * list (nat * nat) * nat * nat) :=
  match fuel with
  | O => None
  | S f =>
      match nth_error pts next with
      | None => None
      | Some pn =>
          match o_state pn with
          | Check => None
          | Res _ => Some (pts, merged, prev, next)
          | Undef =>
              let pn1 := set_state pn (Res r) in
              if negb (keeps r) then follow_loop f r (put pts next pn1) (merged ++ [(prev, next)]) next (o_next pn)
              else if revs r then
                if o_anchor pn then
                  match nth_error pts (o_next pn) with
                  | None => None
                  | Some q => follow_loop f r (put pts next (mk_op (o_data q) prev (Res r) true)) merged next (o_next pn)
                  end
                else follow_loop f r (put pts next (set_next pn1 prev)) merged next (o_next pn)
              else follow_loop f r (put pts next pn1) merged next (o_next pn)
          end
      end
  end.

(** follow_balance, 1200-1263. *)
Definition follow_balance (fuel : nat) (pts : list opoint) (br : breaks) (merged : list (nat * nat)) (intr : nat)
  : option (list opoint * breaks * list (nat * nat)) :=
  match nth_error pts intr with
  | None => None
  | Some p =>
      match o_state p with
      | Res r =>
          if o_anchor p then None
          else
            match follow_loop fuel r pts merged intr (o_next p) with
            | None => None
            | Some (pts, merged, prev, next) =>
                match r with
                | LSdiscard => Some (pts, br, merged ++ [(prev, next)])
                | LSkeep => Some (pts, mk_breaks (pm_push (b_starts br) (o_data p) intr) (b_ends br ++ [prev]) (b_virt br) (b_orphans br), merged)
                | LSkeep_rev =>
                    match nth_error pts intr, nth_error pts next with
                    | Some p', Some e =>
                        let single := Nat.eqb prev intr in
                        Some (pts, mk_breaks (b_starts br) (if single then b_ends br else b_ends br ++ [o_next p'])
                                     (pm_push (b_virt br) (o_data e) (mk_virt prev true single)) (b_orphans br ++ [intr]), merged)
                    | _, _ => None
                    end
                | LSdiscard_rev =>
                    match nth_error pts next with
                    | Some e => Some (pts, mk_breaks (b_starts br) (b_ends br) (pm_push (b_virt br) (o_data e) (mk_virt prev false false)) (b_orphans br ++ [intr]), merged)
                    | None => None
                    end
                end
            end
      | _ => None
      end
  end.

(** insert_anchor_point, 2316-2328: the points and the index of the anchor after i. *)
Definition insert_anchor (pts : list opoint) (i : nat) : option (list opoint * nat) :=
  match nth_error pts i with
  | None => None
  | Some p =>
      match nth_error pts (o_next p) with
      | None => None
      | Some q =>
          if o_anchor q then Some (pts, o_next p)
          else Some (put pts i (set_next p (length pts)) ++ [mk_op (o_data p) (o_next p) Undef true], length pts)
      end
  end.

(** A sample (intr_t, 1310-1313): a point and the lines above it. *)
Definition sample : Type := (nat * list nat)%type.

(** 2348-2350: an anchor for every line recorded in a sample. *)
Fixpoint anchor_list (pts : list opoint) (l : list nat) : option (list opoint * list nat) :=
  match l with
  | [] => Some (pts, [])
  | i :: l' =>
      match insert_anchor pts i with
      | None => None
      | Some (pts, a) => match anchor_list pts l' with None => None | Some (pts, as_) => Some (pts, a :: as_) end
      end
  end.
Fixpoint anchor_hits (pts : list opoint) (ss : list sample) : option (list opoint * list sample) :=
  match ss with
  | [] => Some (pts, [])
  | (p, hits) :: ss' =>
      match anchor_list pts hits with
      | None => None
      | Some (pts, hits) => match anchor_hits pts ss' with None => None | Some (pts, ss') => Some (pts, (p, hits) :: ss') end
      end
  end.

(** 2351-2361: every sample is followed; for hierarchical output it is replaced by an anchor. *)
Fixpoint follow_all (fuel : nat) (tree : bool) (pts : list opoint) (br : breaks) (merged : list (nat * nat)) (ss : list sample)
  : option (list opoint * breaks * list (nat * nat) * list sample) :=
  match ss with
  | [] => Some (pts, br, merged, [])
  | (p, hits) :: ss' =>
      match (if tree then insert_anchor pts p else Some (pts, p)) with
      | None => None
      | Some (pts, a) =>
          match follow_balance fuel pts br merged p with
          | None => None
          | Some (pts, br, merged) =>
              match follow_all fuel tree pts br merged ss' with
              | None => None
              | Some (pts, br, merged, ss') => Some (pts, br, merged, (a, hits) :: ss')
              end
          end
      end
  end.

(** 2363-2387: orphans become the first points of reversed lines. *)
Fixpoint match_orphans (pts : list opoint) (starts : pmap nat) (ends : list nat) (virts : pmap virt) (orphans : list nat)
  : option (list opoint * pmap nat * list nat) :=
  match orphans with
  | [] => Some (pts, starts, ends)
  | o :: orphans' =>
      match nth_error pts o with
      | None => None
      | Some p =>
          match rev (pm_get virts (o_data p)) with
          | [] => None
          | vp :: rest =>
              let virts := pm_set virts (o_data p) (rev rest) in
              let starts := if v_keep vp then pm_push starts (o_data p) o else starts in
              if v_end vp && negb (v_keep vp) then None
              else
                let ends := if v_end vp then ends ++ [o] else ends in
                let p' := mk_op (o_data p) (v_next vp) (Res (if v_keep vp then LSkeep else LSdiscard)) false in
                match_orphans (put pts o p') starts ends virts orphans'
          end
      end
  end.

(** non_anchor_end_point, 1355-1360. *)
Definition non_anchor_end_point (pts : list opoint) (i : nat) : option point :=
  match nth_error pts i with
  | None => None
  | Some p =>
      match nth_error pts (o_next p) with
      | None => None
      | Some q =>
          if o_anchor q then
            match nth_error pts (o_next q) with
            | None => None
            | Some q' => if o_anchor q' then None else Some (o_data q')
            end
          else Some (o_data q)
      end
  end.

(** 2402-2414: the start that gives the greatest clockwise turn; i counts from 1. *)
Fixpoint pick_start (pts : list opoint) (a p : point) (cur : nat) (p_cur : point) (left : bool) (i : nat) (cands : list nat) : option nat :=
  match cands with
  | [] => Some cur
  | c :: cands' =>
      match non_anchor_end_point pts c with
      | None => None
      | Some p3 =>
          let i_left := (triangle_winding a p p3 <? 0)%Z in
          let left_of_bs := (triangle_winding p p_cur p3 <? 0)%Z in
          if negb (if left then i_left && left_of_bs else i_left || left_of_bs)
          then pick_start pts a p i p3 i_left (S i) cands'
          else pick_start pts a p cur p_cur left (S i) cands'
      end
  end.
Definition choose_start (pts : list opoint) (a p : point) (cands : list nat) : option nat :=
  match cands with
  | [] => None
  | [c] => Some 0
  | c :: cands' =>
      match non_anchor_end_point pts c with
      | None => None
      | Some p0 => pick_start pts a p 0 p0 (triangle_winding a p p0 <? 0)%Z 1 cands'
      end
  end.
(** 2416-2420: the element at b is replaced by the last one, which is removed. *)
Definition swap_remove (l : list nat) (b : nat) : list nat :=
  match rev l with
  | [] => []
  | last :: rest => if Nat.eqb b (length l - 1) then rev rest else put (rev rest) b last
  end.

(** 2389-2421: every end is joined to a start at the same place. *)
Fixpoint join_ends (pts : list opoint) (starts : pmap nat) (ends : list nat) : option (list opoint * pmap nat) :=
  match ends with
  | [] => Some (pts, starts)
  | e :: ends' =>
      match nth_error pts e, end_point pts e with
      | Some pe, Some p =>
          if point_eqb (o_data pe) p then None
          else
            let cands := pm_get starts p in
            match choose_start pts (o_data pe) p cands with
            | None => None
            | Some b =>
                match nth_error cands b with
                | None => None
                | Some s => join_ends (put pts e (set_next pe s)) (pm_set starts p (swap_remove cands b)) ends'
                end
            end
      | _, _ => None
      end
  end.

(** 2423-2434: states are replaced by indices; -1 unset, -2 discarded, -3 anchor (240-243). *)
Record fpoint : Type := mk_fp { f_data : point; f_next : nat; f_index : Z }.
Definition index_point (p : opoint) : fpoint :=
  mk_fp (o_data p) (o_next p)
    (match o_state p with
     | Res r => if keeps r then (if o_anchor p then -3 else -1) else -2
     | _ => -2
     end)%Z.
Definition f_set_next (p : fpoint) (n : nat) : fpoint := mk_fp (f_data p) n (f_index p).
Definition f_set_index (p : fpoint) (i : Z) : fpoint := mk_fp (f_data p) (f_next p) i.

(** The inner loop of find_loops, 1293-1304: points and number of points so far. *)
Fixpoint trace_loop (fuel : nat) (loop_i : Z) (i : nat) (pts : list fpoint) (prev j size : nat) : option (list fpoint * nat) :=
  if Nat.eqb j i then Some (pts, size)
  else
    match fuel with
    | O => None
    | S f =>
        match nth_error pts j with
        | None => None
        | Some pj =>
            if (f_index pj =? -3)%Z then
              match nth_error pts prev with
              | None => None
              | Some pp =>
                  trace_loop f loop_i i (put (put pts prev (f_set_next pp (f_next pj))) j (f_set_index pj loop_i)) prev (f_next pj) size
              end
            else if (f_index pj =? -1)%Z then
              trace_loop f loop_i i (put pts j (f_set_index pj loop_i)) j (f_next pj) (S size)
            else None
        end
    end.
(** loop_location, 1265-1268, and find_loops, 1278-1307: k points are left to look at. *)
Definition loop_loc : Type := (nat * nat)%type.
Fixpoint find_loops_from (fuel : nat) (k i : nat) (pts : list fpoint) (loops : list loop_loc) : option (list fpoint * list loop_loc) :=
  match k with
  | O => Some (pts, loops)
  | S k' =>
      match nth_error pts i with
      | None => None
      | Some p =>
          if (f_index p =? -1)%Z then
            let loop_i := Z.of_nat (length loops) in
            match trace_loop fuel loop_i i (put pts i (f_set_index p loop_i)) i (f_next p) 1 with
            | None => None
            | Some (pts, size) => find_loops_from fuel k' (S i) pts (loops ++ [(i, size)])
            end
          else find_loops_from fuel k' (S i) pts loops
      end
  end.
Definition find_loops (pts : list fpoint) : option (list fpoint * list loop_loc) :=
  find_loops_from (length pts) (length pts) 0 pts [].

(** Iteration of a loop: proto_loop_iterator, 1585-1635, from begin() to end() (1663-1671). *)
Fixpoint iterate_loop (pts : list fpoint) (i dist_from_end : nat) : option (list nat) :=
  match dist_from_end with
  | O => Some []
  | S d =>
      match nth_error pts i with
      | None => None
      | Some p => option_map (cons i) (iterate_loop pts (f_next p) d)
      end
  end.

(** do_op after the sweeps, 2346-2436. *)
Definition finish (fuel : nat) (tree : bool) (pts : list opoint) (ss : list sample)
  : option (list fpoint * list loop_loc * list sample * list (nat * nat)) :=
  match (if tree then anchor_hits pts ss else Some (pts, ss)) with
  | None => None
  | Some (pts, ss) =>
      match follow_all fuel tree pts no_breaks [] ss with
      | None => None
      | Some (pts, br, merged, ss) =>
          match match_orphans pts (b_starts br) (b_ends br) (b_virt br) (b_orphans br) with
          | None => None
          | Some (pts, starts, ends) =>
              match join_ends pts starts ends with
              | None => None
              | Some (pts, starts) =>
                  if forallb (fun kv => match snd kv with [] => true | _ => false end) starts then
                    match find_loops (map index_point pts) with
                    | None => None
                    | Some (fps, loops) => Some (fps, loops, ss, merged)
                    end
                  else None
              end
          end
      end
  end.

(** * The hierarchy of loops *)
Section Hierarchy.
Variable sort_samples : list sample -> list sample.

Definition loop_of (pts : list fpoint) (i : nat) : Z := match nth_error pts i with Some p => f_index p | None => -2 end.
(** std::ranges::unique by loop: the first of neighbours with the same loop. *)
Fixpoint unique_after (key : sample -> Z) (k : Z) (l : list sample) : list sample :=
  match l with [] => [] | b :: l' => if (key b =? k)%Z then unique_after key k l' else b :: unique_after key (key b) l' end.
Definition unique_by (key : sample -> Z) (l : list sample) : list sample :=
  match l with [] => [] | a :: l' => a :: unique_after key (key a) l' end.
(** unique_sorted_loop_points, 1329-1350. *)
Definition unique_sorted_loop_points (pts : list fpoint) (ss : list sample) : list sample :=
  let key s := loop_of pts (fst s) in
  unique_by key (sort_samples (filter (fun s => (0 <=? key s)%Z) ss)).

(** replace_line_indices_with_loop_indices, 1365-1402. The inner loop, 1379-1389: the winding
    numbers of the loops. *)
Fixpoint count_hits (pts : list fpoint) (own : Z) (hits : list nat) (inside : list Z) : option (list Z) :=
  match hits with
  | [] => Some inside
  | i :: hits' =>
      match nth_error pts i with
      | None => None
      | Some p =>
          if ((f_index p <? 0) || (f_index p =? own))%Z then count_hits pts own hits' inside
          else
            match nth_error inside (Z.to_nat (f_index p)), nth_error pts (f_next p) with
            | Some w, Some q =>
                let d := psub (f_data p) (f_data q) in
                if ((px d =? 0) && (py d =? 0))%Z then None
                else
                  let up := (0 <? (if px d =? 0 then py d else px d))%Z in
                  count_hits pts own hits' (put inside (Z.to_nat (f_index p)) (w + (if up then 1 else -1))%Z)
            | _, _ => None
            end
      end
  end.
Definition nonzero_positions (inside : list Z) : list nat :=
  filter (fun i => negb (nth i inside 0 =? 0)%Z) (seq 0 (length inside)).
Fixpoint loop_hits (pts : list fpoint) (nloops : nat) (ordered : list sample) : option (list (nat * list nat)) :=
  match ordered with
  | [] => Some []
  | (p, hits) :: rest =>
      let own := loop_of pts p in
      match count_hits pts own hits (repeat 0%Z nloops), loop_hits pts nloops rest with
      | Some inside, Some rest => Some ((Z.to_nat own, nonzero_positions inside) :: rest)
      | _, _ => None
      end
  end.

(** arrange_loops, 1405-1429: the top level and the children of each loop. *)
Fixpoint find_outer (ordered : list (nat * list nat)) (n : nat) (hits : list nat) : option nat :=
  match hits with
  | [] => None
  | o :: hits' =>
      match nth_error ordered o with
      | None => None
      | Some (_, h) => if Nat.eqb (length h) (n - 1) then Some o else find_outer ordered n hits'
      end
  end.
Fixpoint arrange (ordered : list (nat * list nat)) (todo : list (nat * list nat)) (top : list nat) (children : list (list nat))
  : option (list nat * list (list nat)) :=
  match todo with
  | [] => Some (top, children)
  | (p, hits) :: todo' =>
      match hits with
      | [] => arrange ordered todo' (top ++ [p]) children
      | _ =>
          match find_outer ordered (length hits) hits with
          | None => None
          | Some o =>
              match nth_error children o with
              | None => None
              | Some c => arrange ordered todo' top (put children o (c ++ [p]))
              end
          end
      end
  end.
Definition arrange_loops (nloops : nat) (ordered : list (nat * list nat)) : option (list nat * list (list nat)) :=
  if list_eq_dec Nat.eq_dec (map fst ordered) (seq 0 nloops) then arrange ordered ordered [] (repeat [] nloops) else None.

(** loop_hierarchy, 1434-1445. *)
Definition loop_hierarchy (pts : list fpoint) (nloops : nat) (ss : list sample) : option (list nat * list (list nat)) :=
  match loop_hits pts nloops (unique_sorted_loop_points pts ss) with
  | None => None
  | Some ordered => arrange_loops nloops ordered
  end.
End Hierarchy.

(** The loops met by going through a level and, for each loop, its inner_loops()
    (1676-1679). *)
Fixpoint walk_tree (fuel : nat) (children : list (list nat)) (level : list nat) : option (list nat) :=
  match fuel with
  | O => None
  | S f =>
      fold_right (fun i acc =>
        match nth_error children i, acc with
        | Some c, Some l => option_map (fun inner => i :: inner ++ l) (walk_tree f children c)
        | _, _ => None
        end) (Some []) level
  end.
