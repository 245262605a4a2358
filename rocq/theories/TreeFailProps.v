(** The hierarchy of the loops of a whole operation: property C72, where it fails. *)
From Coq Require Import ZArith List Bool Arith Permutation Sorted Lia.
From Verif Require Import GeomModel BalanceModel EventsModel EventsSpec EventsProps OutModel OutSpec PointSinkModel ClipModel ClipSpec SweepProofs ClipProps.
Import ListNotations.

(** Sorting the samples by loop, keeping the order of equal ones, as std::sort of the usual
    library does for up to 16 elements. *)
Fixpoint put_by (pts : list fpoint) (x : sample) (l : list sample) : list sample :=
  match l with [] => [x] | y :: l' => if (loop_of pts (fst x) <=? loop_of pts (fst y))%Z then x :: l else y :: put_by pts x l' end.
Definition sort_by (pts : list fpoint) (l : list sample) : list sample := fold_right (put_by pts) [] l.
Lemma put_by_ok pts x : forall m, Sorted (fun a b => (loop_of pts (fst a) <= loop_of pts (fst b))%Z) m ->
  Permutation (put_by pts x m) (x :: m) /\ Sorted (fun a b => (loop_of pts (fst a) <= loop_of pts (fst b))%Z) (put_by pts x m) /\
  forall y, (loop_of pts (fst y) <= loop_of pts (fst x))%Z -> HdRel (fun a b => (loop_of pts (fst a) <= loop_of pts (fst b))%Z) y m -> HdRel (fun a b => (loop_of pts (fst a) <= loop_of pts (fst b))%Z) y (put_by pts x m).
Proof.
  induction m as [|y m IH]; intros SM; cbn [put_by].
  - repeat split; auto.
  - destruct (Z.leb_spec (loop_of pts (fst x)) (loop_of pts (fst y))) as [L|L].
    + repeat split; auto.
    + inversion SM as [|? ? A B]; subst. destruct (IH A) as (I1 & I2 & I3). split; [rewrite I1; apply perm_swap|]. split.
      * constructor; [exact I2|]. apply I3; [lia|exact B].
      * intros z Z1 Z2. inversion Z2; subst. constructor. auto.
Qed.
Lemma sort_by_ok pts l : Permutation (sort_by pts l) l /\ Sorted (fun a b => (loop_of pts (fst a) <= loop_of pts (fst b))%Z) (sort_by pts l).
Proof.
  induction l as [|x l (P1 & S1)]; [split; constructor|]. cbn [sort_by fold_right]. destruct (put_by_ok pts x _ S1) as (G1 & G2 & _). split; [etransitivity; [exact G1|constructor; exact P1]|exact G2].
Qed.

Definition tree_fail_loop : list point := [(0, 5); (2, 5); (5, 1); (1, 0); (1, 3); (2, 0)]%Z.
(** C72: normalizing one polygon that crosses itself, with hierarchical output. The operation
    gives three loops, every loop has a line with its lines above, and the lines above
    count the second loop as inside the third and the third as inside the first, but the
    second not as inside the first. arrange_loops then finds no loop to put the second in:
    its assertion fails. The samples are sorted by a correct stable sort. *)
Theorem C72_tree_refuted : exists loop c log fps loops ss splits merged r ordered sort,
  add_loop clip_new [] Subject false loop = Done (c, log) /\
  run_op 400 OpNormalize true (stored (cs_points c)) rand_seed = Some (fps, loops, ss, splits, merged, r) /\
  (forall l, Permutation (sort l) l /\ Sorted (fun a b => (loop_of fps (fst a) <= loop_of fps (fst b))%Z) (sort l)) /\
  loop_hits fps (length loops) (unique_sorted_loop_points sort fps ss) = Some ordered /\
  ordered = [(0, []); (1, [2]); (2, [0])] /\
  arrange_loops (length loops) ordered = None /\
  loop_hierarchy sort fps (length loops) ss = None.
Proof.
  exists tree_fail_loop. do 9 eexists. eexists (sort_by ?[p]).
  split; [vm_compute; reflexivity|]. split; [vm_compute; reflexivity|]. split; [apply sort_by_ok|].
  split; [vm_compute; reflexivity|]. split; [reflexivity|]. split; vm_compute; reflexivity.
Qed.
Print Assumptions C72_tree_refuted.
