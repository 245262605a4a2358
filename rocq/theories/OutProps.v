(** Properties of the last stage of an operation: finding the output loops and their
    hierarchy. *)
From Coq Require Import ZArith List Bool Arith Permutation Lia Sorted.
From Verif Require Import GeomModel OutModel OutSpec CycleProofs TreeProofs.
Import ListNotations.

(** C41: whenever the links of the points in use form a permutation, finding the loops
    succeeds; the loops together contain every ordinary point exactly once; going round a
    loop visits its points in the order of the links, anchors left out, and the last point
    leads back to the first; no coordinates change; every point, and every anchor before
    it, carries the number of its loop. *)
Theorem C41_loops : forall pts, links_ok pts ->
  exists pts' loops Ls, find_loops pts = Some (pts', loops) /\
  Forall2 (fun loc L => L <> [] /\ hd 0 L = fst loc /\ iterate_loop pts' (fst loc) (snd loc) = Some L) loops Ls /\
  Permutation (concat Ls) (ordinary pts) /\
  (forall L a b, In L Ls -> cyclic_next L a b -> leads_to pts a b /\ exists p, nth_error pts' a = Some p /\ f_next p = b) /\
  map f_data pts' = map f_data pts /\
  (forall k L x p, nth_error Ls k = Some L -> In x L -> nth_error pts' x = Some p -> f_index p = Z.of_nat k) /\
  (forall a j p q p', nth_error pts a = Some p -> f_index p = (-3)%Z -> leads_to pts a j ->
     nth_error pts' a = Some p' -> nth_error pts' j = Some q -> f_index p' = f_index q /\ f_next p' = f_next p).
Proof. exact find_loops_ok. Qed.
Print Assumptions C41_loops.

Definition P (x y : Z) : point := (x, y).
(** Two loops through eight points in use; point 2 is an anchor, point 7 was discarded. *)
Definition loops_ex : list fpoint :=
  [mk_fp (P 0 0) 2 (-1); mk_fp (P 5 5) 4 (-1); mk_fp (P 0 0) 3 (-3); mk_fp (P 9 0) 6 (-1);
   mk_fp (P 6 6) 5 (-1); mk_fp (P 5 6) 1 (-1); mk_fp (P 0 9) 0 (-1); mk_fp (P 1 1) 0 (-2)].
Lemma nth_cases {A} (l : list A) i x : nth_error l i = Some x -> In (i, x) (combine (seq 0 (length l)) l).
Proof.
  intros E. assert (H : forall k (m : list A) j, nth_error m j = Some x -> In (k + j, x) (combine (seq k (length m)) m)).
  { intros k m. revert k. induction m as [|a m IH]; intros k [|j] X; try discriminate; cbn in *.
    - injection X as ->. left. f_equal. lia.
    - right. replace (k + S j) with (S k + j) by lia. apply IH. exact X. }
  exact (H 0 l i E).
Qed.
Example loops_ex_ok : links_ok loops_ex.
Proof.
  split.
  - intros i p E U. apply nth_cases in E. cbn in E. unfold in_use in *.
    repeat (destruct E as [E|E]; [injection E as <- <-; cbn in *; (eexists; split; [reflexivity|cbn; auto]) || (destruct U; discriminate)|]). destruct E.
  - intros i j p q E E' U U' N. apply nth_cases in E. apply nth_cases in E'. cbn in E, E'. unfold in_use in *.
    repeat (destruct E as [E|E]; [injection E as <- <-; repeat (destruct E' as [E'|E']; [injection E' as <- <-; cbn in *; try reflexivity; try discriminate; try (destruct U'; discriminate); try (destruct U; discriminate)|]); destruct E'|]). destruct E.
Qed.
Example loops_ex_result : find_loops loops_ex = Some
  ([mk_fp (P 0 0) 3 0; mk_fp (P 5 5) 4 1; mk_fp (P 0 0) 3 0; mk_fp (P 9 0) 6 0;
    mk_fp (P 6 6) 5 1; mk_fp (P 5 6) 1 1; mk_fp (P 0 9) 0 0; mk_fp (P 1 1) 0 (-2)], [(0, 3); (1, 3)]).
Proof. vm_compute. reflexivity. Qed.

(** C42: whatever was recorded, a hierarchy that is produced contains every loop exactly
    once, at the top or in exactly one other loop; the loops at the top are those with no
    loop around them; a loop inside another is one of those it was recorded in, and exactly
    one level deeper; and going through the top level and, recursively, the inner loops,
    meets every loop exactly once. *)
Theorem C42_forest : forall n ordered top children, arrange_loops n ordered = Some (top, children) ->
  forest n top children /\
  (forall x h, In x top -> nth_error ordered x = Some (x, h) -> h = []) /\
  (forall o c x h h', nth_error children o = Some c -> In x c -> nth_error ordered x = Some (x, h) -> nth_error ordered o = Some (o, h') -> In o h /\ length h = S (length h')) /\
  exists fuel l, walk_tree fuel children top = Some l /\ Permutation l (seq 0 n).
Proof.
  intros n ordered top children H. split; [eapply arrange_forest; eauto|]. destruct (arrange_links _ _ _ _ H) as (T & C). split; [|split].
  - intros x h X E. destruct (T x X) as (T1 & _). unfold hits_of in T1. rewrite E in T1. exact T1.
  - intros o c x h h' E X E1 E2. destruct (C o c x E X) as (_ & C1 & C2 & _). unfold hits_of in C1, C2. rewrite E1 in C1, C2. rewrite E2 in C2. auto.
  - eapply arrange_walk; eauto.
Qed.
Print Assumptions C42_forest.

(** C42: whenever every loop has a sample, the loops are nested, and the signed number of
    lines of a loop above a sample of another loop is not zero exactly if the first loop is
    around the second, the hierarchy is produced: the top level has the loops with none
    around them, and every other loop is in the closest loop around it. This holds for
    every way of sorting the samples by loop. *)
Theorem C42_hierarchy : forall (sort_samples : list sample -> list sample) (pts : list fpoint) (n : nat) (ss : list sample) (encl : nat -> nat -> Prop),
  (forall l, Permutation (sort_samples l) l /\ Sorted (fun a b => (loop_of pts (fst a) <= loop_of pts (fst b))%Z) (sort_samples l)) ->
  nesting n encl ->
  (forall s, In s ss -> (loop_of pts (fst s) < Z.of_nat n)%Z /\ forall i, In i (snd s) -> countable pts n i) ->
  (forall l, l < n -> exists s, In s ss /\ loop_of pts (fst s) = Z.of_nat l) ->
  (forall s l l', In s ss -> loop_of pts (fst s) = Z.of_nat l -> l' < n -> l' <> l -> (signed_count pts l' (snd s) <> 0%Z <-> encl l' l)) ->
  exists top children, loop_hierarchy sort_samples pts n ss = Some (top, children) /\ forest n top children /\
    (forall x, In x top <-> x < n /\ forall a, ~ encl a x) /\
    (forall o c x, nth_error children o = Some c -> In x c <-> innermost encl o x) /\
    exists fuel l, walk_tree fuel children top = Some l /\ Permutation l (seq 0 n).
Proof. exact hierarchy_ok. Qed.
Print Assumptions C42_hierarchy.

(** Three loops one in another, and a fourth beside them. *)
Definition tree_pts : list fpoint :=
  [mk_fp (P 0 0) 1 0; mk_fp (P 20 0) 2 0; mk_fp (P 10 20) 0 0;
   mk_fp (P 8 2) 4 1; mk_fp (P 12 2) 5 1; mk_fp (P 10 12) 3 1;
   mk_fp (P 9 4) 7 2; mk_fp (P 11 4) 8 2; mk_fp (P 10 6) 6 2;
   mk_fp (P 30 0) 10 3; mk_fp (P 40 0) 11 3; mk_fp (P 35 9) 9 3].
Definition tree_samples : list sample := [(7, [1; 4]); (0, []); (3, [2]); (4, [1]); (9, [])].
Definition by_loop (a b : sample) : bool := (loop_of tree_pts (fst a) <=? loop_of tree_pts (fst b))%Z.
Fixpoint put_in (x : sample) (l : list sample) : list sample :=
  match l with [] => [x] | y :: l' => if by_loop x y then x :: l else y :: put_in x l' end.
Definition sort_ex (l : list sample) : list sample := fold_right put_in [] l.
Definition around (a b : nat) : Prop := a < b /\ b < 3.
Lemma sort_ex_ok l : Permutation (sort_ex l) l /\ Sorted (fun a b => (loop_of tree_pts (fst a) <= loop_of tree_pts (fst b))%Z) (sort_ex l).
Proof.
  induction l as [|x l (P1 & S1)]; [split; constructor|]. cbn [sort_ex fold_right]. change (fold_right put_in [] l) with (sort_ex l).
  assert (G : forall m, Sorted (fun a b => (loop_of tree_pts (fst a) <= loop_of tree_pts (fst b))%Z) m ->
    Permutation (put_in x m) (x :: m) /\ Sorted (fun a b => (loop_of tree_pts (fst a) <= loop_of tree_pts (fst b))%Z) (put_in x m) /\
    forall y, (loop_of tree_pts (fst y) <= loop_of tree_pts (fst x))%Z -> HdRel (fun a b => (loop_of tree_pts (fst a) <= loop_of tree_pts (fst b))%Z) y m -> HdRel (fun a b => (loop_of tree_pts (fst a) <= loop_of tree_pts (fst b))%Z) y (put_in x m)).
  { induction m as [|y m IH]; intros SM; cbn [put_in].
    - repeat split; auto.
    - unfold by_loop. destruct (Z.leb_spec (loop_of tree_pts (fst x)) (loop_of tree_pts (fst y))) as [L|L].
      + repeat split; auto.
      + inversion SM as [|? ? A B]; subst. destruct (IH A) as (I1 & I2 & I3). split; [rewrite I1; apply perm_swap|]. split.
        * constructor; [exact I2|]. apply I3; [lia|exact B].
        * intros z Z1 Z2. inversion Z2; subst. constructor. auto. }
  destruct (G _ S1) as (G1 & G2 & _). split; [rewrite G1; constructor; exact P1|exact G2].
Qed.
Example tree_ex : exists top children, loop_hierarchy sort_ex tree_pts 4 tree_samples = Some (top, children) /\ top = [0; 3] /\ children = [[1]; [2]; []; []].
Proof. eexists. eexists. split; [vm_compute; reflexivity|split; reflexivity]. Qed.
(** It meets the hypotheses of the theorem. *)
Example tree_ex_nested : nesting 4 around /\
  (forall s, In s tree_samples -> (loop_of tree_pts (fst s) < Z.of_nat 4)%Z /\ forall i, In i (snd s) -> countable tree_pts 4 i) /\
  (forall l, l < 4 -> exists s, In s tree_samples /\ loop_of tree_pts (fst s) = Z.of_nat l) /\
  (forall s l l', In s tree_samples -> loop_of tree_pts (fst s) = Z.of_nat l -> l' < 4 -> l' <> l -> (signed_count tree_pts l' (snd s) <> 0%Z <-> around l' l)).
Proof.
  split; [|split; [|split]].
  - unfold nesting, around. repeat split; intros; lia.
  - intros s X. cbn in X. split.
    + repeat (destruct X as [<-|X]; [cbn; lia|]). destruct X.
    + intros i I. repeat (destruct X as [<-|X]; [cbn in I; repeat (destruct I as [<-|I]; [eexists; split; [reflexivity|right; split; [cbn; lia|eexists; split; [reflexivity|discriminate]]]|]); destruct I|]). destruct X.
  - intros l L. assert (X : In l [0; 1; 2; 3]) by (cbn; lia). cbn in X.
    destruct X as [<-|[<-|[<-|[<-|[]]]]]; [exists (0, [])|exists (3, [2])|exists (7, [1; 4])|exists (9, [])]; (split; [cbn; auto 10|reflexivity]).
  - intros s l l' X E L N. assert (L4 : In l' [0; 1; 2; 3]) by (cbn; lia). unfold around. cbn in X, L4.
    repeat (destruct X as [<-|X]; [cbn in E; assert (l = Z.to_nat (Z.of_nat l)) as H by lia; rewrite <- E in H; cbn in H; subst l; repeat (destruct L4 as [<-|L4]; [cbn; split; intros; lia|]); destruct L4|]). destruct X.
Qed.
