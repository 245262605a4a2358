(** Proofs about the hierarchy of the output loops. *)
From Coq Require Import ZArith List Bool Arith Permutation Lia Sorted.
From Verif Require Import GeomModel OutModel OutSpec CycleProofs.
Import ListNotations.

(** * arrange_loops *)
Lemma find_outer_spec ordered n hits o : find_outer ordered n hits = Some o -> In o hits /\ exists p h, nth_error ordered o = Some (p, h) /\ length h = n - 1.
Proof.
  induction hits as [|a hits IH]; cbn; [discriminate|]. destruct (nth_error ordered a) as [(p, h)|] eqn:E; [|discriminate].
  destruct (Nat.eqb_spec (length h) (n - 1)) as [Q|Q].
  - intros H. injection H as <-. split; [auto|]. exists p, h. auto.
  - intros H. destruct (IH H). auto.
Qed.
Lemma put_concat (cs : list (list nat)) o c p : nth_error cs o = Some c -> Permutation (concat (put cs o (c ++ [p]))) (concat cs ++ [p]).
Proof.
  revert o. induction cs as [|d cs IH]; intros [|o] E; try discriminate.
  - cbn in E. injection E as ->. cbn. rewrite <- !app_assoc. apply Permutation_app_head. apply Permutation_app_comm.
  - cbn in E. cbn. rewrite <- app_assoc. apply Permutation_app_head. apply IH. exact E.
Qed.
Definition parent_is (ordered : list (nat * list nat)) (o : nat) (x : nat * list nat) : bool :=
  match snd x with [] => false | _ => match find_outer ordered (length (snd x)) (snd x) with Some o' => Nat.eqb o o' | None => false end end.
Definition is_top (x : nat * list nat) : bool := match snd x with [] => true | _ => false end.
Lemma arrange_spec ordered : forall todo top children top' children', arrange ordered todo top children = Some (top', children') ->
  length children' = length children /\
  Permutation (top' ++ concat children') (top ++ concat children ++ map fst todo) /\
  top' = top ++ map fst (filter is_top todo) /\
  forall o c', nth_error children' o = Some c' -> exists c, nth_error children o = Some c /\ c' = c ++ map fst (filter (parent_is ordered o) todo).
Proof.
  induction todo as [|(p, hits) todo IH]; intros top children top' children' H; cbn [arrange] in H.
  - injection H as <- <-. cbn. rewrite !app_nil_r. repeat split; auto. intros o c' E. exists c'. rewrite app_nil_r. auto.
  - destruct hits as [|h hits].
    + destruct (IH _ _ _ _ H) as (A & B & C & D). split; [exact A|]. split; [|split].
      * rewrite B. cbn [map fst]. rewrite <- app_assoc. apply Permutation_app_head. cbn [app]. apply Permutation_middle.
      * rewrite C, <- app_assoc. reflexivity.
      * intros o c' E. destruct (D o c' E) as (c & E1 & E2). exists c. split; [exact E1|]. exact E2.
    + destruct (find_outer ordered (length (h :: hits)) (h :: hits)) as [o|] eqn:F; [|discriminate].
      destruct (nth_error children o) as [c|] eqn:EC; [|discriminate].
      destruct (IH _ _ _ _ H) as (A & B & C & D). split; [rewrite A; apply put_length|]. split; [|split].
      * rewrite B. apply Permutation_app_head. rewrite (put_concat _ _ _ p EC). rewrite <- app_assoc. reflexivity.
      * exact C.
      * intros o' c' E. destruct (D o' c' E) as (c0 & E1 & E2). cbn [filter]. unfold parent_is at 1. cbn [snd]. rewrite F.
        destruct (Nat.eqb_spec o' o) as [->|N].
        -- rewrite (put_same' _ _ _ _ EC) in E1. injection E1 as <-. exists c. split; [exact EC|]. rewrite E2, <- app_assoc. reflexivity.
        -- rewrite put_other in E1 by auto. exists c0. split; [exact E1|exact E2].
Qed.
Lemma concat_repeat_nil n : concat (repeat (@nil nat) n) = [].
Proof. induction n; cbn; auto. Qed.
Lemma arrange_forest n ordered top children : arrange_loops n ordered = Some (top, children) -> forest n top children.
Proof.
  unfold arrange_loops. destruct (list_eq_dec _ _ _) as [E|]; [|discriminate]. intros H. destruct (arrange_spec _ _ _ _ _ _ H) as (A & B & _). split.
  - rewrite A. apply repeat_length.
  - rewrite B, concat_repeat_nil, E. reflexivity.
Qed.

(** * Walking a forest *)
Section Walk.
Variable n : nat.
Variable children : list (list nat).
Hypothesis LEN : length children = n.
Definition ch (i : nat) : list nat := nth i children [].
Definition next_level (lv : list nat) : list nat := concat (map ch lv).
Fixpoint after (k : nat) (lv : list nat) : list nat := match k with O => lv | S k => after k (next_level lv) end.
Fixpoint levels (k : nat) (lv : list nat) : list nat := match k with O => [] | S k => lv ++ levels k (next_level lv) end.
Lemma next_app a b : next_level (a ++ b) = next_level a ++ next_level b.
Proof. unfold next_level. rewrite map_app, concat_app. reflexivity. Qed.
Lemma after_app k : forall a b, after k (a ++ b) = after k a ++ after k b.
Proof. induction k; intros a b; cbn; auto. rewrite next_app. auto. Qed.
Lemma levels_app k : forall a b, Permutation (levels k (a ++ b)) (levels k a ++ levels k b).
Proof.
  induction k; intros a b; cbn; auto. rewrite next_app, IHk, <- !app_assoc. apply Permutation_app_head. rewrite !app_assoc. apply Permutation_app_tail. apply Permutation_app_comm.
Qed.
Hypothesis RANGE : forall c x, In c children -> In x c -> x < n.
Lemma walk_levels : forall k lv, (forall x, In x lv -> x < n) -> after k lv = [] -> exists l, walk_tree (S k) children lv = Some l /\ Permutation l (levels k lv).
Proof.
  induction k as [|k IH]; intros lv R A.
  - cbn in A. subst lv. exists []. split; reflexivity.
  - cbn [after] in A.
    assert (G : forall lv, (forall x, In x lv -> x < n) -> after k (next_level lv) = [] -> exists l, walk_tree (S (S k)) children lv = Some l /\ Permutation l (lv ++ levels k (next_level lv))).
    { clear lv R A. induction lv as [|i lv IHl]; intros R A.
      - exists []. split; [reflexivity|]. cbn [app]. assert (Q : levels k [] = []) by (clear; induction k; cbn; auto). unfold next_level. cbn. rewrite Q. reflexivity.
      - change (next_level (i :: lv)) with (ch i ++ next_level lv) in A. rewrite after_app in A. apply app_eq_nil in A as (A1 & A2).
        destruct (IHl (fun x X => R x (or_intror X)) A2) as (l & E & P).
        assert (LI : i < n) by (apply R; left; reflexivity).
        assert (EC : nth_error children i = Some (ch i)) by (apply nth_error_nth'; lia).
        destruct (IH (ch i)) as (li & E1 & P1); [intros x X; apply (RANGE (ch i)); [eapply nth_error_In; eauto|exact X]|exact A1|].
        exists (i :: li ++ l). split.
        + change (walk_tree (S (S k)) children (i :: lv)) with (match nth_error children i, walk_tree (S (S k)) children lv with
            | Some c, Some l => option_map (fun inner => i :: inner ++ l) (walk_tree (S k) children c) | _, _ => None end).
          rewrite EC, E, E1. reflexivity.
        + change (next_level (i :: lv)) with (ch i ++ next_level lv). cbn [app]. constructor. rewrite P1, P, levels_app. rewrite !app_assoc. apply Permutation_app_tail. apply Permutation_app_comm. }
    destruct (G lv R A) as (l & E & P). exists l. split; [exact E|exact P].
Qed.
End Walk.

(** A forest in which the loops in a loop are one level deeper is walked completely. *)
Section Whole.
Variables (n : nat) (top : list nat) (children : list (list nat)) (depth : nat -> nat).
Hypothesis F : forest n top children.
Hypothesis DT : forall x, In x top -> depth x = 0.
Hypothesis DC : forall o c x, nth_error children o = Some c -> In x c -> depth x = S (depth o).
Lemma F_nodup : NoDup (top ++ concat children).
Proof. eapply Permutation_NoDup; [symmetry; apply F|apply seq_NoDup]. Qed.
Lemma F_in x : In x (top ++ concat children) <-> x < n.
Proof. split; intros H; [apply (Permutation_in _ (proj2 F)) in H; apply in_seq in H; lia|]. apply (Permutation_in _ (Permutation_sym (proj2 F))). apply in_seq. lia. Qed.
Lemma nodup_split {A} (a b : list A) : NoDup (a ++ b) -> NoDup a /\ NoDup b /\ forall x, In x a -> ~ In x b.
Proof.
  induction a as [|x a IH]; cbn; intros N; [repeat split; auto; constructor|]. inversion N as [|? ? NI N']; subst. destruct (IH N') as (A1 & A2 & A3). repeat split; auto.
  - constructor; auto. intros X. apply NI. apply in_or_app. auto.
  - intros y [<-|Y] B; [apply NI; apply in_or_app; auto|exact (A3 y Y B)].
Qed.
Lemma nodup_concat_child (cs : list (list nat)) o o' c c' x : NoDup (concat cs) -> nth_error cs o = Some c -> nth_error cs o' = Some c' -> In x c -> In x c' -> o = o'.
Proof.
  revert o o'. induction cs as [|d cs IH]; intros o o' N E E' X X'; [destruct o; discriminate|]. cbn in N. apply nodup_split in N as (N1 & N2 & N3).
  destruct o as [|o], o' as [|o']; [reflexivity| | |].
  - cbn in E, E'. injection E as ->. exfalso. apply (N3 x X). apply in_concat'. exists c'. split; [eapply nth_error_In; eauto|auto].
  - cbn in E, E'. injection E' as ->. exfalso. apply (N3 x X'). apply in_concat'. exists c. split; [eapply nth_error_In; eauto|auto].
  - f_equal. eapply IH; eauto.
Qed.
Lemma nodup_concat_in (cs : list (list nat)) c : NoDup (concat cs) -> In c cs -> NoDup c.
Proof. induction cs as [|d cs IH]; cbn; [intros _ []|]. intros N [->|X]; apply nodup_split in N as (N1 & N2 & _); auto. Qed.
Lemma child_lt o c x : nth_error children o = Some c -> In x c -> x < n.
Proof. intros E X. apply F_in. apply in_or_app. right. apply in_concat'. exists c. split; [eapply nth_error_In; eauto|exact X]. Qed.

Lemma level_nodup lv : NoDup lv -> (forall x, In x lv -> x < n) -> NoDup (next_level children lv).
Proof.
  pose proof F_nodup as FN. apply nodup_split in FN as (_ & FN & _).
  induction 1 as [|i lv N ND IH]; intros R; cbn; [constructor|].
  assert (EI : forall j, j < n -> nth_error children j = Some (ch children j)) by (intros j J; apply nth_error_nth'; rewrite (proj1 F); exact J).
  apply NoDup_app'.
  - apply (nodup_concat_in children); [exact FN|]. eapply nth_error_In. apply EI. apply R. left. reflexivity.
  - apply IH. intros x X. apply R. right. exact X.
  - intros x X Y. unfold next_level in Y. apply in_concat' in Y as (l & Y & Z). apply in_map_iff in Y as (j & <- & Y). apply N. replace i with j; [exact Y|].
    apply (nodup_concat_child children j i (ch children j) (ch children i) x); auto; apply EI; apply R; [right; exact Y|left; reflexivity].
Qed.
Lemma level_in lv d : (forall x, In x lv <-> x < n /\ depth x = d) -> forall x, In x (next_level children lv) <-> x < n /\ depth x = S d.
Proof.
  intros L x. unfold next_level. rewrite in_concat'. split.
  - intros (l & Y & Z). apply in_map_iff in Y as (j & <- & Y). apply L in Y as (J & DJ).
    assert (E : nth_error children j = Some (ch children j)) by (apply nth_error_nth'; rewrite (proj1 F); exact J).
    split; [eapply child_lt; eauto|]. rewrite (DC j _ x E Z). lia.
  - intros (X & DX). apply F_in in X. apply in_app_or in X as [X|X]; [rewrite (DT x X) in DX; discriminate|].
    apply in_concat' in X as (c & X & Y). destruct (In_nth_error _ _ X) as (o & E). exists c. split; [|exact Y]. apply in_map_iff. exists o. split; [apply nth_error_nth; exact E|].
    apply L. split; [rewrite <- (proj1 F); eapply nth_lt; eauto|]. rewrite (DC o c x E Y) in DX. lia.
Qed.
Lemma levels_ok : forall k lv d, NoDup lv -> (forall x, In x lv <-> x < n /\ depth x = d) ->
  NoDup (levels children k lv) /\ forall x, In x (levels children k lv) <-> x < n /\ d <= depth x < d + k.
Proof.
  induction k as [|k IH]; intros lv d ND L; cbn [levels].
  - split; [constructor|]. intros x. split; [intros []|lia].
  - destruct (IH (next_level children lv) (S d)) as (A & B); [apply level_nodup; auto; intros x X; apply L, X|apply level_in; exact L|].
    split.
    + apply NoDup_app'; auto. intros x X Y. apply L in X. apply B in Y. lia.
    + intros x. rewrite in_app_iff, L, B. lia.
Qed.
Lemma after_in : forall k lv d, (forall x, In x lv <-> x < n /\ depth x = d) -> forall x, In x (after children k lv) <-> x < n /\ depth x = d + k.
Proof.
  induction k as [|k IH]; intros lv d L x; cbn [after].
  - rewrite L. rewrite Nat.add_0_r. reflexivity.
  - rewrite (IH _ (S d)) by (apply level_in; exact L). replace (S d + k) with (d + S k) by lia. reflexivity.
Qed.
Lemma walk_whole : exists fuel l, walk_tree fuel children top = Some l /\ Permutation l (seq 0 n).
Proof.
  assert (BD : exists D, forall x, x < n -> depth x < D).
  { clear. induction n as [|m (D & H)]; [exists 0; lia|]. exists (S (Nat.max D (depth m))). intros x X. destruct (Nat.eq_dec x m) as [->|]; [lia|]. specialize (H x ltac:(lia)). lia. }
  destruct BD as (D & BD).
  assert (T : forall x, In x top <-> x < n /\ depth x = 0).
  { intros x. split; intros X.
    - split; [apply F_in; apply in_or_app; auto|auto].
    - destruct X as (X & DX). apply F_in in X. apply in_app_or in X as [X|X]; auto. apply in_concat' in X as (c & X & Y). destruct (In_nth_error _ _ X) as (o & E). rewrite (DC o c x E Y) in DX. discriminate. }
  pose proof F_nodup as FN. apply nodup_split in FN as (TN & _ & _).
  destruct (walk_levels n children (proj1 F)) with (k := D) (lv := top) as (l & E & P).
  - intros c x X Y. apply F_in. apply in_or_app. right. apply in_concat'. eauto.
  - intros x X. apply T. exact X.
  - destruct (after children D top) as [|y l] eqn:E; auto. exfalso. assert (Y : In y (after children D top)) by (rewrite E; left; reflexivity). apply (after_in D top 0 T) in Y. destruct Y as (Y1 & Y2). specialize (BD y Y1). lia.
  - exists (S D), l. split; [exact E|]. rewrite P. destruct (levels_ok D top 0 TN T) as (A & B). apply NoDup_Permutation; auto; [apply seq_NoDup|].
    intros x. rewrite B, in_seq. split; intros X; [lia|]. split; [lia|]. specialize (BD x ltac:(lia)). lia.
Qed.
End Whole.

Lemma ordered_nth n (ordered : list (nat * list nat)) : map fst ordered = seq 0 n -> forall i p h, nth_error ordered i = Some (p, h) -> p = i.
Proof.
  intros E i p h X. assert (Y : nth_error (map fst ordered) i = Some p) by (rewrite nth_error_map, X; reflexivity). rewrite E in Y. assert (L : i < n) by (apply nth_lt in Y; rewrite seq_length in Y; exact Y).
  rewrite (nth_error_nth' _ 0) in Y by (rewrite seq_length; exact L). injection Y as <-. rewrite seq_nth by exact L. reflexivity.
Qed.
Definition hits_of (ordered : list (nat * list nat)) (i : nat) : list nat := match nth_error ordered i with Some (_, h) => h | None => [] end.
Lemma arrange_links n ordered top children : arrange_loops n ordered = Some (top, children) ->
  (forall x, In x top -> hits_of ordered x = [] /\ x < n) /\
  (forall o c x, nth_error children o = Some c -> In x c -> x < n /\ In o (hits_of ordered x) /\ length (hits_of ordered x) = S (length (hits_of ordered o)) /\ find_outer ordered (length (hits_of ordered x)) (hits_of ordered x) = Some o).
Proof.
  unfold arrange_loops. destruct (list_eq_dec _ _ _) as [E|]; [|discriminate]. intros H. destruct (arrange_spec _ _ _ _ _ _ H) as (A & B & C & D).
  assert (Q : forall x p, In (x, p) ordered -> nth_error ordered x = Some (x, p) /\ x < n). { intros x p X. destruct (In_nth_error _ _ X) as (i & Y). pose proof (ordered_nth n ordered E i x p Y); subst i. split; [exact Y|]. apply nth_lt in Y. rewrite <- (map_length fst), E, seq_length in Y. exact Y. }
  split.
  - intros x X. rewrite C in X. cbn in X. apply in_map_iff in X as ((x' & p) & Y & X). cbn in Y. subst x'. apply filter_In in X as (X & T). destruct (Q x p X) as (QN & QL). split; [|exact QL]. unfold hits_of. rewrite QN. unfold is_top in T. cbn in T. destruct p; [reflexivity|discriminate].
  - intros o c x EC X. destruct (D o c EC) as (c0 & E0 & ->). assert (c0 = []). { apply nth_error_In in E0. apply repeat_spec in E0. exact E0. } subst c0. cbn in X.
    apply in_map_iff in X as ((x' & h) & Y & X). cbn in Y. subst x'. apply filter_In in X as (X & T). destruct (Q x h X) as (QN & QL). assert (HX : hits_of ordered x = h) by (unfold hits_of; rewrite QN; reflexivity). rewrite HX. split; [exact QL|].
    unfold parent_is in T. cbn [snd] in T. destruct h as [|a h]; [discriminate|]. destruct (find_outer ordered _ _) as [o'|] eqn:FO; [|discriminate]. apply Nat.eqb_eq in T. subst o'.
    destruct (find_outer_spec _ _ _ _ FO) as (FI & p & h' & EO & LO). split; [exact FI|]. split; [|reflexivity]. unfold hits_of at 1. rewrite EO. rewrite LO. cbn. lia.
Qed.
Theorem arrange_walk n ordered top children : arrange_loops n ordered = Some (top, children) -> exists fuel l, walk_tree fuel children top = Some l /\ Permutation l (seq 0 n).
Proof.
  intros H. pose proof (arrange_forest _ _ _ _ H) as F. destruct (arrange_links _ _ _ _ H) as (T & C).
  apply (walk_whole n top children (fun x => length (hits_of ordered x)) F).
  - intros x X. rewrite (proj1 (T x X)). reflexivity.
  - intros o c x E X. apply (C o c x E X).
Qed.

(** * Nested loops are arranged *)
Section Nested.
Variables (n : nat) (encl : nat -> nat -> Prop) (ordered : list (nat * list nat)).
Hypothesis NEST : nesting n encl.
Hypothesis FST : map fst ordered = seq 0 n.
Hypothesis HITS : forall i p h, nth_error ordered i = Some (p, h) -> NoDup h /\ forall a, In a h <-> encl a i.
Lemma hits_in i a : i < n -> In a (hits_of ordered i) <-> encl a i.
Proof. intros L. unfold hits_of. destruct (nth_error ordered i) as [(p, h)|] eqn:E; [apply (HITS i p h E)|]. apply nth_error_None in E. rewrite <- (map_length fst), FST, seq_length in E. lia. Qed.
Lemma hits_nodup i : NoDup (hits_of ordered i).
Proof. unfold hits_of. destruct (nth_error ordered i) as [(p, h)|] eqn:E; [apply (HITS i p h E)|constructor]. Qed.
Lemma some_innermost : forall l i, l <> [] -> (forall a, In a l -> encl a i) -> exists o, In o l /\ forall a, In a l -> a = o \/ encl a o.
Proof.
  induction l as [|a l IH]; intros i N L; [congruence|]. destruct l as [|b l].
  - exists a. split; [left; reflexivity|]. intros x [<-|[]]. auto.
  - destruct (IH i ltac:(discriminate) (fun x X => L x (or_intror X))) as (o & O & H).
    destruct NEST as (_ & _ & TR & CH). destruct (CH a o i) as [->|[AO|OA]]; [apply L; left; reflexivity|apply L; right; exact O| | |].
    + exists o. split; [right; exact O|]. intros x [<-|X]; auto.
    + exists o. split; [right; exact O|]. intros x [<-|X]; auto.
    + exists a. split; [left; reflexivity|]. intros x [<-|X]; auto. destruct (H x X) as [->|Y]; auto. right. eauto.
Qed.
Lemma inner_count i o : innermost encl o i -> length (hits_of ordered i) = S (length (hits_of ordered o)).
Proof.
  intros (E & IN). destruct NEST as (RG & IR & TR & CH). destruct (RG _ _ E) as (LO & LI).
  assert (P : Permutation (hits_of ordered i) (o :: hits_of ordered o)).
  { apply NoDup_Permutation; [apply hits_nodup|constructor; [rewrite hits_in by exact LO; apply IR|apply hits_nodup]|].
    intros x. cbn [In]. rewrite !hits_in by assumption. split; intros X; [destruct (IN x X); auto|destruct X as [<-|X]; eauto]. }
  apply Permutation_length in P. exact P.
Qed.
Lemma count_inner i o : encl o i -> length (hits_of ordered i) = S (length (hits_of ordered o)) -> innermost encl o i.
Proof.
  intros E L. split; [exact E|]. destruct NEST as (RG & IR & TR & CH). destruct (RG _ _ E) as (LO & LI). intros a A.
  assert (I : incl (hits_of ordered i) (o :: hits_of ordered o)).
  { apply NoDup_length_incl; [constructor; [rewrite hits_in by exact LO; apply IR|apply hits_nodup]|cbn; lia|].
    intros x [<-|X]; [apply hits_in; auto|]. apply hits_in; auto. apply hits_in in X; eauto. }
  apply (hits_in i a LI) in A. apply I in A as [->|A]; auto. right. apply hits_in in A; auto.
Qed.
Lemma outer_found i h : nth_error ordered i = Some (i, h) -> h <> [] -> exists o, find_outer ordered (length h) h = Some o.
Proof.
  intros E N. assert (LI : i < n) by (apply nth_lt in E; rewrite <- (map_length fst), FST, seq_length in E; exact E).
  assert (HE : hits_of ordered i = h) by (unfold hits_of; rewrite E; reflexivity).
  destruct (some_innermost h i N) as (o & O & H). { intros a A. apply hits_in; auto. rewrite HE. exact A. }
  assert (EO : innermost encl o i). { split; [apply hits_in; auto; rewrite HE; exact O|]. intros a A. apply H. rewrite <- HE. apply hits_in; auto. }
  pose proof (inner_count i o EO) as L. rewrite HE in L.
  assert (RG : forall a, In a h -> a < n). { intros a A. rewrite <- HE in A. apply hits_in in A; auto. apply (proj1 NEST) in A. apply A. }
  clear N HE H E. revert O RG L. generalize (length h) at 1 2 as m. intros m. induction h as [|a h IH]; intros O RG L; [destruct O|].
  cbn [find_outer]. destruct (nth_error ordered a) as [(p, h')|] eqn:EA.
  - destruct (Nat.eqb_spec (length h') (m - 1)) as [|Q]; [eauto|]. apply IH; auto; [|intros x X; apply RG; right; exact X].
    destruct O as [->|O]; auto. exfalso. apply Q. unfold hits_of in L. rewrite EA in L. lia.
  - exfalso. apply nth_error_None in EA. rewrite <- (map_length fst), FST, seq_length in EA. specialize (RG a (or_introl eq_refl)). lia.
Qed.
Lemma nested_arranged : exists top children, arrange_loops n ordered = Some (top, children) /\
  (forall x, In x top <-> x < n /\ forall a, ~ encl a x) /\
  (forall o c x, nth_error children o = Some c -> In x c <-> innermost encl o x).
Proof.
  assert (G : forall todo top children, (forall x, In x todo -> In x ordered) -> length children = n -> arrange ordered todo top children <> None).
  { induction todo as [|(p, h) todo IH]; intros top children I L; cbn [arrange]; [discriminate|].
    destruct h as [|a h]; [apply IH; auto; intros x X; apply I; right; exact X|].
    assert (X : In (p, a :: h) ordered) by (apply I; left; reflexivity). destruct (In_nth_error _ _ X) as (i & Y). assert (p = i) by (eapply ordered_nth; eauto). subst i.
    destruct (outer_found p (a :: h) Y ltac:(discriminate)) as (o & FO). rewrite FO.
    destruct (find_outer_spec _ _ _ _ FO) as (FI & q & h' & EO & LO). assert (OL : o < length children) by (apply nth_lt in EO; rewrite <- (map_length fst), FST, seq_length in EO; lia).
    destruct (nth_error children o) as [c|] eqn:EC; [|apply nth_error_None in EC; lia]. apply IH; [intros x Z; apply I; right; exact Z|rewrite put_length; exact L]. }
  assert (AR : arrange_loops n ordered = arrange ordered ordered [] (repeat [] n)). { unfold arrange_loops. destruct (list_eq_dec _ _ _) as [_|Q]; [reflexivity|congruence]. }
  specialize (G ordered [] (repeat [] n) (fun x X => X) (repeat_length _ _)). rewrite <- AR in G.
  destruct (arrange_loops n ordered) as [(top, children)|] eqn:E; [|congruence]. exists top, children. split; [reflexivity|].
  destruct (arrange_links _ _ _ _ E) as (T & C). pose proof (arrange_forest _ _ _ _ E) as (FL & FP).
  assert (IN : forall x, In x (top ++ concat children) <-> x < n). { intros x. split; intros H; [apply (Permutation_in _ FP) in H; apply in_seq in H; lia|]. apply (Permutation_in _ (Permutation_sym FP)). apply in_seq. lia. }
  assert (CI : forall o c x, nth_error children o = Some c -> In x c -> innermost encl o x).
  { intros o c x EC X. destruct (C o c x EC X) as (C1 & C2 & C3 & _). apply count_inner; [|exact C3]. apply hits_in in C2; auto. }
  split.
  - intros x. split.
    + intros X. destruct (T x X) as (TX & LX). split; [exact LX|]. intros a A. apply hits_in in A; auto. rewrite TX in A. destruct A.
    + intros (LX & NX). apply IN in LX. apply in_app_or in LX as [X|X]; auto. apply in_concat' in X as (c & X & Y). destruct (In_nth_error _ _ X) as (o & EO). exfalso. apply (NX o). apply (CI o c x EO Y).
  - intros o c x EC. split; [apply CI; exact EC|]. intros IX. assert (LX : x < n) by (destruct (proj1 NEST _ _ (proj1 IX)); assumption).
    apply IN in LX. apply in_app_or in LX as [X|X].
    + exfalso. destruct (T x X) as (TX & LX). destruct IX as (IX & _). apply hits_in in IX; auto. rewrite TX in IX. destruct IX.
    + apply in_concat' in X as (c' & X & Y). destruct (In_nth_error _ _ X) as (o' & EO). pose proof (CI o' c' x EO Y) as IX'. assert (OO : o = o'); [|subst o'; assert (c = c') by congruence; subst c'; exact Y].
      destruct NEST as (_ & IR & TR & _). destruct IX as (I1 & I2), IX' as (J1 & J2). destruct (I2 o' J1) as [|Q1]; auto. destruct (J2 o I1) as [|Q2]; auto. exfalso. apply (IR o). eauto.
Qed.
End Nested.

(** * Which loops are around a sample *)
Lemma nth_put (l : list Z) i x j : i < length l -> nth j (put l i x) 0%Z = if Nat.eqb i j then x else nth j l 0%Z.
Proof.
  intros L. destruct (Nat.eqb_spec i j) as [<-|N].
  - apply nth_error_nth. apply put_same. exact L.
  - destruct (nth_error l j) as [y|] eqn:E.
    + rewrite (nth_error_nth _ _ _ E). apply nth_error_nth. rewrite put_other by exact N. exact E.
    + rewrite (nth_overflow l), (nth_overflow (put l i x)); auto; [rewrite put_length|]; apply nth_error_None; exact E.
Qed.
Lemma count_spec pts n own : forall hits inside, length inside = n -> (forall i, In i hits -> countable pts n i) ->
  exists inside', count_hits pts own hits inside = Some inside' /\ length inside' = n /\
    forall l, l < n -> nth l inside' 0%Z = (nth l inside 0 + (if Z.of_nat l =? own then 0 else signed_count pts l hits))%Z.
Proof.
  induction hits as [|i hits IH]; intros inside L C; cbn [count_hits].
  - exists inside. repeat split; auto. intros l _. cbn. destruct (_ =? _)%Z; lia.
  - destruct (C i (or_introl eq_refl)) as (p & E & Q). rewrite E. assert (C' : forall j, In j hits -> countable pts n j) by (intros j J; apply C; right; exact J).
    destruct ((f_index p <? 0) || (f_index p =? own))%Z eqn:B.
    + destruct (IH inside L C') as (inside' & H1 & H2 & H3). exists inside'. split; [exact H1|]. split; [exact H2|]. intros l X. rewrite (H3 l X). cbn [signed_count]. rewrite E.
      apply orb_true_iff in B. destruct (Z.eqb_spec (Z.of_nat l) own) as [EO|EO]; [reflexivity|]. destruct (Z.eqb_spec (f_index p) (Z.of_nat l)) as [EL|EL]; [|lia].
      exfalso. destruct B as [B|B]; [apply Z.ltb_lt in B; lia|apply Z.eqb_eq in B; lia].
    + apply orb_false_iff in B as (B1 & B2). apply Z.ltb_ge in B1. apply Z.eqb_neq in B2. destruct Q as [Q|(Q & q & EQ & D)]; [lia|].
      assert (LI : Z.to_nat (f_index p) < length inside) by lia.
      rewrite (nth_error_nth' _ 0%Z LI), EQ.
      assert (DZ : ((px (psub (f_data p) (f_data q)) =? 0) && (py (psub (f_data p) (f_data q)) =? 0))%Z = false).
      { apply andb_false_iff. destruct (f_data p) as (a, b), (f_data q) as (c, d). cbn. destruct (Z.eqb_spec (a - c) 0) as [X|X]; auto. right. apply Z.eqb_neq. intros Y. apply D. f_equal; lia. }
      rewrite DZ.
      set (up := (0 <? (if px (psub (f_data p) (f_data q)) =? 0 then py (psub (f_data p) (f_data q)) else px (psub (f_data p) (f_data q))))%Z).
      assert (UP : up = goes_left (f_data p) (f_data q)).
      { unfold up, goes_left. destruct (f_data p) as (a, b), (f_data q) as (c, d). cbn. destruct (Z.eqb_spec (a - c) 0) as [X|X].
        - replace (c <? a)%Z with false by (symmetry; apply Z.ltb_ge; lia). replace (c =? a)%Z with true by (symmetry; apply Z.eqb_eq; lia). cbn. apply Bool.eq_iff_eq_true. rewrite !Z.ltb_lt. lia.
        - replace (c =? a)%Z with false by (symmetry; apply Z.eqb_neq; lia). cbn. rewrite orb_false_r. apply Bool.eq_iff_eq_true. rewrite !Z.ltb_lt. lia. }
      rewrite UP.
      destruct (IH (put inside (Z.to_nat (f_index p)) (nth (Z.to_nat (f_index p)) inside 0 + (if goes_left (f_data p) (f_data q) then 1 else -1))%Z)) as (inside' & H1 & H2 & H3); [rewrite put_length; exact L|exact C'|].
      exists inside'. split; [exact H1|]. split; [exact H2|]. intros l X. rewrite (H3 l X), nth_put by exact LI. cbn [signed_count]. rewrite E, EQ.
      destruct (Nat.eqb_spec (Z.to_nat (f_index p)) l) as [EL|EL].
      * subst l. replace (Z.of_nat (Z.to_nat (f_index p))) with (f_index p) by lia. rewrite Z.eqb_refl. destruct (Z.eqb_spec (f_index p) own); [congruence|]. lia.
      * destruct (Z.eqb_spec (f_index p) (Z.of_nat l)) as [EL'|_]; [lia|]. destruct (Z.of_nat l =? own)%Z; lia.
Qed.
Lemma nonzero_spec inside : NoDup (nonzero_positions inside) /\ forall l, In l (nonzero_positions inside) <-> l < length inside /\ nth l inside 0%Z <> 0%Z.
Proof.
  unfold nonzero_positions. split; [apply NoDup_filter, seq_NoDup|]. intros l. rewrite filter_In, in_seq, negb_true_iff, Z.eqb_neq. intuition lia.
Qed.
Lemma loop_hits_spec pts n : forall ordered, (forall s, In s ordered -> (0 <= loop_of pts (fst s))%Z /\ forall i, In i (snd s) -> countable pts n i) ->
  exists r, loop_hits pts n ordered = Some r /\ map fst r = map (fun s => Z.to_nat (loop_of pts (fst s))) ordered /\
    forall k p h, nth_error r k = Some (p, h) -> exists s, nth_error ordered k = Some s /\ Z.of_nat p = loop_of pts (fst s) /\ NoDup h /\
      forall l, In l h <-> l < n /\ l <> p /\ signed_count pts l (snd s) <> 0%Z.
Proof.
  induction ordered as [|(p, hits) ordered IH]; intros H; cbn [loop_hits].
  - exists []. repeat split; auto. intros k p h E. destruct k; discriminate.
  - destruct (IH (fun s X => H s (or_intror X))) as (r & R1 & R2 & R3). destruct (H (p, hits) (or_introl eq_refl)) as (NN & C). cbn [fst snd] in NN, C.
    destruct (count_spec pts n (loop_of pts p) hits (repeat 0%Z n) (repeat_length _ _) C) as (inside & I1 & I2 & I3). rewrite I1, R1.
    eexists. split; [reflexivity|]. split; [cbn [map fst]; rewrite R2; reflexivity|].
    intros [|k] q h E; [|apply R3 with (k := k); exact E]. cbn in E. injection E as <- <-. exists (p, hits). cbn [fst snd nth_error]. split; [reflexivity|]. split; [lia|].
    destruct (nonzero_spec inside) as (N1 & N2). split; [exact N1|]. intros l. rewrite N2, I2.
    split; intros X.
    + destruct X as (X & Y). rewrite (I3 l X), nth_repeat in Y. destruct (Z.eqb_spec (Z.of_nat l) (loop_of pts p)); [lia|]. split; [exact X|]. split; lia.
    + destruct X as (X & Y & Z). split; [exact X|]. rewrite (I3 l X), nth_repeat. destruct (Z.eqb_spec (Z.of_nat l) (loop_of pts p)); [lia|]. lia.
Qed.

(** * One sample for each loop *)
Section Unique.
Variable key : sample -> Z.
Definition le_key (a b : sample) : Prop := (key a <= key b)%Z.
Lemma unique_after_spec : forall l k, Sorted le_key l -> (forall s, In s l -> (k <= key s)%Z) ->
  StronglySorted Z.lt (map key (unique_after key k l)) /\ (forall z, In z (map key (unique_after key k l)) <-> In z (map key l) /\ (k < z)%Z) /\ incl (unique_after key k l) l.
Proof.
  induction l as [|b l IH]; intros k ST LE; cbn [unique_after].
  - cbn. split; [constructor|]. split; [intros z; tauto|]. intros x [].
  - assert (ST' : StronglySorted le_key (b :: l)) by (apply Sorted_StronglySorted; [intros x y z X Y; unfold le_key in *; lia|exact ST]). inversion ST' as [|? ? S1 S2]; subst. inversion ST as [|? ? T1 T2]; subst.
    rewrite Forall_forall in S2. destruct (Z.eqb_spec (key b) k) as [E|E].
    + destruct (IH k T1) as (A & B & C); [intros s X; apply LE; right; exact X|]. split; [exact A|]. split; [|intros x X; right; exact (C x X)].
      intros z. rewrite B. cbn. split; [tauto|]. intros ([X|X] & Y); [lia|tauto].
    + destruct (IH (key b) T1) as (A & B & C); [exact S2|]. assert (KB : (k < key b)%Z) by (specialize (LE b (or_introl eq_refl)); lia). cbn [map]. split; [|split].
      * constructor; [exact A|]. apply Forall_forall. intros z Z. apply B in Z. apply Z.
      * intros z. cbn [In]. rewrite B. split; [intros [<-|X]; [auto|split; [tauto|lia]]|]. intros ([X|X] & Y); [auto|]. destruct (Z.eq_dec (key b) z); [auto|]. right. split; [exact X|]. apply in_map_iff in X as (s & <- & X). specialize (S2 s X). unfold le_key in S2. lia.
      * intros x [<-|X]; [left; reflexivity|right; exact (C x X)].
Qed.
Lemma unique_by_spec l : Sorted le_key l -> StronglySorted Z.lt (map key (unique_by key l)) /\ (forall z, In z (map key (unique_by key l)) <-> In z (map key l)) /\ incl (unique_by key l) l.
Proof.
  destruct l as [|a l]; cbn [unique_by]; intros ST.
  - cbn. split; [constructor|]. split; [tauto|]. intros x [].
  - assert (ST' : StronglySorted le_key (a :: l)) by (apply Sorted_StronglySorted; [intros x y z X Y; unfold le_key in *; lia|exact ST]). inversion ST' as [|? ? S1 S2]; subst. inversion ST as [|? ? T1 T2]; subst. rewrite Forall_forall in S2.
    destruct (unique_after_spec l (key a) T1 S2) as (A & B & C). cbn [map]. split; [|split].
    + constructor; [exact A|]. apply Forall_forall. intros z Z. apply B in Z. apply Z.
    + intros z. cbn [In]. rewrite B. split; [tauto|]. intros [X|X]; [auto|]. destruct (Z.eq_dec (key a) z); [auto|]. right. split; [exact X|]. apply in_map_iff in X as (s & <- & X). specialize (S2 s X). unfold le_key in S2. lia.
    + intros x [<-|X]; [left; reflexivity|right; exact (C x X)].
Qed.
End Unique.
Lemma sorted_lt_unique : forall (l l' : list Z), StronglySorted Z.lt l -> StronglySorted Z.lt l' -> (forall z, In z l <-> In z l') -> l = l'.
Proof.
  induction l as [|a l IH]; intros l' S1 S2 E.
  - destruct l' as [|b l']; [reflexivity|]. exfalso. apply (proj2 (E b)). left. reflexivity.
  - destruct l' as [|b l']; [exfalso; apply (proj1 (E a)); left; reflexivity|]. inversion S1 as [|? ? A1 A2]; subst. inversion S2 as [|? ? B1 B2]; subst. rewrite Forall_forall in A2, B2.
    assert (a = b). { destruct (proj1 (E a) (or_introl eq_refl)) as [|X]; [auto|]. destruct (proj2 (E b) (or_introl eq_refl)) as [|Y]; [auto|]. specialize (A2 b Y). specialize (B2 a X). lia. }
    subst b. f_equal. apply IH; auto. intros z. split; intros X.
    + destruct (proj1 (E z) (or_intror X)) as [<-|]; auto. specialize (A2 a X). lia.
    + destruct (proj2 (E z) (or_intror X)) as [<-|]; auto. specialize (B2 a X). lia.
Qed.
Lemma seq_sorted : forall n k, StronglySorted Z.lt (map Z.of_nat (seq k n)).
Proof.
  induction n as [|n IH]; intros k; cbn; constructor; auto. apply Forall_forall. intros z Z. apply in_map_iff in Z as (x & <- & Z). apply in_seq in Z. lia.
Qed.

Theorem hierarchy_ok : forall (sort_samples : list sample -> list sample) (pts : list fpoint) (n : nat) (ss : list sample) (encl : nat -> nat -> Prop),
  (forall l, Permutation (sort_samples l) l /\ Sorted (fun a b => (loop_of pts (fst a) <= loop_of pts (fst b))%Z) (sort_samples l)) ->
  nesting n encl ->
  (forall s, In s ss -> (loop_of pts (fst s) < Z.of_nat n)%Z /\ forall i, In i (snd s) -> countable pts n i) ->
  (forall l, l < n -> exists s, In s ss /\ loop_of pts (fst s) = Z.of_nat l) ->
  (forall s l l', In s ss -> loop_of pts (fst s) = Z.of_nat l -> l' < n -> l' <> l -> (signed_count pts l' (snd s) <> 0%Z <-> encl l' l)) ->
  exists top children, loop_hierarchy sort_samples pts n ss = Some (top, children) /\ forest n top children /\
    (forall x, In x top <-> x < n /\ forall a, ~ encl a x) /\
    (forall o c x, nth_error children o = Some c -> In x c <-> innermost encl o x) /\
    exists fuel l, walk_tree fuel children top = Some l /\ Permutation l (seq 0 n).
Proof.
  intros sort_samples pts n ss encl SORT NEST RNG HAS ENC. unfold loop_hierarchy.
  set (key := fun s : sample => loop_of pts (fst s)). set (fl := filter (fun s => (0 <=? key s)%Z) ss).
  destruct (SORT fl) as (PS & SS). destruct (unique_by_spec key (sort_samples fl) SS) as (U1 & U2 & U3).
  set (ordered := unique_by key (sort_samples fl)) in *.
  change (unique_sorted_loop_points sort_samples pts ss) with ordered.
  assert (SUB : forall s, In s ordered -> In s ss /\ (0 <= key s)%Z). { intros s X. apply U3 in X. apply (Permutation_in _ PS) in X. apply filter_In in X as (X & Y). split; [exact X|]. apply Z.leb_le. exact Y. }
  assert (KEYS : map key ordered = map Z.of_nat (seq 0 n)).
  { apply sorted_lt_unique; [exact U1|apply seq_sorted|]. intros z. rewrite U2. split; intros X.
    - apply in_map_iff in X as (s & <- & X). apply (Permutation_in _ PS) in X. apply filter_In in X as (X & Y). apply Z.leb_le in Y. destruct (RNG s X) as (R & _). fold (key s) in R. apply in_map_iff. exists (Z.to_nat (key s)). split; [lia|]. apply in_seq. lia.
    - apply in_map_iff in X as (x & <- & X). apply in_seq in X. destruct (HAS x) as (s & S1 & S2); [lia|]. apply in_map_iff. exists s. split; [exact S2|]. apply (Permutation_in _ (Permutation_sym PS)). apply filter_In. split; [exact S1|]. apply Z.leb_le. unfold key. rewrite S2. lia. }
  destruct (loop_hits_spec pts n ordered) as (r & R1 & R2 & R3). { intros s X. destruct (SUB s X) as (X1 & X2). split; [exact X2|]. apply RNG. exact X1. }
  rewrite R1.
  assert (FST : map fst r = seq 0 n).
  { rewrite R2. transitivity (map Z.to_nat (map key ordered)); [rewrite map_map; reflexivity|]. rewrite KEYS, map_map. rewrite <- (map_id (seq 0 n)) at 2. apply map_ext. intros x. lia. }
  destruct (nested_arranged n encl r NEST FST) as (top & children & A1 & A2 & A3).
  { intros i p h E. pose proof (ordered_nth n r FST i p h E). subst p. destruct (R3 i i h E) as (s & S1 & S2 & S3 & S4). split; [exact S3|]. intros a. rewrite S4. apply nth_error_In in S1. destruct (SUB s S1) as (S1' & _).
    split.
    - intros (X & Y & Z). apply (ENC s i a); auto.
    - intros X. destruct (proj1 NEST _ _ X) as (Y1 & Y2). assert (NE : a <> i) by (intros ->; exact (proj1 (proj2 NEST) i X)). split; [exact Y1|]. split; [exact NE|]. apply (ENC s i a); auto. }
  exists top, children. split; [exact A1|]. split; [eapply arrange_forest; eauto|]. split; [exact A2|]. split; [exact A3|]. eapply arrange_walk; eauto.
Qed.
