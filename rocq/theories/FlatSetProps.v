(** The small flat set. *)
From Coq Require Import List Bool Arith Lia Sorted.
From Verif Require Import FlatSetModel FlatSetSpec FlatSetProofs.
Import ListNotations.

(** C32.  Inserting any range gives the union, in increasing order without repetition. *)
Theorem C32_insert_range : forall s l0 l,
  well_formed s -> holds s l0 ->
  exists s' m, insert_range s l = Ok s' /\ well_formed s' /\ holds s' m /\
    forall x, In x m <-> In x l0 \/ In x l.
Proof.
  intros s l0 l W H. destruct (wf_rep s W) as [k R]. rewrite (rep_eq _ _ _ R H) in *.
  destruct (insert_range_rep _ _ l R) as (s' & m & E & Rm & U). exists s', m.
  split; [exact E|]. split; [eapply rep_wf; eassumption|]. split; [apply rep_holds; assumption|exact U].
Qed.
Print Assumptions C32_insert_range.

Theorem C32_merge : forall a b la lb,
  well_formed a -> holds a la -> well_formed b -> holds b lb ->
  exists a' b' m, merge a b = Ok (a', b') /\ well_formed a' /\ well_formed b' /\ holds a' m /\
    forall x, In x m <-> In x la \/ In x lb.
Proof.
  intros a b la lb Wa Ha Wb Hb. destruct (wf_rep a Wa) as [ka Ra]. destruct (wf_rep b Wb) as [kb Rb].
  rewrite (rep_eq _ _ _ Ra Ha), (rep_eq _ _ _ Rb Hb).
  destruct (merge_rep _ _ _ _ Ra Rb) as (a' & b' & m & mb & E & Rm & U & Rb'). exists a', b', m.
  split; [exact E|]. split; [eapply rep_wf; eassumption|]. split; [eapply rep_wf; eassumption|].
  split; [apply rep_holds; assumption|exact U].
Qed.
Print Assumptions C32_merge.

(** Copies hold the same elements; a moved-from set is empty. *)
Theorem C32_copies : forall a b l,
  well_formed a -> well_formed b -> holds b l ->
  (exists s, copy b = Ok s /\ well_formed s /\ holds s l) /\
  (exists s, assign a b = Ok s /\ well_formed s /\ holds s l) /\
  holds (fst (move b)) l /\ well_formed (fst (move b)) /\ holds (snd (move b)) [] /\ well_formed (snd (move b)).
Proof.
  intros a b l Wa Wb Hb. destruct (wf_rep a Wa) as [ka Ra]. destruct (wf_rep b Wb) as [kb Rb].
  rewrite (rep_eq _ _ _ Rb Hb) in *.
  destruct (copy_rep _ _ Rb) as (s & E & Rs). destruct (assign_rep _ _ _ _ Ra Rb) as (s2 & E2 & Rs2).
  split; [exists s; split; [exact E|split; [eapply rep_wf; eassumption|apply rep_holds; assumption]]|].
  split; [exists s2; split; [exact E2|split; [eapply rep_wf; eassumption|apply rep_holds; assumption]]|].
  split; [apply rep_holds; exact Rb|]. split; [exact Wb|]. split; [apply rep_holds; constructor|eapply rep_wf; constructor].
Qed.
Print Assumptions C32_copies.

Example C32_example :
  well_formed fs_new /\
  insert_range fs_new [5; 3; 5; 9; 3] = Ok (mk_fset 3 (UData 5 [3; 5; 9])) /\
  merge (mk_fset 1 (UItem 4)) (mk_fset 3 (UData 4 [3; 5; 9])) = Ok (mk_fset 4 (UData 4 [3; 4; 5; 9]), mk_fset 1 (UItem 4)).
Proof. split; [eapply rep_wf; constructor|]. split; reflexivity. Qed.

(** C33.  Missing: inserting a second, different value into a set of one value
    ([C33_insert_second_refuted]). *)
Theorem C33_insert_partial : forall s l v,
  well_formed s -> holds s l -> (fs_size s = 1 -> In v l) ->
  exists s' pos b m, insert_one s v = Ok (s', pos, b) /\ well_formed s' /\ holds s' m /\
    (forall x, In x m <-> In x l \/ x = v) /\ nth_error m pos = Some v /\ (b = true <-> ~ In v l).
Proof.
  intros s l v W H H1. destruct (wf_rep s W) as [k R]. rewrite (rep_eq _ _ _ R H) in *.
  destruct (insert_one_rep _ _ v R H1) as (s' & pos & b & m & E & Rm & U & N & B). exists s', pos, b, m.
  split; [exact E|]. split; [eapply rep_wf; eassumption|]. split; [apply rep_holds; assumption|].
  split; [intros x; rewrite (U x); cbn; intuition|]. split; [exact N|].
  destruct b; [|]; split; intros X; try discriminate; try reflexivity.
  - intros I. apply B in I. discriminate.
  - exfalso. apply X, B. reflexivity.
Qed.
Print Assumptions C33_insert_partial.

Example C33_example : insert_one (mk_fset 3 (UData 3 [3; 5; 9])) 7 = Ok (mk_fset 4 (UData 6 [3; 5; 7; 9]), 2, true).
Proof. reflexivity. Qed.

(** The second value is written but the size stays 1, so the set is afterwards read
    through the wrong member of the union: for every set of one value. *)
Theorem C33_insert_second : forall x v, x <> v ->
  exists s pos, insert_one (mk_fset 1 (UItem x)) v = Ok (s, pos, true) /\ fs_size s = 1 /\ contents s = Bad.
Proof.
  intros x v N. unfold insert_one. cbn [fs_size fs_u Nat.eqb].
  destruct (Nat.eqb_spec v x) as [E|_]; [congruence|].
  destruct (Nat.ltb v x); do 2 eexists; (split; [reflexivity|]); split; reflexivity.
Qed.
Print Assumptions C33_insert_second.

Theorem C33_insert_second_refuted : exists s l v s' pos b,
  well_formed s /\ holds s l /\ insert_one s v = Ok (s', pos, b) /\ ~ exists m, holds s' m.
Proof.
  exists (mk_fset 1 (UItem 3)), [3], 5. do 3 eexists. split; [eapply rep_wf; constructor|].
  split; [apply rep_holds; constructor|]. split; [reflexivity|]. intros (m & C & _). discriminate.
Qed.
Print Assumptions C33_insert_second_refuted.

(** empty() is inverted: true exactly for the sets with members. *)
Theorem C33_empty_inverted : forall s l, holds s l -> (fs_empty s = true <-> l <> []).
Proof.
  intros s l (_ & E & _). unfold fs_empty. rewrite E. destruct l; cbn; split; congruence.
Qed.
Print Assumptions C33_empty_inverted.

Theorem C33_empty_refuted : exists s, holds s [] /\ fs_empty s = false.
Proof. exists fs_new. split; [apply rep_holds; constructor|reflexivity]. Qed.
Print Assumptions C33_empty_refuted.
