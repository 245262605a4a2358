(** Proofs about the event queue. *)
From Coq Require Import List Bool Arith ZArith Permutation Sorted Lia.
From Verif Require Import EventsModel EventsSpec.
Import ListNotations.

Ltac lapp := repeat first [rewrite <- !app_assoc | progress cbn [app]]; reflexivity.

Lemma set_at_mid {A} (l1 l2 : list A) y x : set_at A (l1 ++ y :: l2) (length l1) x = Some (l1 ++ x :: l2).
Proof. induction l1 as [|z l1 IH]; cbn; [reflexivity|]. rewrite IH. reflexivity. Qed.
Lemma set_at_map {A K} (key : A -> K) l : forall i x f l', nth_error l i = Some x -> key (f x) = key x -> set_at A l i (f x) = Some l' -> map key l' = map key l.
Proof.
  induction l as [|y l IH]; intros [|i] x f l'; cbn; try discriminate.
  - intros Q F R. injection Q as ->. injection R as <-. cbn. rewrite F. reflexivity.
  - intros Q F R. destruct (set_at A l i (f x)) as [l1|] eqn:G; [|discriminate]. injection R as <-. cbn. f_equal. eapply IH; eassumption.
Qed.

(** Moving a block up by the number of free slots. *)
Lemma shift_up_ok {A} (Lb : list A) : forall La J D, J <> [] ->
  exists J', length J' = length J /\
    shift_up A (length Lb) (length J) (length La + length Lb + length J - 1) (La ++ Lb ++ J ++ D) =
      Some (length La + length J - 1, La ++ J' ++ Lb ++ D).
Proof.
  induction Lb as [|x Lb IH] using rev_ind; intros La J D NE.
  - exists J. split; [reflexivity|]. cbn [length shift_up]. rewrite Nat.add_0_r. reflexivity.
  - rewrite app_length. cbn [length]. rewrite Nat.add_1_r. cbn [shift_up].
    assert (0 < length J) as P by (destruct J; [congruence|cbn; lia]).
    destruct (Nat.ltb_spec (length La + S (length Lb) + length J - 1) (length J)); [lia|].
    replace (length La + S (length Lb) + length J - 1 - length J) with (length (La ++ Lb)) by (rewrite app_length; lia).
    replace (La ++ (Lb ++ [x]) ++ J ++ D) with ((La ++ Lb) ++ x :: J ++ D) by lapp.
    rewrite nth_error_app2, Nat.sub_diag by lia. cbn [nth_error].
    destruct (exists_last NE) as (J0 & y & ->). rewrite app_length in *. cbn [length] in *.
    replace ((La ++ Lb) ++ x :: (J0 ++ [y]) ++ D) with ((La ++ Lb ++ x :: J0) ++ y :: D) by lapp.
    replace (length La + S (length Lb) + (length J0 + 1) - 1) with (length (La ++ Lb ++ x :: J0)) by (rewrite !app_length; cbn; lia).
    rewrite set_at_mid.
    destruct (IH La (x :: J0) (x :: D)) as (J' & L' & R); [discriminate|]. exists J'. cbn [length] in *. split; [lia|].
    rewrite !app_length. cbn [length].
    replace (length La + (length Lb + S (length J0)) - 1) with (length La + length Lb + S (length J0) - 1) by lia.
    replace (length J0 + 1) with (S (length J0)) by lia.
    replace ((La ++ Lb ++ x :: J0) ++ x :: D) with (La ++ Lb ++ (x :: J0) ++ x :: D) by lapp.
    rewrite R. rewrite <- !app_assoc. reflexivity.
Qed.

(** What incorporating gives: rnew with the raw positions, last first. *)
Fixpoint weave {A} (L : list A) (rnew : list (A * nat)) : list A :=
  match rnew with [] => L | (e, r) :: rest => weave (firstn r L) rest ++ e :: skipn r L end.
(** Positions of the code are the raw ones plus the number of new events before. *)
Fixpoint lifted {A} (rnew : list (A * nat)) : list (A * nat) :=
  match rnew with [] => [] | (e, r) :: rest => (e, r + length rest) :: lifted rest end.
Fixpoint descending {A} (n : nat) (rnew : list (A * nat)) : Prop :=
  match rnew with [] => True | (_, r) :: rest => r <= n /\ descending r rest end.
Lemma lifted_length {A} (l : list (A * nat)) : length (lifted l) = length l.
Proof. induction l as [|(e, r) l IH]; cbn; auto. Qed.

Lemma incorporate_loop_ok {A} (rnew : list (A * nat)) : forall L J D, length J = length rnew -> descending (length L) rnew ->
  incorporate_loop A (lifted rnew) (length L + length J - 1) (L ++ J ++ D) = Some (weave L rnew ++ D).
Proof.
  induction rnew as [|(e, r) rest IH]; intros L J D LJ DS; cbn [lifted incorporate_loop weave].
  - destruct J; [|discriminate]. reflexivity.
  - cbn [descending length] in *. destruct DS as (B & DS). rewrite lifted_length.
    assert (NE : J <> []) by (intros ->; discriminate).
    destruct (shift_up_ok (skipn r L) (firstn r L) J D NE) as (J' & LJ' & R).
    rewrite skipn_length, firstn_length_le in R by lia.
    assert (LL : length L = r + (length L - r)) by lia.
    replace (length L + length J - 1 - (r + length rest)) with (length L - r) by lia.
    replace (r + (length L - r)) with (length L) in R by lia. rewrite (app_assoc (firstn r L)), firstn_skipn in R.
    rewrite <- LJ. rewrite R.
    assert (NE' : J' <> []) by (intros ->; cbn in LJ'; lia).
    destruct (exists_last NE') as (J0 & y & ->). rewrite app_length in LJ'. cbn [length] in LJ'.
    replace (firstn r L ++ (J0 ++ [y]) ++ skipn r L ++ D) with ((firstn r L ++ J0) ++ y :: skipn r L ++ D) by lapp.
    replace (r + length J - 1) with (length (firstn r L ++ J0)) by (rewrite app_length, firstn_length_le by lia; lia).
    rewrite set_at_mid.
    specialize (IH (firstn r L) J0 (e :: skipn r L ++ D)). rewrite firstn_length_le in IH by lia.
    assert (Q0 : length J0 = length rest) by lia. specialize (IH Q0 DS).
    destruct rest as [|(e1, r1) rest'].
    + destruct J0; [|discriminate]. cbn [lifted incorporate_loop weave app] in *. rewrite app_nil_r. rewrite <- app_assoc. reflexivity.
    + cbn [lifted] in *. cbn [length] in Q0.
      destruct (Nat.eqb_spec (length (firstn r L ++ J0)) 0) as [Z|Z]; [rewrite app_length in Z; lia|].
      replace (length (firstn r L ++ J0) - 1) with (r + length J0 - 1) by (rewrite app_length, firstn_length_le by lia; lia).
      rewrite <- !app_assoc. rewrite <- app_assoc in IH || idtac. rewrite IH. reflexivity.
Qed.

Lemma renumber_app {A} (l1 l2 : list (A * nat)) : forall i, renumber A i (l1 ++ l2) = renumber A i l1 ++ renumber A (i + length l1) l2.
Proof. induction l1 as [|(e, p) l1 IH]; intros i; cbn; [rewrite Nat.add_0_r; reflexivity|]. rewrite IH. do 3 f_equal. lia. Qed.
Lemma renumber_lifted {A} (l : list (A * nat)) : rev (renumber A 0 l) = lifted (rev l).
Proof.
  induction l as [|(e, p) l IH] using rev_ind; [reflexivity|].
  rewrite renumber_app, !rev_app_distr. cbn. rewrite IH, rev_length. reflexivity.
Qed.
Lemma renumber_length {A} (l : list (A * nat)) : forall i, length (renumber A i l) = length l.
Proof. induction l as [|(e, p) l IH]; intros i; cbn; auto. Qed.

Section Proofs.
Variable A K : Type.
Variable key : A -> K.
Variable ltk : K -> K -> bool.
Hypothesis SWO : strict_weak_order K ltk.
Variable sort_events : list A -> list A.
Variable sort_new : list (A * nat) -> list (A * nat).
Notation lt := (lt_ev A K key ltk).
Hypothesis SE : sorts lt sort_events.
Hypothesis SN : sorts (lt_new A K key ltk) sort_new.
Notation next := (next A lt sort_events sort_new).
Notation le := (not_after K ltk).
Notation keys := (map key).
Notation srt := (in_order K ltk).

Lemma le_trans x y z : le x y -> le y z -> le x z.
Proof. unfold not_after. intros a b. exact (swo_neg K ltk SWO z y x b a). Qed.
Lemma lt_le x y : ltk x y = true -> le x y.
Proof. apply (swo_asym K ltk SWO). Qed.

Lemma srt_app l1 l2 : srt (l1 ++ l2) <-> srt l1 /\ srt l2 /\ (forall x y, In x l1 -> In y l2 -> le x y).
Proof.
  induction l1 as [|x l1 IH]; cbn.
  - split; [intros S; repeat split; [constructor|exact S|intros ? ? []]|tauto].
  - split.
    + intros S. inversion S as [|? ? S1 F]; subst. apply IH in S1 as (A1 & A2 & A3). apply Forall_app in F as (F1 & F2).
      split; [constructor; assumption|]. split; [exact A2|]. intros y z [<-|I1] I2; [rewrite Forall_forall in F2; auto|auto].
    + intros (S & S2 & C). inversion S as [|? ? S1 F]; subst. constructor; [apply IH; auto|]. apply Forall_app. split; [exact F|].
      apply Forall_forall. auto.
Qed.

(** Where lower_bound stops. *)
Lemma lower_bound_spec L e : srt (keys L) ->
  let r := lower_bound A lt L e in
  r <= length L /\ (forall x, In x (firstn r L) -> ltk (key x) (key e) = true) /\ (forall x, In x (skipn r L) -> le (key e) (key x)).
Proof.
  induction L as [|y L IH]; cbn [lower_bound map]; intros S; [cbn; repeat split; [lia|intros ? []..]|].
  inversion S as [|? ? S1 F]; subst. cbv zeta. destruct (lt y e) eqn:Q; unfold lt_ev in Q.
  - destruct (IH S1) as (B & C & D). cbn [length firstn skipn]. split; [lia|]. split; [|exact D]. intros x [<-|I1]; auto.
  - split; [lia|]. cbn [firstn skipn]. split; [intros ? []|]. intros x [<-|I1]; [exact Q|].
    eapply le_trans; [exact Q|]. rewrite Forall_forall in F. apply F. apply in_map. exact I1.
Qed.

Definition good_new (L : list A) (l : list (A * nat)) : Prop :=
  Forall (fun en => snd en = lower_bound A lt L (fst en)) l /\ StronglySorted (fun x y => lt_new A K key ltk y x = false) l.

(** Raw positions ascend and the new events are in order. *)
Lemma good_new_order L l1 x l2 y : srt (keys L) -> good_new L (l1 ++ x :: l2) -> In y l1 -> snd y <= snd x /\ le (key (fst y)) (key (fst x)).
Proof.
  intros S (F & SS) I1.
  assert (O : lt_new A K key ltk x y = false).
  { revert SS I1. clear. induction l1 as [|z l1 IH]; cbn; [intros _ []|]. intros SS [<-|I1].
    - inversion SS as [|? ? _ G]; subst. rewrite Forall_forall in G. apply G. apply in_app_iff. right. left. reflexivity.
    - inversion SS; subst. apply IH; assumption. }
  apply Forall_app in F as (F1 & F2). inversion F2 as [|? ? Fx _]; subst. rewrite Forall_forall in F1. specialize (F1 y I1).
  unfold lt_new in O. destruct (Nat.eqb_spec (snd x) (snd y)) as [Q|Q]; cbn [negb] in O.
  - split; [lia|exact O].
  - apply Nat.ltb_ge in O. split; [exact O|].
    destruct (lower_bound_spec L (fst x) S) as (Bx & Cx & _). destruct (lower_bound_spec L (fst y) S) as (By & _ & Dy).
    rewrite <- Fx in *. rewrite <- F1 in *.
    assert (snd y < snd x) by lia.
    destruct (nth_error L (snd y)) as [z|] eqn:N; [|apply nth_error_None in N; lia].
    apply nth_error_split in N as (La & Lb & QL & LA). rewrite QL in *.
    apply le_trans with (key z).
    + apply Dy. rewrite <- LA, skipn_app, skipn_all, Nat.sub_diag. left. reflexivity.
    + apply lt_le, Cx. rewrite firstn_app. apply in_app_iff. right. destruct (snd x - length La) eqn:Z; [lia|]. left. reflexivity.
Qed.

Lemma good_new_app L l1 l2 : good_new L (l1 ++ l2) -> good_new L l1.
Proof.
  intros (F & S). apply Forall_app in F as (F1 & _). split; [exact F1|]. clear F1. revert S. induction l1 as [|z l1 IH]; cbn; intros S; [constructor|].
  inversion S as [|? ? S1 G]; subst. apply Forall_app in G as (G & _). constructor; auto.
Qed.

Lemma good_new_descending L l : srt (keys L) -> good_new L l -> descending (length L) (rev l).
Proof.
  intros S G. assert (K1 : forall n, (forall y, In y l -> snd y <= n) -> descending n (rev l)).
  { induction l as [|(e, r) l IH] using rev_ind; intros n B; [exact I|]. rewrite rev_app_distr. cbn. split; [apply (B (e, r)); apply in_app_iff; right; left; reflexivity|].
    apply IH; [eapply good_new_app; exact G|]. intros y I1. apply (good_new_order L l (e, r) [] y S G I1). }
  apply K1. intros y I1. destruct G as (F & _). rewrite Forall_forall in F. rewrite (F y I1). apply lower_bound_spec. exact S.
Qed.

Lemma weave_in (l : list (A * nat)) : forall L x, In x (weave L l) -> In x L \/ In x (map fst l).
Proof.
  induction l as [|(e, r) l IH]; intros L x; cbn; [auto|]. intros I1. apply in_app_iff in I1 as [I1|[<-|I1]]; [|auto|].
  - destruct (IH _ _ I1) as [I2|I2]; [left|auto]. rewrite <- (firstn_skipn r L). apply in_app_iff. auto.
  - left. rewrite <- (firstn_skipn r L). apply in_app_iff. auto.
Qed.
Lemma weave_perm (l : list (A * nat)) : forall L, Permutation (weave L l) (L ++ map fst l).
Proof.
  induction l as [|(e, r) l IH]; intros L; cbn; [rewrite app_nil_r; reflexivity|].
  rewrite IH. rewrite <- (firstn_skipn r L) at 3. rewrite <- !app_assoc. apply Permutation_app_head.
  etransitivity; [apply Permutation_app_comm|]. cbn. transitivity (e :: skipn r L ++ map fst l); [reflexivity|].
  apply Permutation_middle.
Qed.

(** Any part of the old events that keeps the positions. *)
Lemma weave_sorted L l : forall n, srt (keys L) -> good_new L l -> (forall y, In y l -> snd y <= n) ->
  srt (keys (weave (firstn n L) (rev l))).
Proof.
  induction l as [|(e, r) l IH] using rev_ind; intros n S G B.
  - cbn. rewrite <- (firstn_skipn n L), map_app in S. apply srt_app in S. tauto.
  - rewrite rev_app_distr. cbn [rev app weave].
    assert (R : r <= n) by (apply (B (e, r)); apply in_app_iff; right; left; reflexivity).
    rewrite firstn_firstn, Nat.min_l by lia.
    assert (E1 : r = lower_bound A lt L e).
    { destruct G as (F & _). apply Forall_app in F as (_ & F). inversion F; subst. exact H1. }
    destruct (lower_bound_spec L e S) as (_ & C & D). rewrite <- E1 in *.
    assert (OD : forall y, In y l -> snd y <= r /\ le (key (fst y)) (key e)) by (intros y I1; exact (good_new_order L l (e, r) [] y S G I1)).
    assert (LO : forall x, In x (keys (weave (firstn r L) (rev l))) -> le x (key e)).
    { intros k I1. apply in_map_iff in I1 as (x & <- & I1). destruct (weave_in _ _ _ I1) as [I2|I2]; [apply lt_le, C; exact I2|].
      apply in_map_iff in I2 as ((e', r') & <- & I2). apply in_rev in I2. apply (OD _ I2). }
    assert (UP : forall y, In y (keys (skipn r (firstn n L))) -> le (key e) y).
    { intros k I1. apply in_map_iff in I1 as (x & <- & I1). apply D. rewrite skipn_firstn_comm in I1. revert I1. generalize (skipn r L), (n - r). clear.
      intros l m. rewrite <- (firstn_skipn m l) at 2. rewrite in_app_iff. auto. }
    rewrite map_app. cbn [map]. apply srt_app. split; [apply IH; [exact S|eapply good_new_app; exact G|apply OD]|]. split.
    + constructor; [|apply Forall_forall; exact UP].
      rewrite skipn_firstn_comm. rewrite <- (firstn_skipn r L), map_app in S. apply srt_app in S as (_ & S & _).
      rewrite <- (firstn_skipn (n - r) (skipn r L)), map_app in S. apply srt_app in S. tauto.
    + intros x y I1 [<-|I2]; [auto|]. eapply le_trans; eauto.
Qed.

Lemma new_positions L l : srt (keys L) -> good_new L l -> forall y, In y l -> snd y <= length L.
Proof. intros S (F & _) y I1. rewrite Forall_forall in F. rewrite (F y I1). apply lower_bound_spec. exact S. Qed.

Lemma incorporate_ok L J l cur : srt (keys L) -> good_new L l -> length J = length l -> l <> [] ->
  exists ev, incorporate_new A (mk_queue A (L ++ J) (renumber A 0 l) cur (length L)) = Some (mk_queue A ev [] cur (length ev)) /\
    srt (keys ev) /\ Permutation ev (L ++ map fst l) /\
    (forall n, n <= length L -> (forall y, In y l -> n <= snd y) -> firstn n ev = firstn n L).
Proof.
  intros S G LJ NE. exists (weave L (rev l)). unfold incorporate_new. cbn [q_events q_last q_new q_cur].
  rewrite app_length, renumber_length. replace (length L + length J - length L) with (length l) by lia.
  rewrite Nat.ltb_irrefl. rewrite <- (renumber_length l 0) at 1. rewrite firstn_all, renumber_lifted.
  rewrite <- (app_nil_r (L ++ J)), <- app_assoc.
  rewrite incorporate_loop_ok; [|rewrite rev_length; exact LJ|apply good_new_descending; assumption].
  rewrite app_nil_r. split; [reflexivity|]. split; [|split].
  - pose proof (weave_sorted L l (length L) S G (new_positions L l S G)) as W. rewrite firstn_all in W. exact W.
  - rewrite weave_perm. apply Permutation_app_head, Permutation_map. symmetry. apply Permutation_rev.
  - intros n B NB. assert (B' : forall y, In y (rev l) -> n <= snd y) by (intros y I1; apply NB, in_rev; exact I1).
    pose proof (good_new_descending L l S G) as DS. clear G LJ NE NB S. generalize dependent (rev l). clear l. intros l. revert L B.
    induction l as [|(e, r) l IH]; intros L B NB DS; cbn; [reflexivity|]. cbn in DS. destruct DS as (D1 & D2).
    assert (n <= r) by (apply (NB (e, r)); left; reflexivity).
    assert (H1 : n <= length (weave (firstn r L) l)) by (rewrite (Permutation_length (weave_perm l _)), app_length, firstn_length_le by lia; lia).
    rewrite firstn_app. replace (n - length (weave (firstn r L) l)) with 0 by lia. cbn [firstn]. rewrite app_nil_r.
    rewrite IH; [rewrite firstn_firstn, Nat.min_l by lia; reflexivity|rewrite firstn_length_le by lia; exact H|intros y I1; apply NB; right; exact I1|rewrite firstn_length_le by lia; exact D2].
Qed.

Lemma lower_bound_keys e : forall L L', keys L = keys L' -> lower_bound A lt L e = lower_bound A lt L' e.
Proof.
  induction L as [|x L IH]; intros [|y L'] Q; try discriminate; cbn in *; [reflexivity|]. injection Q as Q1 Q2.
  unfold lt_ev at 1 3. rewrite Q1, (IH _ Q2). reflexivity.
Qed.
Lemma good_new_keys L L' l : keys L = keys L' -> good_new L l -> good_new L' l.
Proof. intros Q (F & S). split; [|exact S]. eapply Forall_impl; [|exact F]. cbn. intros a ->. apply lower_bound_keys. exact Q. Qed.

Inductive inv (q : queue A) (s all : list K) : bool -> Prop :=
| inv_normal L J c : q_events A q = L ++ J -> q_last A q = length L -> srt (keys L) -> q_new A q = [] ->
    q_cur A q = (Z.of_nat c - 1)%Z -> c <= length L -> s = rev (firstn c (keys L)) -> Permutation all (keys (L ++ J)) -> inv q s all false
| inv_undo L J e p l c : q_events A q = L ++ J -> q_last A q = length L -> srt (keys L) -> q_new A q = renumber A 0 ((e, p) :: l) ->
    good_new L ((e, p) :: l) -> length J = S (length l) -> q_cur A q = Z.of_nat c -> c < length L -> p <= c ->
    s = rev (firstn c (keys L)) -> Permutation all (keys (L ++ e :: map fst l)) -> inv q s all true.

Lemma rev_firstn_S {B} (l : list B) c x : nth_error l c = Some x -> rev (firstn (S c) l) = x :: rev (firstn c l).
Proof.
  intros N. apply nth_error_split in N as (l1 & l2 & -> & <-). rewrite !firstn_app, Nat.sub_diag. replace (S (length l1) - length l1) with 1 by lia.
  rewrite (firstn_all2 l1) by lia. rewrite firstn_all. cbn. rewrite app_nil_r, rev_app_distr. reflexivity.
Qed.

Lemma deliver_ok ev c s all : srt (keys ev) -> c < length ev -> s = rev (firstn c (keys ev)) -> Permutation all (keys ev) ->
  exists e q', deliver A (mk_queue A ev [] (Z.of_nat c - 1) (length ev)) = Some (e, true, q') /\ inv q' (key e :: s) all false /\
    exists rest, srt (rev (key e :: s) ++ rest) /\ Permutation (rev (key e :: s) ++ rest) all.
Proof.
  intros S B Q P. destruct (nth_error ev c) as [e|] eqn:N; [|apply nth_error_None in N; lia].
  exists e, (mk_queue A ev [] (Z.of_nat c) (length ev)).
  assert (S1 : key e :: s = rev (firstn (Datatypes.S c) (keys ev))).
  { rewrite (rev_firstn_S _ c (key e)); [rewrite Q; reflexivity|]. apply map_nth_error. exact N. }
  split; [|split].
  - unfold deliver, at_cur. cbn [q_cur q_events q_new q_last]. replace (Z.of_nat c - 1 + 1)%Z with (Z.of_nat c) by lia.
    destruct (Z.ltb_spec (Z.of_nat c) 0); [lia|]. rewrite Nat2Z.id, N. reflexivity.
  - apply (inv_normal _ _ _ ev [] (Datatypes.S c)); cbn [q_events q_last q_new q_cur]; try rewrite app_nil_r; try reflexivity; try assumption; lia.
  - exists (skipn (Datatypes.S c) (keys ev)). rewrite S1, rev_involutive, firstn_skipn. split; [exact S|symmetry; exact P].
Qed.

Lemma undo_ok L J e p l c s all : srt (keys L) -> good_new L ((e, p) :: l) -> length J = Datatypes.S (length l) -> c < length L -> p <= c ->
  s = rev (firstn (Datatypes.S c) (keys L)) -> Permutation all (keys (L ++ e :: map fst l)) ->
  exists x q', undo A (mk_queue A (L ++ J) (renumber A 0 ((e, p) :: l)) (Z.of_nat c) (length L)) = Some (x, false, q') /\
    s = key x :: tl s /\ inv q' (tl s) all true /\ exists k rest, Permutation (k :: s ++ rest) all /\ le k (key x).
Proof.
  intros S G LJ B PC Q P. destruct (nth_error L c) as [x|] eqn:N; [|apply nth_error_None in N; lia].
  exists x, (mk_queue A (L ++ J) (renumber A 0 ((e, p) :: l)) (Z.of_nat c) (length L)).
  rewrite (rev_firstn_S _ c (key x)) in Q by (apply map_nth_error; exact N).
  split; [|split; [|split]].
  - unfold undo, at_cur. cbn [q_cur q_events]. destruct (Z.ltb_spec (Z.of_nat c) 0); [lia|]. rewrite Nat2Z.id, nth_error_app1, N by lia. reflexivity.
  - rewrite Q. reflexivity.
  - apply (inv_undo _ _ _ L J e p l c); try assumption; try reflexivity. rewrite Q. reflexivity.
  - exists (key e), (skipn (Datatypes.S c) (keys L) ++ keys (map fst l)). split.
    + rewrite P, map_app. cbn [map]. rewrite <- Permutation_middle. constructor. rewrite app_assoc. apply Permutation_app_tail.
      rewrite <- (firstn_skipn (Datatypes.S c) (keys L)) at 2. apply Permutation_app_tail. rewrite Q.
      rewrite <- (rev_firstn_S _ c (key x)) by (apply map_nth_error; exact N). symmetry. apply Permutation_rev.
    + destruct G as (F & _). inversion F as [|? ? F1 _]; subst. cbn in F1. destruct (lower_bound_spec L e S) as (_ & _ & D). apply D.
      rewrite <- F1. apply nth_error_split in N as (La & Lb & -> & <-). rewrite skipn_app. apply in_app_iff. right.
      replace (p - length La) with 0 by lia. left. reflexivity.
Qed.

Lemma flush_ok L J e p l c s all : srt (keys L) -> good_new L ((e, p) :: l) -> length J = Datatypes.S (length l) -> c <= length L -> c <= p ->
  s = rev (firstn c (keys L)) -> Permutation all (keys (L ++ e :: map fst l)) ->
  exists q2 x q', incorporate_new A (mk_queue A (L ++ J) (renumber A 0 ((e, p) :: l)) (Z.of_nat c - 1) (length L)) = Some q2 /\
    deliver A q2 = Some (x, true, q') /\ inv q' (key x :: s) all false /\
    exists rest, srt (rev (key x :: s) ++ rest) /\ Permutation (rev (key x :: s) ++ rest) all.
Proof.
  intros S G LJ B PC Q P.
  destruct (incorporate_ok L J ((e, p) :: l) (Z.of_nat c - 1) S G LJ) as (ev & R & S1 & P1 & FN); [discriminate|].
  destruct (deliver_ok ev c s all S1) as (x & q' & D).
  - rewrite (Permutation_length P1), app_length. cbn. lia.
  - rewrite firstn_map, FN, <- firstn_map; [exact Q|exact B|]. intros y [<-|I1]; [exact PC|]. apply in_split in I1 as (l1 & l2 & ->).
    destruct (good_new_order L ((e, p) :: l1) y l2 (e, p) S G) as (O & _); [left; reflexivity|]. cbn in O. lia.
  - rewrite P. apply Permutation_map. symmetry. exact P1.
  - eexists _, x, q'. split; [exact R|exact D].
Qed.

Lemma next_inv q s all u : inv q s all u -> more A q = true ->
  exists e fwd q', next q = Some (e, fwd, q') /\
    if (fwd : bool) then inv q' (key e :: s) all false /\ exists rest, srt (rev (key e :: s) ++ rest) /\ Permutation (rev (key e :: s) ++ rest) all
    else s = key e :: tl s /\ inv q' (tl s) all true /\ exists k rest, Permutation (k :: s ++ rest) all /\ le k (key e).
Proof.
  intros I M. destruct q as [qe qn qc ql]. unfold EventsModel.next. cbn [q_events q_new q_cur q_last].
  inversion I as [L J c E1 E2 S E3 E4 B E5 P|L J e p l c E1 E2 S E3 G LJ E4 B PC E5 P]; cbn [q_events q_new q_cur q_last] in *; subst qe ql qn qc.
  - destruct (Z.leb_spec (Z.of_nat (length (L ++ J))) (Z.of_nat c - 1)) as [X|_]; [rewrite app_length in X; lia|].
    rewrite app_length. destruct (Nat.ltb_spec (length L) (length L + length J)) as [HL|HL].
    + destruct (Nat.eqb_spec (length L) 0) as [Z|Z].
      * destruct L; [|discriminate]. cbn [app length] in *. destruct (SE J) as (PJ & SJ).
        assert (c = 0) by lia. subst c.
        destruct (deliver_ok (sort_events J) 0 s all) as (x & q' & D & R).
        -- clear -SJ. induction SJ; cbn; constructor; [exact IHSJ|]. rewrite Forall_map. exact H.
        -- rewrite <- (Permutation_length PJ). lia.
        -- exact E5.
        -- rewrite P. apply Permutation_map. exact PJ.
        -- exists x, true, q'. split; [exact D|exact R].
      * rewrite skipn_app, skipn_all, Nat.sub_diag, firstn_app, firstn_all, Nat.sub_diag. cbn [skipn firstn app]. rewrite app_nil_r.
        set (found := map (fun e => (e, lower_bound A lt L e)) J). destruct (SN found) as (PN & SS).
        assert (G : good_new L (sort_new found)).
        { split; [|exact SS]. apply (Permutation_Forall PN). apply Forall_forall. intros y I1. apply in_map_iff in I1 as (z & <- & _). reflexivity. }
        assert (LN : length (sort_new found) = length J) by (rewrite <- (Permutation_length PN); apply map_length).
        assert (PF : Permutation (map fst (sort_new found)) J).
        { rewrite <- (Permutation_map fst PN). unfold found. rewrite map_map. cbn. rewrite map_id. reflexivity. }
        destruct (sort_new found) as [|(e, p) l] eqn:Q; [cbn in LN; lia|].
        assert (PA : Permutation all (keys (L ++ e :: map fst l))).
        { rewrite P. apply Permutation_map, Permutation_app_head. symmetry. exact PF. }
        cbn [renumber q_new q_cur]. rewrite Nat.add_0_r. destruct (Z.leb_spec (Z.of_nat p) (Z.of_nat c - 1)) as [Y|Y].
        -- destruct c as [|c]; [lia|]. replace (Z.of_nat (Datatypes.S c) - 1)%Z with (Z.of_nat c) by lia.
           destruct (undo_ok L J e p l c s all S G) as (x & q' & D & R); try assumption; try (cbn in LN; lia).
           cbn [renumber] in D. rewrite Nat.add_0_r in D. exists x, false, q'. split; [exact D|exact R].
        -- destruct (flush_ok L J e p l c s all S G) as (q2 & x & q' & D1 & D & R); try assumption; try (cbn in LN; lia).
           cbn [renumber] in D1. rewrite Nat.add_0_r in D1. rewrite D1. exists x, true, q'. split; [exact D|exact R].
    + destruct J; [|cbn in HL; lia]. rewrite app_nil_r in *.
      destruct (deliver_ok L c s all S) as (x & q' & D & R); try assumption.
      * unfold more in M. cbn [q_cur q_events q_new] in M. rewrite orb_false_r in M. apply Z.ltb_lt in M. lia.
      * exists x, true, q'. split; [exact D|exact R].
  - destruct (Z.leb_spec (Z.of_nat (length (L ++ J))) (Z.of_nat c)) as [X|_]; [rewrite app_length in X; lia|].
    cbn [renumber q_cur]. rewrite Nat.add_0_r. destruct (Z.leb_spec (Z.of_nat p) (Z.of_nat c - 1)) as [Y|Y].
    + destruct c as [|c]; [lia|]. replace (Z.of_nat (Datatypes.S c) - 1)%Z with (Z.of_nat c) by lia.
      destruct (undo_ok L J e p l c s all S G) as (x & q' & D & R); try assumption; try lia.
      cbn [renumber] in D. rewrite Nat.add_0_r in D. exists x, false, q'. split; [exact D|exact R].
    + destruct (flush_ok L J e p l c s all S G) as (q2 & x & q' & D1 & D & R); try assumption; try lia.
      cbn [renumber] in D1. rewrite Nat.add_0_r in D1. rewrite D1. exists x, true, q'. split; [exact D|exact R].
Qed.

Lemma set_at_length i : forall (l : list A) x l', set_at A l i x = Some l' -> length l' = length l.
Proof.
  induction i as [|i IH]; intros [|y l] x l'; cbn; try discriminate; [intros Q; injection Q as <-; reflexivity|].
  destruct (set_at A l i x) as [m|] eqn:G; [|discriminate]. intros Q; injection Q as <-. cbn. f_equal. eapply IH; exact G.
Qed.
Lemma update_inv f i q q' s all u : (forall x, key (f x) = key x) -> update_at A f i q = Some q' -> inv q s all u -> inv q' s all u.
Proof.
  intros F U I. unfold update_at in U. destruct (nth_error (q_events A q) i) as [x|] eqn:N; [|discriminate].
  destruct (set_at A (q_events A q) i (f x)) as [ev|] eqn:G; [|discriminate]. injection U as <-.
  pose proof (set_at_map key _ _ _ _ _ N (F x) G) as Q.
  assert (SP : forall L J, q_events A q = L ++ J -> exists L' J', ev = L' ++ J' /\ keys L' = keys L /\ keys J' = keys J /\ length L' = length L /\ length J' = length J).
  { intros L J E. rewrite E, map_app in Q. exists (firstn (length L) ev), (skipn (length L) ev).
    assert (length ev = length L + length J) by (rewrite (set_at_length _ _ _ _ G), E, app_length; reflexivity).
    split; [symmetry; apply firstn_skipn|]. rewrite <- firstn_map, <- skipn_map, Q.
    rewrite <- (map_length key L) at 1 2. rewrite firstn_app, skipn_app, firstn_all, skipn_all, Nat.sub_diag. cbn [firstn skipn app]. rewrite app_nil_r.
    rewrite firstn_length_le, skipn_length by lia. repeat split; lia. }
  inversion I as [L J c E1 E2 S E3 E4 B E5 P|L J e p l c E1 E2 S E3 G1 LJ E4 B PC E5 P]; subst u; destruct (SP L J E1) as (L' & J' & E1' & KL & KJ & LL & LJ').
  - apply (inv_normal _ _ _ L' J' c); cbn [q_events q_last q_new q_cur]; try assumption; try congruence; try lia.
    all: rewrite map_app, KL, KJ, <- map_app; exact P.
  - apply (inv_undo _ _ _ L' J' e p l c); cbn [q_events q_last q_new q_cur]; try assumption; try congruence; try lia.
    + eapply good_new_keys; [symmetry; exact KL|exact G1].
    + rewrite map_app, KL, <- map_app. exact P.
Qed.

Lemma history_inv q s all u : history A K key ltk sort_events sort_new q s all u -> inv q s all u.
Proof.
  induction 1 as [|q s all e H IH|q s all u f i q' H IH F U|q s all u e q' H IH M N|q s all u e q' H IH M N|q s all q' H IH M R].
  - apply (inv_normal _ _ _ [] [] 0); try reflexivity. constructor.
  - inversion IH as [L J c E1 E2 S E3 E4 B E5 P|]; subst. apply (inv_normal _ _ _ L (J ++ [e]) c); cbn; try assumption; try reflexivity.
    + rewrite E1, app_assoc. reflexivity.
    + rewrite P. rewrite app_assoc, (map_app _ (L ++ J)). cbn. apply Permutation_cons_append.
  - eapply update_inv; eassumption.
  - destruct (next_inv q s all u IH M) as (e' & fwd & q1 & N' & R). rewrite N in N'. injection N' as -> <- ->. apply R.
  - destruct (next_inv q s all u IH M) as (e' & fwd & q1 & N' & R). rewrite N in N'. injection N' as -> <- ->. apply R.
  - unfold rewind in R. inversion IH as [L J c E1 E2 S E3 E4 B E5 P|]; subst. rewrite E3 in R. injection R as <-.
    apply (inv_normal _ _ _ L J 0); cbn; try assumption; try reflexivity. lia.
Qed.

Lemma done_all q s all u : history A K key ltk sort_events sort_new q s all u -> more A q = false ->
  u = false /\ Permutation s all /\ srt (rev s).
Proof.
  intros H M. apply history_inv in H. unfold more in M. apply orb_false_iff in M as (M1 & M2). apply Z.ltb_ge in M1.
  inversion H as [L J c E1 E2 S E3 E4 B E5 P|L J e p l c E1 E2 S E3 G1 LJ E4 B PC E5 P]; subst.
  - rewrite E1, app_length, E4 in M1. assert (length J = 0) by lia. destruct J; [|discriminate].
    assert (c = length L) by lia. subst c. rewrite <- (map_length key L), firstn_all, rev_involutive. rewrite app_nil_r in P.
    split; [reflexivity|]. split; [|exact S]. rewrite P. symmetry. apply Permutation_rev.
  - rewrite E3 in M2. discriminate.
Qed.

(** Without additions the queue runs dry. *)
Fixpoint drain (n : nat) (q : queue A) : option (queue A) :=
  if more A q then match n with O => None | S n' => match next q with Some (_, _, q') => drain n' q' | None => None end end
  else Some q.

Lemma next_flushed q s all u e q' : inv q s all u -> next q = Some (e, true, q') -> q_last A q' = length (q_events A q').
Proof.
  intros I N. assert (B : q_last A q <= length (q_events A q)) by (inversion I as [L J c E1 E2|L J e0 p l c E1 E2]; rewrite E1, E2, app_length; lia).
  assert (DL : forall q1, q_last A q1 = length (q_events A q1) -> deliver A q1 = Some (e, true, q') -> q_last A q' = length (q_events A q')).
  { intros q1 Q D. unfold deliver in D. destruct (at_cur _ _); [|discriminate]. injection D as _ <-. exact Q. }
  assert (IL : forall q1 q2, incorporate_new A q1 = Some q2 -> q_last A q2 = length (q_events A q2)).
  { intros q1 q2 D. unfold incorporate_new in D. destruct (_ <? _); [discriminate|]. destruct (incorporate_loop _ _ _ _); [|discriminate]. injection D as <-. reflexivity. }
  assert (UN : forall q1, undo A q1 = Some (e, true, q') -> False).
  { intros q1 D. unfold undo in D. destruct (at_cur _ _); [|discriminate]. discriminate. }
  unfold EventsModel.next in N. destruct (_ <=? _)%Z; [discriminate|]. destruct (q_new A q) as [|(e0, p0) l0].
  - destruct (Nat.ltb_spec (q_last A q) (length (q_events A q))) as [X|X].
    + destruct (_ =? 0); [eapply DL; [|exact N]; reflexivity|]. cbv zeta in N. 
      set (found := map _ (skipn _ _)) in N. cbn [q_new q_cur] in N.
      assert (NE : renumber A 0 (sort_new found) <> []).
      { intros Q. apply (f_equal (@length _)) in Q. rewrite renumber_length in Q. destruct (SN found) as (PN & _). apply Permutation_length in PN.
        assert (LF : length found = length (q_events A q) - q_last A q) by (unfold found; rewrite map_length, skipn_length; reflexivity). cbn in Q. lia. }
      destruct (renumber A 0 (sort_new found)) as [|(e0, p0) l0]; [congruence|].
      destruct (_ <=? _)%Z; [destruct (UN _ N)|]. destruct (incorporate_new _ _) eqn:D; [|discriminate]. eapply DL; [|exact N]. eapply IL; exact D.
    + eapply DL; [|exact N]. lia.
  - cbv zeta in N. destruct (_ <=? _)%Z; [destruct (UN _ N)|]. destruct (incorporate_new _ _) eqn:D; [|discriminate]. eapply DL; [|exact N]. eapply IL; exact D.
Qed.

Definition flushed (q : queue A) : bool := match q_new A q with [] => q_last A q =? length (q_events A q) | _ => false end.
Definition measure (q : queue A) (s all : list K) : nat := if flushed q then length all - length s else length s + length all + 1.

Lemma inv_length q s all u : inv q s all u -> length s <= length all.
Proof.
  intros H. inversion H as [L J c E1 E2 S E3 E4 B E5 P|L J e p l c E1 E2 S E3 G1 LJ E4 B PC E5 P]; subst s; rewrite (Permutation_length P), rev_length, firstn_map, !map_length, app_length, firstn_length; lia.
Qed.
Lemma drain_ok n : forall q s all u, inv q s all u -> measure q s all <= n ->
  exists q' s', drain n q = Some q' /\ more A q' = false /\ inv q' s' all false.
Proof.
  induction n as [|n IH]; intros q s all u H B.
  - cbn [drain]. destruct (more A q) eqn:M.
    + destruct (next_inv q s all u H M) as (e & fwd & q' & N & R). destruct fwd.
      * destruct R as (R & _). apply inv_length in R. cbn in R. unfold measure in B. destruct (flushed q); lia.
      * destruct R as (R & _ & k & rest & P & _). apply Permutation_length in P. cbn in P. rewrite app_length in P. unfold measure in B. destruct (flushed q); lia.
    + exists q, s. split; [reflexivity|]. split; [exact M|].
      inversion H as [L J c E1 E2 S E3 E4 C E5 P|L J e p l c E1 E2 S E3 G1 LJ E4 C PC E5 P]; subst u; [exact H|].
      unfold more in M. rewrite E3 in M. rewrite orb_true_r in M. discriminate.
  - cbn [drain]. destruct (more A q) eqn:M.
    + destruct (next_inv q s all u H M) as (e & fwd & q' & N & R). rewrite N. destruct fwd.
      * destruct R as (R & _). apply (IH q' (key e :: s) all false R). pose proof (inv_length _ _ _ _ R) as LR. cbn in LR.
        assert (flushed q' = true) as FQ.
        { unfold flushed. inversion R as [L J c E1 E2 S E3 E4 C E5 P|]. rewrite E3. apply Nat.eqb_eq. exact (next_flushed q s all u e q' H N). }
        unfold measure in *. rewrite FQ. cbn [length]. destruct (flushed q); lia.
      * destruct R as (R1 & R & _). apply (IH q' (tl s) all true R).
        assert (flushed q' = false) as FQ by (unfold flushed; inversion R as [|L J e0 p l c E1 E2 S E3 G1 LJ E4 C PC E5 P]; rewrite E3; reflexivity).
        assert (FQ0 : flushed q = false).
        { destruct (flushed q) eqn:F; [|reflexivity]. exfalso. unfold flushed in F. unfold EventsModel.next in N. destruct (q_new A q); [|discriminate].
          apply Nat.eqb_eq in F. rewrite F, Nat.ltb_irrefl in N. destruct (_ <=? _)%Z; [discriminate|]. unfold deliver in N. destruct (at_cur _ _); discriminate. }
        unfold measure in *. rewrite FQ. rewrite FQ0 in B. rewrite R1 in B. cbn [length tl] in *. lia.
    + exists q, s. split; [reflexivity|]. split; [exact M|].
      inversion H as [L J c E1 E2 S E3 E4 C E5 P|L J e p l c E1 E2 S E3 G1 LJ E4 C PC E5 P]; subst u; [exact H|].
      unfold more in M. rewrite E3 in M. rewrite orb_true_r in M. discriminate.
Qed.
End Proofs.
