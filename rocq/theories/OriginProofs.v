(** The sets of the origin tracker. *)
From Coq Require Import List Bool Arith Sorted Lia.
From Verif Require Import FlatSetModel FlatSetSpec FlatSetProofs OutModel PointSinkModel CycleProofs OriginModel OriginSpec.
Import ListNotations.
Local Open Scope nat_scope.

Lemma track_app {A} (f : list fset -> A -> option (list fset)) a b : forall t, track_all f t (a ++ b) = match track_all f t a with Some t' => track_all f t' b | None => None end.
Proof. induction a as [|x a IH]; intros t; [reflexivity|]. cbn [track_all app]. destruct (f t x); [apply IH|reflexivity]. Qed.
Lemma lands_app a b i : lands (a ++ b) i = lands b (lands a i).
Proof. apply fold_left_app. Qed.

(** One set for each point, with its own index. *)
Definition single (s : fset) (o : nat) : Prop := rep s [o].
Lemma added idx : forall t, exists t', track_all track_call t (map TAdded idx) = Some (t ++ t') /\ Forall2 single t' idx.
Proof.
  induction idx as [|o idx IH]; intros t; cbn [map track_all]; [exists []; rewrite app_nil_r; split; [reflexivity|constructor]|].
  destruct (insert_one_rep fs_new [] o) as (s & pos & b & m & E & R & U & _); [constructor|discriminate|]. cbn [track_call]. rewrite E. destruct (IH (t ++ [s])) as (t' & T & F). exists (s :: t'). rewrite T, <- app_assoc. split; [reflexivity|]. constructor; [|exact F].
  assert (M : m = [o]); [|unfold single; rewrite <- M; exact R]. pose proof (rep_holds _ _ R) as (_ & _ & S). clear - S U. unfold is_union in U.
  destruct m as [|x [|y m]].
  - exfalso. apply (proj2 (U o)). right. left. reflexivity.
  - assert (X : In x [] \/ In x [o]) by (apply U; left; reflexivity). destruct X as [[]|[->|[]]]. reflexivity.
  - assert (X : In x [] \/ In x [o]) by (apply U; left; reflexivity). assert (Y : In y [] \/ In y [o]) by (apply U; right; left; reflexivity). destruct X as [[]|[->|[]]]. destruct Y as [[]|[->|[]]]. inversion S as [|? ? _ F]. inversion F. lia.
Qed.
Lemma between log : forall t, fold_left track_between log t = t ++ repeat fs_new (length log).
Proof. induction log as [|x log IH]; intros t; cbn; [rewrite app_nil_r; reflexivity|]. rewrite IH. unfold track_between. rewrite <- app_assoc. reflexivity. Qed.

Section Merge.
Variable idx : list nat.
Variable n : nat.
(** The sets of points not yet discarded hold the indices that landed there. *)
Definition right_sets (done : list (nat * nat)) (t : list fset) : Prop :=
  length t = n /\ (forall i s, nth_error t i = Some s -> exists l, rep s l) /\
  forall k s, nth_error t k = Some s -> ~ In k (map fst done) -> exists l, rep s l /\ forall x, In x l <-> exists j, nth_error idx j = Some x /\ lands done j = k.
Lemma merge_step done t f g : right_sets done t -> f <> g -> f < n -> g < n -> ~ In f (map fst done) -> exists t', track_merge t (f, g) = Some t' /\ right_sets (done ++ [(f, g)]) t'.
Proof.
  intros (L & W & R) N LF LG ND. unfold track_merge. destruct (Nat.eqb_spec f g) as [E|_]; [contradiction|].
  destruct (nth_error t g) as [a|] eqn:EA; [|apply nth_error_None in EA; lia]. destruct (nth_error t f) as [b|] eqn:EB; [|apply nth_error_None in EB; lia].
  destruct (W g a EA) as (la & RA). destruct (R f b EB ND) as (lb & RB & IB). destruct (merge_rep _ _ _ _ RA RB) as (a' & b' & m & mb & E & RM & U & RB'). rewrite E. eexists. split; [reflexivity|].
  assert (EF : nth_error (put t g a') f = Some b) by (rewrite put_other by congruence; exact EB).
  assert (AT : forall k, nth_error (put (put t g a') f b') k = if Nat.eqb k f then Some b' else if Nat.eqb k g then Some a' else nth_error t k).
  { intros k. destruct (Nat.eqb_spec k f) as [->|Q1]; [apply (put_same' _ _ _ _ EF)|]. rewrite put_other by congruence. destruct (Nat.eqb_spec k g) as [->|Q2]; [apply (put_same' _ _ _ _ EA)|apply put_other; congruence]. }
  split; [rewrite !put_length; exact L|]. split.
  - intros i s. rewrite AT. destruct (Nat.eqb i f); [intros H; injection H as <-; eauto|]. destruct (Nat.eqb i g); [intros H; injection H as <-; eauto|]. apply W.
  - intros k s. rewrite AT, map_app, in_app_iff. cbn [map fst In]. intros H NK. assert (KF : k <> f) by (intros ->; tauto). assert (NKD : ~ In k (map fst done)) by tauto.
    assert (LD : forall j, lands (done ++ [(f, g)]) j = k <-> lands done j = k \/ lands done j = f /\ k = g).
    { intros j. rewrite lands_app. unfold lands at 1. cbn [fold_left fst snd]. destruct (Nat.eqb_spec (lands done j) f) as [Q|Q]; split; intros; try (destruct H0; lia); try lia. }
    destruct (Nat.eqb_spec k f) as [Q|_]; [contradiction|]. destruct (Nat.eqb_spec k g) as [->|Q].
    + injection H as <-. destruct (R g a EA NKD) as (l & RL & IL). assert (l = la) by (eapply rep_eq; [exact RA|apply rep_holds; exact RL]). subst l. exists m. split; [exact RM|]. intros x. rewrite (U x), IL, IB. split.
      * intros [(j & J1 & J2)|(j & J1 & J2)]; exists j; (split; [exact J1|]); apply LD; auto.
      * intros (j & J1 & J2). apply LD in J2 as [J2|(J2 & _)]; [left|right]; exists j; auto.
    + destruct (R k s H NKD) as (l & RL & IL). exists l. split; [exact RL|]. intros x. rewrite IL. split; intros (j & J1 & J2); exists j; (split; [exact J1|]).
      * apply LD. left. exact J2.
      * apply LD in J2 as [J2|(_ & J2)]; [exact J2|contradiction].
Qed.
Lemma merge_all l : forall done t, right_sets done t -> NoDup (map fst (done ++ l)) -> (forall f g, In (f, g) l -> f <> g /\ f < n /\ g < n) -> exists t', track_all track_merge t l = Some t' /\ right_sets (done ++ l) t'.
Proof.
  induction l as [|(f, g) l IH]; intros done t R ND B; cbn [track_all]; [exists t; rewrite app_nil_r; auto|].
  destruct (B f g (or_introl eq_refl)) as (N & LF & LG). destruct (merge_step done t f g R N LF LG) as (t1 & E & R1).
  { rewrite map_app in ND. cbn [map fst] in ND. apply NoDup_remove_2 in ND. rewrite in_app_iff in ND. tauto. }
  rewrite E. destruct (IH (done ++ [(f, g)]) t1 R1) as (t2 & E2 & R2); [rewrite <- app_assoc; exact ND|intros x y I; apply B; right; exact I|]. exists t2. rewrite <- app_assoc in R2. auto.
Qed.
End Merge.
Lemma track_right idx log merged : NoDup (map fst merged) -> (forall f g, In (f, g) merged -> f <> g /\ f < length idx + length log /\ g < length idx + length log) ->
  exists t, track (map TAdded idx) log merged = Some t /\ length t = length idx + length log /\
    forall k, k < length idx + length log -> ~ In k (map fst merged) -> exists l, get_value t k = Some l /\ StronglySorted lt l /\ forall x, In x l <-> exists j, nth_error idx j = Some x /\ lands merged j = k.
Proof.
  intros ND B. unfold track. destruct (added idx []) as (t0 & E & F). rewrite E, between. cbn [app].
  assert (L0 : length t0 = length idx) by (clear - F; induction F; cbn; congruence).
  assert (AT : forall k s, nth_error (t0 ++ repeat fs_new (length log)) k = Some s -> (exists o, nth_error idx k = Some o /\ rep s [o]) \/ nth_error idx k = None /\ rep s []).
  { intros k s H. destruct (Nat.lt_ge_cases k (length t0)) as [Q|Q].
    - rewrite nth_error_app1 in H by exact Q. left. clear - F H. revert k H. induction F as [|a o l l' S F IH]; intros k H; destruct k; try discriminate; cbn in H; [injection H as <-; exists o; auto|apply IH; exact H].
    - right. split; [apply nth_error_None; lia|]. rewrite nth_error_app2 in H by exact Q. apply nth_error_In, repeat_spec in H. subst s. constructor. }
  destruct (merge_all idx (length idx + length log) merged [] (t0 ++ repeat fs_new (length log))) as (t & T & L & _ & R); [|exact ND|exact B|].
  - split; [rewrite app_length, repeat_length; lia|]. split; [intros i s H; destruct (AT i s H) as [(o & _ & R)|(_ & R)]; eauto|].
    intros k s H _. destruct (AT k s H) as [(o & O & R)|(O & R)]; eexists; (split; [exact R|]); intros x; cbn.
    + split; [intros [<-|[]]; exists k; auto|]. intros (j & J & ->). left. congruence.
    + split; [intros []|]. intros (j & J & ->). congruence.
  - exists t. split; [exact T|]. split; [exact L|]. intros k LK NK. destruct (nth_error t k) as [s|] eqn:S; [|apply nth_error_None in S; lia]. destruct (R k s S NK) as (l & RL & IL). pose proof (rep_holds _ _ RL) as (C & _ & SS).
    exists l. unfold get_value. rewrite S, C. auto.
Qed.
Lemma lands_kept merged k : ~ In k (map fst merged) -> lands merged k = k.
Proof.
  unfold lands. induction merged as [|(f, g) l IH]; intros N; [reflexivity|]. cbn [fold_left fst snd map In] in *. destruct (Nat.eqb_spec k f) as [->|_]; [exfalso; apply N; left; reflexivity|]. apply IH. tauto.
Qed.
Lemma lands_leads merged i : ~ In (lands merged i) (map fst merged) -> leads merged i (lands merged i).
Proof.
  intros G. assert (S : forall b i, incl b merged -> ~ In (lands b i) (map fst merged) -> leads merged i (lands b i)); [|apply S; [intros x X; exact X|exact G]].
  induction b as [|(f, g) b IH]; intros x I N; [apply leads_here; exact N|]. unfold lands in *. cbn [fold_left fst snd] in *. destruct (Nat.eqb_spec x f) as [->|Q].
  - eapply leads_on; [apply I; left; reflexivity|]. apply IH; [intros y Y; apply I; right; exact Y|exact N].
  - apply IH; [intros y Y; apply I; right; exact Y|exact N].
Qed.
Lemma lands_in_order merged i : in_order merged -> (forall f g, In (f, g) merged -> f <> g) -> ~ In (lands merged i) (map fst merged) /\ leads merged i (lands merged i).
Proof.
  intros O NE. assert (G : ~ In (lands merged i) (map fst merged)).
  { assert (G : forall b a, merged = a ++ b -> forall i, ~ In i (map fst a) -> ~ In (lands b i) (map fst merged)); [|apply (G merged [] eq_refl i); intros []].
    induction b as [|(f, g) b IH]; intros a E x N; [rewrite E, app_nil_r; exact N|]. unfold lands. cbn [fold_left fst snd]. fold (lands b (if Nat.eqb x f then g else x)). apply (IH (a ++ [(f, g)])); [rewrite <- app_assoc; exact E|].
    rewrite map_app, in_app_iff. cbn [map fst In]. destruct (Nat.eqb_spec x f) as [Q|Q].
    - pose proof (O a f g b E). assert (f <> g) by (apply NE; rewrite E; apply in_or_app; right; left; reflexivity). intros [X|[X|[]]]; [contradiction|congruence].
    - intros [X|[X|[]]]; [contradiction|congruence]. }
  split; [exact G|apply lands_leads; exact G].
Qed.
Lemma leads_one merged i k k' : NoDup (map fst merged) -> leads merged i k -> leads merged i k' -> k = k'.
Proof.
  intros ND H. revert k'. induction H as [k N|i j k I H IH]; intros k' H'; inversion H' as [? N'|? j' ? I' H'']; subst.
  - reflexivity.
  - exfalso. apply N. apply (in_map fst) in I'. exact I'.
  - exfalso. apply N'. apply (in_map fst) in I. exact I.
  - apply IH. assert (j = j'); [|congruence]. clear - ND I I'. induction merged as [|(f, g) l IH]; [destruct I|]. cbn in ND. inversion ND as [|? ? X Y]; subst. destruct I as [I|I], I' as [I'|I'].
    + congruence.
    + injection I as -> ->. exfalso. apply X. apply (in_map fst) in I'. exact I'.
    + injection I' as -> ->. exfalso. apply X. apply (in_map fst) in I. exact I.
    + apply IH; assumption.
Qed.
