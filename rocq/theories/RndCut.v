(** What a split does to the history of a sweep when the crossing point is rounded: going back
    to where the first new event belongs, the history is that of lines without the split one,
    and the ends of the split line keep its neighbours apart. *)
From Coq Require Import ZArith QArith List Bool Arith Permutation Sorted Lia Lqa.
From Verif Require Import GeomModel GeomSpec GeomProofs EventsModel EventsSpec EventsProofs ClipModel ClipSpec ClipProofs SweepProofs TotalSplit SegOrder SegPair SegTrace DynOrder DynTrace DynShape DynCut RndTrace.
Import ListNotations.
Local Open Scope nat_scope.

Section Cut.
Variable v : nat -> cseg.
Variable mk : nat -> nat -> Prop.
Hypothesis mk_trans : forall i j k, mk i j -> mk j k -> mk i k.
Hypothesis mk_sym : forall i j, mk i j -> mk j i.
Notation rtr := (rtr v mk).
Notation path := (path v).
Notation wit := (wit v).
Notation ff k := (fev (v k) k false).
Notation bb k := (bev (v k) k false).

(** The first events t of the sweep have a history; s2 has been delivered since. *)
Record RI (R : list nat) (s all t s2 : list ev) (Rt : list nat) : Prop := {
  w_eq : s = s2 ++ t;
  w_sep : forall y x, In y t -> In x all -> ~ In x t -> event_lt y x = true;
  w_path : path (alive t) Rt (alive s) R;
  w_hist : rtr all (alive t) Rt }.

Section Split.
Variables (R : list nat) (s all : list ev).
Hypothesis KEYS : NoDup (map ekey all).
Hypothesis SRT : srt (rev s).
Hypothesis INC : forall x, In x s -> In x all.
Variable n : nat.
Notation ek := (ff n).
Hypothesis EKS : In ek s.
Hypothesis ONLY : forall x, In x s -> e_deleted x = false -> e_node x = n -> x = ek.
Variables (mid : nat) (f0 : ev) (N : list ev).
Hypothesis MID : forall x, In x all -> e_a x < mid /\ e_b x < mid.
Notation d := (delk (ekey ek)).
Variables (s' all' : list ev).
Hypothesis ES : s' = map d s.
Hypothesis EA : Permutation all' (N ++ map d all).
Hypothesis NEW : forall x, In x N -> event_lt x f0 = false /\ mid <= Nat.max (e_a x) (e_b x).
Hypothesis ENDS : forall t, (forall x, In x t -> In x all) -> wit all' t (sg_pb (v n)) /\ (vt (v n) = true -> wit all' t (sg_pa (v n))).

Lemma ek_all : In ek all.
Proof. apply INC, EKS. Qed.
Lemma new_cases x : In x all' -> (In x (map d all)) \/ (event_lt x f0 = false /\ mid <= Nat.max (e_a x) (e_b x)).
Proof. intros I. apply (Permutation_in _ EA) in I. apply in_app_or in I as [I|I]; auto. Qed.
Lemma old_in x : In x all -> In (d x) all'.
Proof. intros I. eapply Permutation_in; [symmetry; exact EA|]. apply in_or_app. right. apply in_map. exact I. Qed.
Lemma d_lt x y : event_lt (d x) y = event_lt x y.
Proof. apply event_lt_key; [apply ekey_delk|reflexivity]. Qed.
Lemma lt_d x y : event_lt x (d y) = event_lt x y.
Proof. apply event_lt_key; [reflexivity|apply ekey_delk]. Qed.
Lemma one_key x y : In x all -> In y all -> ekey x = ekey y -> x = y.
Proof. intros A B C. apply (NoDup_ekey all); assumption. Qed.
Lemma d_other x : x <> ek -> In x all -> d x = x.
Proof. intros D I. unfold delk. destruct (ekey_dec (ekey x) (ekey ek)) as [Q|]; [|reflexivity]. exfalso. apply D. apply one_key; [exact I|apply ek_all|exact Q]. Qed.
Lemma alive_d l : (forall y, In y l -> In y s) -> alive (map d l) = rme n (alive l).
Proof.
  intros S. apply alive_delk. intros x I D. split; intros Q.
  - rewrite (ONLY x (S x I) D Q). reflexivity.
  - assert (x = ek) by (apply one_key; [apply INC, S; exact I|apply ek_all|exact Q]). subst x. reflexivity.
Qed.
Lemma wit_keep t b : (forall x, In x t -> In x all) -> wit all t b -> wit all' (rme n t) b.
Proof.
  intros TA (w & x & IF & IX & NX & C). destruct (ENDS (rme n t)) as (E1 & E2); [intros y I; apply rme_in in I as (I & _); auto|].
  destruct (Nat.eq_dec w n) as [->|D]; [destruct C as [(V & -> & ->)|(V & -> & [->| ->])]; auto|].
  assert (DX : x <> ek) by (intros Q; apply D; destruct C as [(_ & -> & _)|(_ & -> & _)]; change w with (e_node (ff w)) || change w with (e_node (bb w)); [change (e_node (ff w)) with (e_node (bb w))|]; rewrite Q; reflexivity).
  assert (DF : ff w <> ek) by (intros Q; apply D; change w with (e_node (ff w)); rewrite Q; reflexivity).
  exists w, x. split; [rewrite <- (d_other _ DF IF); apply old_in, IF|]. split; [rewrite <- (d_other _ DX IX); apply old_in, IX|]. split; [|exact C]. intros I. apply rme_in in I as (I & _). contradiction.
Qed.
Lemma RI_split t s2 Rt : RI R s all t s2 Rt -> NoDup s -> exists t' s2' Rt', RI (remove Nat.eq_dec n R) s' all' t' s2' Rt' /\ ((s2' = map d s2 /\ t' = map d t) \/ (forall y, In y s2' -> event_lt y f0 = false)).
Proof.
  intros [WE WS WP WH] ND.
  assert (ST : srt (rev t)) by (rewrite WE, rev_app_distr in SRT; apply (srt_app ev event_lt) in SRT; apply SRT).
  destruct (cut_desc f0 t ST) as (ta & tb & ET & LA & LB).
  assert (TS : forall y, In y t -> In y s) by (intros y I; rewrite WE; apply in_or_app; auto). assert (TBS : forall y, In y tb -> In y s) by (intros y I; apply TS; rewrite ET; apply in_or_app; auto).
  assert (SEPB : forall y x, In y tb -> In x all -> ~ In x tb -> event_lt y x = true).
  { intros y x IY IX NX. destruct (in_dec ev_dec x ta) as [I|NI]; [eapply lt_ge_lt; [apply LB; exact IY|apply LA; exact I]|]. apply WS; [rewrite ET; apply in_or_app; auto|exact IX|]. rewrite ET. intros I. apply in_app_or in I. tauto. }
  rewrite ET, alive_app in WH. destruct (rtr_suffix v mk all _ _ _ WH) as (R1 & H1 & P1). rewrite <- alive_app, <- ET in P1.
  assert (TA : forall l, incl l (alive tb) -> forall x, In x l -> In x all) by (intros l IL x I; apply IL, alive_in in I as (I & _); apply INC, TBS, I).
  apply (rtr_rm v mk mk_trans mk_sym all all' n) in H1; [|intros l b IL; apply wit_keep, TA, IL|intros l IL; apply ENDS; intros x I; apply rme_in in I as (I & _); revert x I; apply TA, IL].
  exists (map d tb), (map d (s2 ++ ta)), (remove Nat.eq_dec n R1). split; [constructor|].
  - rewrite ES, WE, ET, <- map_app, app_assoc. reflexivity.
  - intros y x IY IX NX. apply in_map_iff in IY as (y0 & <- & IY). rewrite d_lt. destruct (new_cases x IX) as [I|(I & _)].
    + apply in_map_iff in I as (x0 & <- & I). rewrite lt_d. apply SEPB; [exact IY|exact I|]. intros J. apply NX, in_map, J.
    + eapply lt_ge_lt; [apply LB; exact IY|exact I].
  - rewrite (alive_d tb TBS). assert (E : alive s' = rme n (alive s)) by (rewrite ES; apply alive_d; auto). rewrite E. apply path_rm. eapply path_trans; eassumption.
  - rewrite (alive_d tb TBS). exact H1.
  - destruct ta as [|z ta].
    + left. rewrite app_nil_r. split; [reflexivity|]. rewrite ET. reflexivity.
    + right. intros y I. apply in_map_iff in I as (y0 & <- & I). rewrite d_lt. apply in_app_or in I as [I|I]; [|apply LA; exact I].
      assert (NT : ~ In y0 t). { intros J. rewrite WE in ND. clear -ND I J. induction s2 as [|a q IH]; [destruct I|]. cbn in ND. inversion ND as [|? ? N1 N2]; subst. destruct I as [->|I]; [apply N1, in_or_app; auto|auto]. }
      destruct (event_lt y0 f0) eqn:L; [exfalso|reflexivity].
      assert (Z : event_lt z y0 = true) by (apply WS; [rewrite ET; left; reflexivity|apply INC; rewrite WE; apply in_or_app; auto|exact NT]).
      pose proof (LA z (or_introl eq_refl)) as LZ. rewrite (ev_trans _ _ _ Z L) in LZ. discriminate.
Qed.
End Split.
End Cut.
