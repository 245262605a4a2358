(** One step of a sweep that splits no line. *)
From Coq Require Import ZArith QArith List Bool Arith Lia Lqa.
From Verif Require Import GeomModel GeomSpec GeomProofs EventsModel EventsSpec EventsProofs ClipModel ClipProofs SegOrder SegPair SegTrace.
Import ListNotations.
Local Open Scope Z_scope.
Notation inj := inject_Z.

Section Mono.
Variables mk mk' : nat -> nat -> Prop.
Hypothesis M : forall i j, mk i j -> mk' i j.
Lemma tie_mono g h X Y : tie mk g h X Y -> tie mk' g h X Y.
Proof. intros (i & j & A & B & [C|C]); exists i, j; auto. Qed.
Lemma twin_mono g h : twin mk g h -> twin mk' g h.
Proof. intros [(A & B & C & D)|(A & B & C & D)]; [left|right]; auto. Qed.
Lemma only_mono g h : only mk g h -> only mk' g h.
Proof. intros O X Y A B. apply tie_mono, O; assumption. Qed.
Lemma fine_mono g h : fine mk g h -> fine mk' g h.
Proof. intros [T|O]; [left; apply twin_mono; exact T|right; apply only_mono; exact O]. Qed.
Lemma over_mono X0 L g h : over mk X0 L g h -> over mk' X0 L g h.
Proof. intros [T|S]; [left; apply twin_mono; exact T|right]. intros x A B C D. destruct (S x A B C D) as (P & Q). split; [exact P|]. intros E. apply tie_mono, Q, E. Qed.
Lemma trace_mono v s R : trace v mk s R -> trace v mk' s R.
Proof.
  induction 1 as [|e s A B T IH F N AD|e s A B T IH F AD]; [constructor|apply tr_in; auto|apply tr_out; auto]; (eapply adj_impl; [|exact AD]); intros a b _ _; apply over_mono.
Qed.
End Mono.

Section Step.
Variable v : nat -> cseg.
Variable mk : nat -> nat -> Prop.
Hypothesis mk_trans : forall i j k, mk i j -> mk j k -> mk i k.
Hypothesis mk_refl : forall i, mk i i.
Hypothesis mk_sym : forall i j, mk i j -> mk j i.
Lemma fine_sym g h : fine mk g h -> fine mk h g.
Proof. intros [T|O]; [left; apply twin_sym; assumption|right]. intros X Y A B. apply tie_sym; [assumption|]. apply O; assumption. Qed.
Lemma tr_adj_at X s R : trace v mk s R -> (forall e, In e s -> e_x e <= X) -> adj (nb v mk X) R.
Proof.
  intros T L. destruct s as [|e s]; [inversion T; subst; exact I|]. apply tr_adj in T. eapply adj_impl; [|exact T]. intros a b _ _. apply over_later. apply L. left. reflexivity.
Qed.
Lemma step_in e s A B : trace v mk s (A ++ B) -> is_f e = true -> (forall e', In e' s -> e_node e' <> e_node e) -> (forall e', In e' s -> e_x e' <= e_x e) ->
  (forall k, In k (A ++ B) -> good (v k) /\ cover (v k) (e_x e)) -> good (v (e_node e)) -> px (sg_pa (v (e_node e))) = e_x e ->
  (forall a, last_of A = Some a -> sweep_cmp (v a) (v (e_node e)) = true /\ fine mk (v a) (v (e_node e))) ->
  (forall b, hd_error B = Some b -> sweep_cmp (v (e_node e)) (v b) = true /\ fine mk (v (e_node e)) (v b)) ->
  trace v mk (e :: s) (A ++ e_node e :: B).
Proof.
  intros T F N L C G PX HA HB. apply tr_in; try assumption. pose proof (tr_adj_at (e_x e) _ _ T L) as AD. apply adj_app in AD as (A1 & A2 & _).
  assert (CV : cover (v (e_node e)) (e_x e)) by (destruct G; split; lia).
  apply adj_app. split; [exact A1|]. split.
  - apply adj_cons. split; [|exact A2]. intros b Q. destruct (HB b Q) as (X & Y). destruct (C b) as (GB & CB); [apply in_or_app; right; apply hd_error_in; exact Q|].
    apply (cmp_over mk mk_trans mk_refl mk_sym _ _ _ G GB CV CB (or_introl PX) Y X).
  - intros a b Q R. injection R as <-. destruct (HA a Q) as (X & Y). destruct (C a) as (GA & CA); [apply in_or_app; left; apply last_of_in; exact Q|].
    apply (cmp_over mk mk_trans mk_refl mk_sym _ _ _ GA G CA CV (or_intror PX) Y X).
Qed.
Lemma step_out e s A B : trace v mk s (A ++ e_node e :: B) -> is_f e = false -> (forall e', In e' s -> e_x e' <= e_x e) ->
  (forall k, In k (A ++ e_node e :: B) -> good (v k) /\ cover (v k) (e_x e)) -> px (sg_pb (v (e_node e))) = e_x e ->
  (vt (v (e_node e)) = true \/ forall k, In k (A ++ B) -> vt (v k) = false -> px (sg_pa (v k)) < e_x e) ->
  (forall a b, last_of A = Some a -> hd_error B = Some b -> fine mk (v a) (v b)) ->
  trace v mk (e :: s) (A ++ B).
Proof.
  intros T F L C PB VT FI. set (n := e_node e) in *. set (X := e_x e) in *. apply tr_out; try assumption. pose proof (tr_adj_at X _ _ T L) as AD. apply adj_app in AD as (A1 & A2 & A3).
  apply adj_cons in A2 as (A2 & A4). apply adj_app. split; [exact A1|]. split; [exact A4|]. intros a b Q R.
  pose proof (A3 a n Q eq_refl) as N1. pose proof (A2 b R) as N2.
  destruct (C a) as (Ga & Ca); [apply in_or_app; left; apply last_of_in; exact Q|].
  destruct (C b) as (Gb & Cb); [apply in_or_app; right; right; apply hd_error_in; exact R|].
  destruct (C n) as (Gn & Cn); [apply in_or_app; right; left; reflexivity|].
  assert (R1 : rel mk X (v a) (v n)) by (eapply over_rel; [exact N1|lia|exact I|exact Ca|exact Cn]).
  assert (R2 : rel mk X (v n) (v b)) by (eapply over_rel; [exact N2|lia|exact I|exact Cn|exact Cb]).
  assert (R3 : rel mk X (v a) (v b)) by (apply (rel_trans mk mk_trans mk_sym X (v a) (v n) (v b)); assumption).
  unfold nb. destruct R3 as [TW|PT]; [left; exact TW|]. fold X. apply rem_over; auto; [right; exact PT|]. pose proof PT as (PL & PE).
  destruct VT as [V|V].
  - destruct R1 as [T1|P1].
    { left. destruct (twin_geom mk _ _ Ga Gn T1) as (V' & _ & _). rewrite V in V'. apply vt_true in V'. destruct Ca. lia. }
    destruct R2 as [T2|P2].
    { right. left. destruct (twin_geom mk _ _ Gn Gb T2) as (V' & _ & _). rewrite V in V'. symmetry in V'. apply vt_true in V'. destruct Cb. lia. }
    right. right. destruct P1 as (P1 & _), P2 as (P2 & _). assert (LT : (lo (v n) X < hi (v n) X)%Q) by (pose proof (vt_py _ Gn V); unfold lo, hi; rewrite V; apply inj_lt; lia). lra.
  - destruct (Qlt_le_dec (hi (v b) X) (lo (v a) X)) as [LT|GE]; [auto|]. left. destruct PE as (i & j & E1 & E2 & _); [lra|].
    destruct (vt (v a)) eqn:VA; [apply vt_true in VA; destruct Ca; lia|]. specialize (V a ltac:(apply in_or_app; left; apply last_of_in; exact Q) VA). apply at_end_x in E1. fold X in V. lia.
Qed.
End Step.
