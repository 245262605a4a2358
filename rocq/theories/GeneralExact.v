(** Loops split at points of their lines enclose the same points. *)
From Coq Require Import ZArith QArith List Bool Arith Permutation Lia.
From Verif Require Import GeomModel GeomSpec BalanceModel EventsModel EventsSpec EventsProofs WindSpec OutModel ClipModel ClipSpec ClipProofs SweepProofs PointSinkModel JoinSpec ArrangeSpec RegionProps
  SegSpec WholeCore TotalSpec TotalEnds ExactProofs GeneralProofs.
Import ListNotations.
Local Open Scope nat_scope.

Section Exact.
Variables pts pts' : list cpoint.
Variable log : list (nat * nat).
Hypothesis PL : proper_loops pts.
Hypothesis PL' : proper_loops pts'.
Hypothesis GR : ClipSpec.grown (links pts) log (links pts').
Hypothesis OR : forall i p0, nth_error pts i = Some p0 -> exists p, nth_error pts' i = Some p /\ c_data p = c_data p0 /\ c_set p = c_set p0.
Hypothesis EX : exact_splits (length pts) pts' log.

Let D := data_at pts'.
Let T := ExactProofs.set_at pts'.
Lemma next_in p : proper_loops p -> forall i q, nth_error p i = Some q -> c_next q < length p.
Proof. intros (H & _) i q N. destruct (H i q N) as (r & ? & E & _). apply nth_error_Some. rewrite E. discriminate. Qed.
Lemma at_new i q : nth_error pts' i = Some q -> D i = c_data q /\ T i = c_set q.
Proof. intros N. unfold D, T, data_at, ExactProofs.set_at. rewrite N. auto. Qed.
Lemma at_old i q : nth_error pts i = Some q -> D i = c_data q /\ T i = c_set q.
Proof. intros N. destruct (OR i q N) as (r & M & <- & <-). apply at_new, M. Qed.

Lemma exact_turns k p : (0 < k)%Z -> off_lines k p (map ln_e (lines pts)) ->
  off_lines k p (map ln_e (lines pts')) /\ forall c w, wind_around k p (set_lines c (lines pts')) w -> wind_around k p (set_lines c (lines pts)) w.
Proof.
  intros K OFF.
  assert (G : forall c, (forall i j, nth_error (links pts) i = Some j -> T i = T j) /\ total (fturns D T k p c) (links pts) = total (fturns D T k p c) (links pts') /\
    (forall i j, nth_error (links pts') i = Some j -> ~ WindSpec.on_edge (scale k (D i), scale k (D j)) p)).
  { intros c. apply (grown_total (fturns D T k p c) (fun i j => ~ WindSpec.on_edge (scale k (D i), scale k (D j)) p) D (fun i j => T i = T j)) with (log := log); try congruence; try assumption.
    - intros a b m NO DV SM. apply (divides_scale k) in DV. split.
      + unfold fturns. rewrite SM. destruct (bset_eqb (T m) c); [|reflexivity]. apply turns_divided; assumption.
      + unfold WindSpec.on_edge in *. cbn [fst snd] in *. split; intros O; apply NO; eapply divides_on; eauto.
    - intros j a b N. unfold links. rewrite map_length. apply on_divides. exact (EX j a b N).
    - intros i j N. unfold links in N. rewrite nth_error_map in N. destruct (nth_error pts' i) as [q|] eqn:E; [|discriminate]. injection N as <-. destruct PL' as (H & _). destruct (H i q E) as (r & ? & M & _ & _ & _ & ST). rewrite (proj2 (at_new _ _ E)), (proj2 (at_new _ _ M)). symmetry. exact ST.
    - intros i j N. unfold links in N. rewrite nth_error_map in N. destruct (nth_error pts i) as [q|] eqn:E; [|discriminate]. injection N as <-. destruct PL as (H & _). destruct (H i q E) as (r & ? & M & _).
      rewrite (proj1 (at_old _ _ E)), (proj1 (at_old _ _ M)). apply (OFF (c_data q, c_data r)). apply lines_in; [apply next_in; exact PL|]. exists i, q, r. auto. }
  split.
  - intros e I. apply lines_in in I as (i & q & r & N & M & ->); [|apply next_in; exact PL']. destruct (G Subject) as (_ & _ & G3). cbn [fst snd]. rewrite <- (proj1 (at_new _ _ N)), <- (proj1 (at_new _ _ M)). apply G3. unfold links. rewrite nth_error_map, N. reflexivity.
  - intros c w W. unfold wind_around in *. destruct (G c) as (_ & E & _). rewrite <- W.
    etransitivity; [apply (lines_sum D T k p c pts at_old (next_in _ PL))|]. etransitivity; [exact E|]. symmetry. apply (lines_sum D T k p c pts' at_new (next_in _ PL')).
Qed.
Lemma exact_encloses op es : encloses op pts' es -> encloses op pts es.
Proof.
  intros H k p K OFF. destruct (exact_turns k p K OFF) as (OFF' & W). destruct (H k p K OFF') as (ws & wc & W1 & W2 & W3). exists ws, wc. auto.
Qed.
End Exact.
