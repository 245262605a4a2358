(** Which points the tracker is told about. *)
From Coq Require Import ZArith List Bool Arith Lia.
From Verif Require Import GeomModel BalanceModel EventsModel OutModel CycleProofs ClipModel.
Import ListNotations.

Definition below (n : nat) (l : list (nat * nat)) : Prop := forall a b, In (a, b) l -> a < n /\ b < n.
Lemma below_snoc n l a b : below n l -> a < n -> b < n -> below n (l ++ [(a, b)]).
Proof. intros B A C x y I. apply in_app_or in I as [I|[I|[]]]; [apply B; exact I|]. injection I as <- <-. auto. Qed.
Lemma follow_loop_below fuel r : forall pts merged prev next pts' merged' prev' next',
  follow_loop fuel r pts merged prev next = Some (pts', merged', prev', next') -> below (length pts) merged -> prev < length pts ->
  length pts' = length pts /\ below (length pts) merged' /\ prev' < length pts /\ next' < length pts.
Proof.
  induction fuel as [|f IH]; intros pts merged prev next pts' merged' prev' next' H B P; cbn [follow_loop] in H; [discriminate|].
  destruct (nth_error pts next) as [pn|] eqn:N; [|discriminate]. assert (L : next < length pts) by (apply nth_error_Some; congruence).
  assert (LP : forall x, length (put pts next x) = length pts) by (intros; apply put_length).
  destruct (o_state pn) as [| |r0]; [| discriminate |injection H as <- <- <- <-; auto].
  destruct (negb (keeps r)).
  - apply IH in H; rewrite ?LP in *; auto. apply below_snoc; assumption.
  - destruct (revs r); [destruct (o_anchor pn)|].
    + destruct (nth_error pts (o_next pn)); [|discriminate]. apply IH in H; rewrite ?LP in *; auto.
    + apply IH in H; rewrite ?LP in *; auto.
    + apply IH in H; rewrite ?LP in *; auto.
Qed.
Lemma follow_balance_below fuel pts br merged i pts' br' merged' :
  follow_balance fuel pts br merged i = Some (pts', br', merged') -> below (length pts) merged -> length pts' = length pts /\ below (length pts) merged'.
Proof.
  intros H B. unfold follow_balance in H. destruct (nth_error pts i) as [p|] eqn:N; [|discriminate]. assert (L : i < length pts) by (apply nth_error_Some; congruence).
  destruct (o_state p) as [| |r]; try discriminate. destruct (o_anchor p); [discriminate|].
  destruct (follow_loop fuel r pts merged i (o_next p)) as [[[[pts1 m1] prev] next]|] eqn:F; [|discriminate].
  destruct (follow_loop_below _ _ _ _ _ _ _ _ _ _ F B L) as (L1 & B1 & P1 & N1).
  destruct r; repeat match type of H with match ?f with _ => _ end = _ => destruct f; [|discriminate] end;
    injection H as <- _ <-; split; try exact L1; try exact B1; apply below_snoc; assumption.
Qed.
Lemma follow_all_below fuel ss : forall pts br merged pts' br' merged' ss',
  follow_all fuel false pts br merged ss = Some (pts', br', merged', ss') -> below (length pts) merged -> below (length pts) merged'.
Proof.
  induction ss as [|(p, hits) ss IH]; intros pts br merged pts' br' merged' ss' H B; cbn [follow_all] in H; [injection H as <- _ <- _; exact B|].
  destruct (follow_balance fuel pts br merged p) as [[[pts1 br1] m1]|] eqn:F; [|discriminate].
  destruct (follow_balance_below _ _ _ _ _ _ _ _ F B) as (L1 & B1).
  destruct (follow_all fuel false pts1 br1 m1 ss) as [[[[pts2 br2] m2] ss2]|] eqn:G; [|discriminate]. injection H as <- _ <- _. rewrite <- L1 in *. eapply IH; eassumption.
Qed.
Lemma finish_below fuel pts ss fps loops ss' merged : finish fuel false pts ss = Some (fps, loops, ss', merged) -> below (length pts) merged.
Proof.
  unfold finish. destruct (follow_all fuel false pts no_breaks [] ss) as [[[[pts1 br1] m1] ss1]|] eqn:F; [|discriminate].
  destruct (match_orphans _ _ _ _ _) as [[[pts2 st2] en2]|]; [|discriminate]. destruct (join_ends _ _ _) as [[pts3 st3]|]; [|discriminate].
  destruct (forallb _ _); [|discriminate]. destruct (find_loops _) as [[fps1 l1]|]; [|discriminate]. intros H. injection H as _ _ _ <-.
  eapply follow_all_below; [exact F|]. intros a b [].
Qed.

(** The balances change no links and no number of points. *)
Lemma scan_length op q x sweep i pts ss pts' ss' : scan op q x sweep i pts ss = Some (pts', ss') -> length pts' = length pts.
Proof.
  unfold scan. destruct (nth_error pts i) as [p|]; [|discriminate]. destruct (c_state p); try (intros H; injection H as <- _; reflexivity).
  destruct (line_at pts i); [|discriminate]. destruct (seg_lines _ _); [|discriminate]. intros H. injection H as <- _. apply put_length.
Qed.
Lemma bal_step_length place se sn op nodes q sweep pts ss q' sweep' pts' ss' :
  bal_step place se sn op nodes (q, sweep, pts, ss) = Some (q', sweep', pts', ss') -> length pts' = length pts.
Proof.
  unfold bal_step. destruct (next _ _ _ _ _) as [[[e fwd] q1]|]; [|discriminate]. destruct (negb fwd); [discriminate|]. destruct (e_deleted e); [intros H; injection H as _ _ <- _; reflexivity|].
  cbv zeta. destruct (e_type e).
  all: repeat match goal with
    | |- match scan ?a ?b ?c ?d ?e ?f ?g with _ => _ end = _ -> _ => let E := fresh "E" in destruct (scan a b c d e f g) as [[? ?]|] eqn:E; [apply scan_length in E|discriminate]
    | |- match ?f with _ => _ end = _ -> _ => destruct f; [|discriminate]
    end; intros H; injection H as _ _ <- _; assumption.
Qed.
Lemma bal_loop_length place se sn op nodes fuel : forall q sweep pts ss q' sweep' pts' ss',
  bal_loop place se sn fuel op nodes (q, sweep, pts, ss) = Some (q', sweep', pts', ss') -> length pts' = length pts.
Proof.
  induction fuel as [|f IH]; intros q sweep pts ss q' sweep' pts' ss' H; cbn [bal_loop fst] in H; destruct (more _ q); try discriminate; try (injection H as _ _ <- _; reflexivity).
  destruct (bal_step place se sn op nodes (q, sweep, pts, ss)) as [[[[q1 sw1] pts1] ss1]|] eqn:E; [|discriminate]. apply bal_step_length in E. rewrite <- E. eapply IH; exact H.
Qed.
Lemma calc_length place se sn fuel op st pts ss : calc_line_bal place se sn fuel op st = Some (pts, ss) -> length pts = length (s_pts st).
Proof.
  unfold calc_line_bal. destruct (rewind _ _) as [q|]; [|discriminate]. destruct (bal_loop _ _ _ _ _ _ _) as [[[[q1 sw1] pts1] ss1]|] eqn:E; [|discriminate].
  intros H. injection H as <- _. eapply bal_loop_length; exact E.
Qed.
Lemma do_op_below isect place se sn draws fuel op pts rand fps loops ss log merged r :
  do_op isect place se sn draws fuel op false pts rand = Some (fps, loops, ss, log, merged, r) ->
  exists st, self_intersection isect place se sn draws fuel pts rand = Some st /\ log = s_log st /\ below (length (s_pts st)) merged.
Proof.
  unfold do_op. destruct (self_intersection _ _ _ _ _ _ _ _) as [st|]; [|discriminate]. destruct (calc_line_bal _ _ _ _ _ _) as [[pts1 ss1]|] eqn:C; [|discriminate].
  destruct (finish _ _ _ _) as [[[[f l] s] m]|] eqn:F; [|discriminate]. intros H. injection H as _ _ _ <- <- _. exists st. split; [reflexivity|]. split; [reflexivity|].
  apply finish_below in F. rewrite map_length, (calc_length _ _ _ _ _ _ _ _ C) in F. exact F.
Qed.
