(** Offsetting stores the outline. *)
From Coq Require Import ZArith List Bool Arith Lia.
From Verif Require Import GeomModel GeomProofs PointSinkModel PointSinkSpec PointSinkProofs OffsetModel OffsetSpec OffsetProofs WholeSpec OutlineSpec.
Import ListNotations.
Local Open Scope Z_scope.

(** * Storing does not depend on the indices *)
Record alike (a b : sink_state) : Prop := {
  al_points : cs_points (ss_clip a) = cs_points (ss_clip b);
  al_ran : cs_ran (ss_clip a) = cs_ran (ss_clip b);
  al_prev : option_map fst (sk_prev (ss_sink a)) = option_map fst (sk_prev (ss_sink b));
  al_first : sk_first (ss_sink a) = sk_first (ss_sink b);
  al_cat : sk_cat (ss_sink a) = sk_cat (ss_sink b) }.
Lemma final_alike a b p i j : alike a b -> alike (finalize_prev a p i) (finalize_prev b p j).
Proof.
  intros [A B C D E]. unfold finalize_prev. rewrite A, D, E. destruct (match back _ with Some x => _ | None => false end); [split; assumption|]. cbv zeta.
  split; cbn [ss_clip ss_sink cs_points set_points cs_ran].
  - reflexivity.
  - exact B.
  - destruct (sk_pt (ss_sink a)), (sk_pt (ss_sink b)); destruct (length (cs_points (ss_clip b)) - sk_first (ss_sink b))%nat as [|[|n]]; exact C.
  - destruct (sk_pt (ss_sink a)), (sk_pt (ss_sink b)); destruct (length (cs_points (ss_clip b)) - sk_first (ss_sink b))%nat as [|[|n]]; cbn [sk_first]; congruence.
  - destruct (sk_pt (ss_sink a)), (sk_pt (ss_sink b)); destruct (length (cs_points (ss_clip b)) - sk_first (ss_sink b))%nat as [|[|n]]; cbn [sk_cat]; congruence.
Qed.
Lemma put_alike a b p i j : alike a b -> alike (sink_put a p i) (sink_put b p j).
Proof.
  intros H. unfold sink_put. pose proof (al_prev _ _ H) as P.
  assert (X : alike (match sk_prev (ss_sink a) with Some (q, o) => finalize_prev a q o | None => a end) (match sk_prev (ss_sink b) with Some (q, o) => finalize_prev b q o | None => b end)).
  { destruct (sk_prev (ss_sink a)) as [(q, o)|], (sk_prev (ss_sink b)) as [(q', o')|]; try discriminate P; [|exact H]. cbn in P. injection P as <-. apply final_alike, H. }
  destruct X as [A B C D E]. split; cbn [ss_clip ss_sink cs_points set_orig cs_ran sk_prev sk_first sk_cat option_map fst]; auto.
Qed.
Definition same_result (a b : outcome (clip_state * list tcall)) : Prop :=
  match a, b with
  | Done (c, _), Done (c', _) => cs_points c = cs_points c' /\ cs_ran c = cs_ran c'
  | OutOfBounds, OutOfBounds => True
  | _, _ => False
  end.
Lemma close_alike a b : alike a b -> same_result (sink_close a) (sink_close b).
Proof.
  intros H. pose proof H as [A B C D E]. unfold sink_close. destruct (sk_prev (ss_sink a)) as [(q, o)|], (sk_prev (ss_sink b)) as [(q', o')|]; try discriminate C; [|split; assumption]. cbn in C. injection C as <-. rewrite A, D.
  destruct (nth_error (cs_points (ss_clip b)) (sk_first (ss_sink b))) as [f|]; [|exact I].
  assert (X : alike (if negb (point_eqb q (lp_data f)) then finalize_prev a q o else a) (if negb (point_eqb q (lp_data f)) then finalize_prev b q o' else b)) by (destruct (negb _); [apply final_alike|]; exact H).
  revert X. generalize (if negb (point_eqb q (lp_data f)) then finalize_prev a q o else a) (if negb (point_eqb q (lp_data f)) then finalize_prev b q o' else b). intros x y [A' B' _ D' _]. cbv zeta. rewrite A', D'. destruct (Nat.ltb _ 3); split; cbn; auto.
Qed.
Lemma fold_alike calls : forall a b, alike a b -> alike (fold_left (fun st pi => sink_put st (fst pi) (Z.to_nat (snd pi))) calls a) (fold_left sink_put_next (map fst calls) b).
Proof. induction calls as [|(p, i) calls IH]; intros a b H; [exact H|]. cbn [map fold_left fst snd]. apply IH. unfold sink_put_next. apply put_alike, H. Qed.

(** * The points that are put *)
Lemma uniq_some p l : uniq (p :: l) <> [].
Proof. revert p. induction l as [|q l IH]; intros p; [discriminate|]. cbn [uniq]. destruct (point_eqb p q); [apply IH|discriminate]. Qed.
Lemma uniq_one : forall l p, uniq l = [p] -> forall q, In q l -> q = p.
Proof.
  induction l as [|x l IH]; intros p H q I; [destruct I|]. destruct l as [|y l]; [injection H as <-; destruct I as [<-|[]]; reflexivity|]. cbn [uniq] in H. fold (uniq (y :: l)) in H. destruct (point_eqb x y) eqn:E.
  - apply point_eqb_eq in E. subst. destruct I as [<-|I]; [apply (IH p H); left; reflexivity|apply (IH p H); exact I].
  - exfalso. assert (W : uniq (y :: l) = []) by (injection H as _ W; exact W). exact (uniq_some y l W).
Qed.
Lemma uniq_repeat p n : uniq (p :: repeat p n) = [p].
Proof. induction n as [|n IH]; [reflexivity|]. cbn [repeat uniq]. rewrite (proj2 (point_eqb_eq p p) eq_refl). exact IH. Qed.

Section Outline.
Variable moved : point -> point -> point.
Variable rotated : point -> point -> point -> nat -> point.
Variable steps : point -> point -> point -> Z.
Variable negative positive : bool.
Variable lone_steps : Z.
Variable lone_rotated : nat -> point.
Notation emit := (emit moved rotated steps negative positive lone_steps lone_rotated).
Notation outline := (outline moved rotated steps negative positive lone_steps lone_rotated).
Notation side := (side moved rotated steps negative).

Lemma emit_side i1 i2 a b c : map fst (emit (Corner i1 i2 a b c)) = side (a, b, c).
Proof.
  cbn [OffsetModel.emit map fst]. unfold OutlineSpec.side. cbn [app]. f_equal. f_equal. rewrite map_map. cbn [fst]. rewrite map_id. unfold arc_points, concave, gap.
  replace (xorb negative (point_eqb a c || (0 <? triangle_winding a b c))) with (if negative then negb (point_eqb a c || (0 <? triangle_winding a b c)) else point_eqb a c || (0 <? triangle_winding a b c)) by (destruct negative, (point_eqb a c || (0 <? triangle_winding a b c)); reflexivity).
  destruct (if negative then _ else _); [|reflexivity]. cbv zeta. destruct (Z.ltb_spec 1 (Z.abs (steps a b c))) as [L|L]; [reflexivity|]. replace (Z.to_nat (Z.abs (steps a b c)) - 1)%nat with 0%nat by lia. reflexivity.
Qed.
Lemma emit_corners ws : (forall i p, ~ In (Lone i p) ws) -> map fst (flat_map emit ws) = flat_map side (shape ws).
Proof.
  induction ws as [|w ws IH]; intros H; [reflexivity|]. cbn [flat_map shape]. rewrite map_app, IH by (intros i p I; apply (H i p); right; exact I). destruct w as [i1 i2 a b c|i p]; [|exfalso; apply (H i p); left; reflexivity].
  rewrite emit_side. reflexivity.
Qed.
Lemma emit_lone i p : map fst (emit (Lone i p)) = circle positive lone_steps lone_rotated p.
Proof. cbn [OffsetModel.emit]. unfold circle. destruct positive; [|reflexivity]. rewrite map_map. reflexivity. Qed.

Lemma plan_outline (closed : bool) base l ws e : (if closed then plan_closed positive base l else plan_open positive base l) = Some (ws, e) -> 0 <= base < 2 ^ 64 -> (closed = false -> ~ ends_thrice l) ->
  map fst (flat_map emit ws) = outline closed l /\ 0 <= e < 2 ^ 64.
Proof.
  intros H B T. pose proof (wrap_small _ B) as W. assert (WR : forall i, 0 <= wrap i < 2 ^ 64) by (intros i; apply Z.mod_pos_bound; reflexivity).
  assert (LE : 0 <= lone_end positive base < 2 ^ 64) by (unfold lone_end; destruct positive; [apply WR|exact B]).
  destruct l as [|first l]; [destruct closed; discriminate|].
  assert (C : (exists n, l = repeat first n /\ ws = [Lone base first] /\ e = lone_end positive base) \/ ~ all_equal (first :: l) /\ 0 <= e < 2 ^ 64).
  { destruct closed; cbn [plan_closed plan_open] in H; injection H as H.
    - destruct (closed_from_cases positive base l first) as [(n & L & R)|(n & second & l' & L & N & R)].
      + left. exists n. rewrite H in R. injection R as -> ->. auto.
      + right. split; [intros A; apply N; apply A; [|left; reflexivity]; right; rewrite L; apply in_or_app; right; left; reflexivity|]. rewrite H in R. cbn [closed_from] in R. rewrite (proj2 (eqb_neq _ _) N) in R. cbn [negb] in R. revert R. destruct (closed_loop l' base first second) as [w2 [[i q2] q1]]. cbv zeta. intros R. injection R as _ ->. apply WR.
    - destruct (open_from_cases positive base (first :: l) l first) as [(n & L & R)|(n & second & l' & L & N & R)].
      + left. exists n. rewrite H in R. injection R as -> ->. auto.
      + right. split; [intros A; apply N; apply A; [|left; reflexivity]; right; rewrite L; apply in_or_app; right; left; reflexivity|]. rewrite H in R. cbn [open_from] in R. rewrite (proj2 (eqb_neq _ _) N) in R. cbn [negb] in R. revert R. unfold add_tail_open. destruct (tail_open l' 1 base first second) as [w2 [[i q2] q1]]. cbv zeta. destruct (tail_open (skipn 2 _) _ _ _ _) as [w3 [[i3 q3] q4]]. intros R. injection R as _ ->. apply WR. }
  destruct C as [(n & L & -> & ->)|(NE & E)].
  - split; [|exact LE]. cbn [flat_map]. rewrite app_nil_r, emit_lone. unfold OutlineSpec.outline. rewrite L, uniq_repeat. reflexivity.
  - split; [|exact E]. assert (NL : forall i p, ~ In (Lone i p) ws). { intros i p I. apply NE. destruct closed; [exact (closed_corners _ _ _ _ _ _ H W I)|exact (open_corners _ _ _ _ _ _ H W I)]. }
    rewrite (emit_corners _ NL). unfold OutlineSpec.outline. assert (U : exists a b r, uniq (first :: l) = a :: b :: r).
    { destruct (uniq (first :: l)) as [|a [|b r]] eqn:U; [exfalso; exact (uniq_some _ _ U)| |eauto]. exfalso. apply NE. intros p q P Q. rewrite (uniq_one _ _ U p P), (uniq_one _ _ U q Q). reflexivity. }
    assert (SH : shape ws = corners (if closed then open_end (uniq (first :: l)) else there_and_back (uniq (first :: l)))) by (destruct closed; [exact (closed_shape _ _ _ _ _ H W NE)|exact (open_shape _ _ _ _ _ H W NE (T eq_refl))]).
    rewrite SH. destruct U as (a & b & r & ->). reflexivity.
Qed.

Lemma ran_final st p o : cs_ran (ss_clip (finalize_prev st p o)) = cs_ran (ss_clip st).
Proof. unfold finalize_prev. destruct (match back _ with Some x => _ | None => false end); reflexivity. Qed.
Lemma ran_put st p i : cs_ran (ss_clip (sink_put st p i)) = cs_ran (ss_clip st).
Proof. unfold sink_put. cbn. destruct (sk_prev (ss_sink st)) as [(q, o)|]; [apply ran_final|reflexivity]. Qed.
Lemma ran_puts calls : forall st, cs_ran (ss_clip (fold_left (fun st (pi : point * Z) => sink_put st (fst pi) (Z.to_nat (snd pi))) calls st)) = cs_ran (ss_clip st).
Proof. induction calls as [|c calls IH]; intros st; [reflexivity|]. cbn [fold_left]. rewrite IH. apply ran_put. Qed.
Lemma ran_close st c log : sink_close st = Done (c, log) -> cs_ran c = cs_ran (ss_clip st).
Proof.
  unfold sink_close. destruct (sk_prev (ss_sink st)) as [(p, o)|]; [|intros H; injection H as <- _; reflexivity]. destruct (nth_error _ _) as [f|]; [|discriminate]. destruct (negb _); cbv zeta; destruct (Nat.ltb _ _); intros H; injection H as <- _; cbn; try reflexivity; apply ran_final.
Qed.

Lemma loop_same c c2 log log2 cat pt closed l : cs_points c = cs_points c2 -> cs_ran c = false -> cs_ran c2 = false -> Z.of_nat (cs_next_orig c) < 2 ^ 64 -> (closed = false -> ~ ends_thrice l) ->
  let r := offset_loop moved rotated steps negative positive lone_steps lone_rotated c log cat pt closed l in
  same_result r (add_loop c2 log2 cat pt (outline closed l)) /\ forall c' log', r = Done (c', log') -> cs_ran c' = false /\ Z.of_nat (cs_next_orig c') < 2 ^ 64.
Proof.
  intros P R R2 B T. cbv zeta. unfold offset_loop, add_loop, sink_open. rewrite R, R2. cbn [andb ss_clip].
  destruct (if closed then plan_closed positive (Z.of_nat (cs_next_orig c)) l else plan_open positive (Z.of_nat (cs_next_orig c)) l) as [(ws, e)|] eqn:PL.
  - destruct (plan_outline closed _ _ _ _ PL) as (O & E); [lia|exact T|]. rewrite <- O.
    set (a := mk_ss c _ _). set (b := mk_ss c2 _ _). assert (AB : alike a b) by (split; cbn; auto; congruence).
    pose proof (close_alike _ _ (fold_alike (flat_map emit ws) _ _ AB)) as S. destruct (sink_close (fold_left (fun st pi => _) _ a)) as [(c', l')|] eqn:CL.
    + split; [|intros c1 l1 H; injection H as <- _; cbn; apply ran_close in CL; rewrite ran_puts in CL; split; [exact (eq_trans CL R)|lia]]. destruct (sink_close (fold_left sink_put_next _ b)) as [(c3, l3)|]; [|exact S]. exact S.
    + split; [|discriminate]. exact S.
  - destruct l as [|x l]; [|destruct closed; discriminate]. cbn. split; [split; congruence|]. intros c' log' H. injection H as <- _. auto.
Qed.
Lemma all_same pt ss : forall c c2 log log2, cs_points c = cs_points c2 -> cs_ran c = false -> cs_ran c2 = false -> Z.of_nat (cs_next_orig c) < 2 ^ 64 -> no_thrice ss ->
  same_result (offset_all moved rotated steps negative positive lone_steps lone_rotated c log pt ss) (add_all c2 log2 pt (outlines moved rotated steps negative positive lone_steps lone_rotated ss)).
Proof.
  induction ss as [|((cat, closed), l) ss IH]; intros c c2 log log2 P R R2 B T; [cbn; split; congruence|]. cbn [offset_all outlines map add_all fst snd].
  destruct (loop_same c c2 log log2 cat pt closed l P R R2 B) as (S & N); [intros ->; apply (T cat l); left; reflexivity|]. destruct (offset_loop _ _ _ _ _ _ _ c log cat pt closed l) as [(c', log')|]; destruct (add_loop c2 log2 cat pt _) as [(c3, log3)|]; [|destruct S|destruct S|exact I].
  destruct (N c' log' eq_refl) as (N1 & N2). destruct S as (S1 & S2). apply IH; [exact S1|exact N1|congruence|exact N2|]. intros k m I. apply (T k m). right. exact I.
Qed.
End Outline.
