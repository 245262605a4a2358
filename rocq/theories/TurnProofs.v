(** Proofs about the choice of the next line where several start. *)
From Coq Require Import List Bool Arith ZArith QArith Lia Lqa.
From Verif Require Import GeomModel OutModel CycleProofs TurnSpec.
Import ListNotations.
Local Open Scope Z_scope.

Lemma share_le s1 m1 s2 m2 : 0 < m1 -> 0 < m2 -> s1 * m2 <= s2 * m1 -> (inject_Z s1 / inject_Z m1 <= inject_Z s2 / inject_Z m2)%Q.
Proof.
  intros P1 P2 H. rewrite Zlt_Qlt in P1, P2. rewrite Zle_Qle, !inject_Z_mult in H. change (inject_Z 0) with 0%Q in *.
  apply Qle_shift_div_l; [exact P2|]. setoid_replace (inject_Z s1 / inject_Z m1 * inject_Z m2)%Q with (inject_Z s1 * inject_Z m2 / inject_Z m1)%Q by (field; lra).
  apply Qle_shift_div_r; [exact P1|]. exact H.
Qed.
Lemma share_bounds s c : s <> 0 \/ c <> 0 -> (-1 <= inject_Z s / inject_Z (Z.abs s + Z.abs c) /\ inject_Z s / inject_Z (Z.abs s + Z.abs c) <= 1)%Q.
Proof.
  intros N. assert (P : 0 < Z.abs s + Z.abs c) by lia. assert (Q : (0 < inject_Z (Z.abs s + Z.abs c))%Q) by (change 0%Q with (inject_Z 0); rewrite <- Zlt_Qlt; exact P).
  split; [apply Qle_shift_div_l|apply Qle_shift_div_r]; try exact Q.
  - change (-1)%Q with (inject_Z (-1)). rewrite <- inject_Z_mult, <- Zle_Qle. lia.
  - change 1%Q with (inject_Z 1). rewrite <- inject_Z_mult, <- Zle_Qle. lia.
Qed.
(** The turns of two directions and the side of one relative to the other. *)
Lemma two_sides a p q r : (ahead a p q * aside a p r - aside a p q * ahead a p r) = ((px p - px a) * (px p - px a) + (py p - py a) * (py p - py a)) * triangle_winding p q r.
Proof. unfold ahead, aside, triangle_winding. ring. Qed.
Lemma side_eq a p q : triangle_winding a p q = aside a p q.
Proof. unfold triangle_winding, aside. ring. Qed.
Lemma not_both a p q : a <> p -> q <> p -> ahead a p q <> 0 \/ aside a p q <> 0.
Proof.
  destruct a as (ax, ay), p as (x, y), q as (qx, qy). unfold ahead, aside. cbn [px py fst snd]. intros A B.
  destruct (Z.eq_dec ((x - ax) * (qx - x) + (y - ay) * (qy - y)) 0) as [E1|]; [|auto]. destruct (Z.eq_dec ((x - ax) * (qy - y) - (y - ay) * (qx - x)) 0) as [E2|]; [|auto]. exfalso.
  assert (U : 0 < (x - ax) * (x - ax) + (y - ay) * (y - ay)). { destruct (Z.eq_dec x ax), (Z.eq_dec y ay); try nia. subst. congruence. }
  assert (V : 0 < (qx - x) * (qx - x) + (qy - y) * (qy - y)). { destruct (Z.eq_dec qx x), (Z.eq_dec qy y); try nia. subst. congruence. }
  pose proof (Z.mul_pos_pos _ _ U V) as W.
  replace (((x - ax) * (x - ax) + (y - ay) * (y - ay)) * ((qx - x) * (qx - x) + (qy - y) * (qy - y)))
    with (((x - ax) * (qx - x) + (y - ay) * (qy - y)) * ((x - ax) * (qx - x) + (y - ay) * (qy - y)) + ((x - ax) * (qy - y) - (y - ay) * (qx - x)) * ((x - ax) * (qy - y) - (y - ay) * (qx - x))) in W by ring.
  rewrite E1, E2 in W. lia.
Qed.
Lemma len_pos a p : a <> p -> 0 < (px p - px a) * (px p - px a) + (py p - py a) * (py p - py a).
Proof. destruct a as (ax, ay), p as (x, y). cbn [px py fst snd]. intros A. destruct (Z.eq_dec x ax), (Z.eq_dec y ay); try nia. subst. congruence. Qed.

(** Signs only. *)
Lemma right_order s1 c1 s2 c2 : 0 <= c1 -> 0 <= c2 -> 0 <= s1 * c2 - c1 * s2 -> s1 <> 0 \/ c1 <> 0 -> s2 <> 0 \/ c2 <> 0 -> ~ (c1 = 0 /\ s1 < 0 /\ c2 = 0 /\ 0 < s2) ->
  s2 * (Z.abs s1 + Z.abs c1) <= s1 * (Z.abs s2 + Z.abs c2).
Proof.
  intros C1 C2 X N1 N2 B. rewrite (Z.abs_eq c1), (Z.abs_eq c2) by assumption. destruct (Z.abs_spec s1) as [(S1 & ->)|(S1 & ->)], (Z.abs_spec s2) as [(S2 & ->)|(S2 & ->)].
  - nia.
  - assert (0 <= s1 * (- s2)) by nia. nia.
  - exfalso. destruct (Z.eq_dec c1 0) as [->|NC]; [assert (c2 = 0) by nia; lia|]. assert (P1 : 0 < c1) by lia. destruct (Z.eq_dec s2 0) as [->|NZ]; [assert (0 < c2) by lia; nia|]. assert (0 < c1 * s2) by nia. assert (s1 * c2 <= 0) by nia. lia.
  - nia.
Qed.
Lemma turn_right a p q r : a <> p -> q <> p -> r <> p -> 0 <= aside a p q -> 0 <= aside a p r -> 0 <= triangle_winding p q r -> ~ (straight_back a p q /\ straight_on a p r) -> (turn a p q <= turn a p r)%Q.
Proof.
  intros A Q R C1 C2 X B. pose proof (not_both a p q A Q) as N1. pose proof (not_both a p r A R) as N2. pose proof (two_sides a p q r) as T. pose proof (len_pos a p A) as L. unfold turn.
  destruct (Z.leb_spec 0 (aside a p q)); [|lia]. destruct (Z.leb_spec 0 (aside a p r)); [|lia].
  assert (H1 : 0 <= ahead a p q * aside a p r - aside a p q * ahead a p r) by (rewrite T; apply Z.mul_nonneg_nonneg; lia).
  assert (B' : ~ (aside a p q = 0 /\ ahead a p q < 0 /\ aside a p r = 0 /\ 0 < ahead a p r)) by (unfold straight_back, straight_on in B; tauto). pose proof (right_order _ _ _ _ C1 C2 H1 N1 N2 B') as H2. apply share_le in H2; [lra|lia|lia].
Qed.
Lemma turn_left a p q r : a <> p -> q <> p -> r <> p -> aside a p q < 0 -> aside a p r < 0 -> 0 <= triangle_winding p q r -> (turn a p q <= turn a p r)%Q.
Proof.
  intros A Q R C1 C2 X. pose proof (not_both a p q A Q) as N1. pose proof (not_both a p r A R) as N2. pose proof (two_sides a p q r) as T. pose proof (len_pos a p A) as L. unfold turn.
  destruct (Z.leb_spec 0 (aside a p q)); [lia|]. destruct (Z.leb_spec 0 (aside a p r)); [lia|].
  assert (H1 : 0 <= ahead a p q * aside a p r - aside a p q * ahead a p r) by (rewrite T; apply Z.mul_nonneg_nonneg; lia).
  assert (H2 : ahead a p q * (Z.abs (ahead a p r) + Z.abs (aside a p r)) <= ahead a p r * (Z.abs (ahead a p q) + Z.abs (aside a p q))).
  { pose proof (right_order (ahead a p r) (- aside a p r) (ahead a p q) (- aside a p q) ltac:(lia) ltac:(lia) ltac:(lia) ltac:(lia) ltac:(lia) ltac:(lia)) as H2. rewrite !Z.abs_opp in H2. exact H2. }
  apply share_le in H2; [lra|lia|lia].
Qed.
Lemma turn_sides a p q r : a <> p -> q <> p -> r <> p -> aside a p q < 0 -> 0 <= aside a p r -> (turn a p q <= turn a p r)%Q.
Proof.
  intros A Q R C1 C2. destruct (share_bounds (ahead a p q) (aside a p q) (not_both a p q A Q)) as (B1 & B2). destruct (share_bounds (ahead a p r) (aside a p r) (not_both a p r A R)) as (B3 & B4). unfold turn.
  destruct (Z.leb_spec 0 (aside a p q)); [lia|]. destruct (Z.leb_spec 0 (aside a p r)); [|lia]. lra.
Qed.
Lemma winding_swap p q r : triangle_winding p r q = - triangle_winding p q r.
Proof. unfold triangle_winding. ring. Qed.

(** ** The choice *)
Section Choice.
Variable pts : list opoint.
Variables a p : point.
Hypothesis AP : a <> p.
Variable ok : point -> Prop.
Hypothesis OKP : forall q r, ok q -> ok r -> ~ (straight_back a p q /\ straight_on a p r).
Definition fair (c : nat) : Prop := forall q, non_anchor_end_point pts c = Some q -> q <> p /\ ok q.

Lemma pick_best cands : forall cur p_cur left i b, left = (triangle_winding a p p_cur <? 0) -> p_cur <> p -> ok p_cur -> Forall fair cands ->
  pick_start pts a p cur p_cur left i cands = Some b ->
  exists q, (b = cur /\ q = p_cur \/ (i <= b)%nat /\ exists c, nth_error cands (b - i) = Some c /\ non_anchor_end_point pts c = Some q) /\
    (turn a p p_cur <= turn a p q)%Q /\ forall c' q', In c' cands -> non_anchor_end_point pts c' = Some q' -> (turn a p q' <= turn a p q)%Q.
Proof.
  induction cands as [|c cands IH]; intros cur p_cur left i b EL NP NB FA E; cbn [pick_start] in E.
  - injection E as <-. exists p_cur. split; [auto|]. split; [apply Qle_refl|]. intros c' q' [].
  - destruct (non_anchor_end_point pts c) as [p3|] eqn:E3; [|discriminate]. inversion FA as [|? ? FC FR]; subst. destruct (FC p3 E3) as (NP3 & NB3). cbv zeta in E.
    assert (STEP : if negb (if triangle_winding a p p_cur <? 0 then (triangle_winding a p p3 <? 0) && (triangle_winding p p_cur p3 <? 0) else (triangle_winding a p p3 <? 0) || (triangle_winding p p_cur p3 <? 0))
      then (turn a p p_cur <= turn a p p3)%Q else (turn a p p3 <= turn a p p_cur)%Q).
    { rewrite (side_eq a p p_cur), (side_eq a p p3). destruct (Z.ltb_spec (aside a p p_cur) 0) as [S1|S1], (Z.ltb_spec (aside a p p3) 0) as [S2|S2], (Z.ltb_spec (triangle_winding p p_cur p3) 0) as [X|X]; cbn [andb orb negb].
      - apply turn_left; try assumption. rewrite winding_swap. lia.
      - apply turn_left; assumption.
      - apply turn_sides; assumption.
      - apply turn_sides; assumption.
      - apply turn_sides; assumption.
      - apply turn_sides; assumption.
      - apply turn_right; try assumption; [rewrite winding_swap; lia|auto].
      - apply turn_right; try assumption. auto. }
    destruct (negb _).
    + apply IH in E; [|reflexivity|assumption|assumption|assumption]. destruct E as (q & [(-> & ->)|(LE & c0 & N & EN)] & T1 & T2).
      * exists p3. split; [right; split; [lia|]; exists c; rewrite Nat.sub_diag; auto|]. split; [exact STEP|]. intros c' q' [<-|I] E'; [assert (q' = p3) as -> by congruence; apply Qle_refl|eauto].
      * exists q. split; [right; split; [lia|]; exists c0; replace (b - i)%nat with (S (b - S i)) by lia; auto|]. split; [lra|]. intros c' q' [<-|I] E'; [assert (q' = p3) as -> by congruence; exact T1|eauto].
    + apply IH in E; [|reflexivity|assumption|assumption|assumption]. destruct E as (q & W & T1 & T2). exists q. split.
      * destruct W as [W|(LE & c0 & N & EN)]; [auto|]. right. split; [lia|]. exists c0. replace (b - i)%nat with (S (b - S i)) by lia. auto.
      * split; [exact T1|]. intros c' q' [<-|I] E'; [assert (q' = p3) as -> by congruence; lra|eauto].
Qed.
Lemma choose_best cands b : Forall fair cands -> choose_start pts a p cands = Some b ->
  exists c, nth_error cands b = Some c /\ forall c' q q', In c' cands -> non_anchor_end_point pts c = Some q -> non_anchor_end_point pts c' = Some q' -> (turn a p q' <= turn a p q)%Q.
Proof.
  intros FA E. destruct cands as [|c [|c2 cands]]; [discriminate| |].
  - injection E as <-. exists c. split; [reflexivity|]. intros c' q q' [<-|[]] E1 E2. assert (q' = q) as -> by congruence. apply Qle_refl.
  - unfold choose_start in E. destruct (non_anchor_end_point pts c) as [p0|] eqn:E0; [|discriminate]. inversion FA as [|? ? FC FR]; subst. destruct (FC p0 E0) as (NP & NB).
    destruct (pick_best (c2 :: cands) 0 p0 _ 1 b eq_refl NP NB FR E) as (q & [(-> & ->)|(LE & c0 & N & EN)] & T1 & T2).
    + exists c. split; [reflexivity|]. intros c' q q' I E1 E2. rewrite E0 in E1. injection E1 as <-. destruct I as [<-|I]; [assert (q' = p0) as -> by congruence; apply Qle_refl|eauto].
    + exists c0. split; [replace b with (S (b - 1)) by lia; exact N|]. intros c' q0 q' I E1 E2. assert (q0 = q) as -> by congruence. destruct I as [<-|I]; [assert (q' = p0) as -> by congruence; exact T1|eauto].
Qed.
End Choice.

(** ** Joining *)
Lemma join_keeps ends : forall pts starts pts' starts', join_ends pts starts ends = Some (pts', starts') -> forall i, ~ In i ends -> nth_error pts' i = nth_error pts i.
Proof.
  induction ends as [|e ends IH]; intros pts starts pts' starts' E i N; cbn [join_ends] in E; [injection E as <- _; reflexivity|].
  destruct (nth_error pts e) as [pe|] eqn:EE; [|discriminate]. destruct (end_point pts e) as [k|]; [|discriminate]. destruct (point_eqb (o_data pe) k); [discriminate|]. cbv zeta in E.
  destruct (choose_start _ _ _ _) as [b|]; [|discriminate]. destruct (nth_error (pm_get starts k) b) as [s|]; [|discriminate].
  rewrite (IH _ _ _ _ E i) by (intros I; apply N; right; exact I). apply put_other. intros ->. apply N. left. reflexivity.
Qed.
Lemma join_split E1 : forall pts starts e E2 r, join_ends pts starts (E1 ++ e :: E2) = Some r ->
  exists pts1 starts1, join_ends pts starts E1 = Some (pts1, starts1) /\ join_ends pts1 starts1 (e :: E2) = Some r.
Proof.
  induction E1 as [|x E1 IH]; intros pts starts e E2 r E; [exists pts, starts; auto|]. cbn [app] in E. cbn [join_ends] in E |- *.
  destruct (nth_error pts x) as [pe|]; [|discriminate]. destruct (end_point pts x) as [k|]; [|discriminate]. destruct (point_eqb (o_data pe) k); [discriminate|]. cbv zeta in E |- *.
  destruct (choose_start _ _ _ _) as [b|]; [|discriminate]. destruct (nth_error (pm_get starts k) b) as [s|]; [|discriminate]. exact (IH _ _ _ _ _ E).
Qed.
Lemma join_best pts starts E1 e E2 pts' starts' : NoDup (E1 ++ e :: E2) -> join_ends pts starts (E1 ++ e :: E2) = Some (pts', starts') ->
  exists pts1 starts1 pe p s pe', join_ends pts starts E1 = Some (pts1, starts1) /\ nth_error pts1 e = Some pe /\ end_point pts1 e = Some p /\
    nth_error pts' e = Some pe' /\ o_next pe' = s /\ In s (pm_get starts1 p) /\
    ((forall c q, In c (pm_get starts1 p) -> non_anchor_end_point pts1 c = Some q -> q <> p) ->
     (forall c c' q q', In c (pm_get starts1 p) -> In c' (pm_get starts1 p) -> non_anchor_end_point pts1 c = Some q -> non_anchor_end_point pts1 c' = Some q' ->
        ~ (straight_back (o_data pe) p q /\ straight_on (o_data pe) p q')) ->
     forall c q q', In c (pm_get starts1 p) -> non_anchor_end_point pts1 s = Some q -> non_anchor_end_point pts1 c = Some q' -> (turn (o_data pe) p q' <= turn (o_data pe) p q)%Q).
Proof.
  intros ND E. destruct (join_split E1 pts starts e E2 _ E) as (pts1 & starts1 & J1 & J2). cbn [join_ends] in J2.
  destruct (nth_error pts1 e) as [pe|] eqn:EE; [|discriminate]. destruct (end_point pts1 e) as [p|] eqn:EP; [|discriminate]. destruct (point_eqb (o_data pe) p) eqn:NE; [discriminate|]. cbv zeta in J2.
  destruct (choose_start pts1 (o_data pe) p (pm_get starts1 p)) as [b|] eqn:CH; [|discriminate]. destruct (nth_error (pm_get starts1 p) b) as [s|] eqn:NB; [|discriminate].
  assert (AP : o_data pe <> p). { intros H. rewrite H in NE. unfold point_eqb in NE. rewrite !Z.eqb_refl in NE. discriminate. }
  assert (NI : ~ In e E2). { apply NoDup_remove_2 in ND. intros I. apply ND. apply in_or_app. auto. }
  exists pts1, starts1, pe, p, s, (set_next pe s). split; [exact J1|]. split; [exact EE|]. split; [exact EP|]. split; [rewrite (join_keeps _ _ _ _ _ J2 e NI); eapply put_same'; exact EE|]. split; [destruct pe; reflexivity|]. split; [eapply nth_error_In; exact NB|].
  intros F F2 c q q' I E1' E2'. destruct (choose_best pts1 (o_data pe) p AP (fun q => exists c, In c (pm_get starts1 p) /\ non_anchor_end_point pts1 c = Some q)) with (cands := pm_get starts1 p) (b := b) as (c0 & N0 & T).
  { intros x y (cx & Ix & Nx) (cy & Iy & Ny). exact (F2 cx cy x y Ix Iy Nx Ny). }
  { apply Forall_forall. intros x X y Y. split; [exact (F x y X Y)|eauto]. }
  { exact CH. }
  assert (c0 = s) as -> by congruence. exact (T c q q' I E1' E2').
Qed.
