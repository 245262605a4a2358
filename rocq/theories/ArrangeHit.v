(** Which lines a line counts as being above itself. *)
From Coq Require Import ZArith QArith List Bool Arith Lia.
From Verif Require Import GeomModel GeomSpec BalanceModel WindSpec BalanceProofs ArrangeSpec ArrangeCore ArrangeProofs.
Import ListNotations.
Local Open Scope Z_scope.

Notation lo l := (llo (ln_e l)).
Notation hi l := (lhi (ln_e l)).
Notation sg l := (lsgn (ln_e l)).
Notation A m v := (area2 (lo m) (hi m) v).
(** v is strictly between the ends of the line and below (above) it. *)
Definition above_pt (m : line) (v : point) : bool := point_less (lo m) v && point_less v (hi m) && (0 <? A m v).
Definition below_pt (l : line) (v : point) : bool := point_less (lo l) v && point_less v (hi l) && (A l v <? 0).
(** The order in which lines with the same ends are thought to lie. *)
Definition over (m l : line) : bool :=
  if px (lo l) =? px (hi l) then (if sg l =? 1 then (sg m =? 1) && Nat.ltb (ln_i l) (ln_i m) else (sg m =? 1) || Nat.ltb (ln_i m) (ln_i l))
  else Nat.ltb (ln_i l) (ln_i m).
(** The line m is above the line l, seen from the lower and from the higher end. *)
Definition ab_lo (l m : line) : bool :=
  above_pt m (lo l) || (point_eqb (lo m) (lo l) && ((0 <? A m (hi l)) || ((A m (hi l) =? 0) && over m l))).
Definition ab_hi (l m : line) : bool :=
  above_pt m (hi l) || (point_eqb (hi m) (hi l) && ((0 <? A m (lo l)) || ((A m (lo l) =? 0) && over m l))).
Definition proper (l : line) : Prop := fst (ln_e l) <> snd (ln_e l).

Lemma eqb_lx M a b : small M a -> small M b -> point_eqb a b = (lx M a =? lx M b).
Proof.
  intros SA SB. destruct (Z.eqb_spec (lx M a) (lx M b)) as [E|E].
  - apply lx_inj in E; [|assumption..]. subst. unfold point_eqb. rewrite !Z.eqb_refl. reflexivity.
  - unfold point_eqb. destruct (Z.eqb_spec (px a) (px b)) as [X|X], (Z.eqb_spec (py a) (py b)) as [Y|Y]; try reflexivity. exfalso. apply E. unfold lx. rewrite X, Y. reflexivity.
Qed.
Theorem edge_const l m : proper l -> proper m -> apart (ln_e l) (ln_e m) ->
  f01 (ab_hi l m) - f01 (ab_lo l m) = f01 (below_pt l (lo m)) - f01 (below_pt l (hi m)).
Proof.
  intros PL PM [NE1 NE2 NX]. pose proof (lo_hi _ PL) as AB. pose proof (lo_hi _ PM) as CD. unfold strictly in *.
  unfold ab_hi, ab_lo, above_pt, below_pt. generalize (over m l). intros ov.
  set (a := lo l) in *. set (b := hi l) in *. set (c := lo m) in *. set (d := hi m) in *. destruct (small_four a b c d) as (M & SA & SB & SC & SD).
  pose proof (area_shear M a b c d a) as EA. pose proof (area_shear M a b c d b) as EB. cbn zeta in EA, EB. rewrite area_aba in EA. rewrite area_abb in EB.
  pose proof (NE1 c (or_introl eq_refl)) as NC. pose proof (NE1 d (or_intror eq_refl)) as ND. pose proof (NE2 a (or_introl eq_refl)) as NA. pose proof (NE2 b (or_intror eq_refl)) as NB. clear NE1 NE2.
  rewrite !(eqb_lx M) by assumption. rewrite !(less_lx M) in * by assumption.
  assert (SAC : lx M a = lx M c -> area2 a b c = 0 /\ area2 c d a = 0) by (intros E; apply lx_inj in E; [|assumption..]; rewrite <- E, !area_aba; auto).
  assert (SAD : lx M a = lx M d -> area2 a b d = 0 /\ area2 c d a = 0) by (intros E; apply lx_inj in E; [|assumption..]; rewrite <- E, area_aba, area_abb; auto).
  assert (SBC : lx M b = lx M c -> area2 a b c = 0 /\ area2 c d b = 0) by (intros E; apply lx_inj in E; [|assumption..]; rewrite <- E, area_aba, area_abb; auto).
  assert (SBD : lx M b = lx M d -> area2 a b d = 0 /\ area2 c d b = 0) by (intros E; apply lx_inj in E; [|assumption..]; rewrite <- E, !area_abb; auto).
  assert (EA' : (lx M b - lx M a) * area2 c d a = - ((lx M d - lx M a) * area2 a b c + (lx M a - lx M c) * area2 a b d)) by (rewrite EA; ring).
  assert (EB' : (lx M b - lx M a) * area2 c d b = - ((lx M d - lx M b) * area2 a b c + (lx M b - lx M c) * area2 a b d)) by (rewrite EB; ring).
  clear EA EB. revert AB CD EA' EB' NC ND NA NB NX SAC SAD SBC SBD.
  generalize (area2 c d a) (area2 c d b) (area2 a b c) (area2 a b d) (lx M a) (lx M b) (lx M c) (lx M d). clear.
  intros Qa Qb Pc Pd xa xb xc xd AB CD EA EB NC ND NA NB NX SAC SAD SBC SBD.
  apply (core xa xb xc xd Pc Pd Qa Qb ov); try assumption; clear EA EB NX SAC SAD SBC SBD; try lia.
Qed.

(** ** The test made by the code *)
Lemma hsign_pos l : proper l -> sg l = 1 -> 0 < hsign_of (line_delta l).
Proof.
  unfold proper, lsgn, hsign_of, line_delta, psub, point_less. intros P. destruct (ln_e l) as ((x1, y1), (x2, y2)). unfold px, py. cbn [fst snd] in *.
  destruct (Z.eqb_spec x2 x1) as [E|N], (Z.eqb_spec (x2 - x1) 0); try lia.
  - destruct (Z.ltb_spec y2 y1); [discriminate|]. intros _. assert (y1 <> y2) by (intros ->; apply P; congruence). lia.
  - destruct (Z.ltb_spec x2 x1); [discriminate|]. lia.
Qed.
Lemma hsign_neg l : sg l = -1 -> hsign_of (line_delta l) < 0.
Proof.
  unfold lsgn, hsign_of, line_delta, psub, point_less. destruct (ln_e l) as ((x1, y1), (x2, y2)). unfold px, py. cbn [fst snd] in *.
  destruct (Z.eqb_spec x2 x1) as [E|N], (Z.eqb_spec (x2 - x1) 0); try lia.
  - destruct (Z.ltb_spec y2 y1); [|discriminate]. lia.
  - destruct (Z.ltb_spec x2 x1); [|discriminate]. lia.
Qed.
Lemma edge_lo_llo e : px (fst e) <> px (snd e) -> edge_lo e = llo e /\ edge_hi e = lhi e /\ edge_sign e = lsgn e /\ px (llo e) < px (lhi e).
Proof.
  intros N. unfold edge_lo, edge_hi, edge_sign, llo, lhi, lsgn, point_less. destruct (Z.eqb_spec (px (snd e)) (px (fst e))); [lia|]. destruct (Z.ltb_spec (px (snd e)) (px (fst e))); repeat split; lia.
Qed.
(** The test for a line that is not vertical. *)
Lemma hit_flat l m : px (fst (ln_e m)) <> px (snd (ln_e m)) -> let p := fst (ln_e l) in let h := hsign_of (line_delta l) in
  lb_hit l m = ((px (lo m) <? px p) || ((px (lo m) =? px p) && (0 <=? h))) && ((px p <? px (hi m)) || ((px p =? px (hi m)) && (h <=? 0))) &&
    ((0 <? A m p) || ((A m p =? 0) && ((0 <? A m (snd (ln_e l))) || ((A m (snd (ln_e l)) =? 0) && Nat.ltb (ln_i l) (ln_i m))))).
Proof.
  intros N. cbn zeta. destruct (edge_lo_llo _ N) as (E1 & E2 & _ & LT). unfold lb_hit, up_ray, lower_angle. rewrite E1, E2. generalize (Nat.ltb (ln_i l) (ln_i m)). intros tie. generalize (hsign_of (line_delta l)). intros h.
  unfold line_delta, psub. set (p := fst (ln_e l)). set (q := snd (ln_e l)). set (c := lo m) in *. set (d := hi m) in *.
  change (px (px d - px c, py d - py c)) with (px d - px c). change (py (px d - px c, py d - py c)) with (py d - py c). change (px (px q - px p, py q - py p)) with (px q - px p). change (py (px q - px p, py q - py p)) with (py q - py p).
  destruct (Z.eqb_spec (px d - px c) 0) as [E|_]; [lia|].
  assert (S1 : area2 c d p = (py p - py c) * (px d - px c) - (px p - px c) * (py d - py c)) by (unfold area2; ring).
  assert (S2 : area2 c d q - area2 c d p = (py q - py p) * (px d - px c) - (py d - py c) * (px q - px p)) by (unfold area2; ring).
  revert S1 S2. generalize (area2 c d p) (area2 c d q) ((py p - py c) * (px d - px c)) ((px p - px c) * (py d - py c)) ((py q - py p) * (px d - px c)) ((py d - py c) * (px q - px p)). clear E1 E2 N. intros. rewrite !if_false. destruct tie; lia.
Qed.
Lemma col_sign k y a : 0 < k -> a = k * y -> (0 < a <-> 0 < y) /\ (a = 0 <-> y = 0).
Proof. intros K ->. split; split; nia. Qed.
Lemma col_lo c d p : px c < px d -> px p = px c -> (0 < area2 c d p <-> 0 < py p - py c) /\ (area2 c d p = 0 <-> py p - py c = 0).
Proof. intros L E. apply (col_sign (px d - px c)); [lia|]. unfold area2. rewrite E. ring. Qed.
Lemma col_hi c d p : px c < px d -> px p = px d -> (0 < area2 c d p <-> 0 < py p - py d) /\ (area2 c d p = 0 <-> py p - py d = 0).
Proof. intros L E. apply (col_sign (px d - px c)); [lia|]. unfold area2. rewrite E. ring. Qed.
Lemma col_vert c d p : px c = px d -> py c < py d -> (0 < area2 c d p <-> px p < px c) /\ (area2 c d p = 0 <-> px p = px c).
Proof. intros E L. destruct (col_sign (py d - py c) (px c - px p) (area2 c d p)) as (H1 & H2); [lia|unfold area2; rewrite E; ring|]. lia. Qed.
Lemma over_flat l m : proper l -> px (lo m) < px (hi m) -> A m (lo l) = 0 -> A m (hi l) = 0 -> over m l = Nat.ltb (ln_i l) (ln_i m).
Proof.
  intros PL LT E1 E2. unfold over. destruct (Z.eqb_spec (px (lo l)) (px (hi l))) as [W|W]; [exfalso|reflexivity]. pose proof (lo_hi _ PL) as LE.
  unfold point_less in LE. rewrite W, Z.eqb_refl in LE. set (p := lo l) in *. set (q := hi l) in *. set (c := lo m) in *. set (d := hi m) in *.
  assert ((px d - px c) * (py q - py p) = 0).
  { transitivity (area2 c d q - area2 c d p); [|lia]. unfold area2. rewrite W. ring. }
  assert (0 < (px d - px c) * (py q - py p)) by (apply Z.mul_pos_pos; lia). lia.
Qed.
Lemma vert_sgn e : px (fst e) = px (snd e) -> fst e <> snd e -> px (llo e) = px (lhi e) /\ py (llo e) < py (lhi e) /\ edge_sign e = 1 /\ edge_lo e = fst e /\ edge_hi e = snd e /\
  ((llo e = fst e /\ lhi e = snd e /\ lsgn e = 1 /\ (py (fst e) <? py (snd e)) = true) \/ (llo e = snd e /\ lhi e = fst e /\ lsgn e = -1 /\ (py (fst e) <? py (snd e)) = false)).
Proof.
  intros V N. pose proof (lo_hi e N) as L. assert (EV : px (llo e) = px (lhi e)) by (destruct (lo_hi_ends e) as [(-> & -> & _)|(-> & -> & _)]; lia).
  unfold point_less in L. rewrite EV, Z.eqb_refl in L. split; [exact EV|]. split; [lia|]. unfold edge_sign, edge_lo, edge_hi. rewrite V, Z.ltb_irrefl. repeat split.
  destruct (lo_hi_ends e) as [(E1 & E2 & E3)|(E1 & E2 & E3)]; rewrite E1, E2 in L; [left|right]; repeat split; try assumption; lia.
Qed.
Ltac xcase := repeat match goal with
  | |- context [if px ?a =? px ?b then _ else _] => destruct (Z.eqb_spec (px a) (px b))
  | H : context [if px ?a =? px ?b then _ else _] |- _ => destruct (Z.eqb_spec (px a) (px b))
  end.
Ltac known := repeat match goal with
  | |- context [?x <? ?y] => first [replace (x <? y) with true by lia | replace (x <? y) with false by lia]
  | |- context [?x <=? ?y] => first [replace (x <=? y) with true by lia | replace (x <=? y) with false by lia]
  | |- context [?x =? ?y] => first [replace (x =? y) with true by lia | replace (x =? y) with false by lia]
  end; cbn [andb orb negb f01].
Lemma tri x y : x < y \/ x = y \/ y < x. Proof. lia. Qed.
Ltac signed ap := first [assert (0 < ap) by lia|assert (ap = 0) by lia|assert (ap < 0) by lia].
Ltac three x y := destruct (tri x y) as [?|[?|?]].
Ltac bcase tie := xcase; repeat match goal with |- context [if ?b then 1 else 0] => destruct b eqn:? end; destruct tie; lia.
Lemma f01_eq a b : (a = true <-> b = true) -> f01 a = f01 b.
Proof. intros H. destruct a, b; try reflexivity; intuition discriminate. Qed.
Lemma eqb_pt a b : point_eqb a b = (px a =? px b) && (py a =? py b).
Proof. reflexivity. Qed.
Lemma pt_eta a b : px a = px b -> py a = py b -> a = b.
Proof. destruct a, b. unfold px, py. cbn. congruence. Qed.
(** The line m is vertical, on the column of the start of l. *)
Lemma hit_vert l m : px (fst (ln_e m)) = px (snd (ln_e m)) ->
  lb_hit l m = Nat.ltb (ln_i l) (ln_i m) && (px (fst (ln_e l)) =? px (snd (ln_e l))) && Bool.eqb (py (fst (ln_e l)) <? py (snd (ln_e l))) (py (fst (ln_e m)) <? py (snd (ln_e m))) && (py (fst (ln_e l)) =? py (fst (ln_e m))).
Proof.
  intros V. unfold lb_hit, up_ray, edge_lo, edge_hi. rewrite V, Z.ltb_irrefl. cbn zeta.
  replace (px (psub (snd (ln_e m)) (fst (ln_e m)))) with 0 by (unfold psub, px in *; cbn [fst]; lia). rewrite Z.eqb_refl. unfold vert_overlap, line_delta, psub.
  f_equal. f_equal.
  - f_equal. unfold px. cbn [fst]. lia.
  - f_equal. unfold py. cbn [fst snd]. lia.
Qed.
Theorem hit_lo l m : proper l -> sg l = 1 -> proper m -> apart (ln_e l) (ln_e m) -> spans (px (fst (ln_e l))) (ln_e m) ->
  edge_sign (ln_e m) * f01 (lb_hit l m) = sg m * f01 (ab_lo l m).
Proof.
  intros PL SL PM [NE1 NE2 NX] SP. pose proof (hsign_pos l PL SL) as H. destruct (lo_hi_ends (ln_e l)) as [(EL & EH & _)|(_ & _ & E)]; [|rewrite E in SL; discriminate]. pose proof (lo_hi _ PL) as LL.
  destruct (Z.eq_dec (px (fst (ln_e m))) (px (snd (ln_e m)))) as [V|V].
  - rewrite (hit_vert l m V). destruct (vert_sgn _ V PM) as (EV & LT & -> & _ & _ & SM). clear NE1 NE2 NX. unfold spans in SP. rewrite <- EL in *. rewrite <- EH.
    assert (PX : px (lo l) = px (lo m)) by (destruct SM as [(E1 & E2 & _)|(E1 & E2 & _)]; rewrite E1; lia). clear SP.
    unfold ab_lo, above_pt, over. rewrite SL, Z.eqb_refl, eqb_pt.
    destruct (col_vert _ _ (lo l) EV LT) as (P1 & P2). destruct (col_vert _ _ (hi l) EV LT) as (Q1 & Q2). unfold point_less in *.
    revert P1 P2 Q1 Q2. generalize (A m (lo l)) (A m (hi l)). intros ap aq P1 P2 Q1 Q2. generalize (Nat.ltb (ln_i l) (ln_i m)). intros tie.
    destruct SM as [(E1 & E2 & -> & ->)|(E1 & E2 & -> & ->)]; rewrite <- ?E1, <- ?E2; clear E1 E2; cbn [Z.eqb];
      (destruct (Z.eqb_spec (px (lo l)) (px (hi l))) as [W|W]; [|assert (aq < 0) by lia]).
    + unfold f01. bcase tie.
    + unfold f01. bcase tie.
    + unfold f01. bcase tie.
    + unfold f01. bcase tie.
  - destruct (edge_lo_llo _ V) as (_ & _ & E & LT). rewrite E. f_equal. apply f01_eq. rewrite (hit_flat l m V). cbn zeta. rewrite <- EL, <- EH.
    pose proof (NE2 _ (or_introl eq_refl)) as N. clear NE1 NE2 NX SP. unfold strictly in N. unfold ab_lo, above_pt. rewrite eqb_pt.
    pose proof (over_flat l m PL LT) as OV.
    pose proof (col_lo (lo m) (hi m) (lo l) LT) as CL. pose proof (col_hi (lo m) (hi m) (lo l) LT) as CH. unfold point_less in *.
    revert N OV CL CH LT. generalize (A m (lo l)) (A m (hi l)) (hsign_of (line_delta l)) H. clear. intros ap aq h H N OV CL CH LT. generalize dependent (over m l). generalize (Nat.ltb (ln_i l) (ln_i m)). intros tie ov OV.
    set (c := lo m) in *. set (d := hi m) in *. set (p := lo l) in *. clearbody c d p.
    assert (OV' : ap = 0 /\ aq = 0 /\ ov = tie \/ ap <> 0 \/ aq <> 0) by (destruct (Z.eq_dec ap 0), (Z.eq_dec aq 0); auto). clear OV.
    three (px p) (px c); [clear CL CH N OV'; known; tauto| |].
    + destruct CL as (C1 & C2); [assumption|]. clear CH N. three (py c) (py p); signed ap; clear C1 C2; try (clear OV'; known; tauto).
      three 0 aq; [clear OV'; known; tauto| |clear OV'; known; tauto]. assert (ov = tie) as -> by (destruct OV' as [(_ & _ & E)|[E|E]]; [exact E|lia|lia]). clear OV'. known. destruct tie; tauto.
    + clear CL OV'. three (px p) (px d).
      * clear CH. assert (ap <> 0) by (apply N; split; known; reflexivity). clear N. three 0 ap; known; tauto.
      * destruct CH as (C1 & C2); [assumption|]. clear N. three (py d) (py p); signed ap; clear C1 C2; known; tauto.
      * clear CH N. known. tauto.
Qed.
Ltac fin tie := match goal with NB : _ \/ _ \/ _, LL : _ = true, P1 : _ <-> _, P2 : _ <-> _ |- _ => clear LL P1 P2; destruct NB as [?|[?|?]]; known; destruct tie; reflexivity end.
Definition upper (p v : point) : Z := f01 ((px v =? px p) && (py v <? py p)).
Theorem hit_hi l m : proper l -> sg l = -1 -> proper m -> apart (ln_e l) (ln_e m) -> spans (px (fst (ln_e l))) (ln_e m) -> ln_i l <> ln_i m ->
  edge_sign (ln_e m) * f01 (lb_hit l m) - sg m * f01 (ab_hi l m) = upper (hi l) (snd (ln_e m)) - upper (hi l) (fst (ln_e m)).
Proof.
  intros PL SL PM [NE1 NE2 NX] SP NI. pose proof (hsign_neg l SL) as H. destruct (lo_hi_ends (ln_e l)) as [(_ & _ & E)|(EL & EH & _)]; [rewrite E in SL; discriminate|]. pose proof (lo_hi _ PL) as LL.
  pose proof (NE2 _ (or_intror eq_refl)) as N. clear NE1 NE2 NX. unfold strictly in N.
  destruct (Z.eq_dec (px (fst (ln_e m))) (px (snd (ln_e m)))) as [V|V].
  - rewrite (hit_vert l m V). destruct (vert_sgn _ V PM) as (EV & LT & -> & _ & _ & SM). unfold spans in SP. rewrite <- EH in *. rewrite <- EL.
    assert (PX : px (hi l) = px (lo m)) by (destruct SM as [(E1 & E2 & _)|(E1 & E2 & _)]; rewrite E1; lia). clear SP.
    unfold ab_hi, above_pt, over, upper. rewrite SL, eqb_pt.
    destruct (col_vert _ _ (lo l) EV LT) as (P1 & P2). destruct (col_vert _ _ (hi l) EV LT) as (Q1 & Q2). unfold point_less in *.
    revert P1 P2 Q1 Q2 N. generalize (A m (lo l)) (A m (hi l)). intros ap aq P1 P2 Q1 Q2 N. assert (TI : Nat.ltb (ln_i m) (ln_i l) = negb (Nat.ltb (ln_i l) (ln_i m))) by (destruct (Nat.ltb_spec (ln_i l) (ln_i m)), (Nat.ltb_spec (ln_i m) (ln_i l)); lia). rewrite TI. generalize (Nat.ltb (ln_i l) (ln_i m)). intros tie.
    assert (Z0 : aq = 0) by (apply Q2; exact PX). assert (NB : py (hi l) <= py (lo m) \/ py (hi l) = py (hi m) \/ py (hi m) < py (hi l)).
    { destruct (Z_le_dec (py (hi l)) (py (lo m))) as [n|n]; [left; exact n|]. destruct (Z_le_dec (py (hi m)) (py (hi l))) as [k|k]; [right; lia|]. exfalso. clear - N PX EV Z0 n k. apply N; [|exact Z0]. split; known; reflexivity. }
    clear N Q1 Q2 TI H EL EH V NI PL PM SL.
    destruct SM as [(E1 & E2 & -> & ->)|(E1 & E2 & -> & ->)]; rewrite <- ?E1, <- ?E2; clear E1 E2; cbn [Z.eqb];
      (destruct (Z.eqb_spec (px (lo l)) (px (hi l))) as [W|W]; [|assert (0 < ap) by lia]).
    + assert (ap = 0) by lia. assert (py (lo l) < py (hi l)) by (clear -LL; lia). fin tie.
    + assert (px (lo l) < px (hi l)) by (clear -LL; lia). fin tie.
    + assert (ap = 0) by lia. assert (py (lo l) < py (hi l)) by (clear -LL; lia). fin tie.
    + assert (px (lo l) < px (hi l)) by (clear -LL; lia). fin tie.
  - destruct (edge_lo_llo _ V) as (_ & _ & E & LT). rewrite E.
    assert (G : f01 (lb_hit l m) - f01 (ab_hi l m) = upper (hi l) (hi m) - upper (hi l) (lo m)); [|destruct (lo_hi_ends (ln_e m)) as [(E1 & E2 & E3)|(E1 & E2 & E3)]; rewrite E3, <- E1, <- E2; lia].
    rewrite (hit_flat l m V). cbn zeta. rewrite <- EL, <- EH.
    unfold ab_hi, above_pt, upper. rewrite eqb_pt.
    pose proof (over_flat l m PL LT) as OV.
    pose proof (col_lo (lo m) (hi m) (hi l) LT) as CL. pose proof (col_hi (lo m) (hi m) (hi l) LT) as CH. unfold point_less in *.
    revert N OV CL CH LT. generalize (A m (lo l)) (A m (hi l)) (hsign_of (line_delta l)) H. clear. intros aq ap h H N OV CL CH LT. generalize dependent (over m l). generalize (Nat.ltb (ln_i l) (ln_i m)). intros tie ov OV.
    set (c := lo m) in *. set (d := hi m) in *. set (p := hi l) in *. clearbody c d p.
    assert (OV' : aq = 0 /\ ap = 0 /\ ov = tie \/ ap <> 0 \/ aq <> 0) by (destruct (Z.eq_dec ap 0), (Z.eq_dec aq 0); auto). clear OV.
    three (px p) (px c); [clear CL CH N OV'; known; reflexivity| |].
    + destruct CL as (C1 & C2); [assumption|]. clear CH N OV'. three (py c) (py p); signed ap; clear C1 C2; known; reflexivity.
    + clear CL. three (px p) (px d).
      * clear CH. assert (ap <> 0) by (apply N; split; known; reflexivity). clear N OV'. three 0 ap; known; reflexivity.
      * destruct CH as (C1 & C2); [assumption|]. clear N. three (py d) (py p); signed ap; clear C1 C2; try (clear OV'; known; reflexivity).
        three 0 aq; [clear OV'; known; reflexivity| |clear OV'; known; reflexivity]. assert (ov = tie) as -> by (destruct OV' as [(_ & _ & E)|[E|E]]; [exact E|lia|lia]). clear OV'. known. destruct tie; reflexivity.
      * clear CH N OV'. known. reflexivity.
Qed.
