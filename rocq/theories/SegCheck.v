(** What a check of two lines that splits none says about them. *)
From Coq Require Import ZArith QArith List Bool Arith Lia Lqa.
From Verif Require Import GeomModel GeomSpec GeomProofs IsectProofs GeomFinal SegOrder SegPair ClipModel.
Import ListNotations.
Local Open Scope Z_scope.
Notation inj := inject_Z.

(** The number of the end at which an edge marker is. *)
Definition idx (e : at_edge) (g : cseg) : nat := if at_edge_eqb e AEstart then sg_a g else sg_b g.
Definition loc (e : at_edge) (g : cseg) : point := if at_edge_eqb e AEstart then sg_pa g else sg_pb g.
(** Ends with the same number are at the same place. *)
Definition agree (g h : cseg) : Prop :=
  (sg_a g = sg_a h -> sg_pa g = sg_pa h) /\ (sg_a g = sg_b h -> sg_pa g = sg_pb h) /\ (sg_b g = sg_a h -> sg_pb g = sg_pa h) /\ (sg_b g = sg_b h -> sg_pb g = sg_pb h).
(** Neither of two lines that are not vertical ends where the other starts, or before. *)
Definition wide (g h : cseg) : Prop := vt g = false -> vt h = false -> px (sg_pa g) < px (sg_pb h) /\ px (sg_pa h) < px (sg_pb g).

Section Check.
Variable mk : nat -> nat -> Prop.
Hypothesis mk_refl : forall i, mk i i.

Lemma at_loc e g : good g -> at_end g (idx e g) (injX (loc e g)) (injY (loc e g)).
Proof. intros G. unfold idx, loc. destruct (at_edge_eqb e AEstart); [left|right]; repeat split; reflexivity. Qed.
Lemma on_loc e g : good g -> on_seg (sg_pa g) (sg_pb g) (injX (loc e g)) (injY (loc e g)).
Proof. intros G. eapply at_end_on; [exact G|apply at_loc; exact G]. Qed.
(** Lines that are not parallel and have a common end. *)
Lemma only_shared e1 e2 g h : good g -> good h -> dir_cross (sg_pa g) (sg_pb g) (sg_pa h) (sg_pb h) <> 0 -> loc e1 g = loc e2 h -> mk (idx e1 g) (idx e2 h) -> only mk g h.
Proof.
  intros G H D L M X Y A B. pose proof (on_loc e1 g G) as A'. pose proof (on_loc e2 h H) as B'. rewrite <- L in B'.
  destruct (meet_unique _ _ _ _ _ _ _ _ D A B A' B') as (E1 & E2). exists (idx e1 g), (idx e2 h). split; [eapply at_end_comp; [symmetry; exact E1|symmetry; exact E2|apply at_loc; exact G]|].
  split; [|left; exact M]. rewrite L in E1, E2. eapply at_end_comp; [symmetry; exact E1|symmetry; exact E2|apply at_loc; exact H].
Qed.
Lemma cross_vt g h : good g -> good h -> dir_cross (sg_pa g) (sg_pb g) (sg_pa h) (sg_pb h) = 0 -> vt g = vt h.
Proof.
  intros G H D. unfold dir_cross in D. destruct (vt g) eqn:Vg, (vt h) eqn:Vh; try reflexivity; exfalso.
  - pose proof (vt_py g G Vg). apply vt_true in Vg. pose proof (vt_false h H Vh). replace (px (sg_pb g) - px (sg_pa g)) with 0 in D by lia. assert ((py (sg_pb g) - py (sg_pa g)) * (px (sg_pb h) - px (sg_pa h)) = 0) as Z by lia. apply Z.mul_eq_0 in Z. lia.
  - pose proof (vt_py h H Vh). apply vt_true in Vh. pose proof (vt_false g G Vg). replace (px (sg_pb h) - px (sg_pa h)) with 0 in D by lia. assert ((px (sg_pb g) - px (sg_pa g)) * (py (sg_pb h) - py (sg_pa h)) = 0) as Z by lia. apply Z.mul_eq_0 in Z. lia.
Qed.
Lemma cross_slope g h : good g -> good h -> vt g = false -> vt h = false -> dir_cross (sg_pa g) (sg_pb g) (sg_pa h) (sg_pb h) = 0 -> (slope g == slope h)%Q.
Proof.
  intros G H Vg Vh D. pose proof (slope_dx g G Vg) as Sg. pose proof (slope_dx h H Vh) as Sh. pose proof (dxpos g G Vg) as Pg. pose proof (dxpos h H Vh) as Ph.
  assert (E : (inj (px (sg_pb g) - px (sg_pa g)) * inj (py (sg_pb h) - py (sg_pa h)) == inj (py (sg_pb g) - py (sg_pa g)) * inj (px (sg_pb h) - px (sg_pa h)))%Q).
  { rewrite <- !inject_Z_mult. apply inj_eqz. unfold dir_cross in D. lia. }
  rewrite <- Sg, <- Sh in E. set (a := inj (px (sg_pb g) - px (sg_pa g))) in *. set (b := inj (px (sg_pb h) - px (sg_pa h))) in *.
  assert (Z : (a * b * (slope h - slope g) == 0)%Q) by lra. apply Qmult_integral in Z as [Z|Z]; [|lra]. apply Qmult_integral in Z as [Z|Z]; lra.
Qed.
(** Parallel lines that do not overlap. *)
Lemma apart_only g h : good g -> good h -> wide g h -> dir_cross (sg_pa g) (sg_pb g) (sg_pa h) (sg_pb h) = 0 -> ~ overlap g h -> only mk g h.
Proof.
  intros G H W D NO X Y A B. pose proof (cross_vt g h G H D) as V. destruct (vt g) eqn:Vg; symmetry in V.
  - pose proof (proj1 (on_v g X Y G Vg) A) as (XA & LA & RA). pose proof (proj1 (on_v h X Y H V) B) as (XB & LB & RB).
    pose proof (vt_py g G Vg) as Ng. pose proof (vt_py h H V) as Nh. unfold lo, hi in *. rewrite Vg, V in *.
    set (gl := Z.min (py (sg_pa g)) (py (sg_pb g))) in *. set (gh := Z.max (py (sg_pa g)) (py (sg_pb g))) in *.
    set (hl := Z.min (py (sg_pa h)) (py (sg_pb h))) in *. set (hh := Z.max (py (sg_pa h)) (py (sg_pb h))) in *.
    assert (ONE : forall y1 y2, y1 < y2 -> gl <= y1 -> hl <= y1 -> y2 <= gh -> y2 <= hh -> False).
    { intros y1 y2 LT B1 B2 B3 B4. apply NO. exists X, (inj y1), X, (inj y2).
      repeat split; [apply on_v|apply on_v|apply on_v|apply on_v|]; auto; unfold lo, hi; rewrite ?Vg, ?V; fold gl gh hl hh.
      1-4: (split; [assumption|]; split; apply inj_le; lia).
      intros (_ & Z). apply inj_eq1 in Z. lia. }
    assert (gl < gh) by (unfold gl, gh; lia). assert (hl < hh) by (unfold hl, hh; lia).
    assert (gl <= hh) by (apply inj_le1; lra). assert (hl <= gh) by (apply inj_le1; lra).
    assert (C : gl = hh \/ hl = gh). { destruct (Z.eq_dec gl hh); [auto|]. destruct (Z.eq_dec hl gh); [auto|]. exfalso. apply (ONE (Z.max gl hl) (Z.min gh hh)); lia. }
    assert (ENDS : forall k y, good k -> vt k = true -> (X == injX (sg_pa k))%Q -> (Y == inj y)%Q -> y = Z.min (py (sg_pa k)) (py (sg_pb k)) \/ y = Z.max (py (sg_pa k)) (py (sg_pb k)) -> exists i, at_end k i X Y).
    { intros k y K Vk Xk YE M. apply vt_true in Vk. assert (M' : y = py (sg_pa k) \/ y = py (sg_pb k)) by lia. destruct M' as [->| ->].
      - exists (sg_a k). left. auto.
      - exists (sg_b k). right. split; [reflexivity|]. split; [|exact YE]. unfold injX in *. rewrite <- Vk. exact Xk. }
    destruct C as [C|C].
    + assert (YE : (Y == inj gl)%Q) by (rewrite <- C in RB; lra). destruct (ENDS g gl G Vg XA YE) as (i & Ai); [left; reflexivity|]. destruct (ENDS h gl H V XB YE) as (j & Aj); [right; exact C|]. exists i, j. auto.
    + assert (YE : (Y == inj hl)%Q) by (rewrite <- C in RA; lra). destruct (ENDS g hl G Vg XA YE) as (i & Ai); [right; exact C|]. destruct (ENDS h hl H V XB YE) as (j & Aj); [left; reflexivity|]. exists i, j. auto.
  - exfalso. pose proof (cross_slope g h G H Vg V D) as SL. destruct (W Vg V) as (W1 & W2). pose proof (vt_false g G Vg) as W3. pose proof (vt_false h H V) as W4.
    apply on_nv in A as (_ & YA); auto. apply on_nv in B as (_ & YB); auto.
    assert (SAME : forall x, (yq g x == yq h x)%Q) by (intros x; rewrite (yq_aff g x X), (yq_aff h x X), <- YA, <- YB, SL; reflexivity).
    apply NO. set (m := Z.max (px (sg_pa g)) (px (sg_pa h))). set (M := Z.min (px (sg_pb g)) (px (sg_pb h))). assert (LT : m < M) by (unfold m, M; lia).
    exists (inj m), (yq g (inj m)), (inj M), (yq g (inj M)).
    repeat split; [apply on_nv|apply on_nv|apply on_nv|apply on_nv|]; auto; unfold injX.
    1-4: (split; [split; apply inj_le; unfold m, M in *; lia|first [reflexivity|apply SAME]]).
    intros (Z & _). apply inj_eq1 in Z. lia.
Qed.
Lemma sv_dec g h : {same_vertices g h} + {~ same_vertices g h}.
Proof.
  assert (PD : forall p q : point, {p = q} + {p <> q}) by (intros p q; repeat decide equality).
  unfold same_vertices.
  destruct (PD (sg_pa g) (sg_pa h)), (PD (sg_pb g) (sg_pb h)), (Nat.eq_dec (sg_a g) (sg_a h)), (Nat.eq_dec (sg_b g) (sg_b h)); try (left; tauto);
  destruct (PD (sg_pa g) (sg_pb h)), (PD (sg_pb g) (sg_pa h)), (Nat.eq_dec (sg_a g) (sg_b h)), (Nat.eq_dec (sg_b g) (sg_a h)); try (left; tauto); right; tauto.
Qed.
Definition is_end (e : at_edge) : Prop := e = AEstart \/ e = AEend.
Lemma parallel_ends g h c e1 e2 : intersects_parallel g h = Some (c, e1, e2) -> is_end e1 -> is_end e2 ->
  exists p, c = Some p /\ ((e1 = AEstart /\ e2 = AEstart /\ sg_b g = sg_b h) \/ (e1 = AEend /\ e2 = AEend /\ sg_a g = sg_a h) \/
    (e1 = AEstart /\ e2 = AEend /\ sg_b g = sg_a h) \/ (e1 = AEend /\ e2 = AEstart /\ sg_a g = sg_b h)).
Proof.
  intros I A B. unfold intersects_parallel in I.
  repeat match type of I with context [if ?b then _ else _] => destruct b eqn:? end; try discriminate; injection I as <- <- <-;
    destruct A as [A|A], B as [B|B]; try discriminate; eexists; (split; [reflexivity|]); rewrite ?negb_false_iff, ?Nat.eqb_eq in *; auto 10.
Qed.
Lemma edge_loc e g p : is_end e -> edge_ok e (sg_pa g) (sg_pb g) p -> p = loc e g.
Proof. intros [->| ->]; cbn; auto. Qed.

(** The results that split no line. *)
Lemma isect_fine rx ry g h : good g -> good h -> agree g h -> wide g h ->
  match intersects rx ry g h with
  | None => fine mk g h
  | Some (_, e1, e2) => e1 = AEno \/ e2 = AEno \/
      (e1 = AEboth /\ e2 = AEboth /\ ((forall i j, (i = sg_a g \/ i = sg_b g) -> (j = sg_a h \/ j = sg_b h) -> mk i j) -> fine mk g h)) \/
      (is_end e1 /\ is_end e2 /\ (mk (idx e1 g) (idx e2 h) -> fine mk g h))
  end.
Proof.
  intros G H (AG1 & AG2 & AG3 & AG4) W. destruct (Z.eq_dec (dir_cross (sg_pa g) (sg_pb g) (sg_pa h) (sg_pb h)) 0) as [D|D].
  - destruct (parallel_final rx ry g h (proj2 G) (proj2 H) D) as (IFF & PT & NO).
    destruct (intersects rx ry g h) as [((c, e1), e2)|] eqn:E.
    + destruct c as [p|].
      * destruct (PT p e1 e2 eq_refl) as (O1 & O2 & E1 & E2 & _).
        destruct e1; auto; destruct e2; auto; try contradiction; right; right; right; (split; [unfold is_end; auto|]); (split; [unfold is_end; auto|]); intros M; left.
        all: assert (IP : intersects_parallel g h = intersects rx ry g h) by (unfold intersects; replace ((px (sg_pa g) - px (sg_pb g)) * (py (sg_pa h) - py (sg_pb h)) - (py (sg_pa g) - py (sg_pb g)) * (px (sg_pa h) - px (sg_pb h))) with (dir_cross (sg_pa g) (sg_pb g) (sg_pa h) (sg_pb h)) by (unfold dir_cross; ring); rewrite D; reflexivity).
        all: rewrite E in IP; destruct (parallel_ends _ _ _ _ _ IP ltac:(unfold is_end; auto) ltac:(unfold is_end; auto)) as (_ & _ & [(X1 & X2 & X3)|[(X1 & X2 & X3)|[(X1 & X2 & X3)|(X1 & X2 & X3)]]]); try discriminate; cbn in E1, E2; unfold idx in M; cbn [at_edge_eqb] in M.
        -- left. split; [congruence|]. split; [auto|]. split; [exact M|]. rewrite X3. apply mk_refl.
        -- right. split; [congruence|]. split; [auto|]. split; [exact M|]. rewrite X3. apply mk_refl.
        -- right. split; [auto|]. split; [congruence|]. split; [rewrite X3; apply mk_refl|exact M].
        -- left. split; [auto|]. split; [congruence|]. split; [rewrite X3; apply mk_refl|exact M].
      * destruct (NO e1 e2 eq_refl) as (-> & -> & CO). right. right. left. split; [reflexivity|]. split; [reflexivity|]. intros M. left.
        destruct CO as [(P1 & P2 & _)|(P1 & P2 & _)]; [left|right]; repeat split; auto.
    + destruct (sv_dec g h) as [SV|NSV].
      * left. destruct SV as [(P1 & P2 & P3 & P4)|(P1 & P2 & P3 & P4)]; [left|right]; repeat split; auto; rewrite ?P3, ?P4; apply mk_refl.
      * right. apply apart_only; auto. intros O. destruct (proj2 IFF (conj O NSV)) as (r & Q). discriminate.
  - destruct (Nat.eq_dec (sg_a g) (sg_a h)) as [Q1|N1]; [|destruct (Nat.eq_dec (sg_a g) (sg_b h)) as [Q2|N2]; [|destruct (Nat.eq_dec (sg_b g) (sg_a h)) as [Q3|N3]; [|destruct (Nat.eq_dec (sg_b g) (sg_b h)) as [Q4|N4]]]].
    1-4: unfold intersects; replace ((px (sg_pa g) - px (sg_pb g)) * (py (sg_pa h) - py (sg_pb h)) - (py (sg_pa g) - py (sg_pb g)) * (px (sg_pa h) - px (sg_pb h))) with (dir_cross (sg_pa g) (sg_pb g) (sg_pa h) (sg_pb h)) by (unfold dir_cross; ring); destruct (Z.eqb_spec (dir_cross (sg_pa g) (sg_pb g) (sg_pa h) (sg_pb h)) 0) as [Z|_]; [contradiction|].
    + rewrite Q1, Nat.eqb_refl. cbn [orb]. right. apply (only_shared AEstart AEstart); cbn; auto. rewrite Q1. apply mk_refl.
    + rewrite Q2, Nat.eqb_refl, !orb_true_r. cbn [orb]. right. apply (only_shared AEstart AEend); cbn; auto. unfold idx. cbn. rewrite Q2. apply mk_refl.
    + rewrite Q3, Nat.eqb_refl, !orb_true_r. cbn [orb]. right. apply (only_shared AEend AEstart); cbn; auto. unfold idx. cbn. rewrite Q3. apply mk_refl.
    + rewrite Q4, Nat.eqb_refl, !orb_true_r. right. apply (only_shared AEend AEend); cbn; auto. unfold idx. cbn. rewrite Q4. apply mk_refl.
    + assert (NS : no_shared g h) by (unfold no_shared; auto). destruct (intersects rx ry g h) as [((c, e1), e2)|] eqn:E.
      * rewrite (intersects_np rx ry g h NS D) in E. destruct (isect_np_point _ _ _ _ _ _ _ D E) as (p & e1' & e2' & X & Y & Q & O1 & O2 & _ & E1 & E2). injection Q as -> -> ->.
        destruct e1'; auto; destruct e2'; auto; try contradiction; right; right; right; (split; [unfold is_end; auto|]); (split; [unfold is_end; auto|]); intros M; right;
          match goal with |- only _ _ _ => match type of M with mk (idx ?a _) (idx ?b _) => apply (only_shared a b); auto; cbn in E1, E2 |- *; congruence end end.
      * right. intros X Y A B. exfalso. destruct (proj2 (intersects_iff_meet rx ry g h NS D)) as (r & Q); [exists X, Y; auto|congruence].
Qed.
End Check.
