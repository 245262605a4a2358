(** Pairs of lines in the set of the sweep. *)
From Coq Require Import ZArith QArith Qminmax List Bool Arith Lia Lqa.
From Verif Require Import GeomModel GeomSpec GeomProofs SegOrder.
Import ListNotations.
Local Open Scope Z_scope.

(** * What the comparison says at the place where the later line starts *)
Definition tied (g h : cseg) : Prop := sweep_cmp_tie g h = true.
Lemma nz_pos r (b : bool) : (if negb (r =? 0) then 0 <? r else b) = true -> 0 < r \/ (r = 0 /\ b = true).
Proof. destruct (Z.eqb_spec r 0); cbn [negb]; [auto|]. intros H. apply Z.ltb_lt in H. auto. Qed.
Lemma pt_eq (p q : point) : px p = px q -> py p = py q -> p = q.
Proof. destruct p, q. cbn. congruence. Qed.

Lemma cmp_nv g h X0 : good g -> good h -> vt g = false -> vt h = false -> px (sg_pa g) <= X0 -> px (sg_pa h) <= X0 -> px (sg_pa g) = X0 \/ px (sg_pa h) = X0 ->
  sweep_cmp g h = true -> (yq h (inj X0) < yq g (inj X0))%Q \/ (yq h (inj X0) == yq g (inj X0) /\ slope h < slope g)%Q \/
    ((yq h (inj X0) == yq g (inj X0) /\ slope h == slope g)%Q /\ (sg_pa g = sg_pa h -> sg_pb g = sg_pb h -> tied g h)).
Proof.
  intros Gg Gh Vg Vh Lg Lh Or C. unfold sweep_cmp in C.
  pose proof (dxpos g Gg Vg) as Dg. pose proof (dxpos h Gh Vh) as Dh.
  destruct (Z.eqb_spec (px (sg_pa g)) (px (sg_pa h))) as [E|E].
  - assert (Eg : px (sg_pa g) = X0) by lia. assert (Eh : px (sg_pa h) = X0) by lia.
    pose proof (yq_pa g) as Pg. pose proof (yq_pa h) as Ph. unfold injX in Pg, Ph. rewrite Eg in Pg. rewrite Eh in Ph.
    apply nz_pos in C as [C|(C & C')].
    + left. rewrite Pg, Ph. apply inj_lt. lia.
    + assert (PE : sg_pa g = sg_pa h) by (apply pt_eq; lia).
      assert (SL : (yq g (injX (sg_pb h)) - injY (sg_pb h) == inj (px (sg_pb h) - px (sg_pa h)) * (slope g - slope h))%Q).
      { pose proof (yq_pb h Gh Vh) as B. rewrite <- B. rewrite (yq_aff g _ (inj X0)), (yq_aff h _ (inj X0)), Pg, Ph, PE, inj_sub. unfold injX. rewrite Eh. ring. }
      assert (EQ : (yq h (inj X0) == yq g (inj X0))%Q) by (rewrite Pg, Ph, PE; reflexivity).
      apply nz_pos in C' as [C'|(C' & C2)].
      * apply (tw_pos g (sg_pb h) Gg Vg) in C'. right. left. split; [exact EQ|]. nra.
      * apply (tw_zero g (sg_pb h) Gg Vg) in C'. right. right. split.
        -- split; [exact EQ|]. assert (Z : (inj (px (sg_pb h) - px (sg_pa h)) * (slope g - slope h) == 0)%Q) by (rewrite <- SL, C'; ring). apply Qmult_integral in Z as [Z|Z]; lra.
        -- intros _ PB. apply nz_pos in C2 as [C2|(_ & C2)]; [rewrite PB in C2; lia|exact C2].
  - destruct (Z.ltb_spec (px (sg_pa g)) (px (sg_pa h))) as [L|L].
    + assert (Eh : px (sg_pa h) = X0) by lia. pose proof (yq_pa h) as Ph. unfold injX in Ph. rewrite Eh in Ph.
      unfold vt in Vg. rewrite Vg in C. cbn [negb] in C. fold (vt g) in Vg.
      apply nz_pos in C as [C|(C & C')].
      * apply (tw_pos g (sg_pa h) Gg Vg) in C. unfold injX in C. rewrite Eh in C. left. lra.
      * apply (tw_zero g (sg_pa h) Gg Vg) in C. unfold injX in C. rewrite Eh in C. assert (EQ : (yq h (inj X0) == yq g (inj X0))%Q) by lra.
        assert (SL : (yq g (injX (sg_pb h)) - injY (sg_pb h) == inj (px (sg_pb h) - px (sg_pa h)) * (slope g - slope h))%Q).
        { pose proof (yq_pb h Gh Vh) as B. rewrite <- B. rewrite (yq_aff g _ (inj X0)), (yq_aff h _ (inj X0)), EQ, inj_sub. unfold injX. rewrite Eh. ring. }
        apply nz_pos in C' as [C'|(C' & C2)].
        -- apply (tw_pos g (sg_pb h) Gg Vg) in C'. right. left. split; [exact EQ|]. nra.
        -- apply (tw_zero g (sg_pb h) Gg Vg) in C'. right. right. split.
           ++ split; [exact EQ|]. assert (Z : (inj (px (sg_pb h) - px (sg_pa h)) * (slope g - slope h) == 0)%Q) by (rewrite <- SL, C'; ring). apply Qmult_integral in Z as [Z|Z]; lra.
           ++ intros PA. rewrite PA in E. contradiction.
    + assert (Eg : px (sg_pa g) = X0) by lia. pose proof (yq_pa g) as Pg. unfold injX in Pg. rewrite Eg in Pg.
      unfold vt in Vh. rewrite Vh in C. cbn [negb] in C. fold (vt h) in Vh. rewrite !(tw_rev (sg_pa h)) in C.
      apply nz_pos in C as [C|(C & C')].
      * assert (C2 : triangle_winding (sg_pb h) (sg_pa h) (sg_pa g) < 0) by lia. apply (tw_neg h (sg_pa g) Gh Vh) in C2. unfold injX in C2. rewrite Eg in C2. left. lra.
      * assert (C2 : triangle_winding (sg_pb h) (sg_pa h) (sg_pa g) = 0) by lia. apply (tw_zero h (sg_pa g) Gh Vh) in C2. unfold injX in C2. rewrite Eg in C2. assert (EQ : (yq h (inj X0) == yq g (inj X0))%Q) by lra.
        assert (SL : (injY (sg_pb g) - yq h (injX (sg_pb g)) == inj (px (sg_pb g) - px (sg_pa g)) * (slope g - slope h))%Q).
        { pose proof (yq_pb g Gg Vg) as B. rewrite <- B. rewrite (yq_aff g _ (inj X0)), (yq_aff h _ (inj X0)), EQ, inj_sub. unfold injX. rewrite Eg. ring. }
        apply nz_pos in C' as [C'|(C' & C3)].
        -- assert (C4 : triangle_winding (sg_pb h) (sg_pa h) (sg_pb g) < 0) by lia. apply (tw_neg h (sg_pb g) Gh Vh) in C4. right. left. split; [exact EQ|]. nra.
        -- assert (C4 : triangle_winding (sg_pb h) (sg_pa h) (sg_pb g) = 0) by lia. apply (tw_zero h (sg_pb g) Gh Vh) in C4. right. right. split.
           ++ split; [exact EQ|]. assert (Z : (inj (px (sg_pb g) - px (sg_pa g)) * (slope g - slope h) == 0)%Q) by (rewrite <- SL, C4; ring). apply Qmult_integral in Z as [Z|Z]; lra.
           ++ intros PA. rewrite PA in E. contradiction.
Qed.
Lemma cmp_v_nv g h X0 : good g -> good h -> vt g = true -> vt h = false -> px (sg_pa g) = X0 -> px (sg_pa h) <= X0 -> X0 <= px (sg_pb h) ->
  sweep_cmp g h = true -> (yq h (inj X0) < injY (sg_pa g))%Q \/ ((yq h (inj X0) == injY (sg_pa g))%Q /\ py (sg_pa g) < py (sg_pb g)).
Proof.
  intros Gg Gh Vg Vh Eg Lh Rh C. pose proof (vt_py g Gg Vg) as NY. pose proof (proj1 (vt_true g) Vg) as VX. unfold sweep_cmp in C.
  destruct (Z.eqb_spec (px (sg_pa g)) (px (sg_pa h))) as [E|E].
  - pose proof (yq_pa h) as Ph. unfold injX in Ph. rewrite <- E, Eg in Ph. apply nz_pos in C as [C|(C & C')].
    + left. rewrite Ph. apply inj_lt. lia.
    + right. split; [rewrite Ph; apply inj_eqz; lia|]. pose proof (vt_false h Gh Vh). unfold triangle_winding in C'.
      assert (Q1 : (px (sg_pa g) - px (sg_pb g)) * (py (sg_pb h) - py (sg_pb g)) - (px (sg_pb h) - px (sg_pb g)) * (py (sg_pa g) - py (sg_pb g)) = (px (sg_pb h) - px (sg_pa h)) * (py (sg_pb g) - py (sg_pa g))) by (rewrite <- VX, <- E; ring).
      rewrite Q1 in C'. apply nz_pos in C' as [C'|(C' & _)]; nia.
  - destruct (Z.ltb_spec (px (sg_pa g)) (px (sg_pa h))) as [L|L]; [lia|].
    unfold vt in Vh. rewrite Vh in C. cbn [negb] in C. fold (vt h) in Vh. rewrite !(tw_rev (sg_pa h)) in C.
    apply nz_pos in C as [C|(C & C')].
    + assert (C2 : triangle_winding (sg_pb h) (sg_pa h) (sg_pa g) < 0) by lia. apply (tw_neg h (sg_pa g) Gh Vh) in C2. unfold injX in C2. rewrite Eg in C2. left. exact C2.
    + assert (C2 : triangle_winding (sg_pb h) (sg_pa h) (sg_pa g) = 0) by lia. apply (tw_zero h (sg_pa g) Gh Vh) in C2. unfold injX in C2. rewrite Eg in C2. right. split; [exact C2|].
      apply nz_pos in C' as [C'|(C' & _)].
      * assert (C3 : triangle_winding (sg_pb h) (sg_pa h) (sg_pb g) < 0) by lia. apply (tw_neg h (sg_pb g) Gh Vh) in C3. unfold injX in C3. rewrite <- VX, Eg, C2 in C3. apply inj_lt1. exact C3.
      * assert (C3 : triangle_winding (sg_pb h) (sg_pa h) (sg_pb g) = 0) by lia. apply (tw_zero h (sg_pb g) Gh Vh) in C3. unfold injX in C3. rewrite <- VX, Eg, C2 in C3. apply inj_eq1 in C3. contradiction.
Qed.
Lemma cmp_nv_v g h X0 : good g -> good h -> vt g = false -> vt h = true -> px (sg_pa h) = X0 -> px (sg_pa g) <= X0 -> X0 <= px (sg_pb g) ->
  sweep_cmp g h = true -> (injY (sg_pa h) < yq g (inj X0))%Q \/ ((yq g (inj X0) == injY (sg_pa h))%Q /\ py (sg_pb h) < py (sg_pa h)).
Proof.
  intros Gg Gh Vg Vh Eh Lg Rg C. pose proof (vt_py h Gh Vh) as NY. pose proof (proj1 (vt_true h) Vh) as VX. unfold sweep_cmp in C.
  assert (SECOND : (yq g (inj X0) == injY (sg_pa h))%Q -> forall b, (if negb (triangle_winding (sg_pb g) (sg_pa g) (sg_pb h) =? 0) then 0 <? triangle_winding (sg_pb g) (sg_pa g) (sg_pb h) else b) = true -> py (sg_pb h) < py (sg_pa h)).
  { intros Q b H. apply nz_pos in H as [H|(H & _)].
    - apply (tw_pos g (sg_pb h) Gg Vg) in H. unfold injX in H. rewrite <- VX, Eh, Q in H. apply inj_lt1. exact H.
    - apply (tw_zero g (sg_pb h) Gg Vg) in H. unfold injX in H. rewrite <- VX, Eh, Q in H. apply inj_eq1 in H. congruence. }
  destruct (Z.eqb_spec (px (sg_pa g)) (px (sg_pa h))) as [E|E].
  - pose proof (yq_pa g) as Pg. unfold injX in Pg. rewrite E, Eh in Pg. apply nz_pos in C as [C|(C & C')].
    + left. rewrite Pg. apply inj_lt. lia.
    + right. assert (Q : (yq g (inj X0) == injY (sg_pa h))%Q) by (rewrite Pg; apply inj_eqz; lia). split; [exact Q|]. eapply SECOND; [exact Q|exact C'].
  - destruct (Z.ltb_spec (px (sg_pa g)) (px (sg_pa h))) as [L|L]; [|lia].
    unfold vt in Vg. rewrite Vg in C. cbn [negb] in C. fold (vt g) in Vg.
    apply nz_pos in C as [C|(C & C')].
    + apply (tw_pos g (sg_pa h) Gg Vg) in C. unfold injX in C. rewrite Eh in C. left. exact C.
    + apply (tw_zero g (sg_pa h) Gg Vg) in C. unfold injX in C. rewrite Eh in C. right. split; [exact C|]. eapply SECOND; [exact C|exact C'].
Qed.
Lemma cmp_v_v g h : good g -> good h -> vt g = true -> vt h = true -> px (sg_pa g) = px (sg_pa h) -> sweep_cmp g h = true ->
  py (sg_pa h) < py (sg_pa g) \/ (py (sg_pa h) = py (sg_pa g) /\ (py (sg_pb h) < py (sg_pb g) \/ (py (sg_pb h) = py (sg_pb g) /\ tied g h))).
Proof.
  intros Gg Gh Vg Vh E C. unfold sweep_cmp in C. rewrite E, Z.eqb_refl in C. apply vt_true in Vg, Vh. apply nz_pos in C as [C|(C & C')]; [lia|].
  apply nz_pos in C' as [C'|(_ & C')].
  - unfold triangle_winding in C'. replace (px (sg_pa g) - px (sg_pb g)) with 0 in C' by lia. replace (px (sg_pb h) - px (sg_pb g)) with 0 in C' by lia. lia.
  - apply nz_pos in C' as [C'|(C2 & C')]; [right; split; [lia|left; lia]|right; split; [lia|right; split; [lia|exact C']]].
Qed.

Section Marks.
(** Two points that are the same one or both marked. *)
Variable mk : nat -> nat -> Prop.
Definition at_end (g : cseg) (i : nat) (X Y : Q) : Prop :=
  (i = sg_a g /\ X == injX (sg_pa g) /\ Y == injY (sg_pa g))%Q \/ (i = sg_b g /\ X == injX (sg_pb g) /\ Y == injY (sg_pb g))%Q.
(** Vertical lines that meet end to end are not marked (intersects_parallel, 343-429). *)
Definition tie (g h : cseg) (X Y : Q) : Prop := exists i j, at_end g i X Y /\ at_end h j X Y /\ (mk i j \/ (vt g = true /\ vt h = true)).
Definition twin (g h : cseg) : Prop :=
  (sg_pa g = sg_pa h /\ sg_pb g = sg_pb h /\ mk (sg_a g) (sg_a h) /\ mk (sg_b g) (sg_b h)) \/
  (sg_pa g = sg_pb h /\ sg_pb g = sg_pa h /\ mk (sg_a g) (sg_b h) /\ mk (sg_b g) (sg_a h)).
(** They only meet at ends of both. *)
Definition only (g h : cseg) : Prop := forall X Y, on_seg (sg_pa g) (sg_pb g) X Y -> on_seg (sg_pa h) (sg_pb h) X Y -> tie g h X Y.
Definition fine (g h : cseg) : Prop := twin g h \/ only g h.
(** The order at one place. *)
Definition pt (x : Z) (g h : cseg) : Prop := (hi h x <= lo g x)%Q /\ ((hi h x == lo g x)%Q -> tie g h (inj x) (lo g x)).
Definition rel (x : Z) (g h : cseg) : Prop := twin g h \/ pt x g h.
(** The order from X0 on, up to L. *)
Definition upto (L : option Z) (x : Z) : Prop := match L with None => True | Some l => x <= l end.
Definition sep (X0 : Z) (L : option Z) (g h : cseg) : Prop := forall x, X0 <= x -> upto L x -> cover g x -> cover h x -> pt x g h.
Definition over (X0 : Z) (L : option Z) (g h : cseg) : Prop := twin g h \/ sep X0 L g h.

Lemma at_end_comp g i X Y X' Y' : (X == X')%Q -> (Y == Y')%Q -> at_end g i X Y -> at_end g i X' Y'.
Proof. intros E1 E2 [(A & B & C)|(A & B & C)]; [left|right]; (split; [exact A|]); split; lra. Qed.
Lemma tie_comp g h X Y X' Y' : (X == X')%Q -> (Y == Y')%Q -> tie g h X Y -> tie g h X' Y'.
Proof. intros E1 E2 (i & j & A & B & M). exists i, j. split; [eapply at_end_comp; eassumption|]. split; [eapply at_end_comp; eassumption|exact M]. Qed.
Lemma at_end_unique g i j X Y : good g -> at_end g i X Y -> at_end g j X Y -> i = j.
Proof.
  intros (_ & N) [(A & B & C)|(A & B & C)] [(A' & B' & C')|(A' & B' & C')]; try congruence; exfalso; apply N; apply pt_eq; apply inj_eq1; unfold injX, injY in *; lra.
Qed.
Lemma at_end_x g i x Y : at_end g i (inj x) Y -> x = px (sg_pa g) \/ x = px (sg_pb g).
Proof. intros [(_ & B & _)|(_ & B & _)]; apply inj_eq1 in B; auto. Qed.
Lemma at_end_y g i x Y : good g -> cover g x -> at_end g i (inj x) Y -> (Y == lo g x)%Q \/ (Y == hi g x)%Q.
Proof.
  intros G (L & R) A. unfold lo, hi. destruct (vt g) eqn:V.
  - destruct (Z.min_spec (py (sg_pa g)) (py (sg_pb g))) as [(Q & ->)|(Q & ->)]; destruct (Z.max_spec (py (sg_pa g)) (py (sg_pb g))) as [(Q' & ->)|(Q' & ->)]; try lia; destruct A as [(_ & _ & A)|(_ & _ & A)]; auto.
  - left. destruct A as [(_ & B & A)|(_ & B & A)]; rewrite A, (yq_comp g _ _ B); symmetry; [apply yq_pa|apply yq_pb; assumption].
Qed.
Lemma at_end_on g i X Y : good g -> at_end g i X Y -> on_seg (sg_pa g) (sg_pb g) X Y.
Proof.
  intros G [(_ & B & C)|(_ & B & C)]; [exists 0%Q|exists 1%Q]; rewrite B, C; unfold injX, injY; rewrite !inj_sub; (split; [split; lra|split; ring]).
Qed.
(** Not an end of a line: a point strictly inside. *)
Lemma inside_nv g i X Y : (injX (sg_pa g) < X < injX (sg_pb g))%Q -> ~ at_end g i X Y.
Proof. intros (A & B) [(_ & C & _)|(_ & C & _)]; lra. Qed.
Lemma inside_v g i X Y : good g -> vt g = true -> (lo g 0 < Y < hi g 0)%Q -> ~ at_end g i X Y.
Proof.
  intros G V. unfold lo, hi. rewrite V. pose proof (vt_py g G V). destruct (Z.min_spec (py (sg_pa g)) (py (sg_pb g))) as [(Q & ->)|(Q & ->)]; destruct (Z.max_spec (py (sg_pa g)) (py (sg_pb g))) as [(Q' & ->)|(Q' & ->)]; try lia;
    intros (A & B) [(_ & _ & C)|(_ & _ & C)]; unfold injY in C; lra.
Qed.

(** * Twins *)
Lemma twin_geom g h : good g -> good h -> twin g h -> vt g = vt h /\ (forall x, cover g x <-> cover h x) /\ (forall x, (lo g x == lo h x)%Q) /\ (forall x, (hi g x == hi h x)%Q).
Proof.
  intros (A & N) (B & N') [(E1 & E2 & _)|(E1 & E2 & _)].
  - unfold vt, cover, lo, hi, vt, yq. rewrite E1, E2. split; [reflexivity|]. split; [intros x; tauto|]. split; intros x; reflexivity.
  - rewrite E1, E2 in A. assert (V : px (sg_pa h) = px (sg_pb h)) by lia. assert (Vh : vt h = true) by (apply vt_true; exact V). assert (Vg : vt g = true) by (apply vt_true; congruence).
    split; [congruence|]. split; [unfold cover; rewrite E1, E2; intros; lia|]. unfold lo, hi. rewrite Vg, Vh, E1, E2. split; intros x; [rewrite Z.min_comm|rewrite Z.max_comm]; reflexivity.
Qed.
Lemma twin_end_l g h i X Y : twin g h -> at_end g i X Y -> exists j, at_end h j X Y /\ mk i j.
Proof.
  intros [(E1 & E2 & M1 & M2)|(E1 & E2 & M1 & M2)] [(-> & B & C)|(-> & B & C)]; rewrite ?E1, ?E2 in *; (eexists; split; [|eassumption]); unfold at_end; auto.
Qed.
Lemma twin_end_r g h j X Y : twin g h -> at_end h j X Y -> exists i, at_end g i X Y /\ mk i j.
Proof.
  intros [(E1 & E2 & M1 & M2)|(E1 & E2 & M1 & M2)] [(-> & B & C)|(-> & B & C)]; rewrite <- ?E1, <- ?E2 in *; (eexists; split; [|eassumption]); unfold at_end; auto.
Qed.

Hypothesis mk_trans : forall i j k, mk i j -> mk j k -> mk i k.
Hypothesis mk_refl : forall i, mk i i.
Hypothesis mk_sym : forall i j, mk i j -> mk j i.
Lemma twin_sym g h : twin g h -> twin h g.
Proof. intros [(A & B & C & D)|(A & B & C & D)]; [left|right]; repeat split; auto. Qed.
Lemma twin_trans g h k : twin g h -> twin h k -> twin g k.
Proof.
  intros [(A & B & C & D)|(A & B & C & D)] [(A' & B' & C' & D')|(A' & B' & C' & D')]; [left|right|right|left]; repeat split; try congruence; eauto.
Qed.
Lemma tie_sym g h X Y : tie g h X Y -> tie h g X Y.
Proof. intros (i & j & A & B & M). exists j, i. split; [exact B|]. split; [exact A|]. destruct M as [M|(M & M')]; auto. Qed.
Lemma tie_trans g h k X Y : good h -> vt h = false -> tie g h X Y -> tie h k X Y -> tie g k X Y.
Proof.
  intros G V (i & j & A & B & M) (j' & l & A' & B' & M'). pose proof (at_end_unique h j j' X Y G B A'). subst j'. exists i, l. split; [exact A|]. split; [exact B'|]. left.
  destruct M as [M|(_ & M)]; [|congruence]. destruct M' as [M'|(M' & _)]; [|congruence]. eapply mk_trans; eassumption.
Qed.
Lemma tie_twin_l g h k X Y : good g -> good h -> twin g h -> tie h k X Y -> tie g k X Y.
Proof.
  intros G H T (i & j & A & B & M). destruct (twin_end_r _ _ _ _ _ T A) as (i' & A' & M'). exists i', j. split; [exact A'|]. split; [exact B|].
  destruct (twin_geom g h G H T) as (V & _). rewrite V. destruct M as [M|M]; [left; eapply mk_trans; eassumption|right; exact M].
Qed.
Lemma tie_twin_r g h k X Y : good h -> good k -> tie g h X Y -> twin h k -> tie g k X Y.
Proof.
  intros G H (i & j & A & B & M) T. destruct (twin_end_l _ _ _ _ _ T B) as (j' & B' & M'). exists i, j'. split; [exact A|]. split; [exact B'|].
  destruct (twin_geom h k G H T) as (V & _). rewrite <- V. destruct M as [M|M]; [left; eapply mk_trans; eassumption|right; exact M].
Qed.
Lemma flat_nv h x : good h -> (lo h x == hi h x)%Q -> vt h = false.
Proof. intros G E. destruct (vt h) eqn:V; [|reflexivity]. exfalso. pose proof (vt_py h G V). unfold lo, hi in E. rewrite V in E. apply inj_eq1 in E. lia. Qed.

Lemma pt_twin_l x g h k : good g -> good h -> twin g h -> pt x h k -> pt x g k.
Proof.
  intros G H T (A & B). destruct (twin_geom g h G H T) as (_ & _ & L & _). split; [rewrite L; exact A|]. intros E. rewrite L in E. eapply tie_comp; [reflexivity|symmetry; apply L|]. eapply tie_twin_l; [exact G|exact H|exact T|]. apply B. exact E.
Qed.
Lemma pt_twin_r x g h k : good h -> good k -> pt x g h -> twin h k -> pt x g k.
Proof.
  intros G H (A & B) T. destruct (twin_geom h k G H T) as (_ & _ & _ & L). rewrite L in A, B. split; [exact A|]. intros E. eapply tie_twin_r; [exact G|exact H| |exact T]. apply B. exact E.
Qed.
Lemma pt_trans x g h k : good h -> pt x g h -> pt x h k -> pt x g k.
Proof.
  intros G (A & B) (A' & B'). pose proof (lo_hi h x). split; [lra|]. intros E.
  eapply tie_trans; [exact G|apply (flat_nv h x G); lra|apply B; lra|]. eapply tie_comp; [reflexivity| |apply B'; lra]. lra.
Qed.
Lemma rel_trans x g h k : good g -> good h -> good k -> rel x g h -> rel x h k -> rel x g k.
Proof.
  intros G H K [T|P] [T'|P']; [left; eapply twin_trans; eassumption|right; apply (pt_twin_l x g h k); assumption|right; apply (pt_twin_r x g h k); assumption|right; apply (pt_trans x g h k); assumption].
Qed.
Lemma over_rel X0 L x g h : over X0 L g h -> X0 <= x -> upto L x -> cover g x -> cover h x -> rel x g h.
Proof. intros [T|S] A B C D; [left; exact T|right; apply S; assumption]. Qed.
Lemma over_later X0 X1 L g h : X0 <= X1 -> over X0 L g h -> over X1 L g h.
Proof. intros LE [T|S]; [left; exact T|right]. intros x A. apply S. lia. Qed.
Lemma over_twin_l X0 L g h k : good g -> good h -> twin g h -> over X0 L h k -> over X0 L g k.
Proof.
  intros G H T [T'|S]; [left; eapply twin_trans; eassumption|right]. intros x A B C D. eapply pt_twin_l; [exact G|exact H|exact T|]. apply S; try assumption. apply (proj1 (proj2 (twin_geom g h G H T))). exact C.
Qed.
Lemma over_twin_r X0 L g h k : good h -> good k -> over X0 L g h -> twin h k -> over X0 L g k.
Proof.
  intros G H [T'|S] T; [left; eapply twin_trans; eassumption|right]. intros x A B C D. eapply pt_twin_r; [exact G|exact H| |exact T]. apply S; try assumption. apply (proj1 (proj2 (twin_geom h k G H T))). exact D.
Qed.

(** * A checked pair stays in order *)
Lemma strict_stays g h X0 x : good g -> good h -> vt g = false -> vt h = false -> only g h -> cover g X0 -> cover h X0 -> cover g x -> cover h x -> X0 < x ->
  (yq h (inj X0) < yq g (inj X0))%Q -> (yq h (inj x) <= yq g (inj x))%Q.
Proof.
  intros Gg Gh Vg Vh F (A1 & A2) (B1 & B2) (C1 & C2) (D1 & D2) L S. apply Qnot_lt_le. intros R. apply inj_lt in L.
  destruct (cross g h (inj X0) (inj x) L S R) as (X & (X1 & X2) & E).
  apply inj_le in A1, B1, C2, D2.
  destruct (F X (yq g X)) as (i & j & EA & _ & _).
  - apply on_nv; auto. unfold injX. split; [split; lra|reflexivity].
  - apply on_nv; auto. unfold injX. split; [split; lra|exact E].
  - revert EA. apply inside_nv. unfold injX. split; lra.
Qed.
Lemma only_pt g h x : good g -> good h -> cover g x -> cover h x -> only g h -> (hi h x <= lo g x)%Q -> pt x g h.
Proof.
  intros G H C D F LE. split; [exact LE|]. intros E. apply F; [apply on_at; assumption|]. apply on_between; [exact H|exact D|]. pose proof (lo_hi h x). split; lra.
Qed.
Lemma rem_over g h X0 : good g -> good h -> cover g X0 -> cover h X0 -> fine g h -> rel X0 g h ->
  px (sg_pb g) = X0 \/ px (sg_pb h) = X0 \/ (hi h X0 < lo g X0)%Q -> over X0 None g h.
Proof.
  intros Gg Gh Cg Ch [T|F] [T'|(LE & _)] OR; try (left; assumption). right. intros x A _ C D. apply only_pt; try assumption.
  apply Zle_lt_or_eq in A as [A|<-]; [|exact LE].
  destruct OR as [E|[E|S]]; [destruct C; lia|destruct D; lia|].
  assert (Vg : vt g = false) by (apply Z.eqb_neq; destruct C, Cg; lia). assert (Vh : vt h = false) by (apply Z.eqb_neq; destruct D, Ch; lia).
  unfold lo, hi in *. rewrite Vg, Vh in *. eapply strict_stays with (X0 := X0); eassumption.
Qed.
(** The comparison and the check together. *)
Lemma cmp_over g h X0 : good g -> good h -> cover g X0 -> cover h X0 -> px (sg_pa g) = X0 \/ px (sg_pa h) = X0 -> fine g h -> sweep_cmp g h = true -> over X0 None g h.
Proof.
  intros Gg Gh Cg Ch OR [T|F] C; [left; exact T|right]. pose proof Cg as (Lg & Rg). pose proof Ch as (Lh & Rh).
  assert (START : (hi h X0 <= lo g X0)%Q).
  { destruct (vt g) eqn:Vg, (vt h) eqn:Vh.
    - pose proof (proj1 (vt_true g) Vg) as Xg. pose proof (proj1 (vt_true h) Vh) as Xh.
      pose proof (vt_py g Gg Vg) as Ng. pose proof (vt_py h Gh Vh) as Nh.
      apply cmp_v_v in C; auto; [|lia]. apply Qnot_lt_le. intros R.
      assert (R' : (lo g X0 < hi h X0)%Q) by exact R. unfold lo, hi in R'. rewrite Vg, Vh in R'. apply inj_lt1 in R'.
      assert (S : Z.min (py (sg_pa h)) (py (sg_pb h)) < Z.max (py (sg_pa g)) (py (sg_pb g))) by lia.
      set (m := Z.max (Z.min (py (sg_pa g)) (py (sg_pb g))) (Z.min (py (sg_pa h)) (py (sg_pb h)))).
      set (M := Z.min (Z.max (py (sg_pa g)) (py (sg_pb g))) (Z.max (py (sg_pa h)) (py (sg_pb h)))).
      assert (MM : m < M) by (unfold m, M; lia). set (Y := ((inj m + inj M) / 2)%Q).
      assert (YB : (inj m < Y < inj M)%Q) by (apply inj_lt in MM; unfold Y; split; [apply Qlt_shift_div_l; lra|apply Qlt_shift_div_r; lra]).
      assert (Yg : (lo g 0 < Y < hi g 0)%Q).
      { unfold lo, hi. rewrite Vg. assert (inj (Z.min (py (sg_pa g)) (py (sg_pb g))) <= inj m)%Q by (apply inj_le; unfold m; lia). assert (inj M <= inj (Z.max (py (sg_pa g)) (py (sg_pb g))))%Q by (apply inj_le; unfold M; lia). split; lra. }
      assert (Yh : (lo h 0 < Y < hi h 0)%Q).
      { unfold lo, hi. rewrite Vh. assert (inj (Z.min (py (sg_pa h)) (py (sg_pb h))) <= inj m)%Q by (apply inj_le; unfold m; lia). assert (inj M <= inj (Z.max (py (sg_pa h)) (py (sg_pb h))))%Q by (apply inj_le; unfold M; lia). split; lra. }
      destruct (F (injX (sg_pa g)) Y) as (i & j & EA & _ & _).
      + apply on_v; auto. split; [reflexivity|]. split; lra.
      + apply on_v; auto. split; [unfold injX; apply inj_eqz; lia|]. split; lra.
      + revert EA. apply inside_v; assumption.
    - pose proof (proj1 (vt_true g) Vg) as Xg. assert (Eg : px (sg_pa g) = X0) by lia. apply (cmp_v_nv g h X0) in C; auto.
      apply Qnot_lt_le. intros R. assert (TOP : (hi h X0 <= hi g X0)%Q).
      { unfold hi. rewrite Vg, Vh. apply Qle_trans with (injY (sg_pa g)); [lra|]. unfold injY. apply inj_le. lia. }
      destruct (F (inj X0) (hi h X0)) as (i & j & EA & _ & _).
      + apply on_between; auto. split; lra.
      + apply on_between; auto. split; [apply lo_hi|apply Qle_refl].
      + unfold lo, hi in *. rewrite Vg, Vh in *. destruct EA as [(_ & _ & EA)|(_ & _ & EA)]; unfold injY in *.
        * destruct C as [C|(_ & C)]; [lra|]. rewrite Z.min_l in R by lia. lra.
        * destruct C as [C|(C & C')].
          -- rewrite EA in C. apply inj_lt1 in C. rewrite Z.min_r in R by lia. lra.
          -- rewrite Z.min_l in R by lia. lra.
    - pose proof (proj1 (vt_true h) Vh) as Xh. assert (Eh : px (sg_pa h) = X0) by lia. apply (cmp_nv_v g h X0) in C; auto.
      apply Qnot_lt_le. intros R. assert (BOT : (lo h X0 <= lo g X0)%Q).
      { unfold lo. rewrite Vg, Vh. apply Qle_trans with (injY (sg_pa h)); [|lra]. unfold injY. apply inj_le. lia. }
      destruct (F (inj X0) (lo g X0)) as (i & j & _ & EA & _).
      + apply on_between; auto. split; [apply Qle_refl|apply lo_hi].
      + apply on_between; auto. split; lra.
      + unfold lo, hi in *. rewrite Vg, Vh in *. destruct EA as [(_ & _ & EA)|(_ & _ & EA)]; unfold injY in *.
        * destruct C as [C|(_ & C)]; [lra|]. rewrite Z.max_l in R by lia. lra.
        * destruct C as [C|(C & C')].
          -- rewrite EA in C. apply inj_lt1 in C. rewrite Z.max_r in R by lia. lra.
          -- rewrite Z.max_l in R by lia. lra.
    - apply (cmp_nv g h X0) in C; auto. unfold lo, hi. rewrite Vg, Vh. destruct C as [C|[(C & _)|((C & _) & _)]]; lra. }
  intros x A _ Cg' Ch'. apply only_pt; try assumption. apply Zle_lt_or_eq in A as [A|<-]; [|exact START].
  assert (Vg : vt g = false) by (apply Z.eqb_neq; destruct Cg'; lia). assert (Vh : vt h = false) by (apply Z.eqb_neq; destruct Ch'; lia).
  unfold lo, hi in *. rewrite Vg, Vh in *. apply (cmp_nv g h X0) in C; auto. destruct C as [C|[(C & C')|((C & C') & _)]].
  - eapply strict_stays with (X0 := X0); eassumption.
  - rewrite (yq_aff g (inj x) (inj X0)), (yq_aff h (inj x) (inj X0)), C. apply inj_lt in A. nra.
  - rewrite (yq_aff g (inj x) (inj X0)), (yq_aff h (inj x) (inj X0)), C, C'. apply Qle_refl.
Qed.
End Marks.
