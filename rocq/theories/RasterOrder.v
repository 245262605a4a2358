(** The order of the events of the rasteriser. *)
From Coq Require Import List Bool Arith ZArith QArith Lia Lqa.
From Verif Require Import GeomModel RasterModel RasterSpec RasterArith.
From Verif Require EventsSpec.
Import ListNotations.
Local Open Scope Z_scope.

Record good_cmp {A} (c : A -> A -> comparison) : Prop := {
  gc_sym : forall x y, c y x = CompOpp (c x y);
  gc_trans : forall x y z, c x y <> Gt -> c y z <> Gt -> c x z <> Gt }.
Definition lex {A B} (c : A -> A -> comparison) (d : B -> B -> comparison) (x y : A * B) : comparison :=
  match c (fst x) (fst y) with Eq => d (snd x) (snd y) | r => r end.
Lemma gc_mixed {A} (c : A -> A -> comparison) x y z : good_cmp c -> c x y = Lt -> c y z <> Gt -> c x z = Lt.
Proof.
  intros (S & T) L G. assert (N : c x z <> Gt) by (apply (T x y z); [rewrite L; discriminate|exact G]).
  destruct (c x z) eqn:E; [|reflexivity|congruence]. exfalso.
  assert (c y x <> Gt) as X by (apply (T y z x); [exact G|rewrite (S x z), E; discriminate]). rewrite (S x y), L in X. cbn in X. congruence.
Qed.
Lemma gc_mixed' {A} (c : A -> A -> comparison) x y z : good_cmp c -> c x y <> Gt -> c y z = Lt -> c x z = Lt.
Proof.
  intros (S & T) G L. assert (N : c x z <> Gt) by (apply (T x y z); [exact G|rewrite L; discriminate]).
  destruct (c x z) eqn:E; [|reflexivity|congruence]. exfalso.
  assert (c z y <> Gt) as X by (apply (T z x y); [rewrite (S x z), E; discriminate|exact G]). rewrite (S y z), L in X. cbn in X. congruence.
Qed.
Lemma gc_eq {A} (c : A -> A -> comparison) x y z : good_cmp c -> c x y = Eq -> c y z = Eq -> c x z = Eq.
Proof.
  intros (S & T) E F. assert (c x z <> Gt) as A1 by (apply (T x y z); congruence).
  assert (c z x <> Gt) as A2 by (apply (T z y x); rewrite S, ?E, ?F; discriminate). rewrite (S x z) in A2. destruct (c x z); cbn in *; congruence.
Qed.
Lemma lex_good {A B} (c : A -> A -> comparison) (d : B -> B -> comparison) : good_cmp c -> good_cmp d -> good_cmp (lex c d).
Proof.
  intros C D. split.
  - intros (x1, x2) (y1, y2). unfold lex. cbn. rewrite (gc_sym c C x1 y1). destruct (c x1 y1); cbn; [apply (gc_sym d D)|reflexivity|reflexivity].
  - intros (x1, x2) (y1, y2) (z1, z2). unfold lex. cbn. intros A1 A2.
    destruct (c x1 y1) eqn:E1; [|rewrite (gc_mixed c x1 y1 z1 C E1); [discriminate|destruct (c y1 z1); congruence]|congruence].
    destruct (c y1 z1) eqn:E2; [|rewrite (gc_mixed' c x1 y1 z1 C); [discriminate|congruence|exact E2]|congruence].
    rewrite (gc_eq c x1 y1 z1 C E1 E2). apply (gc_trans d D _ y2); assumption.
Qed.
Lemma Z_good : good_cmp Z.compare.
Proof. split; [intros; apply Z.compare_antisym|]. intros x y z. rewrite !Z.compare_gt_iff. lia. Qed.
Lemma nat_good : good_cmp Nat.compare.
Proof. split; [intros; apply Nat.compare_antisym|]. intros x y z. rewrite !Nat.compare_gt_iff. lia. Qed.
Lemma Q_good : good_cmp Qcompare.
Proof.
  split; [intros; symmetry; apply Qcompare_antisym|]. intros x y z A B. apply (proj2 (Qle_alt x y)) in A. apply (proj2 (Qle_alt y z)) in B. apply (proj1 (Qle_alt x z)). apply (Qle_trans _ y); assumption.
Qed.

(** What the comparison looks at. *)
Definition height : Type := Z * Q.
Definition cmp_h : height -> height -> comparison := lex Z.compare Qcompare.
Definition rkey : Type := height * (nat * (nat * nat)).
Definition cmp_k : rkey -> rkey -> comparison := lex cmp_h (lex Nat.compare (lex Nat.compare Nat.compare)).
Definition lt_k (x y : rkey) : bool := match cmp_k x y with Lt => true | _ => false end.
Definition wf_h (w : wfrac) : height := (wf_whole w, frac_val (wf_frac w)).
Definition ev_h (e : revent) : height := if is_swap e then wf_h (re_intr e) else (re_y e, 0%Q).
Definition key (e : revent) : rkey := (ev_h e, (rrank (re_type e), (re_a e, re_b e))).
Definition valid (e : revent) : Prop := is_swap e = true -> frac_valid (wf_frac (re_intr e)).

Lemma cmp_h_good : good_cmp cmp_h.
Proof. apply lex_good; [apply Z_good|apply Q_good]. Qed.
Lemma cmp_k_good : good_cmp cmp_k.
Proof. unfold cmp_k. apply lex_good; [apply cmp_h_good|]. apply lex_good; [apply nat_good|]. apply lex_good; apply nat_good. Qed.
Lemma key_swo : EventsSpec.strict_weak_order rkey lt_k.
Proof.
  split.
  - intros x y. unfold lt_k. rewrite (gc_sym _ cmp_k_good x y). destruct (cmp_k x y); cbn; congruence.
  - intros x y z. unfold lt_k. intros A B. destruct (cmp_k x z) eqn:E; try reflexivity. exfalso.
    assert (C : cmp_k z x = Gt) by (rewrite (gc_sym _ cmp_k_good x z), E; reflexivity).
    apply (gc_trans _ cmp_k_good z y x); [|rewrite (gc_sym _ cmp_k_good x y); destruct (cmp_k x y); cbn; congruence|exact C].
    rewrite (gc_sym _ cmp_k_good y z); destruct (cmp_k y z); cbn; congruence.
Qed.

Lemma wf_cmp_h a b : frac_valid (wf_frac a) -> frac_valid (wf_frac b) -> wf_cmp a b = cmp_h (wf_h a) (wf_h b).
Proof. intros A B. unfold wf_cmp, cmp_h, lex, wf_h. cbn. rewrite frac_cmp_val by assumption. destruct (wf_whole a ?= wf_whole b); reflexivity. Qed.
Lemma wf_cmp_int_h a y : frac_valid (wf_frac a) -> wf_cmp_int a y = cmp_h (wf_h a) (y, 0%Q).
Proof. intros A. unfold wf_cmp_int, cmp_h, lex, wf_h. cbn. rewrite frac_cmp_int_val by assumption. destruct (wf_whole a ?= y); reflexivity. Qed.
Lemma revent_ord_h x y : valid x -> valid y -> revent_ord x y = cmp_h (ev_h x) (ev_h y).
Proof.
  unfold valid, revent_ord, ev_h. intros A B. destruct (is_swap x), (is_swap y).
  - apply wf_cmp_h; auto.
  - apply wf_cmp_int_h; auto.
  - rewrite wf_cmp_int_h by auto. rewrite <- (gc_sym _ cmp_h_good). reflexivity.
  - unfold cmp_h, lex. cbn. destruct (re_y x ?= re_y y); reflexivity.
Qed.
Lemma nat_ltb_compare a b : Nat.ltb a b = match Nat.compare a b with Lt => true | _ => false end.
Proof. destruct (Nat.compare_spec a b), (Nat.ltb_spec a b); lia || reflexivity. Qed.
Lemma revent_lt_key x y : valid x -> valid y -> revent_lt x y = lt_k (key x) (key y).
Proof.
  intros A B. unfold revent_lt, lt_k, cmp_k, key, rtype_eqb. rewrite revent_ord_h by assumption. unfold lex at 1. cbn [fst snd].
  destruct (cmp_h (ev_h x) (ev_h y)); try reflexivity. unfold lex at 1. cbn [fst snd].
  destruct (Nat.compare_spec (rrank (re_type x)) (rrank (re_type y))) as [E|E|E].
  - rewrite E, Nat.eqb_refl. cbn [negb]. unfold lex. cbn [fst snd]. destruct (Nat.compare_spec (re_a x) (re_a y)) as [F|F|F].
    + rewrite F, Nat.eqb_refl. cbn [negb]. apply nat_ltb_compare.
    + destruct (Nat.eqb_spec (re_a x) (re_a y)); [lia|]. cbn. apply Nat.ltb_lt. exact F.
    + destruct (Nat.eqb_spec (re_a x) (re_a y)); [lia|]. cbn. apply Nat.ltb_ge. lia.
  - destruct (Nat.eqb_spec (rrank (re_type x)) (rrank (re_type y))); [lia|]. cbn [negb]. apply Nat.ltb_lt. exact E.
  - destruct (Nat.eqb_spec (rrank (re_type x)) (rrank (re_type y))); [lia|]. cbn [negb]. apply Nat.ltb_ge. lia.
Qed.
Lemma at_or_before_h e y : valid e -> (at_or_before e y = true <-> cmp_h (ev_h e) (y, 0%Q) <> Gt).
Proof.
  unfold valid, at_or_before, ev_h. intros A. destruct (is_swap e).
  - rewrite wf_cmp_int_h by auto. destruct (cmp_h _ _); split; congruence.
  - unfold cmp_h, lex. cbn. destruct (Z.compare_spec (re_y e) y), (Z.leb_spec (re_y e) y); split; try congruence; try lia.
Qed.

(** The order follows the exact heights. *)
Definition in_unit (w : wfrac) : Prop := frac_valid (wf_frac w) /\ 0 <= fr_num (wf_frac w) <= fr_den (wf_frac w).
Definition ev_height (e : revent) : Q := if is_swap e then wf_val (re_intr e) else inject_Z (re_y e).
Definition ev_unit (e : revent) : Prop := is_swap e = true -> in_unit (re_intr e).
Lemma ev_unit_valid e : ev_unit e -> valid e.
Proof. intros A B. destruct (A B). assumption. Qed.
Lemma unit_bounds f : frac_valid f -> 0 <= fr_num f <= fr_den f -> (0 <= frac_val f /\ frac_val f <= 1)%Q.
Proof. unfold frac_valid, frac_val, Qle. cbn. intros H B. rewrite Z2Pos.id by lia. lia. Qed.
Lemma cmp_h_value x y : (0 <= snd x /\ snd x <= 1)%Q -> (0 <= snd y /\ snd y <= 1)%Q -> cmp_h x y = Lt -> (inject_Z (fst x) + snd x <= inject_Z (fst y) + snd y)%Q.
Proof.
  destruct x as (x1, x2), y as (y1, y2). unfold cmp_h, lex. cbn [fst snd]. intros X Y.
  destruct (Z.compare_spec x1 y1) as [->|E|E]; [|intros _|discriminate].
  - intros L. apply Qlt_alt in L. lra.
  - assert (inject_Z x1 + 1 <= inject_Z y1)%Q by (change 1%Q with (inject_Z 1); rewrite <- inject_Z_plus, <- Zle_Qle; lia). lra.
Qed.
Lemma ev_unit_h e : ev_unit e -> (0 <= snd (ev_h e) /\ snd (ev_h e) <= 1)%Q /\ (ev_height e == inject_Z (fst (ev_h e)) + snd (ev_h e))%Q.
Proof.
  unfold ev_unit, in_unit, ev_h, ev_height. destruct (is_swap e); intros A.
  - destruct (A eq_refl) as (V & B). split; [apply unit_bounds; assumption|reflexivity].
  - cbn. split; [lra|ring].
Qed.
Lemma cmp_h_eq_value x y : cmp_h x y = Eq -> (inject_Z (fst x) + snd x == inject_Z (fst y) + snd y)%Q.
Proof.
  destruct x as (x1, x2), y as (y1, y2). unfold cmp_h, lex. cbn [fst snd]. destruct (Z.compare_spec x1 y1) as [->|E|E]; try discriminate.
  intros L. apply Qeq_alt in L. rewrite L. reflexivity.
Qed.
Lemma order_height x y : ev_unit x -> ev_unit y -> (ev_height x < ev_height y)%Q -> revent_lt x y = true.
Proof.
  intros A B L. rewrite revent_lt_key by (apply ev_unit_valid; assumption). unfold lt_k, cmp_k, lex at 1. cbn [key fst snd].
  destruct (ev_unit_h x A) as (X & EX). destruct (ev_unit_h y B) as (Y & EY). destruct (cmp_h (ev_h x) (ev_h y)) eqn:E; [exfalso| |exfalso]; try reflexivity.
  - apply cmp_h_eq_value in E. lra.
  - assert (E' : cmp_h (ev_h y) (ev_h x) = Lt) by (rewrite (gc_sym _ cmp_h_good (ev_h x)), E; reflexivity). apply cmp_h_value in E'; try assumption. lra.
Qed.
