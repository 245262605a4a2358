(** What the judged lines enclose. *)
From Coq Require Import ZArith QArith List Bool Arith Lia Permutation.
From Verif Require Import GeomModel GeomSpec BalanceModel WindSpec WindProofs JoinSpec ArrangeSpec ArrangeCore ArrangeProofs ArrangeSum ArrangeHit ArrangeVertex ArrangeStack ArrangeColumn.
Import ListNotations.
Local Open Scope Z_scope.

(** ** Winding numbers of closed families of lines *)
Definition above_e (e : edge) (v : point) : bool := point_less (llo e) v && point_less v (lhi e) && (0 <? area2 (llo e) (lhi e) v).
Ltac same_cond := unfold f01; match goal with |- (if ?c then _ else 0) = _ * (if ?d then _ else _) => replace c with d by lia; destruct d; reflexivity end.
Lemma hit_above e v : hit 1 (px (fst e) - px v) (py (fst e) - py v) (px (snd e) - px v) (py (snd e) - py v) = lsgn e * f01 (above_e e v).
Proof.
  assert (C : forall a b, (px a - px v) * (py b - py v) - (px b - px v) * (py a - py v) = area2 a b v) by (intros; unfold area2; ring).
  assert (S : forall a b, area2 b a v = - area2 a b v) by (intros; unfold area2; ring).
  unfold hit. rewrite C. destruct e as (a, b). unfold above_e, llo, lhi, lsgn, point_less. cbn [fst snd]. change (0 <? 1) with true. cbn iota.
  pose proof (col_lo a b v) as L1. pose proof (col_hi a b v) as L2. pose proof (col_lo b a v) as L3. pose proof (col_hi b a v) as L4. rewrite (S a b) in L3, L4.
  destruct (Z.lt_trichotomy (px a) (px b)) as [H|[H|H]].
  - replace (px b =? px a) with false by lia. replace (px b <? px a) with false by lia. clear L3 L4.
    replace ((px b - px v <=? 0) && (0 <? px a - px v)) with false by lia. cbn [andb].
    destruct (Z.eqb_spec (px a) (px v)) as [E|E]; [|destruct (Z.eqb_spec (px v) (px b)) as [E'|E']].
    + specialize (L1 H (eq_sym E)). clear L2. replace (px v =? px b) with false by lia. same_cond.
    + specialize (L2 H E'). clear L1. same_cond.
    + clear L1 L2. same_cond.
  - clear L1 L2 L3 L4. replace ((px a - px v <=? 0) && (0 <? px b - px v)) with false by lia. replace ((px b - px v <=? 0) && (0 <? px a - px v)) with false by lia. cbn [andb].
    assert (V : px v = px a -> area2 a b v = 0) by (intros E; unfold area2; rewrite E, H; ring). rewrite H, Z.eqb_refl. destruct (Z.eqb_spec (px v) (px b)) as [E|E].
    + destruct (py b <? py a); rewrite ?(S a b), V by lia; rewrite andb_false_r; reflexivity.
    + destruct (py b <? py a); cbn [fst snd]; rewrite H; replace (px b =? px v) with false by lia; replace (px v =? px b) with false by lia; destruct (Z.ltb_spec (px b) (px v)), (Z.ltb_spec (px v) (px b)); try lia; reflexivity.
  - replace (px b =? px a) with false by lia. replace (px b <? px a) with true by lia. clear L1 L2.
    replace ((px a - px v <=? 0) && (0 <? px b - px v)) with false by lia. cbn [andb]. rewrite (S a b).
    destruct (Z.eqb_spec (px b) (px v)) as [E|E]; [|destruct (Z.eqb_spec (px v) (px a)) as [E'|E']].
    + specialize (L3 H (eq_sym E)). clear L4. replace (px v =? px a) with false by lia. same_cond.
    + specialize (L4 H E'). clear L3. same_cond.
    + clear L3 L4. same_cond.
Qed.
Definition label (v q : point) : Z := pot0 1 (px q - px v) (py q - py v).
Lemma edge_turns e v : ~ on_edge e v -> quarter_turns v e = 4 * (lsgn e * f01 (above_e e v)) + (label v (snd e) - label v (fst e)).
Proof.
  intros HN. rewrite <- hit_above, quarter_turns_qt0. unfold label. rewrite edge_potential; [lia| |]; destruct e as [a b]; cbn [fst snd].
  - intros Hd Hr. destruct (Z.lt_total (px a) (px b)) as [L|[L|L]].
    + pose proof (not_on_cross v a b HN ltac:(lia) L) as NC. intros E. apply NC. rewrite <- E. ring.
    + lia.
    + pose proof (not_on_cross v b a (not_on_swap _ _ _ HN) ltac:(lia) L) as NC. intros E. apply NC.
      transitivity (- ((px a - px v) * (py b - py v) - (px b - px v) * (py a - py v))); [ring|lia].
  - intros Ea Eb. pose proof (not_on_vert v a b HN). lia.
Qed.
Lemma tot_sum {A} (f : A -> Z) l : sumZ (map f l) = tot f l.
Proof. induction l as [|x l IH]; [reflexivity|]. rewrite tot_cons, <- IH. reflexivity. Qed.
Lemma tot_scale {A} k (f : A -> Z) l : tot (fun x => k * f x) l = k * tot f l.
Proof. induction l as [|x l IH]; [rewrite !tot_nil; lia|]. rewrite !tot_cons, IH. lia. Qed.
(** Four times the winding number, for lines that start as often as they end at every point. *)
Theorem turns_above es v : balanced es -> (forall e, In e es -> ~ on_edge e v) -> sumZ (map (quarter_turns v) es) = 4 * tot (fun e => lsgn e * f01 (above_e e v)) es.
Proof.
  intros B N. rewrite tot_sum. rewrite <- tot_scale. pose proof (balanced_tot es (label v) B) as T.
  transitivity (tot (fun e => 4 * (lsgn e * f01 (above_e e v)) + (label v (snd e) - label v (fst e))) es).
  - apply tot_ext. intros e I. apply edge_turns, N, I.
  - rewrite tot_add, T. lia.
Qed.

(** ** The lines above a line, on a column *)
Section Region.
Variables (ls : list line) (v : point) (M : Z).
Hypothesis (AR : arranged ls) (OFF : forall l, In l ls -> ~ on_edge (ln_e l) v).
Hypothesis SZ : forall l, In l ls -> sized M v l.
Lemma not_end l : In l ls -> lo l <> v /\ hi l <> v.
Proof.
  intros I. assert (forall q, q = fst (ln_e l) \/ q = snd (ln_e l) -> q <> v).
  { intros q Q E. subst q. apply (OFF l I). unfold on_edge. destruct Q as [Q|Q]; rewrite Q; [exists 0%Q|exists 1%Q]; (split; [split; discriminate|]); unfold injX, injY.
    - split; ring.
    - unfold Z.sub. rewrite !inject_Z_plus, !inject_Z_opp. split; ring. }
  destruct (lo_hi_ends (ln_e l)) as [(-> & -> & _)|(-> & -> & _)]; auto.
Qed.
Definition Sv (c : bool_set) (l : line) : Z := tot (others l (fun m => wt c m * f01 (ab_v M v l m))) ls.
Lemma sv_slo c l : In l ls -> span v l = true -> Sv c l = Slo ls c l.
Proof.
  intros IL SP. pose proof (closed_tot ls c (fun z => f01 (below_v v l z)) AR) as T.
  enough (Sv c l - Slo ls c l = - tot (fun m => own c m * (f01 (below_v v l (snd (ln_e m))) - f01 (below_v v l (fst (ln_e m))))) ls) by lia.
  unfold Sv, Slo. rewrite <- tot_sub. replace (- tot _ ls) with (tot (fun _ => 0) ls - tot (fun m => own c m * (f01 (below_v v l (snd (ln_e m))) - f01 (below_v v l (fst (ln_e m))))) ls) by (rewrite tot_zero; lia).
  rewrite <- tot_sub. apply tot_ext. intros m IM. unfold others. destruct (Nat.eqb_spec (ln_i m) (ln_i l)) as [E|E].
  - apply (arr_inj ls l m AR IL IM) in E. subst m. assert (B1 : below_v v l (lo l) = false) by (unfold below_v; rewrite less_irrefl; reflexivity).
    assert (B2 : below_v v l (hi l) = false) by (unfold below_v; rewrite area_abb, andb_false_r; reflexivity).
    destruct (lo_hi_ends (ln_e l)) as [(E1 & E2 & _)|(E1 & E2 & _)]; rewrite E1, E2 in *; rewrite B1, B2; cbn [f01]; lia.
  - destruct (not_end m IM) as (N1 & N2). pose proof (edge_mid M v l m (SZ l IL) (SZ m IM) (arr_proper _ _ AR IM) (arr_apart _ _ _ AR IL IM) SP N1 N2) as H. unfold wt.
    destruct (lo_hi_ends (ln_e m)) as [(E1 & E2 & E3)|(E1 & E2 & E3)]; rewrite E1, E2 in H; rewrite E3; nia.
Qed.
Definition roof : list line := filter (fun l => above_pt l v) ls.
Lemma in_roof l : In l roof -> In l ls /\ span v l = true /\ 0 < A l v.
Proof. intros I. apply filter_In in I. destruct I as (I & E). unfold above_pt in E. fold (span v l) in E. apply andb_true_iff in E. destruct E as (E1 & E2). split; [exact I|]. split; [exact E1|lia]. Qed.
Lemma wd_pos l : In l ls -> 0 < wd M l.
Proof. intros I. pose proof (lo_hi _ (arr_proper _ _ AR I)) as L. destruct (SZ l I) as [S1 S2 _]. rewrite (less_lx M) in L by assumption. unfold wd. lia. Qed.
Lemma gt_nonneg m l : gt_v M v m l = true -> 0 <= gap M v l m.
Proof. unfold gt_v. destruct (over m l); lia. Qed.
Lemma ranked_roof : ranked ln_i (gt_v M v) roof.
Proof.
  split.
  - intros m l IM IL N. apply in_roof in IM, IL. destruct IM as (IM & SM & _), IL as (IL & SL & _). unfold gt_v. rewrite (gap_anti M v l m). destruct (Z.eq_dec (gap M v l m) 0) as [Z|Z].
    + destruct (gap_zero M v l m (SZ l IL) (SZ m IM) (arr_apart _ _ _ AR IL IM) SL SM Z) as (E1 & E2). rewrite (over_total m l E1 E2 N). rewrite Z. cbn. destruct (over l m); reflexivity.
    + destruct (Z.ltb_spec 0 (gap M v l m)), (Z.ltb_spec 0 (- gap M v l m)), (Z.eqb_spec (gap M v l m) 0), (Z.eqb_spec (- gap M v l m) 0); try lia; reflexivity.
  - intros m l k IM IL IK G1 G2. apply in_roof in IM, IL, IK. destruct IM as (IM & SM & _), IL as (IL & SL & _), IK as (IK & SK & _).
    pose proof (gt_nonneg _ _ G1) as P1. pose proof (gt_nonneg _ _ G2) as P2.
    assert (ID : wd M l * gap M v k m = wd M k * gap M v l m + wd M m * gap M v k l) by (unfold gap; ring).
    destruct (mix_pos _ _ _ _ _ _ (wd_pos l IL) (wd_pos k IK) (wd_pos m IM) ID P1 P2) as [P|(Z0 & Z1 & Z2)]; unfold gt_v in *; [clear - P; lia|].
    rewrite Z1 in G1. rewrite Z2 in G2. cbn in G1, G2. rewrite Z0. cbn.
    destruct (gap_zero M v l m (SZ l IL) (SZ m IM) (arr_apart _ _ _ AR IL IM) SL SM Z1) as (E1 & E2). destruct (gap_zero M v k l (SZ k IK) (SZ l IL) (arr_apart _ _ _ AR IK IL) SK SL Z2) as (E3 & E4).
    apply (over_trans m l k); assumption.
Qed.
Lemma slo_roof c l : In l roof -> Slo ls c l = higher ln_i (gt_v M v) (wt c) roof l.
Proof.
  intros I. apply in_roof in I. destruct I as (IL & SL & AL). rewrite <- (sv_slo c l IL SL). unfold Sv, higher, roof. rewrite tot_filter. apply tot_ext. intros m IM. unfold others.
  destruct (Nat.eqb (ln_i m) (ln_i l)); [destruct (above_pt m v); reflexivity|]. unfold ab_v, above_pt. fold (span v m). destruct (span v m); [|cbn; lia]. cbn [andb].
  destruct (gt_v M v m l) eqn:G.
  - apply gt_nonneg in G. unfold gap in G. pose proof (wd_pos l IL) as WL. pose proof (wd_pos m IM) as WM. assert (0 < wd M m * A l v) by (apply Z.mul_pos_pos; assumption). assert (0 < A m v) by (apply (pos_of (wd M l)); lia).
    replace (0 <? A m v) with true by (clear - H0; lia). cbn [f01]. lia.
  - cbn [f01]. destruct (0 <? A m v); lia.
Qed.
Theorem region_jump G : tot (fun l => sg l * f01 (above_e (ln_e l) v) * jump G ls l) ls = G (passing ls Subject v) (passing ls Clip v) - G 0 0.
Proof.
  assert (ND : NoDup (map ln_i roof)).
  { unfold roof. destruct AR as (N & _). clear - N. generalize (fun l => above_pt l v). intros p. induction ls as [|x xs IH]; [constructor|]. inversion N as [|? ? NI ND]; subst. cbn [filter]. destruct (p x); [|apply IH, ND]. cbn [map]. constructor; [|apply IH, ND].
    intros I. apply NI. apply in_map_iff in I. destruct I as (y & E & I). apply filter_In in I. rewrite <- E. apply in_map, I. }
  pose proof (stack ln_i (gt_v M v) (wt Subject) (wt Clip) G 0 0 roof ranked_roof ND) as ST.
  assert (P : forall c, tot (wt c) roof = passing ls c v).
  { intros c. unfold roof, passing. rewrite tot_filter. apply tot_ext. intros m _. destruct (above_pt m v); cbn [f01]; lia. }
  rewrite !P, !Z.add_0_l in ST. rewrite <- ST. unfold roof at 5. rewrite tot_filter. apply tot_ext. intros l IL. change (above_e (ln_e l) v) with (above_pt l v).
  destruct (above_pt l v) eqn:AB; [|cbn [f01]; lia]. cbn [f01]. assert (IR : In l roof) by (apply filter_In; auto). rewrite !Z.add_0_l, <- !(slo_roof _ l IR). unfold jump, wind, wt.
  destruct (sg_one l) as [-> | ->].
  - cbn [Z.eqb Pos.eqb]. rewrite !Z.sub_0_r, !Z.mul_1_r. lia.
  - change (-1 =? 1) with false. cbn iota. replace (Slo ls Subject l - own Subject l + own Subject l) with (Slo ls Subject l) by lia. replace (Slo ls Clip l - own Clip l + own Clip l) with (Slo ls Clip l) by lia.
    replace (Slo ls Subject l + own Subject l * -1) with (Slo ls Subject l - own Subject l) by lia. replace (Slo ls Clip l + own Clip l * -1) with (Slo ls Clip l - own Clip l) by lia. lia.
Qed.
End Region.
Lemma some_size ls v : exists M, forall l, In l ls -> sized M v l.
Proof.
  destruct (small_all (v :: flat_map (fun l => [lo l; hi l]) ls)) as (M & H). exists M. intros l I.
  assert (J : forall q, q = lo l \/ q = hi l -> small M q) by (intros q Q; apply H; right; apply in_flat_map; exists l; split; [exact I|]; destruct Q as [-> | ->]; [left|right; left]; reflexivity).
  split; [apply J; auto|apply J; auto|apply H; left; reflexivity].
Qed.
