(** The lines on either side of a vertex form a stack. *)
From Coq Require Import ZArith QArith List Bool Arith Lia Permutation.
From Verif Require Import GeomModel GeomSpec BalanceModel WindSpec JoinSpec ArrangeSpec ArrangeCore ArrangeProofs ArrangeSum ArrangeHit ArrangeVertex.
Import ListNotations.
Local Open Scope Z_scope.

Definition gt_r (m l : line) : bool := (0 <? A m (hi l)) || ((A m (hi l) =? 0) && over m l).
Definition gt_l (m l : line) : bool := (0 <? A m (lo l)) || ((A m (lo l) =? 0) && over m l).
Definition right_of (v : point) : list line -> list line := filter (fun l => point_eqb (lo l) v).
Definition left_of (v : point) : list line -> list line := filter (fun l => point_eqb (hi l) v).

Lemma point_eq_dec (a b : point) : {a = b} + {a <> b}.
Proof. decide equality; apply Z.eq_dec. Qed.
Lemma point_eqb_eq a b : point_eqb a b = true -> a = b.
Proof. rewrite eqb_pt. intros H. apply pt_eta; lia. Qed.
(** ** Lines with the same ends *)
Lemma sg_one l : sg l = 1 \/ sg l = -1.
Proof. destruct (lo_hi_ends (ln_e l)) as [(_ & _ & E)|(_ & _ & E)]; rewrite E; auto. Qed.
Lemma over_total m l : lo m = lo l -> hi m = hi l -> ln_i m <> ln_i l -> over m l = negb (over l m).
Proof.
  intros E1 E2 N. unfold over. rewrite E1, E2. destruct (Z.eqb_spec (px (lo l)) (px (hi l))) as [_|_].
  - destruct (sg_one m) as [->| ->], (sg_one l) as [->| ->]; cbn [Z.eqb]; destruct (Nat.ltb_spec (ln_i l) (ln_i m)), (Nat.ltb_spec (ln_i m) (ln_i l)); try lia; reflexivity.
  - destruct (Nat.ltb_spec (ln_i l) (ln_i m)), (Nat.ltb_spec (ln_i m) (ln_i l)); try lia; reflexivity.
Qed.
Lemma over_trans m l k : lo m = lo l -> hi m = hi l -> lo l = lo k -> hi l = hi k -> over m l = true -> over l k = true -> over m k = true.
Proof.
  intros E1 E2 E3 E4. unfold over. rewrite E3, E4. destruct (Z.eqb_spec (px (lo k)) (px (hi k))) as [_|_].
  - destruct (sg_one m) as [->| ->], (sg_one l) as [->| ->], (sg_one k) as [->| ->]; cbn [Z.eqb]; destruct (Nat.ltb_spec (ln_i l) (ln_i m)), (Nat.ltb_spec (ln_i m) (ln_i l)), (Nat.ltb_spec (ln_i l) (ln_i k)), (Nat.ltb_spec (ln_i k) (ln_i l)), (Nat.ltb_spec (ln_i m) (ln_i k)), (Nat.ltb_spec (ln_i k) (ln_i m)); cbn; congruence || lia.
  - rewrite !Nat.ltb_lt. lia.
Qed.
Lemma same_right ls m l : arranged ls -> In m ls -> In l ls -> lo m = lo l -> A m (hi l) = 0 -> hi m = hi l.
Proof.
  intros AR IM IL E Z. destruct (point_eq_dec (hi m) (hi l)) as [D|D]; [exact D|exfalso]. pose proof (lo_hi _ (arr_proper _ _ AR IM)) as LM. pose proof (lo_hi _ (arr_proper _ _ AR IL)) as LL.
  destruct (arr_apart _ _ _ AR IM IL) as [N1 N2 _]. destruct (less_total _ _ D) as [H|H].
  - apply (N2 (hi m)); [auto|split; [rewrite <- E; exact LM|exact H]|]. rewrite <- E. unfold area2 in *. lia.
  - apply (N1 (hi l)); [auto|split; [rewrite E; exact LL|exact H]|exact Z].
Qed.
Lemma same_left ls m l : arranged ls -> In m ls -> In l ls -> hi m = hi l -> A m (lo l) = 0 -> lo m = lo l.
Proof.
  intros AR IM IL E Z. destruct (point_eq_dec (lo m) (lo l)) as [D|D]; [exact D|exfalso]. pose proof (lo_hi _ (arr_proper _ _ AR IM)) as LM. pose proof (lo_hi _ (arr_proper _ _ AR IL)) as LL.
  destruct (arr_apart _ _ _ AR IM IL) as [N1 N2 _]. destruct (less_total _ _ D) as [H|H].
  - apply (N1 (lo l)); [auto|split; [exact H|rewrite E; exact LL]|exact Z].
  - apply (N2 (lo m)); [auto|split; [exact H|rewrite <- E; exact LM]|]. rewrite <- E. unfold area2 in *. lia.
Qed.
Lemma mix_pos a b c x y z : 0 < x -> 0 < y -> 0 < z -> x * a = y * b + z * c -> 0 <= b -> 0 <= c -> 0 < a \/ (a = 0 /\ b = 0 /\ c = 0).
Proof. intros X Y Z E B C. destruct (Z.eq_dec b 0), (Z.eq_dec c 0); subst; nia. Qed.
Lemma ranked_right ls v : arranged ls -> ranked ln_i gt_r (right_of v ls).
Proof.
  intros AR. unfold right_of. split.
  - intros m l IM IL N. apply filter_In in IM, IL. destruct IM as (IM & EM), IL as (IL & EL). apply point_eqb_eq in EM, EL. assert (E : lo m = lo l) by congruence.
    unfold gt_r. assert (AS : A l (hi m) = - A m (hi l)) by (rewrite <- E; unfold area2; ring). rewrite AS. destruct (Z.eq_dec (A m (hi l)) 0) as [Z|Z].
    + rewrite (over_total m l E (same_right _ _ _ AR IM IL E Z) N). rewrite Z. cbn. destruct (over l m); reflexivity.
    + destruct (Z.ltb_spec 0 (A m (hi l))), (Z.ltb_spec 0 (- A m (hi l))), (Z.eqb_spec (A m (hi l)) 0), (Z.eqb_spec (- A m (hi l)) 0); try lia; reflexivity.
  - intros m l k IM IL IK. apply filter_In in IM, IL, IK. destruct IM as (IM & EM), IL as (IL & EL), IK as (IK & EK). apply point_eqb_eq in EM, EL, EK.
    unfold gt_r. rewrite EM, EL. destruct (small_four v (hi m) (hi l) (hi k)) as (M & SV & SM & SL & SK).
    pose proof (lo_hi _ (arr_proper _ _ AR IM)) as LM. pose proof (lo_hi _ (arr_proper _ _ AR IL)) as LL. pose proof (lo_hi _ (arr_proper _ _ AR IK)) as LK. rewrite EM in LM. rewrite EL in LL. rewrite EK in LK. rewrite (less_lx M) in LM, LL, LK by assumption.
    assert (ID : (lx M (hi l) - lx M v) * area2 v (hi m) (hi k) = (lx M (hi k) - lx M v) * area2 v (hi m) (hi l) + (lx M (hi m) - lx M v) * area2 v (hi l) (hi k)) by (unfold area2, lx; ring).
    intros G1 G2. apply Z.ltb_lt in LM, LL, LK. apply Z.lt_0_sub in LM, LL, LK. destruct (mix_pos _ _ _ _ _ _ LL LK LM ID) as [P|(Z0 & Z1 & Z2)].
    + clear -G1. destruct (over m l); lia.
    + clear -G2. destruct (over l k); lia.
    + clear -P. lia.
    + rewrite Z1 in G1. rewrite Z2 in G2. cbn in G1, G2. rewrite Z0. cbn. assert (E1 : lo m = lo l) by congruence. assert (E2 : lo l = lo k) by congruence.
      apply (over_trans m l k); try assumption; [apply (same_right _ _ _ AR IM IL E1)|apply (same_right _ _ _ AR IL IK E2)]; congruence.
Qed.
Lemma ranked_left ls v : arranged ls -> ranked ln_i gt_l (left_of v ls).
Proof.
  intros AR. unfold left_of. split.
  - intros m l IM IL N. apply filter_In in IM, IL. destruct IM as (IM & EM), IL as (IL & EL). apply point_eqb_eq in EM, EL. assert (E : hi m = hi l) by congruence.
    unfold gt_l. assert (AS : A l (lo m) = - A m (lo l)) by (rewrite <- E; unfold area2; ring). rewrite AS. destruct (Z.eq_dec (A m (lo l)) 0) as [Z|Z].
    + rewrite (over_total m l (same_left _ _ _ AR IM IL E Z) E N). rewrite Z. cbn. destruct (over l m); reflexivity.
    + destruct (Z.ltb_spec 0 (A m (lo l))), (Z.ltb_spec 0 (- A m (lo l))), (Z.eqb_spec (A m (lo l)) 0), (Z.eqb_spec (- A m (lo l)) 0); try lia; reflexivity.
  - intros m l k IM IL IK. apply filter_In in IM, IL, IK. destruct IM as (IM & EM), IL as (IL & EL), IK as (IK & EK). apply point_eqb_eq in EM, EL, EK.
    unfold gt_l. rewrite EM, EL. destruct (small_four v (lo m) (lo l) (lo k)) as (M & SV & SM & SL & SK).
    pose proof (lo_hi _ (arr_proper _ _ AR IM)) as LM. pose proof (lo_hi _ (arr_proper _ _ AR IL)) as LL. pose proof (lo_hi _ (arr_proper _ _ AR IK)) as LK. rewrite EM in LM. rewrite EL in LL. rewrite EK in LK. rewrite (less_lx M) in LM, LL, LK by assumption.
    assert (ID : (lx M v - lx M (lo l)) * area2 (lo m) v (lo k) = (lx M v - lx M (lo k)) * area2 (lo m) v (lo l) + (lx M v - lx M (lo m)) * area2 (lo l) v (lo k)) by (unfold area2, lx; ring).
    intros G1 G2. apply Z.ltb_lt in LM, LL, LK. apply Z.lt_0_sub in LM, LL, LK. destruct (mix_pos _ _ _ _ _ _ LL LK LM ID) as [P|(Z0 & Z1 & Z2)].
    + clear -G1. destruct (over m l); lia.
    + clear -G2. destruct (over l k); lia.
    + clear -P. lia.
    + rewrite Z1 in G1. rewrite Z2 in G2. cbn in G1, G2. rewrite Z0. cbn. assert (E1 : hi m = hi l) by congruence. assert (E2 : hi l = hi k) by congruence.
      apply (over_trans m l k); try assumption; [apply (same_left _ _ _ AR IM IL E1)|apply (same_left _ _ _ AR IL IK E2)]; congruence.
Qed.

(** ** The lines above a line at a vertex *)
Definition passing (ls : list line) (c : bool_set) (v : point) : Z := tot (fun m => wt c m * f01 (above_pt m v)) ls.
Lemma slo_at ls c l v : arranged ls -> In l ls -> lo l = v -> Slo ls c l = passing ls c v + higher ln_i gt_r (wt c) (right_of v ls) l.
Proof.
  intros AR IL E. unfold Slo, passing, higher, right_of. rewrite tot_filter, <- tot_add. apply tot_ext. intros m IM. unfold others, ab_lo. rewrite E.
  destruct (Nat.eqb_spec (ln_i m) (ln_i l)) as [EI|EI].
  - apply (arr_inj ls l m AR IL IM) in EI. subst m. rewrite <- E. destruct (above_ends l) as (-> & _). rewrite Z.mul_0_r. destruct (point_eqb _ _); reflexivity.
  - destruct (point_eqb (lo m) v) eqn:EM.
    + apply point_eqb_eq in EM. assert (above_pt m v = false) as -> by (rewrite <- EM; apply above_ends). cbn [orb andb]. unfold gt_r. destruct (_ || _); unfold f01; lia.
    + cbn [andb]. rewrite orb_false_r. lia.
Qed.
Lemma shi_at ls c l v : arranged ls -> In l ls -> hi l = v -> Shi ls c l = passing ls c v + higher ln_i gt_l (wt c) (left_of v ls) l.
Proof.
  intros AR IL E. unfold Shi, passing, higher, left_of. rewrite tot_filter, <- tot_add. apply tot_ext. intros m IM. unfold others, ab_hi. rewrite E.
  destruct (Nat.eqb_spec (ln_i m) (ln_i l)) as [EI|EI].
  - apply (arr_inj ls l m AR IL IM) in EI. subst m. rewrite <- E. destruct (above_ends l) as (_ & ->). rewrite Z.mul_0_r. destruct (point_eqb _ _); reflexivity.
  - destruct (point_eqb (hi m) v) eqn:EM.
    + apply point_eqb_eq in EM. assert (above_pt m v = false) as -> by (rewrite <- EM; apply above_ends). cbn [orb andb]. unfold gt_l. destruct (_ || _); unfold f01; lia.
    + cbn [andb]. rewrite orb_false_r. lia.
Qed.
(** What a line contributes to the ends at a vertex. *)
Definition at_v (v : point) (e : point * point) : Z := f01 (point_eqb (fst e) v) - f01 (point_eqb (snd e) v).
Definition wind (ls : list line) (c : bool_set) (l : line) : Z := Slo ls c l - (if sg l =? 1 then 0 else own c l).
Definition jump (G : Z -> Z -> Z) (ls : list line) (l : line) : Z :=
  G (wind ls Subject l + own Subject l) (wind ls Clip l + own Clip l) - G (wind ls Subject l) (wind ls Clip l).
Theorem vertex ls v G : arranged ls -> tot (fun l => at_v v (ln_e l) * jump G ls l) ls = 0.
Proof.
  intros AR. set (T := fun l => G (Slo ls Subject l + wt Subject l) (Slo ls Clip l + wt Clip l) - G (Slo ls Subject l) (Slo ls Clip l)).
  assert (H : forall l, at_v v (ln_e l) * jump G ls l = (if point_eqb (lo l) v then T l else 0) - (if point_eqb (hi l) v then T l else 0)).
  { intros l. unfold at_v, jump, T, wind, wt. destruct (lo_hi_ends (ln_e l)) as [(-> & -> & ->)|(-> & -> & ->)].
    - cbn [Z.eqb Pos.eqb]. rewrite !Z.sub_0_r, !Z.mul_1_r. destruct (point_eqb _ v), (point_eqb _ v); unfold f01; lia.
    - change (-1 =? 1) with false. cbn iota. replace (Slo ls Subject l - own Subject l + own Subject l) with (Slo ls Subject l) by lia. replace (Slo ls Clip l - own Clip l + own Clip l) with (Slo ls Clip l) by lia.
      replace (Slo ls Subject l + own Subject l * -1) with (Slo ls Subject l - own Subject l) by lia. replace (Slo ls Clip l + own Clip l * -1) with (Slo ls Clip l - own Clip l) by lia. destruct (point_eqb _ v), (point_eqb _ v); unfold f01; lia. }
  rewrite (tot_ext _ _ ls (fun l _ => H l)), tot_sub, <- !tot_filter. fold (right_of v ls). fold (left_of v ls). clear H.
  assert (ND : forall p, NoDup (map ln_i (filter p ls))).
  { intros p. destruct AR as (N & _). clear - N. induction ls as [|x ls IH]; [constructor|]. inversion N as [|? ? NI ND]; subst. cbn [filter]. destruct (p x); [|apply IH, ND]. cbn [map]. constructor; [|apply IH, ND].
    intros I. apply NI. apply in_map_iff in I. destruct I as (y & E & I). apply filter_In in I. rewrite <- E. apply in_map, I. }
  pose proof (stack ln_i gt_r (wt Subject) (wt Clip) G (passing ls Subject v) (passing ls Clip v) (right_of v ls) (ranked_right ls v AR) (ND _)) as SR.
  pose proof (stack ln_i gt_l (wt Subject) (wt Clip) G (passing ls Subject v) (passing ls Clip v) (left_of v ls) (ranked_left ls v AR) (ND _)) as SL.
  assert (ER : tot T (right_of v ls) = G (passing ls Subject v + tot (wt Subject) (right_of v ls)) (passing ls Clip v + tot (wt Clip) (right_of v ls)) - G (passing ls Subject v) (passing ls Clip v)).
  { rewrite <- SR. apply tot_ext. intros l I. apply filter_In in I. destruct I as (I & E). apply point_eqb_eq in E. unfold T. rewrite !(slo_at ls _ l v AR I E). reflexivity. }
  assert (EL : tot T (left_of v ls) = G (passing ls Subject v + tot (wt Subject) (left_of v ls)) (passing ls Clip v + tot (wt Clip) (left_of v ls)) - G (passing ls Subject v) (passing ls Clip v)).
  { rewrite <- SL. apply tot_ext. intros l I. apply filter_In in I. destruct I as (I & E). apply point_eqb_eq in E. unfold T. rewrite !(same_count ls _ l AR I), !(shi_at ls _ l v AR I E). reflexivity. }
  assert (EQ : forall c, tot (wt c) (right_of v ls) = tot (wt c) (left_of v ls)).
  { intros c. pose proof (closed_tot ls c (fun p => f01 (point_eqb p v)) AR) as C. unfold right_of, left_of. rewrite !tot_filter.
    enough (tot (fun x => if point_eqb (hi x) v then wt c x else 0) ls - tot (fun x => if point_eqb (lo x) v then wt c x else 0) ls = 0) by lia. rewrite <- tot_sub. etransitivity; [|exact C]. apply tot_ext. intros m _. unfold wt.
    destruct (lo_hi_ends (ln_e m)) as [(-> & -> & ->)|(-> & -> & ->)]; destruct (point_eqb _ v), (point_eqb _ v); unfold f01; lia. }
  rewrite ER, EL, !EQ. lia.
Qed.
