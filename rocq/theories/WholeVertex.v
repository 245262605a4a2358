(** Two lines that meet at a point where no other line goes to the same side have the same
    judgement. *)
From Coq Require Import ZArith QArith List Bool Arith Lia Permutation.
From Verif Require Import GeomModel GeomSpec BalanceModel WindSpec JoinSpec ArrangeSpec ArrangeCore ArrangeProofs ArrangeSum ArrangeHit ArrangeVertex ArrangeStack.
Import ListNotations.
Local Open Scope Z_scope.

Lemma higher_one (gt : line -> line -> bool) w R x : (forall y, In y R -> ln_i y = ln_i x) -> higher ln_i gt w R x = 0.
Proof. intros H. unfold higher. rewrite (tot_ext _ (fun _ => 0)), tot_zero; [reflexivity|]. intros y I. rewrite (H y I), Nat.eqb_refl. reflexivity. Qed.
Lemma higher_two (gt : line -> line -> bool) w R x z : NoDup (map ln_i R) -> In z R -> ln_i z <> ln_i x -> (forall y, In y R -> ln_i y = ln_i x \/ y = z) ->
  higher ln_i gt w R x = if gt z x then w z else 0.
Proof.
  intros ND I N H. apply in_split in I as (R1 & R2 & ->). unfold higher. rewrite tot_app, tot_cons. destruct (Nat.eqb_spec (ln_i z) (ln_i x)) as [E|_]; [contradiction|].
  assert (Z : forall R', (forall y, In y R' -> In y (R1 ++ z :: R2)) -> ~ In z R' -> tot (fun y => if Nat.eqb (ln_i y) (ln_i x) then 0 else if gt y x then w y else 0) R' = 0).
  { intros R' S NI. rewrite (tot_ext _ (fun _ => 0)), tot_zero; [reflexivity|]. intros y I. destruct (H y (S y I)) as [E|E]; [rewrite E, Nat.eqb_refl; reflexivity|]. subst y. contradiction. }
  apply NoDup_map_inv in ND. apply NoDup_remove_2 in ND. rewrite !Z; [lia| | | |].
  - intros y I. apply in_or_app. right. right. exact I.
  - intros I. apply ND, in_or_app. right. exact I.
  - intros y I. apply in_or_app. left. exact I.
  - intros I. apply ND, in_or_app. left. exact I.
Qed.
Lemma nodup_sub ls p : NoDup (map ln_i ls) -> NoDup (map ln_i (filter p ls)).
Proof.
  intros N. induction ls as [|x ls IH]; [constructor|]. inversion N as [|? ? NI ND]; subst. cbn [filter]. destruct (p x); [|apply IH, ND]. cbn [map]. constructor; [|apply IH, ND].
  intros I. apply NI. apply in_map_iff in I. destruct I as (y & E & I). apply filter_In in I. rewrite <- E. apply in_map, I.
Qed.
Theorem same_wind ls l m V c : arranged ls -> In l ls -> In m ls -> ln_i l <> ln_i m -> snd (ln_e l) = V -> fst (ln_e m) = V -> ln_set l = ln_set m ->
  (forall k, In k ls -> ln_i k <> ln_i l -> ln_i k <> ln_i m -> lo k = V -> hi l = V /\ hi m = V) ->
  (forall k, In k ls -> ln_i k <> ln_i l -> ln_i k <> ln_i m -> hi k = V -> lo l = V /\ lo m = V) ->
  wind ls c l = wind ls c m.
Proof.
  intros AR IL IM NE EL EM ES HL HH. pose proof (arr_proper _ _ AR IL) as PL. pose proof (arr_proper _ _ AR IM) as PM. pose proof (lo_hi _ PL) as LL. pose proof (lo_hi _ PM) as LM.
  assert (OW : own c l = own c m) by (unfold own; rewrite ES; reflexivity).
  assert (DL : lo l <> hi l) by (intros E; rewrite E, less_irrefl in LL; discriminate). assert (DM : lo m <> hi m) by (intros E; rewrite E, less_irrefl in LM; discriminate).
  assert (NDR : NoDup (map ln_i (right_of V ls))) by (apply nodup_sub, AR). assert (NDL : NoDup (map ln_i (left_of V ls))) by (apply nodup_sub, AR).
  assert (EQ : forall v, point_eqb v v = true) by (intros; rewrite eqb_pt, !Z.eqb_refl; reflexivity).
  assert (RI : forall k, In k ls -> lo k = V -> In k (right_of V ls)) by (intros k I <-; apply filter_In; auto). assert (LI : forall k, In k ls -> hi k = V -> In k (left_of V ls)) by (intros k I <-; apply filter_In; auto).
  assert (RO : forall k, In k (right_of V ls) -> In k ls /\ lo k = V) by (intros k I; apply filter_In in I as (I & E); apply point_eqb_eq in E; auto). assert (LO : forall k, In k (left_of V ls) -> In k ls /\ hi k = V) by (intros k I; apply filter_In in I as (I & E); apply point_eqb_eq in E; auto).
  assert (WL : wt c l = own c l * sg l) by reflexivity. assert (WM : wt c m = own c m * sg m) by reflexivity. unfold wind.
  destruct (lo_hi_ends (ln_e l)) as [(L1 & L2 & L3)|(L1 & L2 & L3)]; destruct (lo_hi_ends (ln_e m)) as [(M1 & M2 & M3)|(M1 & M2 & M3)]; rewrite L3, M3 in *; rewrite ?EL, ?EM in *; change (-1 =? 1) with false; change (1 =? 1) with true; cbn iota.
  - (* through V to the right *)
    rewrite (same_count ls c l AR IL), (shi_at ls c l V AR IL L2), (slo_at ls c m V AR IM M1). rewrite !higher_one; [lia| |].
    + intros k I. apply RO in I as (I & E). destruct (Nat.eq_dec (ln_i k) (ln_i m)) as [?|N]; [assumption|exfalso]. destruct (Nat.eq_dec (ln_i k) (ln_i l)) as [Q|Q]; [apply (arr_inj ls l k AR IL I) in Q; subst k; congruence|]. destruct (HL k I Q N E). congruence.
    + intros k I. apply LO in I as (I & E). destruct (Nat.eq_dec (ln_i k) (ln_i l)) as [?|N]; [assumption|exfalso]. destruct (Nat.eq_dec (ln_i k) (ln_i m)) as [Q|Q]; [apply (arr_inj ls m k AR IM I) in Q; subst k; congruence|]. destruct (HH k I N Q E). congruence.
  - (* both to the left of V *)
    rewrite (same_count ls c l AR IL), (same_count ls c m AR IM), (shi_at ls c l V AR IL L2), (shi_at ls c m V AR IM M2).
    assert (AL : forall k, In k (left_of V ls) -> k = l \/ k = m).
    { intros k I. apply LO in I as (I & E). destruct (Nat.eq_dec (ln_i k) (ln_i l)) as [Q|Q]; [left; apply (arr_inj ls l k AR IL I), Q|]. destruct (Nat.eq_dec (ln_i k) (ln_i m)) as [Q'|Q']; [right; apply (arr_inj ls m k AR IM I), Q'|]. destruct (HH k I Q Q' E). congruence. }
    rewrite (higher_two gt_l (wt c) _ l m NDL (LI m IM M2)); [|congruence|intros y I; apply AL in I as [->| ->]; auto]. rewrite (higher_two gt_l (wt c) _ m l NDL (LI l IL L2)); [|exact NE|intros y I; apply AL in I as [->| ->]; auto].
    destruct (ranked_left ls V AR) as (T & _). rewrite (T l m (LI l IL L2) (LI m IM M2) NE). destruct (gt_l m l); cbn [negb]; lia.
  - (* both to the right of V *)
    rewrite (slo_at ls c l V AR IL L1), (slo_at ls c m V AR IM M1).
    assert (AL : forall k, In k (right_of V ls) -> k = l \/ k = m).
    { intros k I. apply RO in I as (I & E). destruct (Nat.eq_dec (ln_i k) (ln_i l)) as [Q|Q]; [left; apply (arr_inj ls l k AR IL I), Q|]. destruct (Nat.eq_dec (ln_i k) (ln_i m)) as [Q'|Q']; [right; apply (arr_inj ls m k AR IM I), Q'|]. destruct (HL k I Q Q' E). congruence. }
    rewrite (higher_two gt_r (wt c) _ l m NDR (RI m IM M1)); [|congruence|intros y I; apply AL in I as [->| ->]; auto]. rewrite (higher_two gt_r (wt c) _ m l NDR (RI l IL L1)); [|exact NE|intros y I; apply AL in I as [->| ->]; auto].
    destruct (ranked_right ls V AR) as (T & _). rewrite (T l m (RI l IL L1) (RI m IM M1) NE). destruct (gt_r m l); cbn [negb]; lia.
  - (* through V to the left *)
    rewrite (slo_at ls c l V AR IL L1), (same_count ls c m AR IM), (shi_at ls c m V AR IM M2). rewrite !higher_one; [lia| |].
    + intros k I. apply LO in I as (I & E). destruct (Nat.eq_dec (ln_i k) (ln_i m)) as [?|N]; [assumption|exfalso]. destruct (Nat.eq_dec (ln_i k) (ln_i l)) as [Q|Q]; [apply (arr_inj ls l k AR IL I) in Q; subst k; congruence|]. destruct (HH k I Q N E). congruence.
    + intros k I. apply RO in I as (I & E). destruct (Nat.eq_dec (ln_i k) (ln_i l)) as [?|N]; [assumption|exfalso]. destruct (Nat.eq_dec (ln_i k) (ln_i m)) as [Q|Q]; [apply (arr_inj ls m k AR IM I) in Q; subst k; congruence|]. destruct (HL k I N Q E). congruence.
Qed.
Theorem same_judgement op ls l m V ck ck' : arranged ls -> In l ls -> In m ls -> column l ls ck -> column m ls ck' -> ln_i l <> ln_i m -> snd (ln_e l) = V -> fst (ln_e m) = V -> ln_set l = ln_set m ->
  (forall k, In k ls -> ln_i k <> ln_i l -> ln_i k <> ln_i m -> lo k = V -> hi l = V /\ hi m = V) ->
  (forall k, In k ls -> ln_i k <> ln_i l -> ln_i k <> ln_i m -> hi k = V -> lo l = V /\ lo m = V) ->
  line_result op l ck = line_result op m ck'.
Proof.
  intros AR IL IM CL CM NE EL EM ES HL HH. pose proof (fun c => same_wind ls l m V c AR IL IM NE EL EM ES HL HH) as W. unfold wind in W.
  unfold line_result. pose proof (balance_is ls l ck Subject AR IL CL) as E1. pose proof (balance_is ls l ck Clip AR IL CL) as E2. pose proof (balance_is ls m ck' Subject AR IM CM) as E3. pose proof (balance_is ls m ck' Clip AR IM CM) as E4.
  cbn [wn_get] in E1, E2, E3, E4. cbn zeta. rewrite E1, E2, E3, E4, ES, !W. reflexivity.
Qed.
