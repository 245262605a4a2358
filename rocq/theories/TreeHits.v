(** The lines recorded above a line count how often other loops wind around its start. *)
From Coq Require Import ZArith QArith List Bool Arith Lia Permutation.
From Verif Require Import GeomModel GeomSpec BalanceModel WindSpec WindProofs JoinSpec ArrangeSpec ArrangeCore ArrangeProofs ArrangeSum ArrangeHit ArrangeVertex ArrangeStack ArrangeColumn ArrangeRegion TreeNest.
Import ListNotations.
Local Open Scope Z_scope.

Lemma hits_tot l (f : nat -> Z) ck : tot f (snd (line_balance l ck)) = tot (others l (fun m => f (ln_i m) * f01 (lb_hit l m))) ck.
Proof.
  unfold line_balance. assert (H : forall st, tot f (snd (fold_left (lb_check l) ck st)) = tot f (snd st) + tot (others l (fun m => f (ln_i m) * f01 (lb_hit l m))) ck); [|rewrite H; cbn [snd]; rewrite tot_nil; lia].
  induction ck as [|m ck IH]; intros st; cbn [fold_left]; [rewrite tot_nil; lia|]. rewrite IH, tot_cons. unfold lb_check, others at 2. destruct (Nat.eqb (ln_i m) (ln_i l)); [lia|].
  destruct (lb_hit l m); unfold f01; [|lia]. cbn [snd]. rewrite tot_app, tot_cons, tot_nil. lia.
Qed.
Definition apart_ends (e e' : edge) : Prop := fst e <> fst e' /\ fst e <> snd e' /\ snd e <> fst e' /\ snd e <> snd e'.
Lemma turned_lohi e : fst e <> snd e -> llo (turned e) = llo e /\ lhi (turned e) = lhi e /\ lsgn (turned e) = - lsgn e.
Proof.
  intros N. unfold llo, lhi, lsgn, turned. cbn [fst snd]. destruct (point_less (fst e) (snd e)) eqn:E1, (point_less (snd e) (fst e)) eqn:E2; auto; exfalso.
  - eapply less_antisym; eassumption.
  - destruct (less_total _ _ N); congruence.
Qed.
Lemma hit_same l m : proper l -> proper m -> apart (ln_e l) (ln_e m) -> ln_i l <> ln_i m -> apart_ends (ln_e l) (ln_e m) ->
  f01 (spansb (px (fst (ln_e l))) (ln_e m) && lb_hit l m) = f01 (above_pt m (fst (ln_e l))) + (if sg l =? 1 then 0 else sg m * (upper (fst (ln_e l)) (snd (ln_e m)) - upper (fst (ln_e l)) (fst (ln_e m)))).
Proof.
  intros PL PM AP NI (N1 & N2 & N3 & N4). assert (NLO : point_eqb (lo m) (fst (ln_e l)) = false) by (apply peqb_neq; destruct (lo_hi_ends (ln_e m)) as [(-> & _)|(-> & _)]; congruence).
  assert (NHI : point_eqb (hi m) (fst (ln_e l)) = false) by (apply peqb_neq; destruct (lo_hi_ends (ln_e m)) as [(_ & -> & _)|(_ & -> & _)]; congruence).
  destruct (lo_hi_ends (ln_e l)) as [(EL & EH & SL)|(EL & EH & SL)].
  - rewrite SL. cbn [Z.eqb]. rewrite Z.add_0_r. assert (AB : ab_lo l m = above_pt m (fst (ln_e l))) by (unfold ab_lo; rewrite EL, NLO; cbn [andb]; apply orb_false_r).
    destruct (spansb (px (fst (ln_e l))) (ln_e m)) eqn:SP; cbn [andb].
    + apply spansb_ok in SP. pose proof (hit_lo l m PL SL PM AP SP) as H. rewrite AB in H. destruct (Z.eq_dec (px (fst (ln_e m))) (px (snd (ln_e m)))) as [V|V].
      * destruct (vert_sgn _ V PM) as (_ & _ & E & _). rewrite E in H. destruct (sg_one m) as [S|S]; rewrite S in H; unfold f01 in *; destruct (lb_hit l m), (above_pt m (fst (ln_e l))); lia.
      * destruct (edge_lo_llo _ V) as (_ & _ & E & _). rewrite E in H. destruct (sg_one m) as [S|S]; rewrite S in H; lia.
    + rewrite <- AB, (away_lo l m); [reflexivity|]. rewrite EL, <- spansb_ok, SP. discriminate.
  - rewrite SL. change (-1 =? 1) with false. cbn iota. assert (AB : ab_hi l m = above_pt m (fst (ln_e l))) by (unfold ab_hi; rewrite EH, NHI; cbn [andb]; apply orb_false_r).
    destruct (spansb (px (fst (ln_e l))) (ln_e m)) eqn:SP; cbn [andb].
    + apply spansb_ok in SP. pose proof (hit_hi l m PL SL PM AP SP NI) as H. rewrite AB, EH in H. destruct (Z.eq_dec (px (fst (ln_e m))) (px (snd (ln_e m)))) as [V|V].
      * assert (LB : lb_hit l m = false).
        { rewrite (hit_vert l m V). destruct (Z.eqb_spec (py (fst (ln_e l))) (py (fst (ln_e m)))) as [Y|Y]; [|apply andb_false_r]. exfalso. apply N1. apply pt_eta; [|exact Y]. unfold spans in SP. lia. }
        assert (AM : above_pt m (fst (ln_e l)) = false).
        { destruct (vert_sgn _ V PM) as (EV & LT & _). unfold above_pt. destruct (col_vert _ _ (fst (ln_e l)) EV LT) as (C1 & _). unfold spans in SP. destruct (lo_hi_px (ln_e m)) as (X1 & X2). assert (~ (px (fst (ln_e l)) < px (lo m))) by lia.
          replace (0 <? A m (fst (ln_e l))) with false; [apply andb_false_r|]. destruct (Z.ltb_spec 0 (A m (fst (ln_e l)))) as [Y|Y]; [|reflexivity]. tauto. }
        rewrite LB, AM in *. cbn [f01] in *. rewrite <- H. lia.
      * destruct (edge_lo_llo _ V) as (_ & _ & E & _). rewrite E in H. destruct (sg_one m) as [S|S]; rewrite S in *; lia.
    + rewrite <- AB, <- EH. destruct (away_hi l m) as (-> & -> & ->); [rewrite EH, <- spansb_ok, SP; discriminate|]. cbn [f01]. lia.
Qed.
Lemma hit_term l m e : proper l -> proper m -> apart (ln_e l) (ln_e m) -> ln_i l <> ln_i m -> apart_ends (ln_e l) (ln_e m) -> e = ln_e m \/ e = turned (ln_e m) ->
  lsgn e * f01 (spansb (px (fst (ln_e l))) (ln_e m) && lb_hit l m) = lsgn e * f01 (above_e e (fst (ln_e l))) + (if sg l =? 1 then 0 else 1) * (upper (fst (ln_e l)) (snd e) - upper (fst (ln_e l)) (fst e)).
Proof.
  intros PL PM AP NI AE EE. pose proof (hit_same l m PL PM AP NI AE) as H. rewrite H. clear H.
  assert (AB : above_e e (fst (ln_e l)) = above_pt m (fst (ln_e l))).
  { change (above_pt m (fst (ln_e l))) with (above_e (ln_e m) (fst (ln_e l))). destruct EE as [-> | ->]; [reflexivity|]. unfold above_e. destruct (turned_lohi (ln_e m) PM) as (-> & -> & _). reflexivity. }
  rewrite AB. destruct EE as [-> | ->].
  - destruct (sg_one m) as [S|S]; rewrite S; destruct (sg l =? 1); lia.
  - destruct (turned_lohi (ln_e m) PM) as (_ & _ & ->). unfold turned. cbn [fst snd]. destruct (sg_one m) as [S|S]; rewrite S; destruct (sg l =? 1); lia.
Qed.
Theorem hits_wind ls l ck (sel : line -> list edge) (f : nat -> Z) : arranged ls -> In l ls -> column l ls ck ->
  (forall m e, In m ls -> In e (sel m) -> (e = ln_e m \/ e = turned (ln_e m)) /\ apart_ends (ln_e l) (ln_e m)) ->
  (forall m, In m ls -> ln_i m <> ln_i l -> f (ln_i m) = tot lsgn (sel m)) ->
  balanced (flat_map sel ls) -> tot f (snd (line_balance l ck)) = windv (flat_map sel ls) (fst (ln_e l)).
Proof.
  intros AR IL CO SEL F BA. rewrite hits_tot, (column_tot l ls ck _ (nodup_lines _ (proj1 AR)) CO). unfold windv. rewrite tot_flat.
  pose proof (balanced_tot (flat_map sel ls) (upper (fst (ln_e l))) BA) as B. rewrite tot_flat in B.
  enough (G : tot (fun m => if spansb (px (fst (ln_e l))) (ln_e m) then others l (fun m => f (ln_i m) * f01 (lb_hit l m)) m else 0) ls =
    tot (fun m => tot (fun e => lsgn e * f01 (above_e e (fst (ln_e l)))) (sel m) + (if sg l =? 1 then 0 else 1) * tot (fun e => upper (fst (ln_e l)) (snd e) - upper (fst (ln_e l)) (fst e)) (sel m)) ls) by (rewrite G, tot_add, tot_scale, B; ring).
  apply tot_ext. intros m IM. rewrite <- tot_scale, <- tot_add. unfold others. destruct (Nat.eqb_spec (ln_i m) (ln_i l)) as [E|E].
  - apply (arr_inj ls l m AR IL IM) in E. subst m. destruct (sel l) as [|e s] eqn:S; [rewrite tot_nil; destruct (spansb _ _); reflexivity|]. exfalso. destruct (SEL l e IL) as (_ & (N & _)); [rewrite S; left; reflexivity|]. congruence.
  - rewrite (F m IM E). transitivity (tot (fun e => lsgn e * f01 (spansb (px (fst (ln_e l))) (ln_e m) && lb_hit l m)) (sel m)).
    + symmetry. transitivity (tot (fun e => f01 (spansb (px (fst (ln_e l))) (ln_e m) && lb_hit l m) * lsgn e) (sel m)); [apply tot_ext; intros; apply Z.mul_comm|]. rewrite tot_scale. destruct (spansb _ _); cbn [andb]; [|cbn [f01]; lia]. apply Z.mul_comm.
    + apply tot_ext. intros e IE. destruct (SEL m e IM IE) as (EE & AE). apply hit_term; auto; [exact (arr_proper _ _ AR IL)|exact (arr_proper _ _ AR IM)|exact (arr_apart _ _ _ AR IL IM)].
Qed.
