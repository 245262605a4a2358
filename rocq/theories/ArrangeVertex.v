(** The winding numbers computed for the lines at a vertex. *)
From Coq Require Import ZArith QArith List Bool Arith Lia Permutation.
From Verif Require Import GeomModel GeomSpec BalanceModel WindSpec JoinSpec JoinProps ArrangeSpec ArrangeCore ArrangeProofs ArrangeSum ArrangeHit.
Import ListNotations.
Local Open Scope Z_scope.

(** ** Closed families *)
Lemma balanced_tot es (f : point -> Z) : balanced es -> tot (fun e => f (snd e) - f (fst e)) es = 0.
Proof.
  intros B. rewrite tot_sub. assert (P : Permutation (map snd es) (map fst es)).
  { apply occ_perm. intros k. specialize (B k). unfold ends_at, starts_at in B. unfold occ.
    assert (FM : forall g : point * point -> point, length (filter (fun x => point_eqb x k) (map g es)) = length (filter (fun e => point_eqb (g e) k) es)).
    { intros g. clear B. induction es as [|e es IH]; [reflexivity|]. cbn [map filter]. destruct (point_eqb (g e) k); cbn [length]; rewrite IH; reflexivity. }
    rewrite !FM. exact B. }
  rewrite <- (tot_map snd f), <- (tot_map fst f), (tot_perm f _ _ P). lia.
Qed.
Definition own (c : bool_set) (l : line) : Z := f01 (bset_eqb (ln_set l) c).
Definition wt (c : bool_set) (l : line) : Z := own c l * sg l.
Lemma closed_tot ls c (f : point -> Z) : arranged ls -> tot (fun m => own c m * (f (snd (ln_e m)) - f (fst (ln_e m)))) ls = 0.
Proof.
  intros (_ & _ & _ & B). specialize (B c). pose proof (balanced_tot _ f B) as T. rewrite tot_map, tot_filter in T. rewrite <- T. apply tot_ext. intros m _. unfold own. destruct (bset_eqb _ _); unfold f01; lia.
Qed.
Lemma arr_apart ls l m : arranged ls -> In l ls -> In m ls -> apart (ln_e l) (ln_e m).
Proof. intros (_ & P & Q & _) I J. apply (planar_apart _ _ _ P Q); apply in_map; assumption. Qed.
Lemma arr_proper ls l : arranged ls -> In l ls -> proper l.
Proof. intros (_ & _ & Q & _) I. apply Q, in_map, I. Qed.
Lemma arr_inj ls l m : arranged ls -> In l ls -> In m ls -> ln_i m = ln_i l -> m = l.
Proof.
  intros (N & _) I J E. induction ls as [|x ls IH]; [destruct I|]. inversion N as [|? ? NI ND]; subst.
  destruct I as [->|I], J as [->|J]; try reflexivity; try (apply IH; assumption); exfalso; apply NI; [rewrite <- E|rewrite E]; apply in_map; assumption.
Qed.

(** ** The number of lines above a line *)
Definition others (l : line) (f : line -> Z) (m : line) : Z := if Nat.eqb (ln_i m) (ln_i l) then 0 else f m.
Definition Slo (ls : list line) (c : bool_set) (l : line) : Z := tot (others l (fun m => wt c m * f01 (ab_lo l m))) ls.
Definition Shi (ls : list line) (c : bool_set) (l : line) : Z := tot (others l (fun m => wt c m * f01 (ab_hi l m))) ls.
Lemma below_ends l : below_pt l (lo l) = false /\ below_pt l (hi l) = false.
Proof. unfold below_pt. rewrite !less_irrefl. rewrite andb_false_r. auto. Qed.
Lemma above_ends l : above_pt l (lo l) = false /\ above_pt l (hi l) = false.
Proof. unfold above_pt. rewrite !less_irrefl. rewrite andb_false_r. auto. Qed.
Theorem same_count ls c l : arranged ls -> In l ls -> Slo ls c l = Shi ls c l.
Proof.
  intros AR IL. pose proof (closed_tot ls c (fun v => f01 (below_pt l v)) AR) as T.
  enough (Shi ls c l - Slo ls c l = - tot (fun m => own c m * (f01 (below_pt l (snd (ln_e m))) - f01 (below_pt l (fst (ln_e m))))) ls) by lia.
  unfold Shi, Slo. rewrite <- tot_sub. replace (- tot _ ls) with (tot (fun _ => 0) ls - tot (fun m => own c m * (f01 (below_pt l (snd (ln_e m))) - f01 (below_pt l (fst (ln_e m))))) ls) by (rewrite tot_zero; lia).
  rewrite <- tot_sub. apply tot_ext. intros m IM. unfold others. destruct (below_ends l) as (B1 & B2). destruct (Nat.eqb_spec (ln_i m) (ln_i l)) as [E|E].
  - apply (arr_inj ls l m AR IL IM) in E. subst m. destruct (lo_hi_ends (ln_e l)) as [(E1 & E2 & _)|(E1 & E2 & _)]; rewrite E1, E2 in *; rewrite B1, B2; cbn [f01]; lia.
  - pose proof (edge_const l m (arr_proper _ _ AR IL) (arr_proper _ _ AR IM) (arr_apart _ _ _ AR IL IM)) as H. unfold wt.
    destruct (lo_hi_ends (ln_e m)) as [(E1 & E2 & E3)|(E1 & E2 & E3)]; rewrite E1, E2 in H; rewrite E3; nia.
Qed.

(** ** What the code computes *)
Lemma wn_add_get w c d k : wn_get (wn_add w k d) c = wn_get w c + (if bset_eqb k c then d else 0).
Proof. destruct w, c, k; cbn; lia. Qed.
Lemma balance_tot l c ck : wn_get (fst (line_balance l ck)) c = wn_get (lb_init l) c + tot (others l (fun m => own c m * (edge_sign (ln_e m) * f01 (lb_hit l m)))) ck.
Proof.
  unfold line_balance. assert (H : forall st, wn_get (fst (fold_left (lb_check l) ck st)) c = wn_get (fst st) c + tot (others l (fun m => own c m * (edge_sign (ln_e m) * f01 (lb_hit l m)))) ck).
  { induction ck as [|m ck IH]; intros st; cbn [fold_left]; [rewrite tot_nil; lia|]. rewrite IH, tot_cons. unfold lb_check, others at 2. destruct (Nat.eqb (ln_i m) (ln_i l)); [lia|].
    destruct (lb_hit l m); unfold f01; [|lia]. cbn [fst]. rewrite wn_add_get. unfold own, f01. destruct (bset_eqb _ _); lia. }
  apply H.
Qed.
Definition spansb (x : Z) (e : point * point) : bool := (Z.min (px (fst e)) (px (snd e)) <=? x) && (x <=? Z.max (px (fst e)) (px (snd e))).
Lemma spansb_ok x e : spansb x e = true <-> spans x e.
Proof. unfold spansb, spans. lia. Qed.
Lemma nodup_lines ls : NoDup (map ln_i ls) -> NoDup ls.
Proof. apply NoDup_map_inv. Qed.
Lemma column_tot l ls ck f : NoDup ls -> column l ls ck -> tot f ck = tot (fun m => if spansb (px (fst (ln_e l))) (ln_e m) then f m else 0) ls.
Proof.
  intros ND (NC & H). rewrite <- tot_filter. apply tot_perm. apply NoDup_Permutation; [exact NC|apply NoDup_filter, ND|]. intros m. rewrite filter_In, spansb_ok. apply H.
Qed.
(** Lines away from a column. *)
Lemma lo_hi_px e : px (llo e) = Z.min (px (fst e)) (px (snd e)) /\ px (lhi e) = Z.max (px (fst e)) (px (snd e)).
Proof.
  unfold llo, lhi, point_less. destruct (Z.eqb_spec (px (snd e)) (px (fst e))); [destruct (_ <? _)|destruct (Z.ltb_spec (px (snd e)) (px (fst e)))]; lia.
Qed.
Lemma away_pt v e : ~ spans (px v) e -> (point_less (llo e) v && point_less v (lhi e)) = false /\ point_eqb (llo e) v = false /\ point_eqb (lhi e) v = false.
Proof.
  unfold spans. assert (LE : px (llo e) <= px (lhi e)) by (destruct (lo_hi_px e); lia). destruct (lo_hi_px e) as (<- & <-). intros N. rewrite !eqb_pt. unfold point_less.
  destruct (Z.eqb_spec (px (llo e)) (px v)), (Z.eqb_spec (px v) (px (lhi e))), (Z.eqb_spec (px (lhi e)) (px v)); cbn [andb]; lia.
Qed.
Lemma away_lo l m : ~ spans (px (lo l)) (ln_e m) -> ab_lo l m = false.
Proof. intros N. destruct (away_pt _ _ N) as (H1 & H2 & _). unfold ab_lo, above_pt. rewrite H1, H2. reflexivity. Qed.
Lemma away_hi l m : ~ spans (px (hi l)) (ln_e m) -> ab_hi l m = false /\ upper (hi l) (fst (ln_e m)) = 0 /\ upper (hi l) (snd (ln_e m)) = 0.
Proof.
  intros N. destruct (away_pt _ _ N) as (H1 & _ & H2). unfold ab_hi, above_pt, upper. rewrite H1, H2. split; [reflexivity|]. unfold spans in N.
  split; (destruct (Z.eqb_spec (px (fst (ln_e m))) (px (hi l))), (Z.eqb_spec (px (snd (ln_e m))) (px (hi l))); [lia..|reflexivity]) || idtac.
  all: destruct (Z.eqb_spec (px (fst (ln_e m))) (px (hi l))), (Z.eqb_spec (px (snd (ln_e m))) (px (hi l))); try lia; reflexivity.
Qed.
(** The winding numbers to the left of a line. *)
Theorem balance_is ls l ck c : arranged ls -> In l ls -> column l ls ck ->
  wn_get (fst (line_balance l ck)) c = Slo ls c l - (if sg l =? 1 then 0 else own c l).
Proof.
  intros AR IL CO. rewrite balance_tot, (column_tot l ls ck _ (nodup_lines _ (proj1 AR)) CO). pose proof (arr_proper _ _ AR IL) as PL.
  destruct (lo_hi_ends (ln_e l)) as [(EL & EH & SL)|(EL & EH & SL)].
  - assert (I0 : wn_get (lb_init l) c = 0).
    { unfold lb_init, line_delta, psub. unfold px at 1. cbn [fst]. destruct (Z.ltb_spec (px (snd (ln_e l)) - px (fst (ln_e l))) 0); [exfalso|destruct c; reflexivity].
      destruct (lo_hi_px (ln_e l)) as (H1 & _). rewrite EL in H1. lia. }
    rewrite I0, SL. cbn [Z.eqb]. rewrite Z.sub_0_r, Z.add_0_l. unfold Slo. apply tot_ext. intros m IM. unfold others.
    destruct (Nat.eqb_spec (ln_i m) (ln_i l)) as [E|E]; [destruct (spansb _ _); reflexivity|]. destruct (spansb (px (fst (ln_e l))) (ln_e m)) eqn:SP.
    + apply spansb_ok in SP. rewrite (hit_lo l m PL SL (arr_proper _ _ AR IM) (arr_apart _ _ _ AR IL IM) SP). unfold wt. ring.
    + rewrite (away_lo l m) by (rewrite EL, <- spansb_ok, SP; discriminate). cbn [f01]. ring.
  - rewrite SL. change (-1 =? 1) with false. cbn iota. rewrite (same_count ls c l AR IL). pose proof (closed_tot ls c (upper (hi l)) AR) as T.
    assert (D : tot (fun m => if spansb (px (fst (ln_e l))) (ln_e m) then others l (fun m => own c m * (edge_sign (ln_e m) * f01 (lb_hit l m))) m else 0) ls
      = Shi ls c l + tot (fun m => own c m * (upper (hi l) (snd (ln_e m)) - upper (hi l) (fst (ln_e m)))) ls - tot (fun m => if Nat.eqb (ln_i m) (ln_i l) then own c l * (upper (hi l) (snd (ln_e l)) - upper (hi l) (fst (ln_e l))) else 0) ls).
    { unfold Shi. rewrite <- tot_add, <- tot_sub. apply tot_ext. intros m IM. unfold others. destruct (Nat.eqb_spec (ln_i m) (ln_i l)) as [E|E].
      - apply (arr_inj ls l m AR IL IM) in E. subst m. destruct (spansb _ _); ring.
      - destruct (spansb (px (fst (ln_e l))) (ln_e m)) eqn:SP.
        + apply spansb_ok in SP. pose proof (hit_hi l m PL SL (arr_proper _ _ AR IM) (arr_apart _ _ _ AR IL IM) SP (not_eq_sym E)) as H. unfold wt. rewrite <- H. ring.
        + destruct (away_hi l m) as (-> & -> & ->); [rewrite EH, <- spansb_ok, SP; discriminate|]. cbn [f01]. ring. }
    rewrite D, T. clear D T.
    assert (O : tot (fun m => if Nat.eqb (ln_i m) (ln_i l) then own c l * (upper (hi l) (snd (ln_e l)) - upper (hi l) (fst (ln_e l))) else 0) ls = own c l * (upper (hi l) (snd (ln_e l)) - upper (hi l) (fst (ln_e l)))).
    { generalize (own c l * (upper (hi l) (snd (ln_e l)) - upper (hi l) (fst (ln_e l)))). intros k. destruct AR as (ND & _). clear - ND IL. induction ls as [|x ls IH]; [destruct IL|]. rewrite tot_cons. inversion ND as [|? ? NI ND']; subst.
      destruct IL as [->|IL].
      - rewrite Nat.eqb_refl. rewrite (tot_ext _ (fun _ => 0)), tot_zero; [lia|]. intros m I. destruct (Nat.eqb_spec (ln_i m) (ln_i l)) as [E|E]; [|reflexivity]. exfalso. apply NI. rewrite <- E. apply in_map, I.
      - rewrite (IH ND' IL). destruct (Nat.eqb_spec (ln_i x) (ln_i l)) as [E|E]; [|lia]. exfalso. apply NI. rewrite E. apply in_map, IL. }
    rewrite O. clear O. rewrite <- EH, <- EL. unfold upper. pose proof (lo_hi _ PL) as LL. rewrite Z.eqb_refl, Z.ltb_irrefl. cbn [andb].
    unfold lb_init, line_delta, psub. unfold px at 1. cbn [fst]. rewrite <- EH, <- EL. unfold point_less in LL.
    assert (W : forall b : bool, wn_get (if b then wn_add (0, 0) (ln_set l) (-1) else (0, 0)) c = if b then - own c l else 0) by (intros b; unfold own; destruct b, c, (ln_set l); reflexivity). rewrite W.
    destruct (Z.eqb_spec (px (lo l)) (px (hi l))), (Z.ltb_spec (px (lo l) - px (hi l)) 0); try lia; cbn [andb]; rewrite ?LL; cbn [f01]; lia.
Qed.
