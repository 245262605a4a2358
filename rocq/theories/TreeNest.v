(** Closed families of lines that do not touch each other are nested. *)
From Coq Require Import ZArith QArith List Bool Arith Lia Permutation.
From Verif Require Import GeomModel GeomSpec BalanceModel WindSpec WindProofs JoinSpec ArrangeSpec ArrangeCore ArrangeProofs ArrangeSum ArrangeHit ArrangeVertex ArrangeStack ArrangeColumn ArrangeRegion.
Import ListNotations.
Local Open Scope Z_scope.

(** How often the lines wind around v. *)
Definition windv (es : list edge) (v : point) : Z := tot (fun e => lsgn e * f01 (above_e e v)) es.
Definition corner (es : list edge) (v : point) : Prop := exists e, In e es /\ (v = fst e \/ v = snd e).
Definition untouched (ea eb : list edge) : Prop := forall v, corner ea v -> corner eb v -> False.
Lemma llo_corner es e : In e es -> corner es (llo e).
Proof. intros I. exists e. split; [exact I|]. destruct (lo_hi_ends e) as [(-> & _)|(-> & _)]; auto. Qed.
Lemma lhi_corner es e : In e es -> corner es (lhi e).
Proof. intros I. exists e. split; [exact I|]. destruct (lo_hi_ends e) as [(_ & -> & _)|(_ & -> & _)]; auto. Qed.

(** The lines of two families, numbered. *)
Definition two (ea eb : list edge) : list line :=
  map (fun k => mk_line (fst k) (snd (snd k)) (fst (snd k))) (combine (seq 0 (length (ea ++ eb))) (map (pair Subject) ea ++ map (pair Clip) eb)).
Lemma two_ids ea eb : map ln_i (two ea eb) = seq 0 (length (ea ++ eb)).
Proof.
  unfold two. rewrite map_map. cbn [ln_i]. assert (G : forall (B : Type) (l : list B) k, map (fun x : nat * B => fst x) (combine (seq k (length l)) l) = seq k (length l)).
  { intros B l. induction l as [|x l IH]; intros k; [reflexivity|]. cbn. rewrite IH. reflexivity. }
  specialize (G _ (map (pair Subject) ea ++ map (pair Clip) eb) 0%nat). rewrite app_length, !map_length in G. rewrite app_length. exact G.
Qed.
Lemma two_map {X} (g : bool_set * edge -> X) ea eb : map (fun l => g (ln_set l, ln_e l)) (two ea eb) = map g (map (pair Subject) ea ++ map (pair Clip) eb).
Proof.
  unfold two. rewrite map_map. cbn [ln_set ln_e]. assert (G : forall (l : list (bool_set * edge)) k, map (fun x => g (fst (snd x), snd (snd x))) (combine (seq k (length l)) l) = map g l).
  { induction l as [|(c, e) l IH]; intros k; [reflexivity|]. cbn. rewrite IH. reflexivity. }
  specialize (G (map (pair Subject) ea ++ map (pair Clip) eb) 0%nat). rewrite app_length, !map_length in G. rewrite app_length. exact G.
Qed.
Lemma two_edges ea eb : map ln_e (two ea eb) = ea ++ eb.
Proof. rewrite (two_map snd), map_app, !map_map. cbn. rewrite !map_id. reflexivity. Qed.
Lemma two_sum c (f : edge -> Z) ea eb : tot (fun m => own c m * f (ln_e m)) (two ea eb) = tot f (match c with Subject => ea | Clip => eb end).
Proof.
  unfold tot. unfold own. rewrite (two_map (fun ce => f01 (bset_eqb (fst ce) c) * f (snd ce))), map_app, !map_map. cbn [fst snd].
  assert (S0 : forall l, sumZ (map (fun x : edge => 0 * f x) l) = 0) by (induction l as [|x l IH]; cbn; [reflexivity|exact IH]).
  assert (S1 : forall l, sumZ (map (fun x : edge => 1 * f x) l) = sumZ (map f l)) by (intros l; f_equal; apply map_ext; intros; lia).
  assert (AP : forall a b, sumZ (a ++ b) = sumZ a + sumZ b) by (induction a as [|x a IH]; intros b; cbn [app sumZ fold_right] in *; unfold sumZ in *; cbn [fold_right]; [lia|rewrite IH; lia]).
  rewrite AP. destruct c; cbn [bset_eqb f01]; rewrite S0, S1; lia.
Qed.
Lemma two_in ea eb m : In m (two ea eb) -> In (ln_e m) (match ln_set m with Subject => ea | Clip => eb end).
Proof.
  intros I. assert (H : In (ln_set m, ln_e m) (map (fun l => (ln_set l, ln_e l)) (two ea eb))) by (apply in_map_iff; exists m; auto).
  rewrite (two_map (fun x => x)), map_id in H. apply in_app_or in H as [H|H]; apply in_map_iff in H as (e & E & H); injection E as <- <-; exact H.
Qed.
Lemma two_has ea eb c e : In e (match c with Subject => ea | Clip => eb end) -> exists m, In m (two ea eb) /\ ln_set m = c /\ ln_e m = e.
Proof.
  intros I. assert (H : In (c, e) (map (fun l => (ln_set l, ln_e l)) (two ea eb))).
  { rewrite (two_map (fun x => x)), map_id. apply in_or_app. destruct c; [left|right]; apply in_map; exact I. }
  apply in_map_iff in H as (m & E & M). injection E as E1 E2. exists m. auto.
Qed.
Lemma balanced_tot_iff es : balanced es <-> forall k, tot (fun e => f01 (point_eqb (snd e) k)) es = tot (fun e => f01 (point_eqb (fst e) k)) es.
Proof.
  assert (G : forall (g : edge -> bool) l, tot (fun e => f01 (g e)) l = Z.of_nat (length (filter g l))).
  { intros g l. unfold tot. induction l as [|x l IH]; [reflexivity|]. cbn [map sumZ fold_right filter] in *. unfold sumZ in *. cbn [fold_right]. rewrite IH. destruct (g x); cbn [f01 length]; lia. }
  unfold balanced, ends_at, starts_at. split; intros H k; specialize (H k); rewrite !G in *; lia.
Qed.

Section Two.
Variables ea eb : list edge.
Hypothesis PL : planar (ea ++ eb).
Hypothesis PR : proper_lines (ea ++ eb).
Hypothesis BA : balanced ea.
Hypothesis BB : balanced eb.
Hypothesis UT : untouched ea eb.
Let ls := two ea eb.
Let fam (c : bool_set) : list edge := match c with Subject => ea | Clip => eb end.
Lemma two_arranged : arranged ls.
Proof.
  split; [unfold ls; rewrite two_ids; apply seq_NoDup|]. unfold ls. rewrite two_edges. split; [exact PL|]. split; [exact PR|].
  intros c. apply balanced_tot_iff. intros k. rewrite !tot_map, !tot_filter. assert (BC : balanced (fam c)) by (destruct c; assumption). rewrite balanced_tot_iff in BC. specialize (BC k).
  pose proof (two_sum c (fun e => f01 (point_eqb (snd e) k)) ea eb) as E1. pose proof (two_sum c (fun e => f01 (point_eqb (fst e) k)) ea eb) as E2. fold (fam c) in E1, E2. rewrite <- E1, <- E2 in BC.
  etransitivity; [|etransitivity; [exact BC|]]; apply tot_ext; intros m _; unfold own; destruct (bset_eqb (ln_set m) c); cbn [f01]; lia.
Qed.
Lemma two_passing c v : passing ls c v = windv (fam c) v.
Proof.
  unfold passing, windv. pose proof (two_sum c (fun e => lsgn e * f01 (above_e e v)) ea eb) as E. fold (fam c) in E. rewrite <- E. apply tot_ext. intros m _. unfold wt. change (above_pt m v) with (above_e (ln_e m) v). lia.
Qed.
Lemma two_apart m l : In m ls -> In l ls -> ln_set m <> ln_set l -> lo m <> lo l /\ hi m <> hi l.
Proof.
  intros IM IL NE. apply two_in in IM, IL. pose proof (llo_corner _ _ IM) as A1. pose proof (llo_corner _ _ IL) as A2. pose proof (lhi_corner _ _ IM) as A3. pose proof (lhi_corner _ _ IL) as A4.
  split; intros E; rewrite E in *; destruct (ln_set m), (ln_set l); try congruence; eauto.
Qed.
Lemma peqb_neq a b : a <> b -> point_eqb a b = false.
Proof. intros N. destruct (point_eqb a b) eqn:E; [|reflexivity]. apply point_eqb_eq in E. contradiction. Qed.
Lemma own_eq c m : own c m = if bset_eqb (ln_set m) c then 1 else 0.
Proof. reflexivity. Qed.
Lemma bset_dec a b : bset_eqb a b = true <-> a = b.
Proof. destruct a, b; cbn; split; congruence. Qed.
Lemma two_slo c l : In l ls -> ln_set l <> c -> Slo ls c l = passing ls c (lo l) /\ Shi ls c l = passing ls c (hi l).
Proof.
  intros IL NE. unfold Slo, Shi, passing. split; apply tot_ext; intros m IM; unfold others, wt.
  - destruct (bset_eqb (ln_set m) c) eqn:B.
    + apply bset_dec in B. assert (NS : ln_set m <> ln_set l) by congruence. destruct (two_apart m l IM IL NS) as (N1 & _). destruct (Nat.eqb_spec (ln_i m) (ln_i l)) as [E|E].
      * apply (arr_inj ls l m two_arranged IL IM) in E. congruence.
      * unfold ab_lo. rewrite (peqb_neq _ _ N1). cbn [andb]. rewrite orb_false_r. reflexivity.
    + rewrite own_eq, B. destruct (Nat.eqb _ _); lia.
  - destruct (bset_eqb (ln_set m) c) eqn:B.
    + apply bset_dec in B. assert (NS : ln_set m <> ln_set l) by congruence. destruct (two_apart m l IM IL NS) as (_ & N1). destruct (Nat.eqb_spec (ln_i m) (ln_i l)) as [E|E].
      * apply (arr_inj ls l m two_arranged IL IM) in E. congruence.
      * unfold ab_hi. rewrite (peqb_neq _ _ N1). cbn [andb]. rewrite orb_false_r. reflexivity.
    + rewrite own_eq, B. destruct (Nat.eqb _ _); lia.
Qed.
(** The same on both ends of a line of the other family. *)
Theorem wind_along e : In e eb -> windv ea (fst e) = windv ea (snd e).
Proof.
  intros I. destruct (two_has ea eb Clip e I) as (l & IL & SL & EL). fold ls in IL. destruct (two_slo Subject l IL) as (S1 & S2); [congruence|].
  rewrite (same_count ls Subject l two_arranged IL) in S1. rewrite S1 in S2. rewrite !two_passing in S2. cbn [fam] in S2. rewrite EL in S2. destruct (lo_hi_ends e) as [(E1 & E2 & _)|(E1 & E2 & _)]; rewrite E1, E2 in S2; auto.
Qed.
(** Of the lines above a point the lowest: it has the same lines of the other family above it. *)
Theorem wind_floor v : (forall e, In e (ea ++ eb) -> ~ on_edge e v) -> windv ea v <> 0 \/ windv eb v <> 0 ->
  (exists e, In e ea /\ windv eb (llo e) = windv eb v) \/ (exists e, In e eb /\ windv ea (llo e) = windv ea v).
Proof.
  intros OFF NZ. destruct (some_size ls v) as (M & SZ). assert (OFF' : forall l, In l ls -> ~ on_edge (ln_e l) v) by (intros l I; apply OFF; rewrite <- two_edges; apply in_map; exact I).
  assert (P : forall c, tot (wt c) (roof ls v) = passing ls c v).
  { intros c. unfold roof, passing. rewrite tot_filter. apply tot_ext. intros m _. destruct (above_pt m v); cbn [f01]; lia. }
  pose proof (ranked_roof ls v M two_arranged OFF' SZ) as RK.
  assert (ND : NoDup (map ln_i (roof ls v))).
  { unfold roof. destruct two_arranged as (N & _). clear - N. generalize (fun l => above_pt l v). intros p. induction ls as [|x xs IH]; [constructor|]. inversion N as [|? ? NI ND]; subst. cbn [filter]. destruct (p x); [|apply IH, ND]. cbn [map]. constructor; [|apply IH, ND].
    intros I. apply NI. apply in_map_iff in I. destruct I as (y & E & I). apply filter_In in I. rewrite <- E. apply in_map, I. }
  assert (NE : roof ls v <> []).
  { intros E. pose proof (P Subject) as P1. pose proof (P Clip) as P2. rewrite E in P1, P2. rewrite two_passing in P1, P2. cbn in P1, P2. destruct NZ as [NZ|NZ]; apply NZ; symmetry; assumption. }
  destruct (lowest ln_i (gt_v M v) (roof ls v) RK ND NE) as (m & R' & PM & LOW).
  assert (IR : In m (roof ls v)) by (eapply Permutation_in; [symmetry; exact PM|left; reflexivity]). assert (IM : In m ls) by (apply filter_In in IR; apply IR).
  assert (KEY : forall c, ln_set m <> c -> passing ls c (lo m) = passing ls c v).
  { intros c N. destruct (two_slo c m IM N) as (S1 & _). rewrite <- S1, (slo_roof ls v M two_arranged OFF' SZ c m IR), <- P, (higher_perm ln_i (gt_v M v) (wt c) _ _ m PM). unfold higher. rewrite (tot_perm _ _ _ PM).
    assert (W0 : wt c m = 0) by (unfold wt, own; destruct (bset_eqb (ln_set m) c) eqn:B; [apply bset_dec in B; congruence|cbn [f01]; lia]).
    pose proof (Permutation_NoDup (Permutation_map ln_i PM) ND) as ND'. cbn [map] in ND'. inversion ND' as [|? ? NI ND2]; subst.
    unfold tot. cbn [map]. unfold sumZ. cbn [fold_right]. rewrite Nat.eqb_refl, W0. f_equal. apply (tot_ext _ _ R'). intros y Y. rewrite (LOW y Y). destruct (Nat.eqb_spec (ln_i y) (ln_i m)) as [E|E]; [|reflexivity]. exfalso. apply NI. rewrite <- E. apply in_map. exact Y. }
  pose proof (two_in _ _ _ IM) as IE. destruct (ln_set m) eqn:SM.
  - left. exists (ln_e m). split; [exact IE|]. specialize (KEY Clip). rewrite !two_passing in KEY. apply KEY. discriminate.
  - right. exists (ln_e m). split; [exact IE|]. specialize (KEY Subject). rewrite !two_passing in KEY. apply KEY. discriminate.
Qed.
End Two.

(** Loops that do not touch each other. *)
Section Loops.
Variables (n : nat) (E : nat -> list edge).
Hypothesis PL : forall a b e1 e2, (a < n)%nat -> (b < n)%nat -> In e1 (E a) -> In e2 (E b) -> same_ends e1 e2 \/
    forall X Y, on_seg (fst e1) (snd e1) X Y -> on_seg (fst e2) (snd e2) X Y -> end_of e1 X Y /\ end_of e2 X Y.
Hypothesis PR : forall a, (a < n)%nat -> proper_lines (E a).
Hypothesis BA : forall a, (a < n)%nat -> balanced (E a).
Hypothesis UT : forall a b, (a < n)%nat -> (b < n)%nat -> a <> b -> untouched (E a) (E b).
Hypothesis NE : forall a, (a < n)%nat -> E a <> [].
Hypothesis CN : forall a (P : point -> Prop), (a < n)%nat -> (forall e, In e (E a) -> (P (fst e) <-> P (snd e))) -> forall v w, corner (E a) v -> corner (E a) w -> P v -> P w.
(** The loop a winds around all points of the loop x. *)
Definition winds_round (a x : nat) : Prop := (a < n)%nat /\ (x < n)%nat /\ a <> x /\ forall v, corner (E x) v -> windv (E a) v <> 0.

Lemma two_planar a b : (a < n)%nat -> (b < n)%nat -> planar (E a ++ E b) /\ proper_lines (E a ++ E b).
Proof.
  intros LA LB. split.
  - intros e1 e2 I1 I2. apply in_app_or in I1, I2. destruct I1 as [I1|I1], I2 as [I2|I2]; eapply PL; [| |exact I1|exact I2| | |exact I1|exact I2| | |exact I1|exact I2| | |exact I1|exact I2]; assumption.
  - intros e I. apply in_app_or in I as [I|I]; [apply (PR a LA e I)|apply (PR b LB e I)].
Qed.
Lemma wind_const a x v w : (a < n)%nat -> (x < n)%nat -> a <> x -> corner (E x) v -> corner (E x) w -> windv (E a) v = windv (E a) w.
Proof.
  intros LA LX N CV CW. destruct (two_planar a x LA LX) as (P1 & P2). apply (CN x (fun z => windv (E a) v = windv (E a) z) LX) with (v := v); auto.
  intros e I. rewrite (wind_along (E a) (E x) P1 P2 (BA a LA) (BA x LX) (UT a x LA LX N) e I). tauto.
Qed.
Lemma some_corner a : (a < n)%nat -> exists v, corner (E a) v.
Proof. intros L. specialize (NE a L). destruct (E a) as [|e l] eqn:EQ; [congruence|]. exists (fst e). exists e. split; [left; reflexivity|auto]. Qed.
Lemma round_at a x v : (a < n)%nat -> (x < n)%nat -> a <> x -> corner (E x) v -> windv (E a) v <> 0 -> winds_round a x.
Proof. intros LA LX N C W. split; [exact LA|]. split; [exact LX|]. split; [exact N|]. intros w CW. rewrite <- (wind_const a x v w); assumption. Qed.
Lemma inject_eq a b : (injX a == injX b)%Q -> (injY a == injY b)%Q -> a = b.
Proof. unfold injX, injY. intros X Y. pose proof (proj1 (inj_eq _ _) X) as X2. pose proof (proj1 (inj_eq _ _) Y) as Y2. apply pt_eta; [exact X2|exact Y2]. Qed.
Lemma corner_on e v : v = fst e \/ v = snd e -> on_seg (fst e) (snd e) (injX v) (injY v).
Proof.
  intros Q. destruct Q as [-> | ->]; [exists 0%Q|exists 1%Q]; (split; [split; discriminate|]); unfold injX, injY.
  - split; ring.
  - unfold Z.sub. rewrite !inject_Z_plus, !inject_Z_opp. split; ring.
Qed.
Lemma corner_off a x v e : (a < n)%nat -> (x < n)%nat -> a <> x -> corner (E x) v -> In e (E a) -> ~ on_edge e v.
Proof.
  intros LA LX N CV IE ON. pose proof CV as (e' & I' & V'). destruct (PL a x e e' LA LX IE I') as [SE|H].
  - apply (UT a x LA LX N v); [|exact CV]. exists e. split; [exact IE|]. destruct SE as [-> | ->]; cbn [fst snd]; tauto.
  - destruct (H _ _ ON (corner_on e' v V')) as (EN & _). apply (UT a x LA LX N v); [|exact CV]. exists e. split; [exact IE|]. destruct EN as [(EX & EY)|(EX & EY)]; [left|right]; apply inject_eq; assumption.
Qed.
Lemma least_corner es v0 : corner es v0 -> exists z, corner es z /\ forall w, corner es w -> point_less w z = false.
Proof.
  revert v0. induction es as [|e es IH]; intros v0 (e0 & I0 & V0); [destruct I0|].
  assert (L : corner (e :: es) (llo e) /\ point_less (fst e) (llo e) = false /\ point_less (snd e) (llo e) = false).
  { split; [apply llo_corner; left; reflexivity|]. unfold llo. destruct (point_less (snd e) (fst e)) eqn:X; split; try apply less_irrefl; try exact X. destruct (point_less (fst e) (snd e)) eqn:Y; [|reflexivity]. exfalso. eapply less_antisym; eassumption. }
  destruct L as (L1 & L2 & L3). destruct es as [|e' es].
  - exists (llo e). split; [exact L1|]. intros w (e1 & [<-|[]] & [-> | ->]); assumption.
  - destruct (IH (fst e')) as (z & CZ & ZM); [exists e'; split; [left; reflexivity|auto]|]. destruct CZ as (e2 & I2 & V2).
    assert (CZ : corner (e :: e' :: es) z) by (exists e2; split; [right; exact I2|exact V2]).
    destruct (point_less (llo e) z) eqn:X.
    + exists (llo e). split; [exact L1|]. intros w (e1 & [<-|I1] & V1); [destruct V1 as [-> | ->]; assumption|]. destruct (point_less w (llo e)) eqn:Y; [|reflexivity]. exfalso. assert (T : point_less w z = true) by (eapply less_trans; eassumption).
      rewrite (ZM w) in T; [discriminate|]. exists e1. auto.
    + exists z. split; [exact CZ|]. intros w (e1 & [<-|I1] & V1).
      * destruct (point_less w z) eqn:Y; [|reflexivity]. exfalso. assert (T : w = llo e \/ point_less (llo e) w = true).
        { destruct (point_eq_dec w (llo e)) as [T|T]; [left; exact T|right]. destruct (less_total _ _ T) as [T'|T']; [|exact T']. destruct V1 as [-> | ->]; congruence. }
        destruct T as [-> |T]; [congruence|]. rewrite (less_trans _ _ _ T Y) in X. discriminate.
      * apply ZM. exists e1. auto.
Qed.
Lemma no_wind_least es z : (forall w, corner es w -> point_less w z = false) -> windv es z = 0.
Proof.
  intros H. unfold windv. transitivity (tot (fun _ : edge => 0) es); [|apply tot_zero]. apply tot_ext. intros e I. unfold above_e. rewrite (H _ (llo_corner _ _ I)). cbn [andb f01]. lia.
Qed.
Lemma round_anti a b : winds_round a b -> winds_round b a -> False.
Proof.
  intros (LA & LB & N & H1) (_ & _ & _ & H2). destruct (some_corner a LA) as (v & CV). destruct (least_corner (E a ++ E b) v) as (z & CZ & ZM).
  { destruct CV as (e & I & V). exists e. split; [apply in_or_app; auto|exact V]. }
  destruct CZ as (e & I & V). apply in_app_or in I as [I|I].
  - apply (H2 z); [exists e; auto|]. apply no_wind_least. intros w (e1 & I1 & V1). apply ZM. exists e1. split; [apply in_or_app; auto|exact V1].
  - apply (H1 z); [exists e; auto|]. apply no_wind_least. intros w (e1 & I1 & V1). apply ZM. exists e1. split; [apply in_or_app; auto|exact V1].
Qed.
Lemma floor_of a b x v : (a < n)%nat -> (b < n)%nat -> (x < n)%nat -> a <> b -> a <> x -> b <> x -> corner (E x) v -> windv (E a) v <> 0 \/ windv (E b) v <> 0 ->
  (exists e, In e (E a) /\ windv (E b) (llo e) = windv (E b) v) \/ (exists e, In e (E b) /\ windv (E a) (llo e) = windv (E a) v).
Proof.
  intros LA LB LX N1 N2 N3 CV W. destruct (two_planar a b LA LB) as (P1 & P2). apply (wind_floor (E a) (E b) P1 P2 (BA a LA) (BA b LB) (UT a b LA LB N1)); [|exact W].
  intros e I. apply in_app_or in I as [I|I]; [apply (corner_off a x)|apply (corner_off b x)]; assumption.
Qed.
Lemma round_trans a b x : winds_round a b -> winds_round b x -> winds_round a x.
Proof.
  intros AB BX. pose proof AB as (LA & LB & N1 & _). pose proof BX as (_ & LX & N2 & H2). assert (N3 : a <> x) by (intros ->; exact (round_anti _ _ AB BX)).
  destruct (some_corner x LX) as (v & CV). destruct (floor_of a b x v LA LB LX N1 N3 N2 CV (or_intror (H2 v CV))) as [(e & I & W)|(e & I & W)].
  - exfalso. apply (round_anti a b AB). apply (round_at b a (llo e)); auto; [apply llo_corner; exact I|]. rewrite W. apply H2, CV.
  - apply (round_at a x v); auto. rewrite <- W. apply (proj2 (proj2 (proj2 AB))). apply llo_corner. exact I.
Qed.
Lemma round_linear a b x : winds_round a x -> winds_round b x -> a = b \/ winds_round a b \/ winds_round b a.
Proof.
  intros AX BX. pose proof AX as (LA & LX & N1 & H1). pose proof BX as (LB & _ & N2 & H2). destruct (Nat.eq_dec a b) as [Q|N3]; [left; exact Q|right].
  destruct (some_corner x LX) as (v & CV). destruct (floor_of a b x v LA LB LX N3 N1 N2 CV (or_introl (H1 v CV))) as [(e & I & W)|(e & I & W)].
  - right. apply (round_at b a (llo e)); auto; [apply llo_corner; exact I|]. rewrite W. apply H2, CV.
  - left. apply (round_at a b (llo e)); auto; [apply llo_corner; exact I|]. rewrite W. apply H1, CV.
Qed.
End Loops.
