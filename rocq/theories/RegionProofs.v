(** The same lines, measured in smaller units. *)
From Coq Require Import ZArith QArith Lqa List Bool Arith Lia Permutation ZifyBool.
From Verif Require Import GeomModel GeomSpec BalanceModel WindSpec JoinSpec ArrangeSpec.
Import ListNotations.
Local Open Scope Z_scope.

Definition se (k : Z) (e : point * point) : point * point := (scale k (fst e), scale k (snd e)).
Definition sline (k : Z) (l : line) : line := mk_line (ln_i l) (se k (ln_e l)) (ln_set l).
Section Scale.
Variable k : Z.
Hypothesis K : 0 < k.
Lemma px_s p : px (scale k p) = k * px p. Proof. reflexivity. Qed.
Lemma py_s p : py (scale k p) = k * py p. Proof. reflexivity. Qed.
Lemma ltb_s a b : (k * a <? k * b) = (a <? b).
Proof. destruct (Z.ltb_spec a b), (Z.ltb_spec (k * a) (k * b)); try reflexivity; nia. Qed.
Lemma eqb_s a b : (k * a =? k * b) = (a =? b).
Proof. destruct (Z.eqb_spec a b) as [E|N], (Z.eqb_spec (k * a) (k * b)); try reflexivity; nia. Qed.
Lemma lt0_s a : (0 <? k * a) = (0 <? a).
Proof. rewrite <- (Z.mul_0_r k) at 1. apply ltb_s. Qed.
Lemma gt0_s a : (k * a <? 0) = (a <? 0).
Proof. rewrite <- (Z.mul_0_r k) at 1. apply ltb_s. Qed.
Lemma eq0_s a : (k * a =? 0) = (a =? 0).
Proof. rewrite <- (Z.mul_0_r k) at 1. apply eqb_s. Qed.
Lemma psub_s a b : psub (scale k a) (scale k b) = scale k (psub a b).
Proof. unfold psub, scale, px, py. cbn [fst snd]. f_equal; ring. Qed.
Lemma scale_inj a b : scale k a = scale k b -> a = b.
Proof. destruct a as (x, y), b as (x', y'). unfold scale, px, py. cbn [fst snd]. intros E. injection E as E1 E2. apply Z.mul_reg_l in E1, E2; try lia. congruence. Qed.
Lemma peqb_s a b : point_eqb (scale k a) (scale k b) = point_eqb a b.
Proof. unfold point_eqb. rewrite !px_s, !py_s, !eqb_s. reflexivity. Qed.
Lemma up_ray_s a b p h dp t : up_ray (scale k a) (scale k b) (scale k p) (k * h) (scale k dp) t = up_ray a b p h dp t.
Proof.
  unfold up_ray, vert_overlap, lower_angle. cbn zeta. rewrite psub_s, !px_s, !py_s, !eq0_s, !ltb_s, !eqb_s, !lt0_s, !gt0_s.
  assert (M1 : forall x y z, (k * x - k * y) * (k * z) = k * (k * ((x - y) * z))) by (intros; ring). assert (M2 : forall x z, k * x * (k * z) = k * (k * (x * z))) by (intros; ring).
  rewrite !M1, !M2, !ltb_s, !eqb_s. reflexivity.
Qed.
Lemma edge_s e : edge_lo (se k e) = scale k (edge_lo e) /\ edge_hi (se k e) = scale k (edge_hi e) /\ edge_sign (se k e) = edge_sign e.
Proof. unfold edge_lo, edge_hi, edge_sign, se. cbn [fst snd]. rewrite !px_s, ltb_s. destruct (_ <? _); auto. Qed.
Lemma hsign_s d : hsign_of (scale k d) = k * hsign_of d.
Proof. unfold hsign_of. rewrite px_s, py_s, eq0_s. destruct (_ =? _); reflexivity. Qed.
Lemma lb_hit_s l m : lb_hit (sline k l) (sline k m) = lb_hit l m.
Proof.
  unfold lb_hit, line_delta, sline. cbn [ln_i ln_e]. destruct (edge_s (ln_e m)) as (-> & -> & _). unfold se. cbn [fst snd]. rewrite psub_s, hsign_s. apply up_ray_s.
Qed.
Lemma lb_init_s l : lb_init (sline k l) = lb_init l.
Proof.
  unfold lb_init, line_delta, sline. cbn [ln_i ln_e ln_set]. unfold se. cbn [fst snd]. rewrite psub_s, px_s, gt0_s. reflexivity.
Qed.
Lemma balance_s l ck : line_balance (sline k l) (map (sline k) ck) = line_balance l ck.
Proof.
  unfold line_balance. rewrite lb_init_s. generalize (lb_init l, @nil nat). induction ck as [|m ck IH]; intros st; [reflexivity|]. cbn [map fold_left]. rewrite IH. f_equal.
  unfold lb_check. rewrite lb_hit_s. destruct (edge_s (ln_e m)) as (_ & _ & E). cbn [sline ln_i ln_e ln_set] in *. rewrite E. reflexivity.
Qed.
Lemma result_s op l ck : line_result op (sline k l) (map (sline k) ck) = line_result op l ck.
Proof. unfold line_result. rewrite balance_s. reflexivity. Qed.
Lemma output_s r e : output_of r (se k e) = map (se k) (output_of r e).
Proof. destruct r; reflexivity. Qed.
Lemma balanced_s es : balanced es -> balanced (map (se k) es).
Proof.
  intros B q. unfold starts_at, ends_at. destruct (existsb (fun e => point_eqb (scale k (fst e)) q || point_eqb (scale k (snd e)) q) es) eqn:X.
  - assert (exists p, q = scale k p) as (p & ->).
    { apply existsb_exists in X as (e & _ & E). apply orb_prop in E as [E|E]; unfold point_eqb in E; apply andb_prop in E as (E1 & E2); [exists (fst e)|exists (snd e)]; destruct q as (x, y); unfold scale, px, py in *; cbn [fst snd] in *; f_equal; lia. }
    specialize (B p). unfold starts_at, ends_at in B. assert (F : forall (g : point * point -> point), (forall e, g (se k e) = scale k (g e)) -> length (filter (fun e => point_eqb (g e) (scale k p)) (map (se k) es)) = length (filter (fun e => point_eqb (g e) p) es)).
    { intros g G. clear B X. induction es as [|e es IH]; [reflexivity|]. cbn [map filter]. rewrite G, peqb_s. destruct (point_eqb (g e) p); cbn [length]; rewrite IH; reflexivity. }
    rewrite !F by reflexivity. exact B.
  - assert (F : forall (g : point * point -> point), (forall e, In e es -> point_eqb (g (se k e)) q = false) -> length (filter (fun e => point_eqb (g e) q) (map (se k) es)) = 0%nat).
    { intros g. clear B X. induction es as [|e es IH]; intros G; [reflexivity|]. cbn [map filter]. rewrite (G e) by (left; reflexivity). apply IH. intros x I. apply G. right. exact I. }
    assert (N : forall e, In e es -> point_eqb (scale k (fst e)) q = false /\ point_eqb (scale k (snd e)) q = false).
    { intros e I. apply orb_false_iff. destruct (_ || _) eqn:Y; [|reflexivity]. rewrite <- X. symmetry. apply existsb_exists. exists e. auto. }
    rewrite !F; [reflexivity| |]; intros e I; apply (N e I).
Qed.
Lemma inj_s z : (inject_Z (k * z) == inject_Z k * inject_Z z)%Q.
Proof. rewrite inject_Z_mult. reflexivity. Qed.
Lemma k_nz : ~ (inject_Z k == 0)%Q.
Proof. unfold Qeq. cbn. lia. Qed.
Lemma on_seg_s a b X Y : on_seg (scale k a) (scale k b) X Y -> on_seg a b (X / inject_Z k) (Y / inject_Z k).
Proof.
  intros (t & T & EX & EY). exists t. split; [exact T|]. unfold injX, injY in *. rewrite !px_s in EX. rewrite !py_s in EY. rewrite <- Z.mul_sub_distr_l, !inj_s in EX, EY. rewrite EX, EY. split; field; exact k_nz.
Qed.
Lemma end_of_s e X Y : end_of e (X / inject_Z k) (Y / inject_Z k) -> end_of (se k e) X Y.
Proof.
  assert (D : forall Z W, (Z / inject_Z k == W -> Z == inject_Z k * W)%Q) by (intros Z W E; rewrite <- E; field; exact k_nz).
  intros [(E1 & E2)|(E1 & E2)]; [left|right]; unfold se, injX, injY in *; cbn [fst snd]; rewrite px_s, py_s, !inj_s; split; apply D; assumption.
Qed.
Lemma arranged_s ls : arranged ls -> arranged (map (sline k) ls).
Proof.
  intros (N & P & Q & B). split; [|split; [|split]].
  - rewrite map_map. exact N.
  - rewrite map_map. cbn [sline ln_e]. rewrite <- (map_map ln_e (se k)). intros e1 e2 I1 I2. apply in_map_iff in I1 as (x1 & <- & I1). apply in_map_iff in I2 as (x2 & <- & I2).
    destruct (P x1 x2 I1 I2) as [[E|E]|H].
    + left. left. congruence.
    + left. right. rewrite E. reflexivity.
    + right. intros X Y O1 O2. unfold se in O1, O2. cbn [fst snd] in O1, O2. apply on_seg_s in O1, O2. destruct (H _ _ O1 O2) as (E1 & E2). split; apply end_of_s; assumption.
  - rewrite map_map. cbn [sline ln_e]. rewrite <- (map_map ln_e (se k)). intros e I. apply in_map_iff in I as (x & <- & I). unfold se. cbn [fst snd]. intros E. apply scale_inj in E. exact (Q x I E).
  - intros c. specialize (B c). apply balanced_s in B. replace (map ln_e (filter (fun l => bset_eqb (ln_set l) c) (map (sline k) ls))) with (map (se k) (map ln_e (filter (fun l => bset_eqb (ln_set l) c) ls))); [exact B|].
    clear. induction ls as [|l ls IH]; [reflexivity|]. cbn [map filter sline ln_set]. destruct (bset_eqb _ _); cbn [map]; rewrite IH; reflexivity.
Qed.
Lemma sline_inj l m : sline k l = sline k m -> l = m.
Proof. destruct l as [i (a, b) s], m as [j (c, d) t]. unfold sline, se. cbn [ln_i ln_e ln_set fst snd]. intros E. injection E as E1 E2 E3 E4. intros. assert (s = t) by congruence. subst. f_equal. destruct a, b, c, d; unfold px, py in *; cbn [fst snd] in *. f_equal; f_equal; nia. Qed.
Lemma column_s l ls ck : column l ls ck -> column (sline k l) (map (sline k) ls) (map (sline k) ck).
Proof.
  assert (S : forall m, spans (px (fst (ln_e (sline k l)))) (ln_e (sline k m)) <-> spans (px (fst (ln_e l))) (ln_e m)).
  { intros m. unfold sline, se, spans. cbn [ln_e fst snd]. rewrite !px_s, Z.mul_min_distr_nonneg_l, Z.mul_max_distr_nonneg_l by lia. nia. }
  intros (N & H). split.
  - apply FinFun.Injective_map_NoDup; [intros x y; apply sline_inj|exact N].
  - intros m. split.
    + intros I. apply in_map_iff in I as (x & <- & I). apply H in I. split; [apply in_map, I|apply S, I].
    + intros (I & J). apply in_map_iff in I as (x & <- & I). apply in_map. apply H. split; [exact I|apply S, J].
Qed.
End Scale.
