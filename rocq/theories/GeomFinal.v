(** Final forms of the geometry lemmas. *)
From Coq Require Import ZArith QArith Lqa List Bool Lia ZifyBool Permutation.
From Verif Require Import GeomModel GeomSpec WindSpec BalanceModel GeomMachine FloatModel
  GeomProofs IsectProofs ParallelProofs SweepOrderProofs WindProofs BalanceProofs WindingsProofs GeomMachineProofs.
Import ListNotations.
Local Open Scope Z_scope.

Lemma coord_small w p : coord_lt (2 ^ (w - 2)) p -> small_pt w p.
Proof. unfold coord_lt, small_pt, small. lia. Qed.

Lemma rotate_many (k : nat) l : shoelace (skipn k l ++ firstn k l) = shoelace l.
Proof.
  revert l. induction k as [|k IH]; intros l.
  - cbn. rewrite app_nil_r. reflexivity.
  - destruct l as [|f r]; [reflexivity|]. cbn [skipn firstn].
    replace (skipn k r ++ f :: firstn k r) with ((skipn k r ++ [f]) ++ firstn k r) by (rewrite <- app_assoc; reflexivity).
    destruct (Nat.le_gt_cases k (length r)) as [L|L].
    + rewrite <- (shoelace_rotate f r), <- (IH (r ++ [f])).
      rewrite skipn_app, firstn_app.
      replace (k - length r)%nat with 0%nat by lia. cbn [skipn firstn]. rewrite app_nil_r. reflexivity.
    + rewrite skipn_all2, firstn_all2 by lia. reflexivity.
Qed.

(** C17-C19 *)
Lemma intersects_point rx ry s1 s2 r :
  no_shared s1 s2 -> dir_cross (sg_pa s1) (sg_pb s1) (sg_pa s2) (sg_pb s2) <> 0 ->
  intersects rx ry s1 s2 = Some r ->
  exists p e1 e2 X Y, r = (Some p, e1, e2) /\
    on_seg (sg_pa s1) (sg_pb s1) X Y /\ on_seg (sg_pa s2) (sg_pb s2) X Y /\
    (injX p - 1 < X < injX p + 1)%Q /\ (injY p - 1 < Y < injY p + 1)%Q /\
    (forall k, X == inject_Z k -> px p = k)%Q /\ (forall k, Y == inject_Z k -> py p = k)%Q /\
    in_bbox (sg_pa s1) (sg_pb s1) p /\ in_bbox (sg_pa s2) (sg_pb s2) p /\
    edge_ok e1 (sg_pa s1) (sg_pb s1) p /\ edge_ok e2 (sg_pa s2) (sg_pb s2) p.
Proof.
  intros HN HD HI. rewrite (intersects_np _ _ _ _ HN HD) in HI.
  destruct (isect_np_point _ _ _ _ _ _ _ HD HI) as (p & e1 & e2 & X & Y & E & O1 & O2 & [NX NY] & K1 & K2).
  exists p, e1, e2, X, Y.
  pose proof (on_seg_bounds _ _ _ _ O1) as [BX1 BY1]. pose proof (on_seg_bounds _ _ _ _ O2) as [BX2 BY2].
  split; [assumption|]. split; [assumption|]. split; [assumption|]. split; [assumption|]. split; [assumption|].
  split; [intros k Hk; eapply near_integral; [exact NX|exact Hk]|].
  split; [intros k Hk; eapply near_integral; [exact NY|exact Hk]|].
  split; [split; eapply near_in_box; eassumption|]. split; [split; eapply near_in_box; eassumption|].
  split; assumption.
Qed.

Lemma intersects_touch rx ry s1 s2 r v :
  no_shared s1 s2 -> dir_cross (sg_pa s1) (sg_pb s1) (sg_pa s2) (sg_pb s2) <> 0 ->
  intersects rx ry s1 s2 = Some r ->
  on_seg (sg_pa s1) (sg_pb s1) (injX v) (injY v) -> on_seg (sg_pa s2) (sg_pb s2) (injX v) (injY v) ->
  exists e1 e2, r = (Some v, e1, e2) /\
    edge_ok e1 (sg_pa s1) (sg_pb s1) v /\ edge_ok e2 (sg_pa s2) (sg_pb s2) v.
Proof.
  intros HN HD HI V1 V2.
  destruct (intersects_point _ _ _ _ _ HN HD HI) as (p & e1 & e2 & X & Y & E & O1 & O2 & _ & _ & IX & IY & _ & _ & K1 & K2).
  destruct (meet_unique _ _ _ _ _ _ _ _ HD O1 O2 V1 V2) as [EX EY].
  assert (p = v).
  { rewrite <- (pair_eta p), <- (pair_eta v). f_equal; [apply IX; exact EX|apply IY; exact EY]. }
  subst p. exists e1, e2. repeat split; assumption.
Qed.

Lemma touch_fl rx ry s1 s2 v : no_shared s1 s2 ->
  dir_cross (sg_pa s1) (sg_pb s1) (sg_pa s2) (sg_pb s2) <> 0 ->
  v = sg_pa s1 \/ v = sg_pb s1 \/ v = sg_pa s2 \/ v = sg_pb s2 ->
  on_seg (sg_pa s1) (sg_pb s1) (injX v) (injY v) -> on_seg (sg_pa s2) (sg_pb s2) (injX v) (injY v) ->
  exists e1 e2, intersects_fl rx ry s1 s2 = Some (Some (Some v, e1, e2)) /\
    edge_ok e1 (sg_pa s1) (sg_pb s1) v /\ edge_ok e2 (sg_pa s2) (sg_pb s2) v.
Proof.
  intros HN HD Hv O1 O2.
  destruct (proj2 (intersects_iff_meet rx ry s1 s2 HN HD)) as [r Hr]; [exists (injX v), (injY v); tauto|].
  destruct (intersects_touch _ _ _ _ _ _ HN HD Hr O1 O2) as (e1 & e2 & -> & K1 & K2).
  exists e1, e2. split; [|tauto].
  cut (intersects_fl rx ry s1 s2 = Some (intersects rx ry s1 s2)); [intros ->; rewrite Hr; reflexivity|].
  clear Hr K1 K2. unfold intersects_fl, intersects.
  destruct (_ =? 0); [reflexivity|]. destruct (_ || _ || _ || _)%bool; [reflexivity|].
  match goal with |- context [if (if ?a then ?b else ?c) then Some None else _] =>
    destruct (if a then b else c); [reflexivity|] end.
  destruct (seg_nondeg _ _ _ _ HD) as [ND1 ND2].
  destruct (meet_exact _ _ _ _ _ _ HD O1 O2) as (E1 & E2 & E3 & E4).
  unfold injX, injY in *. rewrite <- inject_Z_mult in E1, E2, E3, E4.
  apply (proj1 (inj_eq _ _)) in E1, E2, E3, E4.
  set (d := (px (sg_pa s1) - px (sg_pb s1)) * (py (sg_pa s2) - py (sg_pb s2))
          - (py (sg_pa s1) - py (sg_pb s1)) * (px (sg_pa s2) - px (sg_pb s2))).
  set (t := (px (sg_pa s1) - px (sg_pa s2)) * (py (sg_pa s2) - py (sg_pb s2)) -
     (py (sg_pa s1) - py (sg_pa s2)) * (px (sg_pa s2) - px (sg_pb s2))).
  set (u := (px (sg_pa s1) - px (sg_pa s2)) * (py (sg_pa s1) - py (sg_pb s1))
            - (py (sg_pa s1) - py (sg_pa s2)) * (px (sg_pa s1) - px (sg_pb s1))).
  assert (Dd : dir_cross (sg_pa s1) (sg_pb s1) (sg_pa s2) (sg_pb s2) = d) by (unfold dir_cross, d; ring).
  assert (Tt : num_t (sg_pa s1) (sg_pb s1) (sg_pa s2) (sg_pb s2) = t) by (unfold num_t, t; ring).
  assert (Uu : num_u (sg_pa s1) (sg_pb s1) (sg_pa s2) (sg_pb s2) = u) by (unfold num_u, u; ring).
  rewrite Dd, Tt in E1, E2. rewrite Dd, Uu in E3, E4. clearbody d t u. clear HD Dd Tt Uu O1 O2.
  assert (NE : forall a b : point, a <> b -> px b - px a <> 0 \/ py b - py a <> 0).
  { intros a b Hab. destruct (Z.eq_dec (px b - px a) 0); [|tauto]. right. intros E. apply Hab.
    rewrite <- (pair_eta a), <- (pair_eta b). f_equal; lia. }
  apply NE in ND1, ND2.
  assert (C : t = 0 \/ t = d \/ u = 0 \/ u = d).
  { destruct Hv as [->|[->|[->| ->]]].
    - left. clear - E1 E2 ND1. destruct ND1; nia.
    - right. left. clear - E1 E2 ND1. destruct ND1; nia.
    - right. right. left. clear - E3 E4 ND2. destruct ND2; nia.
    - right. right. right. clear - E3 E4 ND2. destruct ND2; nia. }
  destruct (Z.eqb_spec t 0); [reflexivity|]. destruct (Z.eqb_spec t d); [reflexivity|].
  destruct (Z.eqb_spec u 0); [reflexivity|]. destruct (Z.eqb_spec u d); [reflexivity|].
  exfalso. lia.
Qed.

(** C20 *)
Lemma parallel_final rx ry s1 s2 :
  sg_pa s1 <> sg_pb s1 -> sg_pa s2 <> sg_pb s2 ->
  dir_cross (sg_pa s1) (sg_pb s1) (sg_pa s2) (sg_pb s2) = 0 ->
  ((exists r, intersects rx ry s1 s2 = Some r) <-> overlap s1 s2 /\ ~ same_vertices s1 s2) /\
  (forall p e1 e2, intersects rx ry s1 s2 = Some (Some p, e1, e2) ->
     on_seg (sg_pa s1) (sg_pb s1) (injX p) (injY p) /\ on_seg (sg_pa s2) (sg_pb s2) (injX p) (injY p) /\
     edge_ok e1 (sg_pa s1) (sg_pb s1) p /\ edge_ok e2 (sg_pa s2) (sg_pb s2) p /\ (e1 <> AEno \/ e2 <> AEno)) /\
  (forall e1 e2, intersects rx ry s1 s2 = Some (None, e1, e2) ->
     e1 = AEboth /\ e2 = AEboth /\ coincident s1 s2).
Proof.
  intros N1 N2 HD. rewrite (parallel_unfold rx ry s1 s2 HD).
  destruct (Z.eq_dec (triangle_winding (sg_pa s1) (sg_pb s1) (sg_pa s2)) 0) as [T|T].
  - assert (C1 := proj1 (tw_oncol _ _ _) T). assert (C2 := par_oncol _ _ _ _ HD N1 C1).
    pose proof (parallel_cases s1 s2 N1 N2 C1 C2) as K. cbv zeta in K.
    destruct (intersects_parallel s1 s2) as [[[[p|] e1] e2]|].
    + destruct K as (K1 & K2 & K3 & K4 & K5 & K6 & K7). split; [|split].
      * split; intros _; [tauto|eexists; reflexivity].
      * intros p' e1' e2' E. injection E as <- <- <-. tauto.
      * intros e1' e2' E. discriminate E.
    + destruct K as (K1 & K2 & K3 & K4 & K5). split; [|split].
      * split; intros _; [tauto|eexists; reflexivity].
      * intros p' e1' e2' E. discriminate E.
      * intros e1' e2' E. injection E as <- <-. tauto.
    + split; [|split; intros; discriminate]. split; [intros [r E]; discriminate E|]. tauto.
  - assert (EN : intersects_parallel s1 s2 = None).
    { unfold intersects_parallel. destruct (Z.eqb_spec (triangle_winding (sg_pa s1) (sg_pb s1) (sg_pa s2)) 0); [contradiction|reflexivity]. }
    rewrite EN. split; [|split; intros; discriminate]. split; [intros [r E]; discriminate E|].
    intros [(X & Y & X' & Y' & O1 & O2 & _) _]. exfalso. apply T. apply tw_oncol. eapply off_line; eassumption.
Qed.

(** C23 *)
Lemma edge_boundary F ls l1 ck op :
  Permutation (map (fun l => (ln_set l, ln_e l)) ls) (family_edges F) ->
  NoDup (map ln_i ls) -> In l1 ls ->
  (forall l, In l ls -> fst (ln_e l) <> snd (ln_e l)) ->
  (forall l, In l ls -> ln_i l <> ln_i l1 -> ~ edges_overlap (ln_e l1) (ln_e l)) ->
  NoDup ck -> (forall l, In l ck <-> In l ls /\ spans (px (fst (ln_e l1))) (ln_e l)) ->
  exists N0, forall N, N0 <= N -> exists ws wc ws' wc',
    let p := fst (ln_e l1) in let d := psub (snd (ln_e l1)) (fst (ln_e l1)) in
    winds F Subject N (left_near N p d) ws /\ winds F Clip N (left_near N p d) wc /\
    winds F Subject N (right_near N p d) ws' /\ winds F Clip N (right_near N p d) wc' /\
    fate_of (line_result op l1 ck) = wanted (selected op ws wc) (selected op ws' wc').
Proof.
  intros H1 H2 H3 H4 H5 H6 H7.
  destruct (line_balance_windings F ls l1 ck H1 H2 H3 H4 H5 H6 H7) as [N0 W].
  exists N0. intros N HN. pose proof (W N HN Subject) as [L1 R1]. pose proof (W N HN Clip) as [L2 R2].
  eexists _, _, _, _. cbv zeta. split; [exact L1|]. split; [exact L2|]. split; [exact R1|]. split; [exact R2|].
  unfold line_result. rewrite balance_fate. reflexivity.
Qed.
