(** line_balance computes the winding numbers beside a line. *)
From Coq Require Import ZArith QArith Lqa List Bool Lia ZifyBool ZifyNat Permutation.
From Verif Require Import GeomModel GeomSpec GeomProofs IsectProofs SweepOrderProofs
  WindSpec BalanceModel WindProofs BalanceProofs.
Import ListNotations.
Local Open Scope Z_scope.

Definition lcount (p : point) (hs : Z) (dp : point) (tie : bool) (c : bool_set) (l : line) : Z :=
  if bset_eqb (ln_set l) c then
    if in_xrange p (ln_e l) then ray_count p hs dp tie (ln_e l) else 0
  else 0.

Lemma bset_eqb_eq a b : bset_eqb a b = true <-> a = b.
Proof. destruct a, b; cbn; split; congruence. Qed.

Lemma wn_get_add w c d c' : wn_get (wn_add w c d) c' = wn_get w c' + (if bset_eqb c c' then d else 0).
Proof. destruct w, c, c'; cbn; lia. Qed.

Lemma ray_sum_family p hs dp tie F c ls :
  Permutation (map (fun l => (ln_set l, ln_e l)) ls) (family_edges F) ->
  ray_sum p hs dp tie (flat_map closed_edges (loops_of c F)) = sumZ (map (lcount p hs dp tie c) ls).
Proof.
  intros HP. unfold ray_sum. rewrite sum_filter.
  set (g := fun s : bool_set * (point * point) =>
     if bset_eqb (fst s) c then (if in_xrange p (snd s) then ray_count p hs dp tie (snd s) else 0) else 0).
  transitivity (sumZ (map g (family_edges F))).
  - clear HP. unfold family_edges, loops_of. induction F as [|[s l] F IH]; [reflexivity|].
    cbn [flat_map filter fst snd]. rewrite map_app, sumZ_app, <- IH.
    destruct (bset_eqb s c) eqn:E; cbn [map flat_map snd].
    + rewrite map_app, sumZ_app. f_equal. rewrite map_map. unfold g. cbn [fst snd]. rewrite E. reflexivity.
    + rewrite map_map. unfold g at 1. cbn [fst snd]. rewrite E.
      enough (sumZ (map (fun _ : point * point => 0) (closed_edges l)) = 0) as -> by lia.
      induction (closed_edges l) as [|e es IH']; [reflexivity|]. cbn [map sumZ fold_right] in *. unfold sumZ in *.
      cbn in *. assumption.
  - transitivity (sumZ (map g (map (fun l => (ln_set l, ln_e l)) ls))).
    + apply sumZ_perm, Permutation_map, Permutation_sym, HP.
    + rewrite map_map. reflexivity.
Qed.

(** Sum computed by the loop. *)
Definition lb_term (l1 : line) (c : bool_set) (l : line) : Z :=
  if Nat.eqb (ln_i l) (ln_i l1) then 0
  else if bset_eqb (ln_set l) c then (if lb_hit l1 l then edge_sign (ln_e l) else 0) else 0.

Lemma sumZ_cons x l : sumZ (x :: l) = x + sumZ l.
Proof. reflexivity. Qed.

Lemma lb_sum l1 c ls st :
  wn_get (fst (fold_left (lb_check l1) ls st)) c = wn_get (fst st) c + sumZ (map (lb_term l1 c) ls).
Proof.
  revert st. induction ls as [|l ls IH]; intros st; cbn [fold_left map].
  - change (sumZ []) with 0. lia.
  - rewrite IH, sumZ_cons. unfold lb_check, lb_term.
    destruct (Nat.eqb (ln_i l) (ln_i l1)); [lia|].
    destruct (lb_hit l1 l); cbn [fst].
    + rewrite wn_get_add. destruct (bset_eqb (ln_set l) c); lia.
    + destruct (bset_eqb (ln_set l) c); lia.
Qed.

Lemma filter_perm {A} (f : A -> bool) l l' : Permutation l l' -> Permutation (filter f l) (filter f l').
Proof.
  induction 1; cbn [filter].
  - constructor.
  - destruct (f x); [constructor; assumption|assumption].
  - destruct (f x), (f y); try constructor; apply Permutation_refl.
  - eapply perm_trans; eassumption.
Qed.

Section Own.
  Variables (ls : list line) (l1 : line).
  Hypothesis Hnd : NoDup (map ln_i ls).
  Hypothesis Hin : In l1 ls.
  Hypothesis Hdeg : forall l, In l ls -> fst (ln_e l) <> snd (ln_e l).
  Hypothesis Hov : forall l, In l ls -> ln_i l <> ln_i l1 -> ~ edges_overlap (ln_e l1) (ln_e l).
  Let p := fst (ln_e l1).
  Let dp := line_delta l1.

  Lemma split_own : exists rs, Permutation ls (l1 :: rs) /\
     (forall l, In l rs -> In l ls /\ ln_i l <> ln_i l1).
  Proof.
    destruct (in_split _ _ Hin) as (A & B & E). exists (A ++ B).
    assert (P : Permutation ls (l1 :: A ++ B)) by (rewrite E; symmetry; apply Permutation_middle).
    split; [assumption|]. intros l Hl. split.
    - apply (Permutation_in _ (Permutation_sym P)). right. assumption.
    - intros Ei. pose proof (Permutation_NoDup (Permutation_map ln_i P) Hnd) as K. cbn in K.
      inversion K; subst. apply H1. rewrite <- Ei. apply in_map. assumption.
  Qed.

  Lemma own_range : in_xrange p (ln_e l1) = true.
  Proof.
    unfold in_xrange, p, edge_lo, edge_hi.
    destruct (Z.ltb_spec (px (snd (ln_e l1))) (px (fst (ln_e l1)))); lia.
  Qed.

  Lemma dp_nz : dp <> (0, 0).
  Proof.
    unfold dp, line_delta, psub. intros E. injection E as E1 E2. apply (Hdeg l1 Hin).
    rewrite <- (pair_eta (fst (ln_e l1))), <- (pair_eta (snd (ln_e l1))). f_equal; lia.
  Qed.

  (* the lines other than l1 contribute the same whatever the tie *)
  Lemma others_term l c tie : In l ls -> ln_i l <> ln_i l1 -> in_xrange p (ln_e l) = true ->
    lb_term l1 c l = lcount p (hsign_of dp) dp tie c l.
  Proof.
    intros Hl Ni R. unfold lb_term, lcount, ray_count, lb_hit. rewrite R.
    destruct (Nat.eqb_spec (ln_i l) (ln_i l1)); [contradiction|].
    destruct (bset_eqb (ln_set l) c); [|reflexivity].
    unfold dp, line_delta, p in *.
    rewrite (tie_indep (ln_e l1) (ln_e l) (Nat.ltb _ _)), (tie_indep (ln_e l1) (ln_e l) tie); auto.
  Qed.

  Lemma own_sum ck c tie :
    Permutation ck (filter (fun l => in_xrange p (ln_e l)) ls) ->
    wn_get (fst (line_balance l1 ck)) c + lcount p (hsign_of dp) dp tie c l1
    = wn_get (lb_init l1) c + sumZ (map (lcount p (hsign_of dp) dp tie c) ls).
  Proof.
    intros HP. destruct split_own as (rs & P & Hrs).
    unfold line_balance. rewrite lb_sum. cbn [fst].
    rewrite (sumZ_perm _ _ (Permutation_map _ P)). cbn [map]. rewrite sumZ_cons.
    assert (P2 : Permutation ck (l1 :: filter (fun l => in_xrange p (ln_e l)) rs)).
    { eapply perm_trans; [exact HP|]. eapply perm_trans; [apply filter_perm; exact P|].
      cbn [filter]. rewrite own_range. apply Permutation_refl. }
    rewrite (sumZ_perm _ _ (Permutation_map _ P2)). cbn [map]. rewrite sumZ_cons.
    unfold lb_term at 1. rewrite Nat.eqb_refl.
    rewrite sum_filter.
    enough (sumZ (map (fun e => if in_xrange p (ln_e e) then lb_term l1 c e else 0) rs)
            = sumZ (map (lcount p (hsign_of dp) dp tie c) rs)) by lia.
    apply sumZ_ext. intros l Hl. destruct (Hrs l Hl) as [A B].
    destruct (in_xrange p (ln_e l)) eqn:R.
    - apply others_term; assumption.
    - unfold lcount. rewrite R. destruct (bset_eqb _ _); reflexivity.
  Qed.

  (* own contribution *)
  Lemma own_count c tie : px dp <> 0 ->
    lcount p (hsign_of dp) dp tie c l1 = if bset_eqb (ln_set l1) c then (if tie then edge_sign (ln_e l1) else 0) else 0.
  Proof.
    intros Hx. unfold lcount. rewrite own_range. unfold ray_count.
    destruct (bset_eqb (ln_set l1) c); [|reflexivity].
    unfold p, dp, line_delta in *. rewrite own_up_ray; [reflexivity|].
    unfold psub, px in *. cbn [fst] in Hx. lia.
  Qed.
  Lemma own_count_v c : px dp = 0 -> lcount p (hsign_of dp) dp false c l1 = 0.
  Proof.
    intros Hx. unfold lcount. rewrite own_range. unfold ray_count, up_ray, vert_overlap.
    destruct (bset_eqb (ln_set l1) c); [|reflexivity].
    replace (px (psub (edge_hi (ln_e l1)) (edge_lo (ln_e l1))) =? 0) with true; [reflexivity|].
    symmetry. apply Z.eqb_eq. unfold dp, line_delta, edge_hi, edge_lo, psub, px in *. cbn [fst] in *.
    destruct (Z.ltb_spec (fst (snd (ln_e l1))) (fst (fst (ln_e l1)))); cbn [fst]; lia.
  Qed.

  Lemma sign_nv : px dp <> 0 -> edge_sign (ln_e l1) = Z.sgn (px dp).
  Proof.
    intros H. unfold edge_sign, dp, line_delta, psub, px in *. cbn [fst] in *.
    destruct (Z.ltb_spec (fst (snd (ln_e l1))) (fst (fst (ln_e l1)))); lia.
  Qed.

  Lemma left_sum ck c :
    Permutation ck (filter (fun l => in_xrange p (ln_e l)) ls) ->
    wn_get (fst (line_balance l1 ck)) c = sumZ (map (lcount p (hs' dp 1) dp (tie' dp 1) c) ls).
  Proof.
    intros HP. assert (E : hs' dp 1 = hsign_of dp).
    { unfold hs', hsign_of. destruct (px dp =? 0); lia. }
    rewrite E. pose proof (own_sum ck c (tie' dp 1) HP) as K.
    assert (T : tie' dp 1 = (px dp <? 0)) by (unfold tie'; f_equal; lia). rewrite T in *.
    assert (I : wn_get (lb_init l1) c = if bset_eqb (ln_set l1) c then (if px dp <? 0 then -1 else 0) else 0).
    { unfold lb_init. fold dp. destruct (px dp <? 0); [rewrite wn_get_add|];
      destruct c; cbn; destruct (ln_set l1); reflexivity. }
    destruct (Z.eq_dec (px dp) 0) as [V|V].
    - rewrite V in *. cbn [Z.ltb Z.compare] in *. rewrite own_count_v in K by assumption.
      rewrite I in K. destruct (bset_eqb _ _); lia.
    - rewrite own_count, I, sign_nv in K by assumption.
      destruct (bset_eqb _ _); [|lia]. destruct (Z.ltb_spec (px dp) 0); lia.
  Qed.

  (* crossing the line itself, if it is not vertical *)
  Lemma right_sum c : px dp <> 0 ->
    sumZ (map (lcount p (hs' dp (-1)) dp (tie' dp (-1)) c) ls)
    = sumZ (map (lcount p (hs' dp 1) dp (tie' dp 1) c) ls) + (if bset_eqb (ln_set l1) c then 1 else 0).
  Proof.
    intros V. 
    assert (E : forall e, hs' dp e = hsign_of dp).
    { intros e. unfold hs', hsign_of. destruct (Z.eqb_spec (px dp) 0); [contradiction|reflexivity]. }
    rewrite !E.
    set (ck := filter (fun l => in_xrange p (ln_e l)) ls).
    pose proof (own_sum ck c (tie' dp 1) (Permutation_refl _)) as K1.
    pose proof (own_sum ck c (tie' dp (-1)) (Permutation_refl _)) as K2.
    rewrite own_count, sign_nv in K1, K2 by assumption.
    assert (T : tie' dp 1 = (px dp <? 0)) by (unfold tie'; f_equal; lia).
    assert (T2 : tie' dp (-1) = (0 <? px dp)).
    { unfold tie'. destruct (Z.ltb_spec (-1 * px dp) 0), (Z.ltb_spec 0 (px dp)); try reflexivity; lia. }
    rewrite T, T2 in *. destruct (bset_eqb (ln_set l1) c); [|lia].
    destruct (Z.ltb_spec (px dp) 0), (Z.ltb_spec 0 (px dp)); lia.
  Qed.
End Own.

(** ** Transposition *)
Definition tp (p : point) : point := (py p, px p).
Definition tpe (e : point * point) : point * point := (tp (fst e), tp (snd e)).
Definition tpl (l : line) : line := mk_line (ln_i l) (tpe (ln_e l)) (ln_set l).

Lemma quarter_tp o e : px (fst e) <> px o -> py (fst e) <> py o -> px (snd e) <> px o -> py (snd e) <> py o ->
  ~ on_edge e o -> quarter_turns (tp o) (tpe e) = - quarter_turns o e.
Proof.
  intros A1 A2 B1 B2 HN. destruct e as [a b]. cbn [fst snd] in *.
  pose proof (not_on_cross o a b HN) as C. pose proof (not_on_cross o b a (not_on_swap _ _ _ HN)) as C'.
  unfold quarter_turns, tpe. cbn [fst snd].
  assert (AR : area2 (tp o) (tp a) (tp b) = - area2 o a b).
  { unfold area2, tp, px, py. cbn [fst snd]. ring. }
  rewrite AR.
  assert (Q : forall q, px q <> px o -> py q <> py o ->
     (0 < px q - px o /\ 0 < py q - py o /\ quadrant o q = 0 /\ quadrant (tp o) (tp q) = 0) \/
     (px q - px o < 0 /\ 0 < py q - py o /\ quadrant o q = 1 /\ quadrant (tp o) (tp q) = 3) \/
     (px q - px o < 0 /\ py q - py o < 0 /\ quadrant o q = 2 /\ quadrant (tp o) (tp q) = 2) \/
     (0 < px q - px o /\ py q - py o < 0 /\ quadrant o q = 3 /\ quadrant (tp o) (tp q) = 1)).
  { intros q H1 H2. unfold quadrant, tp.
    change (px (py q, px q)) with (py q). change (py (py q, px q)) with (px q).
    change (px (py o, px o)) with (py o). change (py (py o, px o)) with (px o).
    destruct (Z.ltb_spec 0 (px q - px o)), (Z.leb_spec 0 (py q - py o)), (Z.leb_spec (px q - px o) 0),
      (Z.ltb_spec 0 (py q - py o)), (Z.ltb_spec (px q - px o) 0), (Z.leb_spec (py q - py o) 0),
      (Z.leb_spec 0 (px q - px o)), (Z.ltb_spec (py q - py o) 0); cbn [andb]; try lia. }
  assert (NZ : (quadrant o b - quadrant o a) mod 4 = 2 -> area2 o a b <> 0).
  { intros D K. unfold area2 in K. clear AR.
    destruct (Q a A1 A2) as [(?&?&Ea&_)|[(?&?&Ea&_)|[(?&?&Ea&_)|(?&?&Ea&_)]]];
    destruct (Q b B1 B2) as [(?&?&Eb&_)|[(?&?&Eb&_)|[(?&?&Eb&_)|(?&?&Eb&_)]]];
    rewrite Ea, Eb in D; cbn in D; try discriminate D; clear Q D Ea Eb;
    first [ exfalso; apply C; [lia|lia|clear C C'; nia] | exfalso; apply C'; [lia|lia|clear C C'; nia] ]. }
  destruct (Q a A1 A2) as [(_&_&Ea&Fa)|[(_&_&Ea&Fa)|[(_&_&Ea&Fa)|(_&_&Ea&Fa)]]];
  destruct (Q b B1 B2) as [(_&_&Eb&Fb)|[(_&_&Eb&Fb)|[(_&_&Eb&Fb)|(_&_&Eb&Fb)]]];
  rewrite Ea, Eb, Fa, Fb in *; cbn [Z.sub Z.add Z.opp Z.pos_sub Pos.pred_double] in *; 
  change (0 mod 4) with 0 in *; change (1 mod 4) with 1 in *; change (2 mod 4) with 2 in *; change (3 mod 4) with 3 in *;
  change (-1 mod 4) with 3 in *; change (-2 mod 4) with 2 in *; change (-3 mod 4) with 1 in *; cbn [Z.eqb Pos.eqb Z.opp];
  try reflexivity; specialize (NZ eq_refl);
  destruct (Z.ltb_spec 0 (area2 o a b)), (Z.ltb_spec 0 (- area2 o a b)); lia.
Qed.

Lemma near_tp p dp eps N : near_pt (tp p) (tp dp) (- eps) N = tp (near_pt p dp eps N).
Proof. unfold near_pt, tp, px, py. cbn [fst snd]. f_equal; ring. Qed.

Lemma tp_nz d : d <> (0, 0) -> tp d <> (0, 0).
Proof. destruct d as [x y]. unfold tp, px, py. cbn [fst snd]. congruence. Qed.

Lemma near_generic p dp eps (Hdp : dp <> (0, 0)) (Heps : eps = 1 \/ eps = -1) v :
  exists N0, 1 <= N0 /\ forall N, N0 <= N ->
    px (scale (N * N) v) <> px (near_pt p dp eps N) /\ py (scale (N * N) v) <> py (near_pt p dp eps N).
Proof.
  pose proof (tp_nz dp Hdp) as Hdp'.
  exists (Z.abs (px p - px v) + Z.abs (px dp) + Z.abs (eps * py dp) + 1
        + (Z.abs (px (tp p) - py v) + Z.abs (px (tp dp)) + Z.abs (- eps * py (tp dp)) + 1)).
  split; [lia|]. intros N HN.
  pose proof (near_x p dp eps (px v) N ltac:(lia)) as A.
  pose proof (near_x (tp p) (tp dp) (- eps) (py v) N ltac:(lia)) as B. rewrite near_tp in B.
  pose proof (hs'_nz dp eps Hdp Heps) as A'. pose proof (hs'_nz (tp dp) (- eps) Hdp' ltac:(lia)) as B'.
  change (px (scale (N * N) v)) with (N * N * px v). change (py (scale (N * N) v)) with (N * N * py v).
  change (px (tp (near_pt p dp eps N))) with (py (near_pt p dp eps N)) in B.
  split; intros E; rewrite <- E, Z.sub_diag in *; cbn [Z.compare] in *.
  - destruct (Z.compare_spec (px p - px v) 0); try discriminate.
    destruct (Z.compare_spec (hs' dp eps) 0); try discriminate; contradiction.
  - destruct (Z.compare_spec (px (tp p) - py v) 0); try discriminate.
    destruct (Z.compare_spec (hs' (tp dp) (- eps)) 0); try discriminate; contradiction.
Qed.

Lemma sumZ_opp {A} (f g : A -> Z) l : (forall x, In x l -> f x = - g x) -> sumZ (map f l) = - sumZ (map g l).
Proof.
  intros H. induction l as [|x l IH]; [reflexivity|]. cbn [map]. rewrite !sumZ_cons, IH.
  - rewrite (H x) by (left; reflexivity). lia.
  - intros y Hy. apply H. right. assumption.
Qed.

Lemma edges_tp p dp eps (Hdp : dp <> (0, 0)) (Heps : eps = 1 \/ eps = -1) es :
  exists N0, 1 <= N0 /\ forall N, N0 <= N ->
    sumZ (map (quarter_turns (tp (near_pt p dp eps N))) (map (esc (N * N)) (map tpe es)))
    = - sumZ (map (quarter_turns (near_pt p dp eps N)) (map (esc (N * N)) es)).
Proof.
  induction es as [|e es (N1 & H1 & IH)].
  - exists 1. split; [lia|]. reflexivity.
  - destruct (near_generic p dp eps Hdp Heps (fst e)) as (N2 & H2 & G2).
    destruct (near_generic p dp eps Hdp Heps (snd e)) as (N3 & H3 & G3).
    destruct (edge_limit p dp eps Hdp Heps e) as (N4 & H4 & G4).
    exists (N1 + N2 + N3 + N4). split; [lia|]. intros N HN. cbn [map]. rewrite !sumZ_cons, IH by lia.
    enough (quarter_turns (tp (near_pt p dp eps N)) (esc (N * N) (tpe e))
       = - quarter_turns (near_pt p dp eps N) (esc (N * N) e)) by lia.
    change (esc (N * N) (tpe e)) with (tpe (esc (N * N) e)).
    destruct (G2 N ltac:(lia)), (G3 N ltac:(lia)), (G4 N ltac:(lia)). apply quarter_tp; assumption.
Qed.

Lemma turns_all_tp p dp eps (Hdp : dp <> (0, 0)) (Heps : eps = 1 \/ eps = -1) ls :
  exists N0, 1 <= N0 /\ forall N, N0 <= N ->
    turns_all (map (map (scale (N * N))) (map (map tp) ls)) (tp (near_pt p dp eps N))
    = - turns_all (map (map (scale (N * N))) ls) (near_pt p dp eps N).
Proof.
  induction ls as [|l ls (N1 & H1 & IH)].
  - exists 1. split; [lia|]. reflexivity.
  - destruct (edges_tp p dp eps Hdp Heps (closed_edges l)) as (N2 & H2 & G2).
    exists (N1 + N2). split; [lia|]. intros N HN. cbn [map]. unfold turns_all in *. cbn [map].
    rewrite !sumZ_cons, IH by lia.
    enough (turns (map (scale (N * N)) (map tp l)) (tp (near_pt p dp eps N))
       = - turns (map (scale (N * N)) l) (near_pt p dp eps N)) by lia.
    unfold turns.
    replace (closed_edges (map (scale (N * N)) l)) with (map (esc (N * N)) (closed_edges l))
      by (symmetry; apply closed_edges_map).
    rewrite <- G2 by lia. f_equal. f_equal.
    transitivity (map (esc (N * N)) (closed_edges (map tp l))); [apply closed_edges_map|].
    f_equal. apply closed_edges_map.
Qed.

Definition tpF (F : family) : family := map (fun s => (fst s, map tp (snd s))) F.

Lemma loops_tp c F : loops_of c (tpF F) = map (map tp) (loops_of c F).
Proof.
  unfold loops_of, tpF. induction F as [|[s l] F IH]; [reflexivity|].
  cbn [map filter fst snd]. destruct (bset_eqb s c); cbn [map snd]; rewrite IH; reflexivity.
Qed.

Lemma family_edges_tp F : family_edges (tpF F) = map (fun s => (fst s, tpe (snd s))) (family_edges F).
Proof.
  unfold family_edges, tpF. induction F as [|[s l] F IH]; [reflexivity|].
  cbn [map flat_map fst snd]. rewrite map_app, IH. f_equal. rewrite map_map.
  change (closed_edges (map tp l)) with (closed_edges (map tp l)).
  replace (closed_edges (map tp l)) with (map tpe (closed_edges l)) by (symmetry; apply closed_edges_map).
  rewrite map_map. reflexivity.
Qed.

Lemma on_seg_tp a b X Y : on_seg (tp a) (tp b) X Y <-> on_seg a b Y X.
Proof. unfold on_seg, tp, injX, injY, px, py. cbn [fst snd]. split; intros (t & ? & ? & ?); exists t; tauto. Qed.

Lemma overlap_tp e1 e2 : edges_overlap (tpe e1) (tpe e2) -> edges_overlap e1 e2.
Proof.
  intros (X & Y & X' & Y' & A & B & C & D & E). unfold tpe in *. cbn [fst snd] in *.
  apply on_seg_tp in A, B, C, D. exists Y, X, Y', X'. tauto.
Qed.

(** ** The theorem *)
Theorem line_balance_windings F ls l1 ck :
  Permutation (map (fun l => (ln_set l, ln_e l)) ls) (family_edges F) ->
  NoDup (map ln_i ls) -> In l1 ls ->
  (forall l, In l ls -> fst (ln_e l) <> snd (ln_e l)) ->
  (forall l, In l ls -> ln_i l <> ln_i l1 -> ~ edges_overlap (ln_e l1) (ln_e l)) ->
  NoDup ck -> (forall l, In l ck <-> In l ls /\ spans (px (fst (ln_e l1))) (ln_e l)) ->
  exists N0, forall N, N0 <= N -> forall c,
    winds F c N (left_near N (fst (ln_e l1)) (psub (snd (ln_e l1)) (fst (ln_e l1))))
      (wn_get (fst (line_balance l1 ck)) c) /\
    winds F c N (right_near N (fst (ln_e l1)) (psub (snd (ln_e l1)) (fst (ln_e l1))))
      (wn_get (fst (line_balance l1 ck)) c + if bset_eqb (ln_set l1) c then 1 else 0).
Proof.
  intros HP Hnd Hin Hdeg Hov Hck HckIn.
  set (p := fst (ln_e l1)). change (psub (snd (ln_e l1)) p) with (line_delta l1). set (dp := line_delta l1).
  assert (Hdp : dp <> (0, 0)) by (eapply dp_nz; eassumption).
  assert (CK : Permutation ck (filter (fun l => in_xrange p (ln_e l)) ls)).
  { apply NoDup_Permutation; [assumption|apply NoDup_filter; eapply NoDup_map_inv; eassumption|].
    intros l. rewrite HckIn, filter_In. unfold spans, in_xrange, edge_lo, edge_hi. fold p.
    rewrite andb_true_iff, !Z.leb_le. clear.
    destruct (Z.ltb_spec (px (snd (ln_e l))) (px (fst (ln_e l)))); split; intros [A B]; (split; [assumption|lia]). }
  assert (LN : forall N, left_near N p dp = near_pt p dp 1 N).
  { intros N. unfold left_near, near_pt. f_equal; ring. }
  assert (RN : forall N, right_near N p dp = near_pt p dp (-1) N).
  { intros N. unfold right_near, near_pt. f_equal; ring. }
  assert (ONE : forall c, exists N0, forall N, N0 <= N ->
     winds F c N (left_near N p dp) (wn_get (fst (line_balance l1 ck)) c) /\
     winds F c N (right_near N p dp)
       (wn_get (fst (line_balance l1 ck)) c + if bset_eqb (ln_set l1) c then 1 else 0)).
  { intros c.
    destruct (turns_all_limit p dp 1 Hdp (or_introl eq_refl) (loops_of c F)) as (N1 & _ & L1).
    destruct (turns_all_limit p dp (-1) Hdp (or_intror eq_refl) (loops_of c F)) as (N2 & _ & L2).
    assert (LS : wn_get (fst (line_balance l1 ck)) c
       = ray_sum p (hs' dp 1) dp (tie' dp 1) (flat_map closed_edges (loops_of c F))).
    { rewrite (ray_sum_family _ _ _ _ F c ls HP). apply left_sum; assumption. }
    destruct (Z.eq_dec (px dp) 0) as [V|V].
    - (* vertical: transpose *)
      pose proof (tp_nz dp Hdp) as Hdp'.
      destruct (turns_all_tp p dp 1 Hdp (or_introl eq_refl) (loops_of c F)) as (N3 & _ & L3).
      destruct (turns_all_tp p dp (-1) Hdp (or_intror eq_refl) (loops_of c F)) as (N4 & _ & L4).
      destruct (turns_all_limit (tp p) (tp dp) (-1) Hdp' (or_intror eq_refl) (loops_of c (tpF F))) as (N5 & _ & L5).
      destruct (turns_all_limit (tp p) (tp dp) 1 Hdp' (or_introl eq_refl) (loops_of c (tpF F))) as (N6 & _ & L6).
      assert (HPt : Permutation (map (fun l => (ln_set l, ln_e l)) (map tpl ls)) (family_edges (tpF F))).
      { rewrite family_edges_tp. apply (Permutation_map (fun s => (fst s, tpe (snd s)))) in HP.
        rewrite map_map in *. exact HP. }
      rewrite (ray_sum_family _ _ _ _ (tpF F) c (map tpl ls) HPt) in L5.
      rewrite (ray_sum_family _ _ _ _ (tpF F) c (map tpl ls) HPt) in L6.
      assert (RS : sumZ (map (lcount (tp p) (hs' (tp dp) (-1)) (tp dp) (tie' (tp dp) (-1)) c) (map tpl ls))
        = sumZ (map (lcount (tp p) (hs' (tp dp) 1) (tp dp) (tie' (tp dp) 1) c) (map tpl ls))
          + (if bset_eqb (ln_set l1) c then 1 else 0)).
      { apply (right_sum (map tpl ls) (tpl l1)).
        - rewrite map_map. exact Hnd.
        - apply in_map. assumption.
        - intros l Hl. apply in_map_iff in Hl. destruct Hl as (l' & <- & Hl'). cbn [tpl ln_e tpe fst snd].
          intros E. apply (Hdeg l' Hl'). unfold tp in E. injection E as E1 E2.
          rewrite <- (pair_eta (fst (ln_e l'))), <- (pair_eta (snd (ln_e l'))). congruence.
        - intros l Hl. apply in_map_iff in Hl. destruct Hl as (l' & <- & Hl'). cbn [tpl ln_e ln_i].
          intros Hi HO. apply (Hov l' Hl' Hi). apply overlap_tp. assumption.
        - change (line_delta (tpl l1)) with (tp dp). intros E. apply Hdp.
          rewrite <- (pair_eta dp). f_equal; assumption. }
      exists (Z.max N1 (Z.max N2 (Z.max N3 (Z.max N4 (Z.max N5 N6))))). intros N HN. unfold winds. rewrite LN, RN.
      specialize (L1 N ltac:(lia)). specialize (L3 N ltac:(lia)). specialize (L4 N ltac:(lia)).
      specialize (L5 N ltac:(lia)). specialize (L6 N ltac:(lia)).
      rewrite loops_tp in L5, L6.
      replace (near_pt (tp p) (tp dp) (- 1) N) with (tp (near_pt p dp 1 N)) in L5
        by (symmetry; apply (near_tp p dp 1 N)).
      replace (near_pt (tp p) (tp dp) 1 N) with (tp (near_pt p dp (-1) N)) in L6
        by (symmetry; apply (near_tp p dp (-1) N)).
      rewrite L3 in L5. rewrite L4 in L6. split; [lia|]. lia.
    - exists (Z.max N1 N2). intros N HN. unfold winds. rewrite LN, RN, L1, L2 by lia.
      rewrite LS. split; [reflexivity|]. rewrite !(ray_sum_family _ _ _ _ F c ls HP).
      unfold dp, p. rewrite (right_sum ls l1); auto. }
  destruct (ONE Subject) as (NA & A), (ONE Clip) as (NB & B).
  exists (Z.max NA NB). intros N HN c. destruct c; [apply A|apply B]; lia.
Qed.

(** Windings determine the fate of the line. *)
Lemma balance_fate op cat ws wc :
  fate_of (line_balance_result op cat ws wc)
  = wanted (selected op ws wc)
      (selected op (ws + if bset_eqb cat Subject then 1 else 0) (wc + if bset_eqb cat Clip then 1 else 0)).
Proof.
  unfold line_balance_result, selected, wanted, fate_of.
  destruct op.
  5: { assert (E : (Z.rem (ws + wc) 2 =? 0) = negb (Z.odd (ws + wc))).
       { rewrite Z.negb_odd. destruct (Z.even (ws + wc)) eqn:E.
         - apply Z.even_spec in E. destruct E as [k ->]. rewrite Z.mul_comm, Z.rem_mul by lia. reflexivity.
         - apply Z.eqb_neq. intros K. apply Z.rem_divide in K; [|lia]. destruct K as [k K].
           rewrite K, Z.even_mul in E. cbn in E. rewrite orb_true_r in E. discriminate. }
       rewrite E.
       assert (E2 : Z.odd (ws + (if bset_eqb cat Subject then 1 else 0) + (wc + (if bset_eqb cat Clip then 1 else 0)))
          = negb (Z.odd (ws + wc))).
       { replace (ws + (if bset_eqb cat Subject then 1 else 0) + (wc + (if bset_eqb cat Clip then 1 else 0)))
           with (ws + wc + 1) by (destruct cat; cbn; lia).
         rewrite Z.odd_add. destruct (Z.odd (ws + wc)); reflexivity. }
       rewrite E2. destruct (Z.odd (ws + wc)); reflexivity. }
  all: destruct cat; cbn [bset_eqb]; rewrite ?Z.add_0_r.
  all: repeat match goal with
    | |- context [?a =? ?b] => destruct (Z.eqb_spec a b)
    | |- context [?a <? ?b] => destruct (Z.ltb_spec a b)
    end; cbn [andb negb xorb]; try reflexivity; exfalso; lia.
Qed.
