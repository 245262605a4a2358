(** Proofs about the geometric predicates. *)
From Coq Require Import ZArith QArith Lqa List Bool Lia ZifyBool ZifyNat.
From Verif Require Import GeomModel GeomSpec.
Import ListNotations.
Local Open Scope Z_scope.

Ltac geo := unfold psub, px, py in *; cbn [fst snd] in *.

(** ** Orientation *)

Lemma tw_area p1 p2 p3 : triangle_winding p1 p2 p3 = area2 p1 p2 p3.
Proof. unfold triangle_winding, area2. ring. Qed.

Lemma tw_rotate p1 p2 p3 : triangle_winding p2 p3 p1 = triangle_winding p1 p2 p3.
Proof. unfold triangle_winding. ring. Qed.
Lemma tw_swap12 p1 p2 p3 : triangle_winding p2 p1 p3 = - triangle_winding p1 p2 p3.
Proof. unfold triangle_winding. ring. Qed.
Lemma tw_swap23 p1 p2 p3 : triangle_winding p1 p3 p2 = - triangle_winding p1 p2 p3.
Proof. unfold triangle_winding. ring. Qed.
Lemma tw_swap13 p1 p2 p3 : triangle_winding p3 p2 p1 = - triangle_winding p1 p2 p3.
Proof. unfold triangle_winding. ring. Qed.

Lemma tw_collinear p1 p2 p3 : triangle_winding p1 p2 p3 = 0 <-> collinear p1 p2 p3.
Proof.
  unfold triangle_winding, collinear. destruct p1 as [x1 y1], p2 as [x2 y2], p3 as [x3 y3]. geo.
  split.
  - intros H.
    destruct (Z.eq_dec x1 x2) as [Ex|Ex]; [destruct (Z.eq_dec y1 y2) as [Ey|Ey]|].
    + subst. destruct (Z.eq_dec x2 x3) as [Ex'|Ex'].
      * exists 1, 0, x2. lia.
      * exists (y3 - y2), (x2 - x3), ((y3 - y2) * x2 + (x2 - x3) * y2).
        split; [right; lia|]. split; [ring|]. split; [ring|]. ring.
    + exists (y2 - y1), (x1 - x2), ((y2 - y1) * x1 + (x1 - x2) * y1).
      split; [left; lia|]. split; [ring|]. split; [ring|]. nia.
    + exists (y2 - y1), (x1 - x2), ((y2 - y1) * x1 + (x1 - x2) * y1).
      split; [right; lia|]. split; [ring|]. split; [ring|]. nia.
  - intros (a & b & c & Hab & H1 & H2 & H3).
    assert (E1 : a * (x2 - x1) = - b * (y2 - y1)) by lia.
    assert (E2 : a * (x3 - x1) = - b * (y3 - y1)) by lia.
    assert (Ha : a * ((x2 - x1) * (y3 - y1) - (x3 - x1) * (y2 - y1)) = 0).
    { replace (a * ((x2 - x1) * (y3 - y1) - (x3 - x1) * (y2 - y1)))
        with (a * (x2 - x1) * (y3 - y1) - a * (x3 - x1) * (y2 - y1)) by ring.
      rewrite E1, E2. ring. }
    assert (Hb : b * ((x2 - x1) * (y3 - y1) - (x3 - x1) * (y2 - y1)) = 0).
    { replace (b * ((x2 - x1) * (y3 - y1) - (x3 - x1) * (y2 - y1)))
        with (- (- b * (y3 - y1)) * (x2 - x1) + (- b * (y2 - y1)) * (x3 - x1)) by ring.
      rewrite <- E1, <- E2. ring. }
    apply Z.mul_eq_0 in Ha, Hb. destruct Hab; [destruct Ha|destruct Hb]; auto; contradiction.
Qed.

(** ** winding_dir *)

Definition wd_edge (e : point * point) : Z := (px (fst e) - px (snd e)) * (py (fst e) + py (snd e)).
Definition sl_edge (e : point * point) : Z := px (fst e) * py (snd e) - px (snd e) * py (fst e).

Lemma last_cons {A} (l : list A) : forall p d, last (p :: l) d = last l p.
Proof.
  induction l as [|q l IH]; intros p d; [reflexivity|].
  change (last (p :: q :: l) d) with (last (q :: l) d). rewrite !IH. reflexivity.
Qed.

Lemma wd_fold l : forall prev r,
  fold_left winding_dir_step l (prev, r)
  = (last l prev, r + sumZ (map wd_edge (combine (prev :: l) l))).
Proof.
  induction l as [|p l IH]; intros prev r.
  - cbn. f_equal. lia.
  - cbn [fold_left]. unfold winding_dir_step at 2. rewrite IH.
    cbn [combine map]. unfold sumZ. cbn [fold_right]. f_equal.
    + symmetry. apply last_cons.
    + unfold wd_edge at 2. cbn [fst snd].
      replace (combine (p :: l) l) with (combine (p :: l) l) by reflexivity. lia.
Qed.

(** Sum over the path edges plus the closing edge. *)
Lemma closed_path f r :
  closed_edges (f :: r) = combine (f :: r) r ++ [(last r f, f)].
Proof.
  unfold closed_edges. revert f. 
  assert (H : forall (r : list point) f g, combine (f :: r) (r ++ [g]) = combine (f :: r) r ++ [(last r f, g)]).
  { induction r0 as [|p r0 IH]; intros f g; [reflexivity|].
    change (combine (f :: p :: r0) ((p :: r0) ++ [g])) with ((f, p) :: combine (p :: r0) (r0 ++ [g])).
    rewrite IH. cbn [combine app]. f_equal.
    rewrite last_cons. reflexivity. }
  intros f. apply H.
Qed.

Lemma sumZ_app a b : sumZ (a ++ b) = sumZ a + sumZ b.
Proof. induction a; unfold sumZ in *; cbn [app fold_right]; lia. Qed.

Lemma winding_dir_sum l : winding_dir l = sumZ (map wd_edge (closed_edges l)).
Proof.
  destruct l as [|f r]; [reflexivity|]. unfold winding_dir. rewrite wd_fold.
  rewrite closed_path, map_app, sumZ_app.
  generalize (sumZ (map wd_edge (combine (f :: r) r))). intros k.
  cbn [map sumZ fold_right]. unfold wd_edge. cbn [fst snd]. lia.
Qed.

Lemma sumZ_map_sub {A} (f g h : A -> Z) l :
  (forall x, f x = g x + h x) -> sumZ (map f l) = sumZ (map g l) + sumZ (map h l).
Proof. intros H. induction l; unfold sumZ in *; cbn [map fold_right]; [reflexivity|]. rewrite IHl, H. lia. Qed.

Lemma sumZ_telescope (g : point -> Z) l :
  sumZ (map (fun e => g (fst e) - g (snd e)) (closed_edges l)) = 0.
Proof.
  destruct l as [|f r]; [reflexivity|]. rewrite closed_path, map_app, sumZ_app.
  assert (H : forall r f, sumZ (map (fun e => g (fst e) - g (snd e)) (combine (f :: r) r)) = g f - g (last r f)).
  { induction r0 as [|p r0 IH]; intros f0; [cbn [combine map sumZ fold_right last]; lia|].
    change (combine (f0 :: p :: r0) (p :: r0)) with ((f0, p) :: combine (p :: r0) r0).
    cbn [map]. unfold sumZ in *. cbn [fold_right fst snd]. rewrite IH.
    replace (last (p :: r0) f0) with (last r0 p); [lia|].
    symmetry. apply last_cons. }
  rewrite H. cbn [map sumZ fold_right fst snd]. lia.
Qed.

Lemma winding_dir_shoelace l : winding_dir l = shoelace l.
Proof.
  rewrite winding_dir_sum. unfold shoelace. fold sl_edge.
  rewrite (sumZ_map_sub wd_edge sl_edge (fun e => px (fst e) * py (fst e) - px (snd e) * py (snd e))).
  - rewrite (sumZ_telescope (fun p => px p * py p)). unfold sl_edge. lia.
  - intros [a b]. unfold wd_edge, sl_edge. cbn [fst snd]. ring.
Qed.

(** Edges of a rotated or reversed polygon. *)
From Coq Require Import Permutation.

Lemma closed_edges_rotate f r : Permutation (closed_edges (r ++ [f])) (closed_edges (f :: r)).
Proof.
  destruct r as [|g r]; [reflexivity|].
  cbn [app]. rewrite closed_path.
  assert (E : forall (r : list point) g f, combine (g :: r ++ [f]) (r ++ [f])
              = combine (g :: r) (r ++ [f])).
  { induction r0; intros; [reflexivity|]. cbn [app combine]. f_equal. apply IHr0. }
  rewrite E. replace (last (r ++ [f]) g) with f by (rewrite last_last; reflexivity).
  unfold closed_edges. cbn [combine app].
  (* (f,g) :: combine (g::r) (r++[f]) vs combine (g::r)(r++[f]) ++ [(f,g)] *)
  symmetry. apply Permutation_cons_append.
Qed.

Lemma sumZ_perm a b : Permutation a b -> sumZ a = sumZ b.
Proof. induction 1; unfold sumZ in *; cbn [fold_right]; lia. Qed.

Lemma shoelace_rotate f r : shoelace (r ++ [f]) = shoelace (f :: r).
Proof. apply sumZ_perm, Permutation_map, closed_edges_rotate. Qed.

Definition eswap (e : point * point) : point * point := (snd e, fst e).

Lemma combine_rev_path (r : list point) : forall f,
  rev (map eswap (combine (f :: r) r)) = combine (rev r) (tl (rev r ++ [f])).
Proof.
  induction r as [|g r IH]; intros f; [reflexivity|].
  change (combine (f :: g :: r) (g :: r)) with ((f, g) :: combine (g :: r) r).
  cbn [map rev]. rewrite IH. rewrite <- app_assoc. cbn [app].
  unfold eswap. cbn [fst snd].
  assert (H : forall (l : list point) a b, combine (l ++ [a]) (tl (l ++ [a; b])) = combine l (tl (l ++ [a])) ++ [(a, b)]).
  { intros l a b. destruct l as [|x l]; [reflexivity|]. cbn [app tl].
    revert x. induction l as [|y l IH']; intros x; [reflexivity|].
    cbn [app combine]. f_equal. apply IH'. }
  rewrite H. reflexivity.
Qed.

Lemma closed_edges_rev l : Permutation (closed_edges (rev l)) (map eswap (closed_edges l)).
Proof.
  destruct l as [|f r]; [reflexivity|]. cbn [rev].
  transitivity (closed_edges (f :: rev r)).
  - apply closed_edges_rotate.
  - rewrite !closed_path. rewrite map_app. cbn [map]. unfold eswap at 2. cbn [fst snd].
    pose proof (combine_rev_path r f) as H.
    destruct r as [|g r] using rev_ind; [reflexivity|]. clear IHr.
    rewrite rev_app_distr in *. cbn [rev app] in *. rewrite last_last. cbn [tl] in H.
    change (combine (f :: g :: rev r) (g :: rev r)) with ((f, g) :: combine (g :: rev r) (rev r)).
    assert (E1 : forall (l : list point) x z, combine (x :: l) (l ++ [z]) = combine (x :: l) l ++ [(last l x, z)]).
    { clear. induction l as [|y l IH]; intros x z; [reflexivity|].
      rewrite last_cons. change (combine (x :: y :: l) ((y :: l) ++ [z])) with ((x, y) :: combine (y :: l) (l ++ [z])).
      rewrite IH. reflexivity. }
    rewrite last_cons. cbn [app]. rewrite <- E1, <- H. rewrite <- Permutation_rev.
    apply Permutation_cons_append.
Qed.

Lemma shoelace_rev l : shoelace (rev l) = - shoelace l.
Proof.
  unfold shoelace. rewrite (sumZ_perm _ _ (Permutation_map _ (closed_edges_rev l))).
  rewrite map_map. induction (closed_edges l) as [|[a b] es IH]; [reflexivity|].
  unfold sumZ in *. cbn [map fold_right eswap fst snd] in *. rewrite IH. unfold eswap. cbn [fst snd]. lia.
Qed.

Definition translate (d p : point) : point := (px p + px d, py p + py d).

Lemma closed_edges_map (g : point -> point) l :
  closed_edges (map g l) = map (fun e => (g (fst e), g (snd e))) (closed_edges l).
Proof.
  destruct l as [|f r]; [reflexivity|]. unfold closed_edges. cbn [map].
  replace (map g r ++ [g f]) with (map g (r ++ [f])) by (rewrite map_app; reflexivity).
  change (g f :: map g r) with (map g (f :: r)). generalize (f :: r) (r ++ [f]).
  induction l as [|a l IH]; intros [|b m]; cbn; try reflexivity. f_equal. apply IH.
Qed.

Lemma shoelace_translate d l : shoelace (map (translate d) l) = shoelace l.
Proof.
  unfold shoelace. rewrite closed_edges_map, map_map. cbn [fst snd].
  rewrite (sumZ_map_sub _ (fun e => px (fst e) * py (snd e) - px (snd e) * py (fst e))
    (fun e => (px (fst e) * py d - px d * py (fst e)) - (px (snd e) * py d - px d * py (snd e)))).
  - rewrite (sumZ_telescope (fun p => px p * py d - px d * py p)). lia.
  - intros [a b]. unfold translate, px, py. cbn [fst snd]. ring.
Qed.

(** ** Orders *)

Lemma point_less_irrefl a : point_less a a = false.
Proof. unfold point_less. rewrite Z.eqb_refl. apply Z.ltb_irrefl. Qed.
Lemma point_less_trans a b c : point_less a b = true -> point_less b c = true -> point_less a c = true.
Proof. unfold point_less. destruct a as [ax ay], b as [bx by_], c as [cx cy]. geo.
  destruct (Z.eqb_spec ax bx), (Z.eqb_spec bx cx), (Z.eqb_spec ax cx); lia. Qed.
Lemma point_less_total a b : a <> b -> point_less a b = true \/ point_less b a = true.
Proof.
  unfold point_less. destruct a as [ax ay], b as [bx by_]. geo. intros H.
  assert (ax <> bx \/ ay <> by_) by (destruct (Z.eq_dec ax bx), (Z.eq_dec ay by_); auto; subst; congruence).
  destruct (Z.eqb_spec ax bx), (Z.eqb_spec bx ax); lia.
Qed.

Lemma event_cmp_irrefl x e : event_cmp x e e = false.
Proof. unfold event_cmp. rewrite Z.eqb_refl. unfold etype_eqb. rewrite !Nat.eqb_refl. cbn [negb]. apply Nat.ltb_irrefl. Qed.

Lemma event_cmp_trans x a b c : event_cmp x a b = true -> event_cmp x b c = true -> event_cmp x a c = true.
Proof.
  unfold event_cmp, etype_eqb.
  generalize (x (ev_a a)) (x (ev_a b)) (x (ev_a c)) (etype_rank (ev_type a)) (etype_rank (ev_type b))
    (etype_rank (ev_type c)) (ev_a a) (ev_a b) (ev_a c) (ev_b a) (ev_b b) (ev_b c).
  intros. 
  repeat match goal with
  | H : context [negb ?b] |- _ => destruct b eqn:?; cbn [negb] in H
  | |- context [negb ?b] => destruct b eqn:?; cbn [negb]
  end; lia.
Qed.

Lemma etype_rank_inj a b : etype_rank a = etype_rank b -> a = b.
Proof. destruct a, b; cbn; congruence. Qed.

Lemma event_cmp_equiv x a b :
  event_cmp x a b = false -> event_cmp x b a = false ->
  ev_type a = ev_type b /\ ev_a a = ev_a b /\ ev_b a = ev_b b.
Proof.
  intros H1 H2. unfold event_cmp, etype_eqb in *.
  assert (etype_rank (ev_type a) = etype_rank (ev_type b) /\ ev_a a = ev_a b /\ ev_b a = ev_b b) as (E & ? & ?).
  { revert H1 H2. generalize (x (ev_a a)) (x (ev_a b)) (etype_rank (ev_type a)) (etype_rank (ev_type b)).
    intros. repeat match goal with
    | H : context [negb ?b] |- _ => destruct b eqn:?; cbn [negb] in H
    end; lia. }
  auto using etype_rank_inj.
Qed.

(** ** Dual ray test *)

Lemma dual_up_ray_eq sa sb p h1 dp1 t1 h2 dp2 t2 :
  px sa <= px sb -> h1 <> 0 -> h2 <> 0 ->
  dual_up_ray sa sb p h1 dp1 t1 h2 dp2 t2
  = (up_ray sa sb p h1 dp1 t1, up_ray sa sb p h2 dp2 t2).
Proof.
  intros Hab Hh1 Hh2. unfold dual_up_ray, up_ray. destruct sa as [ax ay], sb as [bx by_], p as [x y]. geo.
  destruct (Z.eqb_spec (bx - ax) 0) as [E|E]; [reflexivity|].
  generalize (lower_angle (bx - ax, by_ - ay) dp1 t1) (lower_angle (bx - ax, by_ - ay) dp2 t2).
  generalize ((x - ax) * (by_ - ay)) ((y - ay) * (bx - ax)). intros t u l1 l2.
  destruct (Z.ltb_spec x ax), (Z.ltb_spec bx x); cbn [orb]; try reflexivity; try lia.
  { destruct (_ && _), (_ && _); reflexivity. }
  destruct (Z.eqb_spec x ax), (Z.eqb_spec x bx); cbn [andb fst snd]; try lia;
    destruct (Z.ltb_spec u t), (Z.eqb_spec t u), (Z.ltb_spec t u); try lia;
    destruct (Z.ltb_spec h1 0), (Z.ltb_spec 0 h1), (Z.ltb_spec h2 0), (Z.ltb_spec 0 h2); try lia;
    cbn [andb orb fst snd]; reflexivity.
Qed.

(** ** Sweep order *)

Lemma sweep_cmp_irrefl s : sweep_cmp s s = false.
Proof.
  unfold sweep_cmp. rewrite Z.eqb_refl, !Z.sub_diag. cbn [negb Z.eqb].
  replace (triangle_winding (sg_pb s) (sg_pa s) (sg_pb s)) with 0 by (unfold triangle_winding; ring).
  cbn [negb Z.eqb]. unfold sweep_cmp_tie. rewrite Nat.eqb_refl. apply Nat.ltb_irrefl.
Qed.

Lemma sweep_tie_asym s1 s2 : sweep_cmp_tie s1 s2 = true -> sweep_cmp_tie s2 s1 = false.
Proof.
  unfold sweep_cmp_tie. destruct (Nat.eqb_spec (sg_b s1) (sg_b s2)), (Nat.eqb_spec (sg_b s2) (sg_b s1)); lia.
Qed.
Lemma sweep_tie_total s1 s2 :
  (sg_a s1, sg_b s1) <> (sg_a s2, sg_b s2) -> sweep_cmp_tie s1 s2 = true \/ sweep_cmp_tie s2 s1 = true.
Proof.
  intros H. unfold sweep_cmp_tie.
  destruct (Nat.eqb_spec (sg_b s1) (sg_b s2)), (Nat.eqb_spec (sg_b s2) (sg_b s1)); try lia.
  assert (sg_a s1 <> sg_a s2) by congruence. lia.
Qed.

(** The decision value of sweep_cmp before ties: sign of the first non-zero test. *)
Definition first_nz (l : list Z) (tie : bool) : bool :=
  fold_right (fun r k => if negb (r =? 0) then 0 <? r else k) tie l.

Definition sweep_tests (s1 s2 : cseg) : list Z :=
  if px (sg_pa s1) =? px (sg_pa s2) then
    [py (sg_pa s1) - py (sg_pa s2); triangle_winding (sg_pb s1) (sg_pa s1) (sg_pb s2);
     py (sg_pb s1) - py (sg_pb s2)]
  else if px (sg_pa s1) <? px (sg_pa s2) then
    if negb (px (sg_pa s1) =? px (sg_pb s1)) then
      [triangle_winding (sg_pb s1) (sg_pa s1) (sg_pa s2); triangle_winding (sg_pb s1) (sg_pa s1) (sg_pb s2)]
    else []
  else
    if negb (px (sg_pa s2) =? px (sg_pb s2)) then
      [triangle_winding (sg_pa s2) (sg_pb s2) (sg_pa s1); triangle_winding (sg_pa s2) (sg_pb s2) (sg_pb s1)]
    else [].

Lemma sweep_cmp_tests s1 s2 : sweep_cmp s1 s2 = first_nz (sweep_tests s1 s2) (sweep_cmp_tie s1 s2).
Proof.
  unfold sweep_cmp, sweep_tests.
  destruct (_ =? _); [reflexivity|]. destruct (_ <? _); destruct (negb _); reflexivity.
Qed.

Lemma first_nz_asym l1 l2 t1 t2 :
  Forall2 (fun a b => a = - b \/ False) l1 l2 -> (t1 = true -> t2 = false) ->
  first_nz l1 t1 = true -> first_nz l2 t2 = false.
Proof.
  induction 1 as [|a b l1 l2 [E|[]] H IH]; intros Ht; cbn [first_nz fold_right] in *; [assumption|].
  subst a. destruct (Z.eqb_spec (- b) 0), (Z.eqb_spec b 0); cbn [negb]; try lia. intros Hx. apply IH; assumption.
Qed.

(** The tests of (s2,s1) are the negated tests of (s1,s2), position by position,
    except that with a common start x the second is only evaluated when the
    starts coincide. *)
Lemma sweep_cmp_asym s1 s2 : sweep_cmp s1 s2 = true -> sweep_cmp s2 s1 = false.
Proof.
  rewrite !sweep_cmp_tests. unfold sweep_tests.
  destruct s1 as [a1 b1 [ax1 ay1] [bx1 by1]], s2 as [a2 b2 [ax2 ay2] [bx2 by2]].
  cbn [sg_pa sg_pb]. geo.
  pose proof (sweep_tie_asym (mk_cseg a1 b1 (ax1, ay1) (bx1, by1)) (mk_cseg a2 b2 (ax2, ay2) (bx2, by2))) as Ht.
  revert Ht. generalize (sweep_cmp_tie (mk_cseg a1 b1 (ax1, ay1) (bx1, by1)) (mk_cseg a2 b2 (ax2, ay2) (bx2, by2)))
    (sweep_cmp_tie (mk_cseg a2 b2 (ax2, ay2) (bx2, by2)) (mk_cseg a1 b1 (ax1, ay1) (bx1, by1))).
  intros t1 t2 Ht.
  destruct (Z.eqb_spec ax1 ax2) as [E|E].
  - subst ax2. rewrite Z.eqb_refl. cbn [first_nz fold_right].
    destruct (Z.eqb_spec (ay1 - ay2) 0) as [Ey|Ey]; cbn [negb].
    + assert (ay2 = ay1) by lia. subst ay2. rewrite Z.sub_diag. cbn [Z.eqb negb].
      intros H. eapply (first_nz_asym [_; _] [_; _]); [| exact Ht | exact H].
      constructor; [|constructor; [|constructor]]; left; unfold triangle_winding; geo; ring.
    + destruct (Z.eqb_spec (ay2 - ay1) 0); cbn [negb]; lia.
  - destruct (Z.eqb_spec ax2 ax1); [lia|].
    destruct (Z.ltb_spec ax1 ax2) as [L1|L1], (Z.ltb_spec ax2 ax1) as [L2|L2]; try lia.
    + destruct (negb (ax1 =? bx1)); intros Hc; eapply first_nz_asym; try exact Hc; try exact Ht.
      * constructor; [|constructor; [|constructor]]; left; unfold triangle_winding; geo; ring.
      * constructor.
    + destruct (negb (ax2 =? bx2)); intros Hc; eapply first_nz_asym; try exact Hc; try exact Ht.
      * constructor; [|constructor; [|constructor]]; left; unfold triangle_winding; geo; ring.
      * constructor.
Qed.

Lemma first_nz_total l1 l2 t1 t2 :
  Forall2 (fun a b => a = - b \/ False) l1 l2 -> (t1 = true \/ t2 = true) ->
  first_nz l1 t1 = true \/ first_nz l2 t2 = true.
Proof.
  induction 1 as [|a b l1 l2 [E|[]] H IH]; intros Ht; cbn [first_nz fold_right] in *; [assumption|].
  subst a. destruct (Z.eqb_spec (- b) 0), (Z.eqb_spec b 0); cbn [negb]; try lia. apply IH; assumption.
Qed.

Lemma sweep_cmp_total s1 s2 :
  (sg_a s1, sg_b s1) <> (sg_a s2, sg_b s2) -> sweep_cmp s1 s2 = true \/ sweep_cmp s2 s1 = true.
Proof.
  intros Hne. pose proof (sweep_tie_total s1 s2 Hne) as Ht. clear Hne. revert Ht.
  rewrite !sweep_cmp_tests. unfold sweep_tests.
  destruct s1 as [a1 b1 [ax1 ay1] [bx1 by1]], s2 as [a2 b2 [ax2 ay2] [bx2 by2]].
  cbn [sg_pa sg_pb]. geo.
  generalize (sweep_cmp_tie (mk_cseg a1 b1 (ax1, ay1) (bx1, by1)) (mk_cseg a2 b2 (ax2, ay2) (bx2, by2)))
    (sweep_cmp_tie (mk_cseg a2 b2 (ax2, ay2) (bx2, by2)) (mk_cseg a1 b1 (ax1, ay1) (bx1, by1))).
  intros t1 t2 Ht.
  destruct (Z.eqb_spec ax1 ax2) as [E|E].
  - subst ax2. rewrite Z.eqb_refl. cbn [first_nz fold_right].
    destruct (Z.eqb_spec (ay1 - ay2) 0) as [Ey|Ey]; cbn [negb].
    + assert (ay2 = ay1) by lia. subst ay2. rewrite Z.sub_diag. cbn [Z.eqb negb].
      eapply (first_nz_total [_; _] [_; _]); [| exact Ht].
      constructor; [|constructor; [|constructor]]; left; unfold triangle_winding; geo; ring.
    + destruct (Z.eqb_spec (ay2 - ay1) 0); cbn [negb]; lia.
  - destruct (Z.eqb_spec ax2 ax1); [lia|].
    destruct (Z.ltb_spec ax1 ax2) as [L1|L1], (Z.ltb_spec ax2 ax1) as [L2|L2]; try lia.
    + destruct (negb (ax1 =? bx1)); eapply first_nz_total; try exact Ht.
      * constructor; [|constructor; [|constructor]]; left; unfold triangle_winding; geo; ring.
      * constructor.
    + destruct (negb (ax2 =? bx2)); eapply first_nz_total; try exact Ht.
      * constructor; [|constructor; [|constructor]]; left; unfold triangle_winding; geo; ring.
      * constructor.
Qed.
