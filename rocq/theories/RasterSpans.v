(** Proofs about the spans of a row. *)
From Coq Require Import List Bool Arith ZArith QArith Permutation Sorted Lia Lqa.
From Verif Require Import GeomModel RasterModel RasterSpec RasterArith RasterOrder RasterRun.
Import ListNotations.
Local Open Scope Z_scope.

(** ** Edges of stored polygons *)
Section Edges.
Variable pts : list rpoint.
Definition sgn_of (s : cseg) : Z := match goes_down pts s with Some true => 1 | _ => -1 end.
Definition to_sedge (s : cseg) : sedge := (sg_pa s, sg_pb s, sgn_of s).
End Edges.

Lemma total_app l l' : total (l ++ l') = total l + total l'.
Proof. unfold total. induction l as [|x l IH]; cbn; [reflexivity|]. rewrite IH. lia. Qed.
Lemma total_perm l l' : Permutation l l' -> total l = total l'.
Proof. unfold total. induction 1; cbn; lia. Qed.

(** Stored rings. *)
Definition rings (ls : list (list point)) : list rpoint := radd_loops [] ls.
Lemma radd_loops_app ls : forall pts, radd_loops pts ls = fold_left (fun p l => p ++ rring (length p) (rnorm l)) ls pts.
Proof. induction ls as [|l ls IH]; intros pts; cbn; [reflexivity|]. rewrite radd_loop_exact. apply IH. Qed.
Lemma rring_length b l : length (rring b l) = length l.
Proof. unfold rring. rewrite map_length, combine_length, seq_length. lia. Qed.

Lemma rnorm_length l : rnorm l = [] \/ (3 <= length (rnorm l))%nat.
Proof. unfold rnorm. cbv zeta. match goal with |- context [Nat.ltb (length ?a) 3] => destruct (Nat.ltb_spec (length a) 3); auto end. Qed.

(** Edges of a part of the points, when the rest of the points does not matter. *)
Lemma edge_of_mono pts ex i p r : edge_of pts i p = Some r -> edge_of (pts ++ ex) i p = Some r.
Proof.
  unfold edge_of. destruct (nth_error pts (rp_next p)) as [q|] eqn:E; [|discriminate]. rewrite nth_error_app1 by (apply nth_error_Some; congruence). rewrite E. auto.
Qed.
Lemma edges_from_mono pts ex l : forall i r, edges_from pts i l = Some r -> edges_from (pts ++ ex) i l = Some r.
Proof.
  induction l as [|p l IH]; intros i r; cbn [edges_from]; [auto|].
  destruct (edge_of pts i p) eqn:E; [|discriminate]. destruct (edges_from pts (S i) l) eqn:F; [|discriminate].
  rewrite (edge_of_mono _ _ _ _ _ E), (IH _ _ F). auto.
Qed.
Lemma edges_from_app pts l1 l2 : forall i, edges_from pts i (l1 ++ l2) = match edges_from pts i l1, edges_from pts (i + length l1) l2 with Some a, Some b => Some (a ++ b) | _, _ => None end.
Proof.
  induction l1 as [|p l1 IH]; intros i; cbn [app edges_from length].
  - rewrite Nat.add_0_r. destruct (edges_from pts i l2); reflexivity.
  - rewrite IH. replace (i + S (length l1))%nat with (S i + length l1)%nat by lia.
    destruct (edge_of pts i p); [|reflexivity]. destruct (edges_from pts (S i) l1); [|destruct (edges_from pts (S i + length l1) l2); reflexivity]. destruct (edges_from pts (S i + length l1) l2); [|reflexivity]. rewrite app_assoc. reflexivity.
Qed.
(** All next links of the points at i, i+1, ... stay inside. *)
Definition sgn_ok (pts : list rpoint) (s : cseg) (d : Z) : Prop :=
  exists main, goes_down pts s = Some main /\ d = (if main then 1 else -1).

Definition edge_rel (pts : list rpoint) (s : cseg) (e : sedge) : Prop :=
  let '(a, b, d) := e in sg_pa s = a /\ sg_pb s = b /\ py a < py b /\ sgn_ok pts s d.
Lemma sgn_ok_mono pts ex s d : sgn_ok pts s d -> sgn_ok (pts ++ ex) s d.
Proof.
  unfold sgn_ok, goes_down. destruct (nth_error pts (sg_a s)) eqn:E; [|intros (? & ? & _); discriminate]. rewrite nth_error_app1 by (apply nth_error_Some; congruence). rewrite E. auto.
Qed.
Lemma edge_rel_mono pts ex s e : edge_rel pts s e -> edge_rel (pts ++ ex) s e.
Proof. destruct e as ((a, b), d). unfold edge_rel. intros (? & ? & ? & ?). auto using sgn_ok_mono. Qed.

Lemma edge_of_rel pts i j p q nq : nth_error pts i = Some (mk_rpoint p j) -> nth_error pts j = Some (mk_rpoint q nq) -> nq <> i ->
  exists r, edge_of pts i (mk_rpoint p j) = Some r /\ Forall2 (edge_rel pts) r (edge_between p q).
Proof.
  intros I J NE. unfold edge_of, edge_between. cbn [rp_next rp_data]. rewrite J. cbn [rp_data].
  destruct (Z.eqb_spec (py p) (py q)); [eexists; split; [reflexivity|constructor]|].
  destruct (Z.ltb_spec (py q) (py p)); (eexists; split; [reflexivity|]; constructor; [|constructor]); unfold edge_rel, sgn_ok, goes_down; cbn [sg_pa sg_pb sg_a sg_b].
  - split; [reflexivity|]. split; [reflexivity|]. split; [lia|]. rewrite J. cbn [rp_next]. exists false. split; [|reflexivity]. f_equal. apply Nat.eqb_neq. exact NE.
  - split; [reflexivity|]. split; [reflexivity|]. split; [lia|]. rewrite I. cbn [rp_next]. exists true. split; [|reflexivity]. f_equal. apply Nat.eqb_refl.
Qed.

Lemma rring_nth b l k p : nth_error l k = Some p -> nth_error (rring b l) k = Some (mk_rpoint p (if Nat.eqb (S k) (length l) then b else (b + S k)%nat)).
Proof.
  intros H. unfold rring. assert (E : nth_error (combine (seq 0 (length l)) l) k = Some (k, p)).
  { assert (G : forall m s, (k < length m)%nat -> nth_error m k = Some p -> nth_error (combine (seq s (length m)) m) k = Some ((s + k)%nat, p)).
    { clear. induction k as [|k IH]; intros [|x m] s L N; cbn in *; try discriminate; try lia; [injection N as ->; rewrite Nat.add_0_r; reflexivity|].
      rewrite IH by (try lia; assumption). do 2 f_equal. lia. }
    apply (G l O); [apply nth_error_Some; congruence|exact H]. }
  rewrite (map_nth_error _ _ _ E). reflexivity.
Qed.
(** The edges of one ring, from position k on. *)
Lemma ring_edges pts0 l f : (3 <= length l)%nat -> nth_error l 0 = Some f -> forall m k p, l = firstn k l ++ p :: m -> (k < length l)%nat -> skipn k l = p :: m ->
  exists r, edges_from (pts0 ++ rring (length pts0) l) (length pts0 + k) (skipn k (rring (length pts0) l)) = Some r /\
    Forall2 (edge_rel (pts0 ++ rring (length pts0) l)) r (path_edges p m f).
Proof.
  intros L3 F. set (b := length pts0). set (pts := pts0 ++ rring b l).
  assert (NT : forall k p, nth_error l k = Some p -> nth_error pts (b + k) = Some (mk_rpoint p (if Nat.eqb (S k) (length l) then b else (b + S k)%nat))).
  { intros k p H. unfold pts. rewrite nth_error_app2 by (unfold b; lia). replace (b + k - length pts0)%nat with k by (unfold b; lia). apply rring_nth. exact H. }
  assert (N0 : nth_error pts b = Some (mk_rpoint f (b + 1))).
  { specialize (NT O f F). rewrite Nat.add_0_r in NT. rewrite NT. destruct (Nat.eqb_spec 1 (length l)); [lia|]. reflexivity. }
  induction m as [|q m IH]; intros k p SPL KL SK.
  - assert (KP : nth_error l k = Some p) by (rewrite <- (Nat.add_0_r k), <- nth_skipn, SK; reflexivity).
    assert (S k = length l). { pose proof (f_equal (@length point) SK) as LE. rewrite skipn_length in LE. cbn in LE. lia. }
    pose proof (rring_nth b l k p KP) as R. rewrite (skipn_S_nth _ _ _ R). assert (skipn (S k) (rring b l) = []) as -> by (apply skipn_all2; rewrite rring_length; lia).
    cbn [edges_from path_edges]. pose proof (NT k p KP) as NK. destruct (Nat.eqb_spec (S k) (length l)); [|lia].
    destruct (edge_of_rel pts (b + k) b p f (b + 1) NK N0) as (r & E & FR); [lia|]. rewrite E. exists (r ++ []). rewrite app_nil_r. split; [reflexivity|exact FR].
  - assert (KP : nth_error l k = Some p) by (rewrite <- (Nat.add_0_r k), <- nth_skipn, SK; reflexivity).
    assert (KQ : nth_error l (S k) = Some q) by (rewrite <- (Nat.add_1_r k), <- nth_skipn, SK; reflexivity).
    assert (SK' : skipn (S k) l = q :: m) by (rewrite (skipn_S_nth _ _ _ KP) in SK; injection SK; auto).
    assert (KL' : (S k < length l)%nat) by (apply nth_error_Some; congruence).
    destruct (IH (S k) q) as (r & E & FR); [rewrite <- SK'; symmetry; apply firstn_skipn|exact KL'|exact SK'|].
    pose proof (rring_nth b l k p KP) as R. rewrite (skipn_S_nth _ _ _ R). cbn [edges_from path_edges]. replace (S (b + k)) with (b + S k)%nat by lia. rewrite E.
    pose proof (NT k p KP) as NK. destruct (Nat.eqb_spec (S k) (length l)); [lia|]. pose proof (NT (S k) q KQ) as NQ.
    destruct (edge_of_rel pts (b + k) (b + S k) p q _ NK NQ) as (r' & E' & FR'); [destruct (Nat.eqb_spec (S (S k)) (length l)) as [Q1|Q1]; [destruct k; lia|lia]|].
    rewrite E'. exists (r' ++ r). split; [reflexivity|]. apply Forall2_app; assumption.
Qed.
Lemma ring_edges_all pts0 l : l = [] \/ (3 <= length l)%nat -> exists r, edges_from (pts0 ++ rring (length pts0) l) (length pts0) (rring (length pts0) l) = Some r /\
    Forall2 (edge_rel (pts0 ++ rring (length pts0) l)) r (polygon_edges l).
Proof.
  intros [->|L3]; [exists []; split; [reflexivity|constructor]|]. destruct l as [|f l]; [cbn in L3; lia|].
  pose proof (ring_edges pts0 (f :: l) f L3 eq_refl l O f eq_refl ltac:(cbn; lia) eq_refl) as H. cbn [skipn] in H. rewrite Nat.add_0_r in H. exact H.
Qed.
Lemma Forall2_weaken {A B} (R S : A -> B -> Prop) l m : (forall x y, R x y -> S x y) -> Forall2 R l m -> Forall2 S l m.
Proof. intros H. induction 1; constructor; auto. Qed.
Lemma rings_edges ls : forall pts es E, edges_from pts 0 pts = Some es -> Forall2 (edge_rel pts) es E ->
  exists es', edges_from (radd_loops pts ls) 0 (radd_loops pts ls) = Some es' /\ Forall2 (edge_rel (radd_loops pts ls)) es' (E ++ flat_map (fun l => polygon_edges (rnorm l)) ls).
Proof.
  induction ls as [|l ls IH]; intros pts es E H F.
  - exists es. cbn. rewrite app_nil_r. auto.
  - cbn [radd_loops fold_left flat_map]. rewrite radd_loop_exact. destruct (ring_edges_all pts (rnorm l) (rnorm_length l)) as (r & R & FR).
    rewrite app_assoc. apply (IH _ (es ++ r)).
    + rewrite edges_from_app, (edges_from_mono _ _ _ _ _ H). cbn [Nat.add]. rewrite R. reflexivity.
    + apply Forall2_app; [|exact FR]. eapply Forall2_weaken; [|exact F]. intros; apply edge_rel_mono; assumption.
Qed.

(** ** The spans of one row *)
Section Row.
Variable pts : list rpoint.
Variable wbits width : Z.
Definition width_ok : Prop := 1 <= width /\ width <= 2 ^ (wbits - 1) /\ 0 < wbits /\ width <= 2 ^ 32.
Lemma hi_x_width : width_ok -> hi_x wbits width = width - 1.
Proof.
  intros WB. unfold hi_x. destruct WB as (A & B & C & D). rewrite (Z.mod_small (width - 1) (2 ^ 32)) by lia.
  assert (2 ^ wbits = 2 * 2 ^ (wbits - 1)) by (rewrite <- Z.pow_succ_r by lia; f_equal; lia).
  rewrite (Z.mod_small (width - 1)) by lia. destruct (Z.ltb_spec (width - 1) (2 ^ (wbits - 1))); lia.
Qed.
Lemma pixel_range x : width_ok -> 0 <= pixel width x <= width - 1.
Proof. unfold pixel, width_ok. lia. Qed.
Lemma to_coord_pixel f : 1 <= width -> frac_valid f -> to_coord f 0 (width - 1) = pixel width (frac_val f).
Proof.
  unfold to_coord, pixel, frac_val, frac_valid. cbn. intros W V. rewrite Z2Pos.id by lia. unfold clamp.
  destruct (Z.ltb_spec (fr_num f ÷ fr_den f) 0); [lia|]. destruct (Z.ltb_spec (width - 1) (fr_num f ÷ fr_den f)); lia.
Qed.

Definition pix (y : Z) (s : cseg) : Z := to_coord (x_intercept (sg_pa s) (sg_pb s) y) 0 (hi_x wbits width).
Definition dirs (l : list cseg) : Z := total (map (sgn_of pts) l).
Lemma dirs_snoc l s : dirs (l ++ [s]) = dirs l + sgn_of pts s.
Proof. unfold dirs. rewrite map_app, total_app. cbn. lia. Qed.

Lemma row_spans_spec nodes y : forall l L pre w x spans,
  row_spans pts wbits width nodes y l w x = Some spans ->
  map (nth_error nodes) l = map Some L -> w = dirs pre -> (pre <> [] -> exists pre' p, pre = pre' ++ [p] /\ x = pix y p) ->
  forall s, In s spans <-> exists A p e B, pre ++ L = A ++ p :: e :: B /\ (length pre <= S (length A))%nat /\ dirs (A ++ [p]) <> 0 /\
    s = mk_scan (to_uint (pix y e)) (to_uint (pix y p)) (to_uint y) (dirs (A ++ [p])).
Proof.
  induction l as [|i l IH]; intros L pre w x spans E M W X s.
  - cbn in E. injection E as <-. destruct L; [|discriminate]. rewrite app_nil_r. split; [intros []|]. intros (A & p & e & B & H & LE & _).
    apply (f_equal (@length cseg)) in H. rewrite app_length in H. cbn in H. lia.
  - destruct L as [|sg L]; [discriminate|]. cbn [map] in M. injection M as M1 M2. cbn [row_spans] in E. rewrite M1 in E.
    destruct (goes_down pts sg) as [main|] eqn:G; [|discriminate].
    set (x' := to_coord _ _ _) in E. change x' with (pix y sg) in E.
    destruct (row_spans pts wbits width nodes y l (w + (if main then 1 else -1)) (pix y sg)) as [rest|] eqn:R; [|discriminate].
    assert (SG : sgn_of pts sg = if main then 1 else -1) by (unfold sgn_of; rewrite G; destruct main; reflexivity).
    specialize (IH L (pre ++ [sg]) _ _ rest R M2). rewrite dirs_snoc, SG, W in IH.
    assert (IH' := IH eq_refl (fun _ => ex_intro _ pre (ex_intro _ sg (conj eq_refl eq_refl)))). clear IH. rename IH' into IH.
    rewrite <- app_assoc in IH. cbn [app] in IH. injection E as <-.
    assert (SPLIT : (exists A p e B, pre ++ sg :: L = A ++ p :: e :: B /\ (length pre <= S (length A))%nat /\ dirs (A ++ [p]) <> 0 /\
        s = mk_scan (to_uint (pix y e)) (to_uint (pix y p)) (to_uint y) (dirs (A ++ [p]))) <->
      (w <> 0 /\ s = mk_scan (to_uint (pix y sg)) (to_uint x) (to_uint y) w) \/ In s rest).
    { rewrite (IH s). split.
      - intros (A & p & e & B & H & LE & D & ES). destruct (le_lt_dec (length (pre ++ [sg])) (S (length A))) as [L1|L1]; [right; exists A, p, e, B; auto|].
        left. rewrite app_length in L1. cbn in L1. assert (LA : length pre = S (length A)) by lia.
        assert (PA : pre = A ++ [p]).
        { apply (f_equal (firstn (length pre))) in H. rewrite firstn_app, firstn_all, Nat.sub_diag, firstn_O, app_nil_r in H.
          change (A ++ p :: e :: B) with (A ++ [p] ++ e :: B) in H. rewrite app_assoc in H. rewrite LA in H. replace (S (length A)) with (length (A ++ [p]) + 0)%nat in H by (rewrite app_length; cbn; lia).
          rewrite firstn_app_2 in H. cbn in H. rewrite app_nil_r in H. rewrite <- LA in *. exact H. }
        assert (EQ : sg = e). { rewrite PA, <- app_assoc in H. cbn [app] in H. apply app_inv_head in H. injection H. auto. }
        subst e. rewrite <- PA in *. rewrite W. split; [exact D|]. destruct X as (pre' & p' & P1 & ->); [rewrite PA; destruct A; discriminate|].
        rewrite PA in P1. apply app_inj_tail in P1 as (_ & <-). exact ES.
      - intros [(D & ES)|(A & p & e & B & H & LE & D & ES)]; [|exists A, p, e, B; rewrite app_length in LE; cbn in LE; split; [exact H|]; split; [lia|auto]].
        assert (PN : pre <> []) by (intros E0; rewrite E0 in W; cbn in W; lia). destruct (X PN) as (pre' & p' & P1 & X1).
        exists pre', p', sg, L. rewrite P1 in W |- *. rewrite <- app_assoc. cbn [app]. split; [reflexivity|]. rewrite app_length. cbn. split; [lia|]. rewrite <- W. split; [exact D|]. rewrite ES, X1. reflexivity. }
    rewrite SPLIT. destruct (Z.eqb_spec w 0) as [Z0|Z0]; cbn [In]; split.
    + tauto.
    + intros [(? & _)|?]; [lia|assumption].
    + intros [<-|?]; [left; auto|right; assumption].
    + intros [(_ & ->)|?]; [left; reflexivity|right; assumption].
Qed.

(** The order of a consistent row. *)
Lemma consistent_sorted nodes y l L : consistent nodes y l = true -> map (nth_error nodes) l = map Some L ->
  Forall (fun s => py (sg_pa s) < py (sg_pb s)) L ->
  StronglySorted (fun s t => (place y t <= place y s)%Q) L.
Proof.
  revert L. induction l as [|i l IH]; intros L C M F; destruct L as [|s L]; try discriminate; [constructor|].
  cbn [map] in M. injection M as M1 M2. unfold consistent in C. cbn in C. rewrite !andb_true_iff in C. destruct C as ((_ & C1) & C2).
  inversion F as [|? ? F1 F2]; subst. constructor; [apply IH; try assumption|].
  apply Forall_forall. intros t I. apply In_nth_error in I as (k & I).
  assert (N : exists j, nth_error l k = Some j /\ nth_error nodes j = Some t).
  { pose proof (map_nth_error Some _ _ I) as N. rewrite <- M2 in N. destruct (nth_error l k) as [j|] eqn:J; [|rewrite (proj2 (nth_error_None _ _)) in N; [discriminate|rewrite map_length; apply nth_error_None; exact J]].
    rewrite (map_nth_error _ _ _ J) in N. injection N as N. eauto. }
  destruct N as (j & J1 & J2). rewrite forallb_forall in C1. specialize (C1 j (nth_error_In _ _ J1)). rewrite J2, M1 in C1.
  apply negb_true_iff in C1. unfold rsweep_cmp in C1. rewrite Forall_forall in F2. pose proof (F2 t (nth_error_In _ _ I)) as F3.
  rewrite frac_cmp_val in C1 by (apply x_intercept_valid; lia). unfold place. rewrite <- !x_intercept_val by lia.
  destruct (Qcompare_spec (frac_val (x_intercept (sg_pa t) (sg_pb t) y)) (frac_val (x_intercept (sg_pa s) (sg_pb s) y))); try discriminate; lra.
Qed.
Lemma pix_mono y s t : width_ok -> py (sg_pa s) < py (sg_pb s) -> py (sg_pa t) < py (sg_pb t) -> (place y t <= place y s)%Q -> pix y t <= pix y s.
Proof.
  intros W S T H. unfold pix. apply to_coord_mono; [rewrite hi_x_width by assumption; destruct W; lia|apply x_intercept_valid; lia|apply x_intercept_valid; lia|]. rewrite !x_intercept_val by lia. exact H.
Qed.
Lemma pix_range y s : width_ok -> 0 <= pix y s <= width - 1.
Proof. intros W. unfold pix. rewrite hi_x_width by assumption. apply to_coord_range. destruct W; lia. Qed.
Lemma sorted_app_le {A} (R : A -> A -> Prop) (l1 l2 : list A) : StronglySorted R (l1 ++ l2) -> StronglySorted R l1 /\ StronglySorted R l2 /\ forall x y, In x l1 -> In y l2 -> R x y.
Proof.
  induction l1 as [|a l1 IH]; cbn; [intros H; repeat split; [constructor|exact H|intros ? ? []]|]. intros H. inversion H as [|? ? H1 F]; subst. destruct (IH H1) as (A1 & A2 & A3).
  rewrite Forall_app in F. destruct F as (F1 & F2). split; [constructor; assumption|]. split; [exact A2|]. intros x y [<-|I] J; [rewrite Forall_forall in F2; auto|auto].
Qed.

(** Counting on a sorted list. *)
Definition count_right (y : Z) (x : Q) (l : list cseg) : Z := total (map (fun s => if Qlt_le_dec x (place y s) then sgn_of pts s else 0) l).
Lemma count_right_app y x l l' : count_right y x (l ++ l') = count_right y x l + count_right y x l'.
Proof. unfold count_right. rewrite map_app. apply total_app. Qed.
Lemma count_right_all y x l : (forall s, In s l -> (x < place y s)%Q) -> count_right y x l = dirs l.
Proof.
  unfold count_right, dirs, total. induction l as [|s l IH]; intros H; cbn; [reflexivity|]. rewrite IH by (intros; apply H; right; assumption).
  destruct (Qlt_le_dec x (place y s)) as [?|G]; [reflexivity|]. specialize (H s (or_introl eq_refl)). lra.
Qed.
Lemma count_right_none y x l : (forall s, In s l -> (place y s <= x)%Q) -> count_right y x l = 0.
Proof.
  unfold count_right, total. induction l as [|s l IH]; intros H; cbn; [reflexivity|]. rewrite IH by (intros; apply H; right; assumption).
  destruct (Qlt_le_dec x (place y s)) as [G|?]; [|reflexivity]. specialize (H s (or_introl eq_refl)). lra.
Qed.
Lemma count_between y x A p e B : StronglySorted (fun s t => (place y t <= place y s)%Q) (A ++ p :: e :: B) ->
  (place y e < x)%Q -> (x < place y p)%Q -> count_right y x (A ++ p :: e :: B) = dirs (A ++ [p]).
Proof.
  intros S E P. change (A ++ p :: e :: B) with (A ++ [p] ++ e :: B) in *. rewrite app_assoc in *. rewrite count_right_app, count_right_all, count_right_none; [lia| |].
  - apply sorted_app_le in S as (_ & S & _). inversion S as [|? ? S1 F]; subst. rewrite Forall_forall in F. intros s [<-|I]; [lra|]. specialize (F s I). cbn in F. lra.
  - apply sorted_app_le in S as (S & _ & _). apply sorted_app_le in S as (_ & _ & S). intros s I. apply in_app_or in I as [I|[<-|[]]]; [|exact P]. specialize (S s p I (or_introl eq_refl)). cbn in S. lra.
Qed.
(** A place between two edges of the list. *)
Lemma find_gap y x : forall l, StronglySorted (fun s t => (place y t <= place y s)%Q) l -> (forall s, In s l -> ~ (place y s == x)%Q) ->
  count_right y x l <> 0 -> dirs l = 0 -> exists A p e B, l = A ++ p :: e :: B /\ (place y e < x)%Q /\ (x < place y p)%Q.
Proof.
  intros l S N C D. 
  assert (G : forall l, StronglySorted (fun s t => (place y t <= place y s)%Q) l -> (forall s, In s l -> ~ (place y s == x)%Q) ->
    (forall s, In s l -> (x < place y s)%Q) \/ (forall s, In s l -> (place y s < x)%Q) \/ exists A p e B, l = A ++ p :: e :: B /\ (place y e < x)%Q /\ (x < place y p)%Q).
  { clear. induction l as [|s l IH]; intros S N; [left; intros ? []|]. inversion S as [|? ? S1 F]; subst. rewrite Forall_forall in F.
    assert (NS := N s (or_introl eq_refl)). destruct (Qlt_le_dec x (place y s)) as [L|L].
    - destruct (IH S1 (fun t I => N t (or_intror I))) as [A|[A|(A & p & e & B & -> & E & P)]].
      + left. intros t [<-|I]; auto.
      + destruct l as [|e l]; [left; intros t [<-|[]]; exact L|]. right. right. exists [], s, e, l. split; [reflexivity|]. split; [apply A; left; reflexivity|exact L].
      + right. right. exists (s :: A), p, e, B. auto.
    - right. left. assert (place y s < x)%Q by (destruct (Qlt_le_dec (place y s) x); [assumption|exfalso; apply NS; lra]). intros t [<-|I]; [assumption|]. specialize (F t I). cbn in F. lra. }
  destruct (G l S N) as [A|[A|A]]; [| |exact A].
  - rewrite (count_right_all _ _ _ A) in C. lia.
  - rewrite (count_right_none y x l) in C by (intros s I; specialize (A s I); lra). lia.
Qed.
End Row.
