(** Theorems on the geometric predicates: C13 to C24 and C46. *)
From Coq Require Import ZArith QArith List Bool Lia Permutation.
From Verif Require Import GeomModel GeomSpec WindSpec BalanceModel GeomMachine FloatModel
  GeomProofs IsectProofs SweepOrderProofs WindProofs WindingsProofs GeomMachineProofs GeomFinal.
Import ListNotations.
Local Open Scope Z_scope.

(** ** C13 *)
Theorem C13_orientation : forall p1 p2 p3,
  triangle_winding p1 p2 p3 = area2 p1 p2 p3 /\
  (triangle_winding p1 p2 p3 = 0 <-> collinear p1 p2 p3) /\
  triangle_winding p2 p3 p1 = triangle_winding p1 p2 p3 /\
  triangle_winding p2 p1 p3 = - triangle_winding p1 p2 p3 /\
  triangle_winding p1 p3 p2 = - triangle_winding p1 p2 p3 /\
  triangle_winding p3 p2 p1 = - triangle_winding p1 p2 p3.
Proof.
  intros. split; [apply tw_area|]. split; [apply tw_collinear|]. split; [apply tw_rotate|].
  split; [apply tw_swap12|]. split; [apply tw_swap23|apply tw_swap13].
Qed.
Print Assumptions C13_orientation.

Theorem C13_no_overflow : forall w p1 p2 p3, 2 <= w ->
  coord_lt (2 ^ (w - 2)) p1 -> coord_lt (2 ^ (w - 2)) p2 -> coord_lt (2 ^ (w - 2)) p3 ->
  triangle_winding_m w p1 p2 p3 = Ok (triangle_winding p1 p2 p3).
Proof. intros. apply triangle_winding_ok; try assumption; apply coord_small; assumption. Qed.
Print Assumptions C13_no_overflow.

(** At the bound itself a step can overflow, for every width. *)
Theorem C13_bound_tight : forall w, 2 <= w -> exists p1 p2 p3,
  coord_lt (2 ^ (w - 2) + 1) p1 /\ coord_lt (2 ^ (w - 2) + 1) p2 /\ coord_lt (2 ^ (w - 2) + 1) p3 /\
  triangle_winding_m w p1 p2 p3 = Overflow.
Proof.
  intros w Hw. exists (- 2 ^ (w - 2), 0), (2 ^ (w - 2), 0), (0, 0).
  assert (0 < 2 ^ (w - 2)) by (apply Z.pow_pos_nonneg; lia).
  unfold coord_lt, px, py. cbn [fst snd]. repeat (split; [lia|]).
  unfold triangle_winding_m, mdet, msub, chk, px, py. cbn [fst snd].
  replace (2 ^ (w - 1)) with (2 * 2 ^ (w - 2)) by (rewrite <- Z.pow_succ_r by lia; f_equal; lia).
  generalize dependent (2 ^ (w - 2)). intros h Hh.
  destruct (Z.ltb_spec (h - - h) (2 * h)); [lia|]. rewrite andb_false_r. reflexivity.
Qed.
Print Assumptions C13_bound_tight.

Example C13_example : coord_lt (2 ^ 30) (1, 2) /\ coord_lt (2 ^ 30) (5 - 2 ^ 30, 3) /\
  triangle_winding_m 32 (1, 2) (5 - 2 ^ 30, 3) (- 7, 2 ^ 30 - 1) = Ok (-1152921497090654212).
Proof. vm_compute. repeat split. Qed.

(** ** C14 *)
Theorem C14_winding_dir : forall l,
  winding_dir l = shoelace l /\ winding_dir (rev l) = - winding_dir l /\
  (forall k, winding_dir (skipn k l ++ firstn k l) = winding_dir l) /\
  (forall dx dy, winding_dir (map (fun p => (px p + dx, py p + dy)) l) = winding_dir l) /\
  winding_dir [] = 0.
Proof.
  intros l. rewrite !winding_dir_shoelace. split; [reflexivity|]. split; [apply shoelace_rev|].
  split; [intros k; rewrite winding_dir_shoelace; apply rotate_many|].
  split; [|reflexivity]. intros dx dy. rewrite winding_dir_shoelace. apply (shoelace_translate (dx, dy)).
Qed.
Print Assumptions C14_winding_dir.

(** Without overflow as long as the number of points is bounded. *)
Theorem C14_no_overflow : forall w M l, 2 <= w -> 0 <= M < 2 ^ (w - 2) ->
  (forall p, In p l -> Z.abs (px p) <= M /\ Z.abs (py p) <= M) ->
  Z.of_nat (length l) * (4 * (M * M)) < 2 ^ (2 * w - 1) ->
  winding_dir_m w l = Ok (winding_dir l).
Proof. intros w M l. intros. apply (winding_dir_ok w ltac:(assumption) M); assumption. Qed.
Print Assumptions C14_no_overflow.

(** For long loops the coordinate bound alone does not prevent overflow. *)
Theorem C14_overflow_refuted : exists l,
  (forall p, In p l -> coord_lt (2 ^ 30) p) /\ winding_dir_m 32 l = Overflow.
Proof.
  exists (let m := 2 ^ 30 - 1 in
    [(-m, -m); (m, -m); (m, m); (-m, m); (-m, -m); (m, -m); (m, m); (-m, m)]).
  split; [|vm_compute; reflexivity].
  intros p Hp. cbn in Hp. unfold coord_lt. repeat (destruct Hp as [<-|Hp]; [vm_compute; repeat split|]). destruct Hp.
Qed.
Print Assumptions C14_overflow_refuted.

Example C14_example : winding_dir [(0,0); (4,0); (4,3); (0,3)] = 24 /\ winding_dir [(4,3); (0,3); (0,0); (4,0)] = 24 /\
  winding_dir_m 32 [(0,0); (4,0); (4,3); (0,3)] = Ok 24.
Proof. vm_compute. repeat split. Qed.

(** ** C15 *)
Theorem C15_point_order :
  (forall a, point_less a a = false) /\
  (forall a b c, point_less a b = true -> point_less b c = true -> point_less a c = true) /\
  (forall a b, a <> b -> point_less a b = true \/ point_less b a = true) /\
  (forall a b, point_less a b = true <-> px a < px b \/ (px a = px b /\ py a < py b)).
Proof.
  split; [exact point_less_irrefl|]. split; [exact point_less_trans|]. split; [exact point_less_total|].
  intros a b. unfold point_less. destruct (Z.eqb_spec (px a) (px b)); rewrite Z.ltb_lt; lia.
Qed.
Print Assumptions C15_point_order.

Example C15_example : point_less (1, 5) (2, 0) = true /\ point_less (2, 0) (2, 1) = true /\ point_less (2, 1) (2, 0) = false.
Proof. vm_compute. repeat split. Qed.

(** ** C16 *)
(** Partial: "ends before starts" holds for segments that are not vertical; vertical
    segments are processed around the others (see C16_vertical_refuted). *)
Theorem C16_event_order_partial : forall x,
  (forall a, event_cmp x a a = false) /\
  (forall a b c, event_cmp x a b = true -> event_cmp x b c = true -> event_cmp x a c = true) /\
  (forall a b, event_cmp x a b = false -> event_cmp x b a = false ->
     ev_type a = ev_type b /\ ev_a a = ev_a b /\ ev_b a = ev_b b) /\
  (forall a b, x (ev_a a) < x (ev_a b) -> event_cmp x a b = true) /\
  (forall a b, x (ev_a a) = x (ev_a b) ->
     (ev_type a = Ebackward /\ ev_type b = Eforward) \/ (ev_type a = Evforward /\ ev_type b <> Evforward) \/
     (ev_type a <> Evbackward /\ ev_type b = Evbackward) -> event_cmp x a b = true).
Proof.
  intros x. split; [apply event_cmp_irrefl|]. split; [apply event_cmp_trans|].
  split; [intros a b H1 H2; exact (event_cmp_equiv x a b H1 H2)|].
  split.
  - intros a b H. unfold event_cmp. destruct (Z.eqb_spec (x (ev_a a)) (x (ev_a b))); [lia|]. cbn [negb]. apply Z.ltb_lt. assumption.
  - intros a b E H. unfold event_cmp. rewrite E, Z.eqb_refl. cbn [negb].
    destruct H as [[-> ->]|[[-> H]|[H ->]]]; [reflexivity| |].
    + destruct (ev_type b); try reflexivity. contradiction.
    + destruct (ev_type a); try reflexivity. contradiction.
Qed.
Print Assumptions C16_event_order_partial.

(** The start of a vertical segment comes before the end of another segment. *)
Theorem C16_vertical_refuted : exists x start_event end_event,
  ev_type start_event = Evforward /\ ev_type end_event = Ebackward /\
  x (ev_a start_event) = x (ev_a end_event) /\ event_cmp x start_event end_event = true.
Proof.
  exists (fun _ => 0), (mk_event 0 1 0 Evforward ESnormal), (mk_event 2 3 0 Ebackward ESnormal).
  repeat split.
Qed.
Print Assumptions C16_vertical_refuted.

Example C16_example : let x := fun i => Z.of_nat (Nat.div i 2) in
  event_cmp x (mk_event 3 0 0 Ebackward ESnormal) (mk_event 2 5 0 Eforward ESnormal) = true /\
  event_cmp x (mk_event 2 5 0 Eforward ESnormal) (mk_event 3 0 0 Ebackward ESnormal) = false.
Proof. vm_compute. repeat split. Qed.

(** ** C17 *)
Theorem C17_intersects_iff : forall rx ry s1 s2,
  no_shared s1 s2 -> dir_cross (sg_pa s1) (sg_pb s1) (sg_pa s2) (sg_pb s2) <> 0 ->
  ((exists r, intersects rx ry s1 s2 = Some r) <->
   (exists X Y, on_seg (sg_pa s1) (sg_pb s1) X Y /\ on_seg (sg_pa s2) (sg_pb s2) X Y)).
Proof. exact intersects_iff_meet. Qed.
Print Assumptions C17_intersects_iff.

Theorem C17_no_overflow : forall w rx ry s1 s2, 2 <= w ->
  coord_lt (2 ^ (w - 2)) (sg_pa s1) -> coord_lt (2 ^ (w - 2)) (sg_pb s1) ->
  coord_lt (2 ^ (w - 2)) (sg_pa s2) -> coord_lt (2 ^ (w - 2)) (sg_pb s2) ->
  intersects_m w rx ry s1 s2 = Ok (intersects rx ry s1 s2).
Proof. intros. apply intersects_ok; [assumption|split|split]; apply coord_small; assumption. Qed.
Print Assumptions C17_no_overflow.

Example C17_example : let s1 := mk_cseg 0 1 (0,0) (10,7) in let s2 := mk_cseg 2 3 (1,6) (8,0) in
  no_shared s1 s2 /\ dir_cross (sg_pa s1) (sg_pb s1) (sg_pa s2) (sg_pb s2) <> 0 /\
  intersects true false s1 s2 = Some (Some (4, 4), AEno, AEno) /\
  intersects true false s1 (mk_cseg 2 3 (1,6) (2,2)) = None.
Proof. vm_compute. repeat split; discriminate. Qed.

(** ** C18 *)
(** Partial: the quotient is exact; with doubles the claim fails
    (C18_double_refuted). *)
Theorem C18_intersection_point_partial : forall rx ry s1 s2 r,
  no_shared s1 s2 -> dir_cross (sg_pa s1) (sg_pb s1) (sg_pa s2) (sg_pb s2) <> 0 ->
  intersects rx ry s1 s2 = Some r ->
  exists p e1 e2 X Y, r = (Some p, e1, e2) /\
    on_seg (sg_pa s1) (sg_pb s1) X Y /\ on_seg (sg_pa s2) (sg_pb s2) X Y /\
    (injX p - 1 < X < injX p + 1)%Q /\ (injY p - 1 < Y < injY p + 1)%Q /\
    (forall k, X == inject_Z k -> px p = k)%Q /\ (forall k, Y == inject_Z k -> py p = k)%Q /\
    in_bbox (sg_pa s1) (sg_pb s1) p /\ in_bbox (sg_pa s2) (sg_pb s2) p /\
    edge_ok e1 (sg_pa s1) (sg_pb s1) p /\ edge_ok e2 (sg_pa s2) (sg_pb s2) p.
Proof. exact intersects_point. Qed.
Print Assumptions C18_intersection_point_partial.

(** With doubles: a crossing at the integer point (1,0) is reported at (0,0), outside
    the bounding box of the second segment, and as the start of the first. *)
Theorem C18_double_refuted : exists s1 s2 p e2,
  no_shared s1 s2 /\ dir_cross (sg_pa s1) (sg_pb s1) (sg_pa s2) (sg_pb s2) <> 0 /\
  on_seg (sg_pa s1) (sg_pb s1) (inject_Z 1) (inject_Z 0) /\ on_seg (sg_pa s2) (sg_pb s2) (inject_Z 1) (inject_Z 0) /\
  intersects_fl true true s1 s2 = Some (Some (Some p, AEstart, e2)) /\
  p <> (1, 0) /\ ~ in_bbox (sg_pa s2) (sg_pb s2) p.
Proof.
  exists (mk_cseg 0 1 (0,0) (49,0)), (mk_cseg 2 3 (1,-1) (1,1)), (0,0), AEno. cbn [sg_pa sg_pb].
  split; [vm_compute; repeat split; discriminate|]. split; [vm_compute; discriminate|].
  split; [exists (1 # 49)%Q; split; [split; vm_compute; discriminate|split; reflexivity]|].
  split; [exists (1 # 2)%Q; split; [split; vm_compute; discriminate|split; reflexivity]|].
  split; [vm_compute; reflexivity|]. split; [discriminate|].
  unfold in_bbox. intros [[H _] _]. vm_compute in H. apply H. reflexivity.
Qed.
Print Assumptions C18_double_refuted.

Example C18_example : let s1 := mk_cseg 0 1 (0,0) (10,7) in let s2 := mk_cseg 2 3 (1,6) (8,0) in
  intersects true true s1 s2 = Some (Some (4, 3), AEno, AEno) /\ intersects_fl true true s1 s2 = Some (Some (Some (4, 3), AEno, AEno)).
Proof. vm_compute. repeat split. Qed.

(** ** C19 *)
Theorem C19_endpoint_touch : forall rx ry s1 s2 r v,
  no_shared s1 s2 -> dir_cross (sg_pa s1) (sg_pb s1) (sg_pa s2) (sg_pb s2) <> 0 ->
  intersects rx ry s1 s2 = Some r ->
  on_seg (sg_pa s1) (sg_pb s1) (injX v) (injY v) -> on_seg (sg_pa s2) (sg_pb s2) (injX v) (injY v) ->
  exists e1 e2, r = (Some v, e1, e2) /\
    edge_ok e1 (sg_pa s1) (sg_pb s1) v /\ edge_ok e2 (sg_pa s2) (sg_pb s2) v.
Proof. exact intersects_touch. Qed.
Print Assumptions C19_endpoint_touch.

(** The same with doubles, for an end of either segment on the other. *)
Theorem C19_endpoint_touch_double : forall rx ry s1 s2 v,
  no_shared s1 s2 -> dir_cross (sg_pa s1) (sg_pb s1) (sg_pa s2) (sg_pb s2) <> 0 ->
  v = sg_pa s1 \/ v = sg_pb s1 \/ v = sg_pa s2 \/ v = sg_pb s2 ->
  on_seg (sg_pa s1) (sg_pb s1) (injX v) (injY v) -> on_seg (sg_pa s2) (sg_pb s2) (injX v) (injY v) ->
  exists e1 e2, intersects_fl rx ry s1 s2 = Some (Some (Some v, e1, e2)) /\
    edge_ok e1 (sg_pa s1) (sg_pb s1) v /\ edge_ok e2 (sg_pa s2) (sg_pb s2) v.
Proof. exact touch_fl. Qed.
Print Assumptions C19_endpoint_touch_double.

Example C19_example : let s1 := mk_cseg 0 1 (0,0) (10,8) in let s2 := mk_cseg 2 3 (5,4) (8,0) in
  no_shared s1 s2 /\ intersects true true s1 s2 = Some (Some (5, 4), AEno, AEstart).
Proof. vm_compute. repeat split; discriminate. Qed.

(** ** C20 *)
Theorem C20_parallel_overlap : forall rx ry s1 s2,
  sg_pa s1 <> sg_pb s1 -> sg_pa s2 <> sg_pb s2 ->
  dir_cross (sg_pa s1) (sg_pb s1) (sg_pa s2) (sg_pb s2) = 0 ->
  ((exists r, intersects rx ry s1 s2 = Some r) <-> overlap s1 s2 /\ ~ same_vertices s1 s2) /\
  (forall p e1 e2, intersects rx ry s1 s2 = Some (Some p, e1, e2) ->
     on_seg (sg_pa s1) (sg_pb s1) (injX p) (injY p) /\ on_seg (sg_pa s2) (sg_pb s2) (injX p) (injY p) /\
     edge_ok e1 (sg_pa s1) (sg_pb s1) p /\ edge_ok e2 (sg_pa s2) (sg_pb s2) p /\ (e1 <> AEno \/ e2 <> AEno)) /\
  (forall e1 e2, intersects rx ry s1 s2 = Some (None, e1, e2) ->
     e1 = AEboth /\ e2 = AEboth /\ coincident s1 s2).
Proof. exact parallel_final. Qed.
Print Assumptions C20_parallel_overlap.

Example C20_example :
  intersects true true (mk_cseg 0 1 (0,0) (9,6)) (mk_cseg 2 3 (3,2) (12,8)) = Some (Some (9, 6), AEend, AEno) /\
  intersects true true (mk_cseg 0 1 (0,0) (9,6)) (mk_cseg 2 3 (9,6) (12,8)) = None /\
  intersects true true (mk_cseg 0 1 (0,0) (9,6)) (mk_cseg 2 3 (9,6) (0,0)) = Some (None, AEboth, AEboth) /\
  intersects true true (mk_cseg 0 1 (0,0) (9,6)) (mk_cseg 1 0 (9,6) (0,0)) = None.
Proof. vm_compute. repeat split. Qed.

(** ** C21 *)
(** The signed number of ray hits among the edges met by the vertical line through
    [p] is the winding number, whatever the direction and tie parameters. *)
Theorem C21_winding_number : forall l p hsign dp tie,
  hsign <> 0 -> (forall e, In e (closed_edges l) -> ~ on_edge e p) ->
  turns l p = 4 * sumZ (map (fun e => if up_ray (edge_lo e) (edge_hi e) p hsign dp tie then edge_sign e else 0)
    (filter (fun e => (px (edge_lo e) <=? px p) && (px p <=? px (edge_hi e))) (closed_edges l))).
Proof. exact ray_sum_turns. Qed.
Print Assumptions C21_winding_number.

(** The x range is half open, on the side given by the sign of hsign. *)
Theorem C21_half_open : forall sa sb p hsign dp tie, px sa < px sb ->
  up_ray sa sb p hsign dp tie = true ->
  (0 < hsign -> px sa <= px p < px sb) /\ (hsign < 0 -> px sa < px p <= px sb).
Proof.
  intros sa sb p hs dp tie H. unfold up_ray. change (px (psub sb sa)) with (px sb - px sa).
  destruct (Z.eqb_spec (px sb - px sa) 0); [lia|].
  destruct (Z.ltb_spec (px p) (px sa)), (Z.eqb_spec (px p) (px sa)), (Z.ltb_spec hs 0),
    (Z.ltb_spec (px sb) (px p)), (Z.eqb_spec (px p) (px sb)), (Z.ltb_spec 0 hs); cbn [orb andb]; try discriminate; lia.
Qed.
Print Assumptions C21_half_open.

Theorem C21_no_overflow : forall w sa sb p q tie, 2 <= w ->
  coord_lt (2 ^ (w - 2)) sa -> coord_lt (2 ^ (w - 2)) sb -> coord_lt (2 ^ (w - 2)) p -> coord_lt (2 ^ (w - 2)) q ->
  up_ray_m w sa sb p (hsign_of (psub q p)) (psub q p) tie = Ok (up_ray sa sb p (hsign_of (psub q p)) (psub q p) tie).
Proof. intros. apply up_ray_ok; try assumption; apply coord_small; assumption. Qed.
Print Assumptions C21_no_overflow.

Example C21_example : let l := [(0,0); (10,0); (10,10); (5,5); (0,10)] in
  turns l (5, 3) = 4 /\ turns l (5, 8) = 0 /\ turns (rev l) (5, 3) = -4 /\
  (forall e, In e (closed_edges l) -> ~ on_edge e (5, 3)).
Proof.
  cbv zeta. split; [vm_compute; reflexivity|]. split; [vm_compute; reflexivity|]. split; [vm_compute; reflexivity|].
  intros e He (t & Ht & HX & HY). cbn in He.
  repeat match type of He with _ \/ _ => destruct He as [<-|He] end; try contradiction;
  unfold injX, injY, px, py, inject_Z in HX, HY; cbn [fst snd] in HX, HY; cbn in HX, HY; Lqa.lra.
Qed.

(** ** C22 *)
Theorem C22_dual_ray : forall sa sb p h1 dp1 t1 h2 dp2 t2,
  px sa <= px sb -> h1 <> 0 -> h2 <> 0 ->
  dual_up_ray sa sb p h1 dp1 t1 h2 dp2 t2 = (up_ray sa sb p h1 dp1 t1, up_ray sa sb p h2 dp2 t2).
Proof. exact dual_up_ray_eq. Qed.
Print Assumptions C22_dual_ray.

Example C22_example : dual_up_ray (0,0) (10,4) (0,3) 1 (1,0) true (-1) (-1,2) false = (true, false).
Proof. reflexivity. Qed.

(** ** C23 *)
(** The decision, given the winding numbers on the left; on the right the winding
    number of the line's own set is one more. *)
Theorem C23_decision : forall op cat ws wc,
  fate_of (line_balance_result op cat ws wc)
  = wanted (selected op ws wc)
      (selected op (ws + if bset_eqb cat Subject then 1 else 0) (wc + if bset_eqb cat Clip then 1 else 0)).
Proof. exact balance_fate. Qed.
Print Assumptions C23_decision.

(** The winding numbers used are those of the points just left of the line, and the
    line is kept, reversed or dropped as the boundary of the selected region demands. *)
Theorem C23_edge_boundary : forall F ls l1 ck op,
  Permutation (map (fun l => (ln_set l, ln_e l)) ls) (family_edges F) ->
  NoDup (map ln_i ls) -> In l1 ls ->
  (forall l, In l ls -> fst (ln_e l) <> snd (ln_e l)) ->
  (forall l, In l ls -> ln_i l <> ln_i l1 -> ~ edges_overlap (ln_e l1) (ln_e l)) ->
  NoDup ck -> (forall l, In l ck <-> In l ls /\ spans (px (fst (ln_e l1))) (ln_e l)) ->
  exists N0, forall N, N0 <= N -> exists ws wc ws' wc',
    let p := fst (ln_e l1) in let d := psub (snd (ln_e l1)) (fst (ln_e l1)) in
    winds F Subject N (left_near N p d) ws /\ winds F Clip N (left_near N p d) wc /\
    winds F Subject N (right_near N p d) ws' /\ winds F Clip N (right_near N p d) wc' /\
    fate_of (line_result op l1 ck) = wanted (selected op ws wc) (selected op ws' wc').
Proof. exact edge_boundary. Qed.
Print Assumptions C23_edge_boundary.

(** Reading "union" as "inside the subject or inside the clip" fails if one of the
    winding numbers is negative. *)
Theorem C23_union_or_refuted : exists ws wc,
  fate_of (line_balance_result OpUnion Subject ws wc)
  <> wanted ((0 <? ws) || (0 <? wc)) ((0 <? ws + 1) || (0 <? wc)).
Proof. exists 0, (-1). vm_compute. discriminate. Qed.
Print Assumptions C23_union_or_refuted.

Example C23_example :
  let F := [(Subject, [(0,0); (4,0); (4,4); (0,4)]); (Clip, [(2,1); (6,1); (6,3); (2,3)])] in
  let ls := map (fun x => mk_line (fst x) (snd (snd x)) (fst (snd x))) (combine (seq 0 8) (family_edges F)) in
  let l1 := mk_line 7 ((2,3), (2,1)) Clip in
  let ck := filter (fun l => in_xrange (2,3) (ln_e l)) ls in
  Permutation (map (fun l => (ln_set l, ln_e l)) ls) (family_edges F) /\
  In l1 ls /\ line_result OpIntersection l1 ck = LSkeep /\ line_result OpUnion l1 ck = LSdiscard /\
  line_result OpDifference l1 ck = LSkeep_rev.
Proof.
  cbv zeta. split; [vm_compute; apply Permutation_refl|].
  split; [vm_compute; tauto|]. vm_compute. repeat split.
Qed.

(** ** C24 *)
Theorem C24_normalize : forall cat ws wc,
  fate_of (line_balance_result OpNormalize cat ws wc) = (if Z.odd (ws + wc) then Reversed else Kept) /\
  fate_of (line_balance_result OpNormalize cat ws wc) = wanted (Z.odd (ws + wc)) (Z.odd (ws + wc + 1)).
Proof.
  intros cat ws wc. rewrite balance_fate. unfold selected.
  replace (ws + (if bset_eqb cat Subject then 1 else 0) + (wc + (if bset_eqb cat Clip then 1 else 0)))
    with (ws + wc + 1) by (destruct cat; cbn; lia).
  split; [|reflexivity]. rewrite (Z.odd_add (ws + wc) 1). destruct (Z.odd (ws + wc)); reflexivity.
Qed.
Print Assumptions C24_normalize.

Example C24_example : line_balance_result OpNormalize Subject 0 0 = LSkeep /\ line_balance_result OpNormalize Subject 1 0 = LSkeep_rev
  /\ line_balance_result OpNormalize Subject (-1) 0 = LSkeep_rev.
Proof. vm_compute. repeat split. Qed.

(** ** C46 *)
Theorem C46_sweep_order : forall s1 s2,
  sweep_cmp s1 s1 = false /\
  (sweep_cmp s1 s2 = true -> sweep_cmp s2 s1 = false) /\
  ((sg_a s1, sg_b s1) <> (sg_a s2, sg_b s2) -> sweep_cmp s1 s2 = true \/ sweep_cmp s2 s1 = true) /\
  (px (sg_pa s1) <= px (sg_pb s1) -> sg_pa s1 <> sg_pb s1 ->
   px (sg_pa s2) <= px (sg_pb s2) -> sg_pa s2 <> sg_pb s2 ->
   above s1 s2 -> sweep_cmp s1 s2 = true).
Proof.
  intros s1 s2. split; [apply sweep_cmp_irrefl|]. split; [apply sweep_cmp_asym|].
  split; [apply sweep_cmp_total|apply sweep_cmp_above].
Qed.
Print Assumptions C46_sweep_order.

Theorem C46_sweep_trans : forall s1 s2 s3 x0 x1,
  x0 < x1 ->
  px (sg_pa s1) <= x0 -> px (sg_pa s2) <= x0 -> px (sg_pa s3) <= x0 ->
  x1 <= px (sg_pb s1) -> x1 <= px (sg_pb s2) -> x1 <= px (sg_pb s3) ->
  ordered s1 s2 -> ordered s2 s3 -> ordered s1 s3 ->
  sweep_cmp s1 s2 = true -> sweep_cmp s2 s3 = true -> sweep_cmp s1 s3 = true.
Proof. exact sweep_cmp_trans. Qed.
Print Assumptions C46_sweep_trans.

Theorem C46_no_overflow : forall w s1 s2, 2 <= w ->
  coord_lt (2 ^ (w - 2)) (sg_pa s1) -> coord_lt (2 ^ (w - 2)) (sg_pb s1) ->
  coord_lt (2 ^ (w - 2)) (sg_pa s2) -> coord_lt (2 ^ (w - 2)) (sg_pb s2) ->
  sweep_cmp_m w s1 s2 = Ok (sweep_cmp s1 s2).
Proof. intros. apply sweep_cmp_ok; [assumption|split|split]; apply coord_small; assumption. Qed.
Print Assumptions C46_no_overflow.

Example C46_example : let s1 := mk_cseg 0 1 (0,5) (10,6) in let s2 := mk_cseg 2 3 (2,0) (8,7) in
  let s3 := mk_cseg 4 5 (2,0) (8,5) in
  sweep_cmp s1 s2 = true /\ sweep_cmp s2 s3 = true /\ sweep_cmp s1 s3 = true /\ above s1 s3.
Proof.
  cbv zeta. split; [reflexivity|]. split; [reflexivity|]. split; [reflexivity|]. split; cbn [sg_pa sg_pb].
  - intros X Y1 Y2 (t & Ht & HX & HY) (u & Hu & HX' & HY').
    rewrite HX in HX'. rewrite HY, HY'. unfold px, py, inject_Z in *. cbn [fst snd] in *. cbn in HX' |- *.
    clear HX HY HY'. Lqa.lra.
  - exists 2%Q, (26 # 5)%Q, 0%Q. split; [|split; [|reflexivity]].
    + exists (1 # 5)%Q. split; [split; vm_compute; discriminate|split; reflexivity].
    + exists 0%Q. split; [split; vm_compute; discriminate|split; reflexivity].
Qed.
