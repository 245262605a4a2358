(** What the lines look like while they get split, when every two edges that cross do so at
    a point of the grid. *)
From Coq Require Import ZArith QArith List Bool Arith Permutation Sorted Lia Lqa.
From Verif Require Import GeomModel GeomSpec GeomProofs IsectProofs GeomFinal BalanceModel WindSpec EventsModel EventsSpec EventsProofs OutModel PointSinkModel CycleProofs ClipModel ClipSpec ClipProofs SweepProofs
  SegOrder SegCheck SegClean SegMeet SegProgress ArrangeSpec SegSpec TotalSpec TotalSplit TotalRun ExactProofs DynOrder.
Import ListNotations.
Local Open Scope nat_scope.

(** * Points on a line *)
Definition on_line (P Q c : point) : Prop := on_seg P Q (injX c) (injY c).
Lemma on_sub P Q a b X Y : on_line P Q a -> on_line P Q b -> on_seg a b X Y -> on_seg P Q X Y.
Proof.
  unfold on_line, injX, injY. intros (t & (T1 & T2) & TX & TY) (u & (U1 & U2) & UX & UY) (w & (W1 & W2) & WX & WY). exists (t + w * (u - t))%Q. unfold Z.sub in *. rewrite !inject_Z_plus, !inject_Z_opp in *.
  split; [split; nra|]. rewrite WX, WY, TX, TY, UX, UY. split; ring.
Qed.
Lemma cross_sub P Q P' Q' a b a' b' : on_line P Q a -> on_line P Q b -> on_line P' Q' a' -> on_line P' Q' b' -> dir_cross P Q P' Q' = 0%Z -> dir_cross a b a' b' = 0%Z.
Proof.
  intros (t & _ & TX & TY) (u & _ & UX & UY) (t' & _ & TX' & TY') (u' & _ & UX' & UY') D. apply inj_eqz. apply inj_eqz in D. unfold dir_cross, Z.sub, injX, injY in *. rewrite !inject_Z_plus, !inject_Z_opp, !inject_Z_mult, !inject_Z_plus, !inject_Z_opp in *.
  rewrite TX, TY, UX, UY, TX', TY', UX', UY'.
  set (dx := (inject_Z (px Q) + - inject_Z (px P))%Q) in *. set (dy := (inject_Z (py Q) + - inject_Z (py P))%Q) in *. set (dx' := (inject_Z (px Q') + - inject_Z (px P'))%Q) in *. set (dy' := (inject_Z (py Q') + - inject_Z (py P'))%Q) in *.
  transitivity ((u - t) * (u' - t') * (dx * dy' + - (dy * dx')))%Q; [ring|]. rewrite D. ring.
Qed.

Section Grid.
Variable pts0 : list cpoint.
Definition edge_of (P Q : point) : Prop := exists i p q, nth_error pts0 i = Some p /\ nth_error pts0 (c_next p) = Some q /\ P = c_data p /\ Q = c_data q.
(** Two edges that are not parallel meet at a point of the grid, if they do. *)
Definition grid : Prop := forall P Q P' Q', edge_of P Q -> edge_of P' Q' -> dir_cross P Q P' Q' <> 0%Z ->
  forall X Y, on_seg P Q X Y -> on_seg P' Q' X Y -> exists c, (X == injX c)%Q /\ (Y == injY c)%Q.
Definition inside (g : cseg) : Prop := exists P Q, edge_of P Q /\ on_line P Q (sg_pa g) /\ on_line P Q (sg_pb g).
Lemma isect_exact rx ry g h c e1 e2 : grid -> good g -> good h -> inside g -> inside h -> intersects rx ry g h = Some (Some c, e1, e2) ->
  on_line (sg_pa g) (sg_pb g) c /\ on_line (sg_pa h) (sg_pb h) c /\ edge_ok e1 (sg_pa g) (sg_pb g) c /\ edge_ok e2 (sg_pa h) (sg_pb h) c.
Proof.
  intros GR G H (P & Q & EG & A1 & A2) (P' & Q' & EH & B1 & B2) E. destruct (Z.eq_dec (dir_cross (sg_pa g) (sg_pb g) (sg_pa h) (sg_pb h)) 0) as [D|D].
  - destruct (parallel_final rx ry g h (proj2 G) (proj2 H) D) as (_ & PT & _). destruct (PT _ _ _ E) as (O1 & O2 & K1 & K2 & _). auto.
  - assert (NS : no_shared g h).
    { unfold no_shared. unfold intersects in E. replace ((px (sg_pa g) - px (sg_pb g)) * (py (sg_pa h) - py (sg_pb h)) - (py (sg_pa g) - py (sg_pb g)) * (px (sg_pa h) - px (sg_pb h)))%Z with (dir_cross (sg_pa g) (sg_pb g) (sg_pa h) (sg_pb h)) in E by (unfold dir_cross; ring).
      apply Z.eqb_neq in D. rewrite D in E. destruct (_ || _) eqn:S in E; [discriminate|]. rewrite ?orb_false_iff, ?Nat.eqb_neq in S. tauto. }
    destruct (intersects_point _ _ _ _ _ NS D E) as (p & e1' & e2' & X & Y & R & O1 & O2 & _ & _ & IX & IY & _ & _ & K1 & K2). injection R as -> <- <-.
    destruct (GR P Q P' Q' EG EH) with (X := X) (Y := Y) as (c0 & CX & CY).
    + intros Z0. apply D. exact (cross_sub _ _ _ _ _ _ _ _ A1 A2 B1 B2 Z0).
    + eapply on_sub; [exact A1|exact A2|exact O1].
    + eapply on_sub; [exact B1|exact B2|exact O2].
    + assert (p = c0) by (apply pt_eq; [apply IX|apply IY]; assumption). subst c0.
      assert (F : forall k, on_seg (sg_pa k) (sg_pb k) X Y -> on_line (sg_pa k) (sg_pb k) p). { intros k (t & T & TX & TY). exists t. rewrite <- CX, <- CY. auto. } auto.
Qed.
End Grid.

(** * Folds *)
Definition dot (p q r : point) : Z := ((px p - px q) * (px r - px q) + (py p - py q) * (py r - py q))%Z.
Definition folds (p q r : point) : Prop := triangle_winding p q r = 0%Z /\ (0 < dot p q r)%Z.
Lemma dot_q p q r : (inject_Z (dot p q r) == (injX p - injX q) * (injX r - injX q) + (injY p - injY q) * (injY r - injY q))%Q.
Proof. unfold dot, injX, injY, Z.sub. rewrite !inject_Z_plus, !inject_Z_mult, !inject_Z_plus, !inject_Z_opp. ring. Qed.
Lemma folds_sym p q r : folds p q r -> folds r q p.
Proof. intros (A & B). split; [|unfold dot in *; lia]. revert A. unfold triangle_winding. lia. Qed.
(** A shorter way in the same direction. *)
Definition along (q r c : point) : Prop := exists t, (0 < t)%Q /\ (injX c - injX q == t * (injX r - injX q))%Q /\ (injY c - injY q == t * (injY r - injY q))%Q.
Lemma tw_qq p q r : (inject_Z (triangle_winding p q r) == (injX q - injX p) * (injY r - injY q) - (injX r - injX q) * (injY q - injY p))%Q.
Proof. unfold triangle_winding, injX, injY, Z.sub. rewrite !inject_Z_plus, !inject_Z_opp, !inject_Z_mult, !inject_Z_plus, !inject_Z_opp. ring. Qed.
Lemma folds_along p q r c : along q r c -> folds p q c -> folds p q r.
Proof.
  intros (t & T & TX & TY) (A & B). split.
  - apply inj_eqz. apply inj_eqz in A. rewrite tw_qq in *. rewrite TX, TY in A. change (inj 0) with 0%Q in *. assert (Z0 : (t * ((injX q - injX p) * (injY r - injY q) - (injX r - injX q) * (injY q - injY p)) == 0)%Q) by (rewrite <- A; ring).
    apply Qmult_integral in Z0 as [Z0|Z0]; [lra|exact Z0].
  - rewrite Zlt_Qlt in *. rewrite dot_q in *. rewrite TX, TY in B. change (inj 0) with 0%Q in *. assert (B' : (0 < t * ((injX p - injX q) * (injX r - injX q) + (injY p - injY q) * (injY r - injY q)))%Q) by (eapply Qlt_le_trans; [exact B|]; apply Qle_lteq; right; ring). nra.
Qed.
Definition no_fold (pts : list cpoint) : Prop := forall i p q r, nth_error pts i = Some p -> nth_error pts (c_next p) = Some q -> nth_error pts (c_next q) = Some r -> ~ folds (c_data p) (c_data q) (c_data r).
Lemma sq_nn (x : Q) : (0 <= x * x)%Q.
Proof. nra. Qed.
Lemma within_along g c : within g c -> along (sg_pa g) (sg_pb g) c /\ along (sg_pb g) (sg_pa g) c /\ ~ folds (sg_pa g) c (sg_pb g).
Proof.
  intros W. destruct (within_t g c W) as (t & (T1 & T2) & TX & TY). split; [exists t; split; [exact T1|]; rewrite TX, TY; split; ring|]. split; [exists (1 - t)%Q; split; [lra|]; rewrite TX, TY; split; ring|].
  intros (_ & B). rewrite Zlt_Qlt, dot_q, TX, TY in B. change (inj 0) with 0%Q in B. revert B. set (dx := (injX (sg_pb g) - injX (sg_pa g))%Q). set (dy := (injY (sg_pb g) - injY (sg_pa g))%Q). intros B.
  assert (N : ((injX (sg_pa g) - (injX (sg_pa g) + t * dx)) * (injX (sg_pb g) - (injX (sg_pa g) + t * dx)) + (injY (sg_pa g) - (injY (sg_pa g) + t * dy)) * (injY (sg_pb g) - (injY (sg_pa g) + t * dy)) == - (t * (1 - t)) * (dx * dx + dy * dy))%Q) by (unfold dx, dy; ring).
  rewrite N in B. pose proof (sq_nn dx). pose proof (sq_nn dy). assert (0 <= t * (1 - t))%Q by nra. nra.
Qed.
Lemma within_x g c : good g -> within g c -> (vt g = false -> px (sg_pa g) < px c < px (sg_pb g))%Z /\ (vt g = true -> px c = px (sg_pa g) /\ px c = px (sg_pb g)).
Proof.
  intros (G & _) W. destruct (within_t g c W) as (t & (T1 & T2) & TX & _). unfold vt. split; intros V; [apply Z.eqb_neq in V|apply Z.eqb_eq in V].
  - assert (L : (px (sg_pa g) < px (sg_pb g))%Z) by lia. rewrite Zlt_Qlt in L. rewrite !Zlt_Qlt. unfold injX in TX. clear -T1 T2 TX L. revert TX L. generalize (inj (px (sg_pa g))) (inj (px (sg_pb g))). intros a b TX L. assert (P1 : (0 < t * (b - a))%Q) by (apply Qmult_lt_0_compat; lra). assert (P2 : (0 < (1 - t) * (b - a))%Q) by (apply Qmult_lt_0_compat; lra). split; lra.
  - assert (Q : (inj (px c) == inj (px (sg_pa g)))%Q) by (unfold injX in TX; rewrite TX, V; ring). apply (proj1 (inject_Z_injective _ _)) in Q. split; congruence.
Qed.

(** * The shape of a split *)
Lemma add_form st a b st' : add_fb_events st a b = Some st' -> exists pa pb, nth_error (s_pts st) a = Some pa /\ nth_error (s_pts st) b = Some pb /\ (px (c_data pa) = px (c_data pb) -> c_next pa = b) /\
  let g := mk_cseg a b (c_data pa) (c_data pb) in let n := length (s_nodes st) in
  st' = mk_cs (s_pts st) (s_nodes st ++ [g]) (add_event ev (bev g n false) (add_event ev (fev g n false) (s_events st))) (s_sweep st) (s_rand st) (s_log st).
Proof.
  unfold add_fb_events. destruct (nth_error (s_pts st) a) as [pa|]; [|discriminate]. destruct (nth_error (s_pts st) b) as [pb|]; [|discriminate]. intros A. exists pa, pb. split; [reflexivity|]. split; [reflexivity|].
  destruct (_ && _) eqn:T; [discriminate|]. split.
  - intros Q. apply Z.eqb_eq in Q. rewrite Q in T. cbn [andb] in T. apply negb_false_iff, Nat.eqb_eq in T. exact T.
  - cbn zeta. injection A as <-. reflexivity.
Qed.

Section Shape.
Variable pts0 : list cpoint.
Notation ok := (ok pts0).
Record shape (st : cstate) : Prop := {
  sh_in : forall n g, nth_error (s_nodes st) n = Some g -> inside pts0 g;
  sh_v : forall n g, nth_error (s_nodes st) n = Some g -> live (s_pts st) (s_nodes st) n -> vt g = true -> exists pa, nth_error (s_pts st) (sg_a g) = Some pa /\ c_next pa = sg_b g;
  sh_nf : no_fold (s_pts st);
  sh_ex : exact_splits (length pts0) (s_pts st) (s_log st);
  sh_len : length (s_pts st) = length pts0 + length (s_log st);
  sh_log : forall a b, In (a, b) (s_log st) -> a < length (s_pts st) /\ b < length (s_pts st) }.

Definition parted (st st' : cstate) (n : nat) (g : cseg) (p : point) (s all s' all' : list ev) (k1 k2 : nat) : Prop :=
  exists sa sb qa qb, let mid := length (s_pts st) in let K1 := mk_cseg (sg_a g) mid (sg_pa g) p in let K2 := mk_cseg mid (sg_b g) p (sg_pb g) in
    nth_error (s_pts st) sa = Some qa /\ nth_error (s_pts st) sb = Some qb /\ c_next qa = sb /\
    ((sa = sg_a g /\ sb = sg_b g /\ c_data qa = sg_pa g /\ c_data qb = sg_pb g) \/ (sa = sg_b g /\ sb = sg_a g /\ c_data qa = sg_pb g /\ c_data qb = sg_pa g /\ vt g = false)) /\
    s_pts st' = put (s_pts st) sa (c_set_next qa mid) ++ [mk_cp p sb (c_set qa) Undef] /\ s_log st' = s_log st ++ [(sa, sb)] /\ s_sweep st' = remove Nat.eq_dec n (s_sweep st) /\ In n (s_sweep st) /\
    ((k1 = length (s_nodes st) /\ k2 = S k1 /\ s_nodes st' = s_nodes st ++ [K1; K2]) \/ (k2 = length (s_nodes st) /\ k1 = S k2 /\ s_nodes st' = s_nodes st ++ [K2; K1])) /\
    s' = map (delk (ekey (fev g n false))) s /\ Permutation all' (bev K1 k1 false :: fev K1 k1 false :: bev K2 k2 false :: fev K2 k2 false :: map (delk (ekey (fev g n false))) all) /\ EI (s_events st') s' all' false.

Lemma split_shape st n p st' i s all g : ok st s all false -> shape st -> (forall n g, nth_error (s_nodes st) n = Some g -> good g) -> nth_error (s_nodes st) n = Some g -> within g p -> split_segment st n (Some p) AEno = Some (st', i) ->
  i = length (s_pts st) /\ exists s' all' k1 k2, parted st st' n g p s all s' all' k1 k2.
Proof.
  intros O SH GD NG W H. unfold split_segment in H. rewrite NG in H. destruct (erase_node (s_sweep st) n) as [sweep|] eqn:ER; [|discriminate].
  destruct (nth_error (s_pts st) (sg_a g)) as [pa|] eqn:NA; [|discriminate]. destruct (nth_error (s_pts st) (sg_b g)) as [pb|] eqn:NB; [|discriminate].
  match type of H with match ?f with _ => _ end = _ => destruct f as [j|] eqn:FE; [|discriminate] end.
  match type of H with match ?f with _ => _ end = _ => destruct f as [q|] eqn:UP; [|discriminate] end.
  destruct (point_eqb (c_data pa) p || point_eqb (c_data pb) p); [discriminate|].
  apply find_same in FE as (y & NY & T1 & T2 & T3). cbn [e_type e_a e_b] in T1, T2, T3.
  assert (IN : In n (s_sweep st) /\ sweep = remove Nat.eq_dec n (s_sweep st)). { unfold erase_node in ER. destruct (in_dec Nat.eq_dec n (s_sweep st)); [|discriminate]. injection ER as <-. auto. } destruct IN as (IN & ->).
  destruct (ok_nodes _ _ _ _ _ O n g NG) as (LX & pa' & pb' & NA' & DA & NB' & DB). assert (pa' = pa) by congruence. assert (pb' = pb) by congruence. subst pa' pb'.
  assert (IY : In y all). { eapply Permutation_in; [symmetry; eapply EI_perm; exact (ok_q _ _ _ _ _ O)|]. eapply nth_error_In; exact NY. }
  assert (YK : ekey y = ekey (fev g n false)).
  { assert (YN : e_node y = n). { destruct (ok_ev _ _ _ _ _ O y IY) as (h & G & V). eapply (ok_pairs _ _ _ _ _ O); [exact G|exact NG|]. apply ev_pair in V. rewrite T2, T3 in V. apply same_pair_sym. exact V. }
    assert (YF : is_f y = true) by (unfold is_f; rewrite T1; destruct (_ =? _)%Z; reflexivity).
    destruct (ok_fev _ _ _ _ _ _ O IY YF) as (h & G & V). rewrite YN in G. assert (h = g) by congruence. subst h. rewrite V. reflexivity. }
  pose proof (EI_delete _ _ _ _ _ _ (ok_q _ _ _ _ _ O) (ok_keys _ _ _ _ _ O) NY UP) as E1. rewrite YK in E1.
  pose proof (ok_sw _ _ _ _ _ O n IN) as LV. pose proof (ok_loops _ _ _ _ _ O) as PL. destruct (within_x g p (GD n g NG) W) as (WN & WV).
  set (main := c_next pa =? sg_b g) in *. cbn [with_events with_sweep s_pts s_nodes s_events s_sweep s_rand s_log] in H.
  assert (EDGE : exists sa sb qa qb, (if main then (sg_a g, sg_b g, pa, pb) else (sg_b g, sg_a g, pb, pa)) = (sa, sb, qa, qb) /\
    nth_error (s_pts st) sa = Some qa /\ nth_error (s_pts st) sb = Some qb /\ c_next qa = sb /\
    ((sa = sg_a g /\ sb = sg_b g /\ c_data qa = sg_pa g /\ c_data qb = sg_pb g) \/ (sa = sg_b g /\ sb = sg_a g /\ c_data qa = sg_pb g /\ c_data qb = sg_pa g /\ vt g = false))).
  { unfold main. destruct (Nat.eqb_spec (c_next pa) (sg_b g)) as [Q|Q].
    - exists (sg_a g), (sg_b g), pa, pb. repeat (split; [first [reflexivity|assumption]|]). left. auto.
    - exists (sg_b g), (sg_a g), pb, pa. split; [reflexivity|]. split; [exact NB|]. split; [exact NA|]. split.
      + destruct LV as (g1 & i1 & G & p1 & N & HH). assert (g1 = g) by congruence. subst g1. destruct HH as [(H1 & H2)|(H1 & H2)]; subst i1; [congruence|]. assert (p1 = pb) by congruence. subst p1. congruence.
      + right. repeat (split; [first [reflexivity|assumption]|]). destruct (vt g) eqn:V; [|reflexivity]. destruct (sh_v _ SH n g NG LV V) as (pa' & N & X). congruence. }
  destruct EDGE as (sa & sb & qa & qb & EQ & Na & Nb & NX & OR). rewrite EQ in H. clear EQ main.
  destruct (negb (bset_eqb (c_set qa) (c_set qb))); [discriminate|].
  cbn [with_pts with_log with_sweep with_events s_pts s_log s_nodes s_events s_sweep s_rand] in H.
  set (mid := length (s_pts st)) in *. set (pts' := put (s_pts st) sa (c_set_next qa mid) ++ [mk_cp p sb (c_set qa) Undef]) in *.
  assert (SBA : sb <> sa) by (eapply sb_sa; eassumption). pose proof (split_sa (s_pts st) sa sb qa p Na) as Psa. pose proof (split_mid (s_pts st) sa sb qa p) as Pmid.
  pose proof (split_other (s_pts st) sa sb qa p sb qb SBA Nb) as Psb. fold mid in Psa, Pmid, Psb. fold pts' in Psa, Pmid, Psb.
  match type of H with match ?f with _ => _ end = _ => destruct f as [st3|] eqn:A1; [|discriminate] end.
  match type of H with match ?f with _ => _ end = _ => destruct f as [st4|] eqn:A2; [|discriminate] end. injection H as <- <-. split; [reflexivity|].
  set (K1 := mk_cseg (sg_a g) mid (sg_pa g) p). set (K2 := mk_cseg mid (sg_b g) p (sg_pb g)).
  assert (VX : vt g = true -> px (sg_pa g) = px (sg_pb g)) by (intros V; apply Z.eqb_eq; exact V).
  destruct OR as [(Sa & Sb & Da & Db)|(Sa & Sb & Da & Db & V)].
  - assert (L1 : (px (c_data qa) <=? px p)%Z = true). { apply Z.leb_le. rewrite Da. destruct (vt g) eqn:V; [destruct (WV eq_refl); lia|destruct (WN eq_refl); lia]. }
    assert (L2 : (px p <=? px (c_data qb))%Z = true). { apply Z.leb_le. rewrite Db. destruct (vt g) eqn:V; [destruct (WV eq_refl); lia|destruct (WN eq_refl); lia]. }
    rewrite L1 in A1. rewrite L2 in A2. apply add_form in A1 as (x1 & x2 & X1 & X2 & _ & ->). cbn [with_log with_pts with_sweep with_events s_pts s_nodes s_events s_sweep s_rand s_log] in X1, X2; fold mid pts' in X1, X2. rewrite Psa in X1. rewrite Pmid in X2. injection X1 as <-. injection X2 as <-.
    apply add_form in A2 as (x1 & x2 & X1 & X2 & _ & ->). cbn [with_log with_pts with_sweep with_events s_pts s_nodes s_events s_sweep s_rand s_log] in *. rewrite Pmid in X1. rewrite Psb in X2. injection X1 as <-. injection X2 as <-.
    cbn [c_data c_set_next] in *. rewrite Da, Db, Sa, Sb in *. fold K1 K2. eexists. eexists. exists (length (s_nodes st)), (S (length (s_nodes st))). exists (sg_a g), (sg_b g), qa, qb. cbn zeta. fold mid. fold K1 K2. cbn [s_pts s_nodes s_events s_sweep s_rand s_log].
    split; [exact Na|]. split; [exact Nb|]. split; [exact NX|]. split; [left; auto|]. split; [unfold pts'; rewrite Sa, Sb; reflexivity|]. split; [reflexivity|]. split; [reflexivity|]. split; [exact IN|].
    split; [left; split; [reflexivity|]; split; [reflexivity|]; rewrite <- app_assoc; reflexivity|]. split; [reflexivity|]. rewrite app_length, Nat.add_1_r. cbn [length]. rewrite ?Nat.add_1_r.
    split; [|do 4 apply EI_add; exact E1]. exact (Permutation_app_swap_app [_; _] [_; _] _).
  - destruct (WN V) as (W1 & W2). assert (L1 : (px (c_data qa) <=? px p)%Z = false) by (apply Z.leb_gt; rewrite Da; exact W2).
    assert (L2 : (px p <=? px (c_data qb))%Z = false) by (apply Z.leb_gt; rewrite Db; exact W1).
    rewrite L1 in A1. rewrite L2 in A2. apply add_form in A1 as (x1 & x2 & X1 & X2 & _ & ->). cbn [with_log with_pts with_sweep with_events s_pts s_nodes s_events s_sweep s_rand s_log] in X1, X2; fold mid pts' in X1, X2. rewrite Psa in X2. rewrite Pmid in X1. injection X1 as <-. injection X2 as <-.
    apply add_form in A2 as (x1 & x2 & X1 & X2 & _ & ->). cbn [with_log with_pts with_sweep with_events s_pts s_nodes s_events s_sweep s_rand s_log] in *. rewrite Pmid in X2. rewrite Psb in X1. injection X1 as <-. injection X2 as <-.
    cbn [c_data c_set_next] in *. rewrite Da, Db, Sa, Sb in *. fold K1 K2. eexists. eexists. exists (S (length (s_nodes st))), (length (s_nodes st)). exists (sg_b g), (sg_a g), qa, qb. cbn zeta. fold mid. fold K1 K2. cbn [s_pts s_nodes s_events s_sweep s_rand s_log].
    split; [exact Na|]. split; [exact Nb|]. split; [exact NX|]. split; [right; auto|]. split; [unfold pts'; rewrite Sa, Sb; reflexivity|]. split; [reflexivity|]. split; [reflexivity|]. split; [exact IN|].
    split; [right; split; [reflexivity|]; split; [reflexivity|]; rewrite <- app_assoc; reflexivity|]. split; [reflexivity|]. rewrite app_length, Nat.add_1_r. cbn [length]. rewrite ?Nat.add_1_r.
    split; [|do 4 apply EI_add; exact E1]. apply Permutation_refl.
Qed.

Lemma parted_shape st st' n g p s all s' all' k1 k2 : ok st s all false -> shape st -> nth_error (s_nodes st) n = Some g -> good g -> within g p -> parted st st' n g p s all s' all' k1 k2 -> shape st'.
Proof.
  intros O SH NG GG W (sa & sb & qa & qb & Na & Nb & NX & OR & EP & EL & ES & IN & EN & _). set (mid := length (s_pts st)) in *. set (K1 := mk_cseg (sg_a g) mid (sg_pa g) p) in *. set (K2 := mk_cseg mid (sg_b g) p (sg_pb g)) in *.
  pose proof (ok_loops _ _ _ _ _ O) as PL. set (pts' := put (s_pts st) sa (c_set_next qa mid) ++ [mk_cp p sb (c_set qa) Undef]) in *.
  assert (SAM : sa < mid) by (eapply sa_mid; eassumption). assert (SBM : sb < mid) by (eapply sb_mid; eassumption). assert (SBA : sb <> sa) by (eapply sb_sa; eassumption).
  pose proof (split_sa (s_pts st) sa sb qa p Na) as Psa. pose proof (split_mid (s_pts st) sa sb qa p) as Pmid.
  pose proof (split_other (s_pts st) sa sb qa p sb qb SBA Nb) as Psb. fold mid in Psa, Pmid, Psb. fold pts' in Psa, Pmid, Psb.
  assert (OLD : forall k x x', nth_error (s_pts st) k = Some x -> nth_error pts' k = Some x' -> c_data x' = c_data x).
  { intros k x x' N N'. apply (split_inv _ sa sb qa p Na) in N' as [(-> & ->)|[(-> & ->)|(_ & _ & N')]]; [cbn; congruence| |congruence]. exfalso. assert (mid < mid) by (apply nth_error_Some; fold mid in N; congruence). lia. }
  assert (FRESH : forall k h, nth_error (s_nodes st) k = Some h -> sg_a h < mid /\ sg_b h < mid).
  { intros k h G. destruct (ok_nodes _ _ _ _ _ O k h G) as (_ & p1 & p2 & A1 & _ & B1 & _). split; apply nth_error_Some; congruence. }
  assert (CASES : forall k h, nth_error (s_nodes st') k = Some h -> nth_error (s_nodes st) k = Some h \/ h = K1 \/ h = K2).
  { intros k h H. destruct EN as [(_ & _ & EN)|(_ & _ & EN)]; rewrite EN in H; change [?a; ?b] with ([a] ++ [b]) in H; rewrite app_assoc in H; apply nth_snoc in H as [H|(_ & ->)]; auto; apply nth_snoc in H as [H|(_ & ->)]; auto. }
  destruct SH as [S1 S2 S3 S4 S5 S6]. pose proof (within_along g p W) as (AL1 & AL2 & NFM). destruct (within_x g p GG W) as (WN & WV).
  constructor.
  - intros k h H. destruct (S1 n g NG) as (P & Q & E & A & B). assert (C : on_line P Q p) by (eapply on_sub; [exact A|exact B|exact (proj1 W)]). destruct (CASES k h H) as [H'|[->| ->]]; [exact (S1 k h H')|exists P, Q; auto|exists P, Q; auto].
  - intros k h H LV V. rewrite EP in *. destruct (CASES k h H) as [H'|C].
    + destruct (FRESH k h H') as (La & Lb). assert (LV' : live pts' (s_nodes st) k). { destruct LV as (h' & i & E & X). assert (h' = h) by congruence. subst h'. exists h, i. auto. }
      destruct (split_not_live _ sa sb qa qb p PL Na Nb NX (s_nodes st) k h LV' H' La Lb) as (L0 & NP). destruct (S2 k h H' L0 V) as (pa & N & X).
      exists pa. split; [|exact X]. apply (split_other (s_pts st) sa sb qa p); [|exact N]. intros Q. apply NP. left. split; [exact Q|]. rewrite Q in N. congruence.
    + assert (VG : vt g = true). { destruct (vt g) eqn:VG; [reflexivity|exfalso]. destruct (WN eq_refl). unfold vt in V. apply Z.eqb_eq in V. destruct C as [->| ->]; cbn in V; lia. }
      destruct OR as [(-> & -> & Da & Db)|(_ & _ & _ & _ & X)]; [|congruence]. destruct C as [->| ->]; cbn [K1 K2 sg_a sg_b]; eexists; (split; [eassumption|reflexivity]).
  - rewrite EP. intros i x y z NXi NY NZ F.
    assert (OLD' : forall k x', k < mid -> nth_error pts' k = Some x' -> exists x, nth_error (s_pts st) k = Some x /\ c_data x' = c_data x).
    { intros k x' L N'. destruct (nth_error (s_pts st) k) as [x0|] eqn:N; [exists x0; split; [reflexivity|eapply OLD; eassumption]|]. apply nth_error_None in N. fold mid in N. lia. }
    assert (LT : forall k x0, nth_error (s_pts st) k = Some x0 -> c_next x0 < mid) by (intros k x0 N; destruct (proj1 PL k x0 N) as (q1 & _ & Q1 & _); apply nth_error_Some; congruence).
    apply (split_inv _ sa sb qa p Na) in NXi as [(-> & ->)|[(-> & ->)|(D1 & D2 & NXi)]].
    + cbn [c_set_next c_next c_data] in *. assert (y = mk_cp p sb (c_set qa) Undef) by (unfold mid in Pmid; congruence). subst y. cbn [c_next c_data] in *. assert (z = qb) by congruence. subst z.
      destruct OR as [(_ & _ & Da & Db)|(_ & _ & Da & Db & _)]; rewrite Da, Db in F; [exact (NFM F)|exact (NFM (folds_sym _ _ _ F))].
    + cbn [c_next c_data] in *. assert (y = qb) by congruence. subst y. destruct (OLD' (c_next qb) z (LT _ _ Nb) NZ) as (z0 & NZ0 & DZ). apply (S3 sa qa qb z0 Na); [congruence|exact NZ0|]. rewrite <- DZ.
      apply folds_sym. eapply folds_along; [|apply folds_sym; exact F]. destruct OR as [(_ & _ & Da & Db)|(_ & _ & Da & Db & _)]; rewrite Da, Db; assumption.
    + destruct (Nat.eq_dec (c_next x) sa) as [Q|Q].
      * rewrite Q in NY. assert (y = c_set_next qa mid) by (unfold mid in Psa |- *; congruence). subst y. cbn [c_set_next c_next c_data] in *. assert (z = mk_cp p sb (c_set qa) Undef) by congruence. subst z. cbn [c_data] in F.
        apply (S3 i x qa qb NXi); [congruence|congruence|]. eapply folds_along; [|exact F]. destruct OR as [(_ & _ & Da & Db)|(_ & _ & Da & Db & _)]; rewrite Da, Db; assumption.
      * apply (split_inv _ sa sb qa p Na) in NY as [(X & _)|[(X & _)|(_ & _ & NY)]]; [contradiction|pose proof (LT _ _ NXi); unfold mid in *; lia|]. destruct (OLD' (c_next y) z (LT _ _ NY) NZ) as (z0 & NZ0 & DZ).
        apply (S3 i x y z0 NXi NY NZ0). rewrite <- DZ. exact F.
  - rewrite EP, EL. assert (DAT : forall k, k < mid -> data_at pts' k = data_at (s_pts st) k).
    { intros k L. unfold data_at. destruct (nth_error (s_pts st) k) as [x|] eqn:N; [|apply nth_error_None in N; fold mid in N; lia]. destruct (nth_error pts' k) as [x'|] eqn:N'; [eapply OLD; eassumption|]. apply nth_error_None in N'. unfold pts', mid in N'. rewrite split_length in N'. fold mid in N'. lia. }
    assert (LK : forall k a b, nth_error (s_log st) k = Some (a, b) -> a < mid /\ b < mid /\ length pts0 + k < mid).
    { intros k a b N. assert (k < length (s_log st)) by (apply nth_error_Some; congruence). apply nth_error_In in N. destruct (S6 a b N). split; [assumption|]. split; [assumption|unfold mid; lia]. }
    intros k a b N. apply nth_snoc in N as [N|(-> & Q)].
    + destruct (LK k a b N) as (A & B & C). rewrite !DAT by assumption. exact (S4 k a b N).
    + injection Q as -> ->. rewrite (DAT sa SAM), (DAT sb SBM). replace (length pts0 + length (s_log st)) with mid by (unfold mid; lia). unfold data_at. rewrite Na, Nb, Pmid. cbn [c_data]. unfold WindSpec.on_edge. cbn [fst snd].
      destruct OR as [(_ & _ & Da & Db)|(_ & _ & Da & Db & _)]; rewrite Da, Db; [exact (proj1 W)|apply BalanceProofs.on_seg_swap; exact (proj1 W)].
  - rewrite EP, EL, app_length. unfold pts', mid. rewrite split_length. cbn [length]. lia.
  - rewrite EP, EL. intros a b I. unfold pts', mid. rewrite split_length. fold mid. apply in_app_or in I as [I|[I|[]]]; [destruct (S6 a b I); unfold mid; lia|]. injection I as <- <-. lia.
Qed.

Lemma shape_same st st' : same_skel (s_pts st) (s_pts st') -> s_nodes st' = s_nodes st -> s_log st' = s_log st -> shape st -> shape st'.
Proof.
  intros SK EN EL [S1 S2 S3 S4 S5 S6]. pose proof (skel_sym _ _ SK) as SK'.
  assert (DAT : forall k, data_at (s_pts st') k = data_at (s_pts st) k). { intros k. unfold data_at. specialize (SK k). destruct (nth_error (s_pts st) k), (nth_error (s_pts st') k); cbn in SK; try discriminate; [|reflexivity]. unfold skel in SK. congruence. }
  assert (LEN : length (s_pts st') = length (s_pts st)). { rewrite <- (map_length c_next), <- (map_length c_next (s_pts st)). pose proof (skel_links _ _ SK) as L. unfold links in L. rewrite L. reflexivity. }
  constructor; rewrite ?EN, ?EL, ?LEN; try assumption.
  - intros n g G LV V. destruct (S2 n g G (skel_live _ _ _ _ SK' LV) V) as (pa & N & X). destruct (skel_get _ _ _ _ SK N) as (pa' & N' & _ & Y & _). exists pa'. split; [exact N'|congruence].
  - intros i p q r N1 N2 N3 F. destruct (skel_get _ _ _ _ SK' N1) as (p' & M1 & D1 & X1 & _). rewrite <- X1 in N2. destruct (skel_get _ _ _ _ SK' N2) as (q' & M2 & D2 & X2 & _). rewrite <- X2 in N3. destruct (skel_get _ _ _ _ SK' N3) as (r' & M3 & D3 & _).
    apply (S3 i p' q' r' M1 M2 M3). rewrite D1, D2, D3. exact F.
  - intros k a b N. rewrite !DAT. exact (S4 k a b N).
Qed.
End Shape.
