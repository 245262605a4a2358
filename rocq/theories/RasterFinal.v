(** Proofs about whole runs of the rasteriser. *)
From Coq Require Import List Bool Arith ZArith QArith Permutation Sorted Lia Lqa.
From Verif Require Import GeomModel RasterModel RasterSpec RasterArith RasterOrder RasterRun RasterSpans.
Import ListNotations.
Local Open Scope Z_scope.

(** ** Pixels *)
Lemma pixel_mono width x y : (x <= y)%Q -> pixel width x <= pixel width y.
Proof.
  intros H. unfold pixel. assert (Z.quot (Qnum x) (QDen x) <= Z.quot (Qnum y) (QDen y)); [|lia]. apply quot_mono; [lia|lia|]. exact H.
Qed.
Lemma pixel_eq width x y : (x == y)%Q -> pixel width x = pixel width y.
Proof. intros H. apply Z.le_antisymm; apply pixel_mono; rewrite H; apply Qle_refl. Qed.

(** ** Closed polygons cross a row as often upwards as downwards *)
Definition below (y : Z) (p : point) : Z := if py p <=? y then 1 else 0.
Definition row_total (y : Z) (E : list sedge) : Z := total (map (fun e => if crosses_row y e then edge_dir e else 0) E).
Lemma row_total_app y E F : row_total y (E ++ F) = row_total y E + row_total y F.
Proof. unfold row_total. rewrite map_app. apply total_app. Qed.
Lemma edge_total y p q : row_total y (edge_between p q) = below y p - below y q.
Proof.
  unfold row_total, edge_between, below, total. destruct (Z.eqb_spec (py p) (py q)) as [->|N]; [cbn; lia|].
  destruct (Z.ltb_spec (py q) (py p)); cbn [map fold_right crosses_row edge_dir snd].
  - destruct (Z.leb_spec (py q) y), (Z.ltb_spec y (py p)), (Z.leb_spec (py p) y); cbn; lia.
  - destruct (Z.leb_spec (py p) y), (Z.ltb_spec y (py q)), (Z.leb_spec (py q) y); cbn; lia.
Qed.
Lemma path_total y c l : forall p, row_total y (path_edges p l c) = below y p - below y c.
Proof. induction l as [|q l IH]; intros p; cbn [path_edges]; [apply edge_total|]. rewrite row_total_app, edge_total, IH. lia. Qed.
Lemma polygon_total y l : row_total y (polygon_edges l) = 0.
Proof. destruct l as [|p l]; [reflexivity|]. cbn [polygon_edges]. rewrite path_total. lia. Qed.
Lemma polygons_total y (f : list point -> list point) ls : row_total y (flat_map (fun l => polygon_edges (f l)) ls) = 0.
Proof. induction ls as [|l ls IH]; [reflexivity|]. cbn [flat_map]. rewrite row_total_app, polygon_total, IH. reflexivity. Qed.
Lemma left_right y x E : row_total y E = 0 -> (forall e, In e E -> crosses_row y e = true -> ~ (edge_x y e == x)%Q) -> left_ray E y x = - ray E y x.
Proof.
  intros T N. assert (G : row_total y E = left_ray E y x + ray E y x); [|lia]. clear T. unfold row_total, left_ray, ray, total.
  induction E as [|e E IH]; [reflexivity|]. cbn [map fold_right]. rewrite IH by (intros; apply N; [right|]; assumption).
  destruct (crosses_row y e) eqn:C; [|lia]. specialize (N e (or_introl eq_refl) C).
  destruct (Qlt_le_dec (edge_x y e) x), (Qlt_le_dec x (edge_x y e)); try lia; exfalso; [lra|apply N; lra].
Qed.

Section Final.
Variable sort_events : list revent -> list revent.
Variable sort_new : list (revent * nat) -> list (revent * nat).
Hypothesis SE : sorts_valid valid revent_lt sort_events.
Hypothesis SN : sorts_valid (fun en => valid (fst en)) new_lt sort_new.
Variable ls : list (list point).
Variable wbits width height : Z.
Notation pts := (radd_loops [] ls).
Definition polygons : list sedge := flat_map (fun l => polygon_edges (rnorm l)) ls.

Lemma run_edges : exists es, edges_from pts 0 pts = Some es /\ Forall2 (edge_rel pts) es polygons.
Proof. destruct (rings_edges ls [] [] [] eq_refl (Forall2_nil _)) as (es & A & B). exists es. auto. Qed.

Section WithEdges.
Variable es : list cseg.
Hypothesis EP : edges_from pts 0 pts = Some es.
Hypothesis ER : Forall2 (edge_rel pts) es polygons.
Lemma es_down : Forall (fun s => py (sg_pa s) < py (sg_pb s)) es.
Proof. clear EP. induction ER as [|s e l l' H F IH]; constructor; auto. destruct e as ((a, b), d). destruct H as (-> & -> & H & _). exact H. Qed.

Lemma to_sedge_rel s e : edge_rel pts s e -> e = to_sedge pts s.
Proof. destruct e as ((a, b), d). intros (<- & <- & _ & (m & G & ->)). unfold to_sedge, sgn_of. rewrite G. destruct m; reflexivity. Qed.
Lemma polygons_es : polygons = map (to_sedge pts) es.
Proof. clear EP. induction ER as [|s e l l' H F IH]; [reflexivity|]. cbn. f_equal; [apply to_sedge_rel; exact H|exact (IH F)]. Qed.
Lemma crosses_active y s : crosses_row y (to_sedge pts s) = active y s.
Proof. reflexivity. Qed.
Lemma edge_x_place y s : edge_x y (to_sedge pts s) = place y s.
Proof. reflexivity. Qed.

(** The edges of a sweep. *)
Definition sweep_edges (sw : list nat) : list cseg := map (fun i => nth i (dummy_node :: es) dummy_node) sw.
Lemma sweep_edges_nodes z sw : Permutation sw (on_row es z) -> map (nth_error (dummy_node :: es)) sw = map Some (sweep_edges sw).
Proof.
  intros P. unfold sweep_edges. rewrite map_map. apply map_ext_in. intros i I. apply (Permutation_in _ P) in I. unfold on_row in I. apply filter_In in I as (I & _). apply in_seq in I.
  apply nth_error_nth'. cbn. lia.
Qed.
Lemma on_row_edges z : map (fun i => nth i (dummy_node :: es) dummy_node) (on_row es z) = filter (active z) es.
Proof.
  unfold on_row. assert (G : forall l k, (forall i, nth_error es (k + i) = nth_error l i) -> map (fun i => nth i (dummy_node :: es) dummy_node) (filter (fun n => match edge_at es n with Some s => active z s | None => false end) (seq (S k) (length l))) = filter (active z) l).
  { induction l as [|s l IH]; intros k H; [reflexivity|]. cbn [length seq filter]. assert (E : edge_at es (S k) = Some s) by (cbn; specialize (H O); rewrite Nat.add_0_r in H; rewrite H; reflexivity).
    rewrite E. rewrite <- (IH (S k)) by (intros i; specialize (H (S i)); cbn in H; rewrite <- H; f_equal; lia).
    destruct (active z s); [|reflexivity]. cbn [map]. f_equal. change (nth k es dummy_node = s). apply nth_error_nth. exact E. }
  apply (G es O). reflexivity.
Qed.
Lemma sweep_edges_perm z sw : Permutation sw (on_row es z) -> Permutation (sweep_edges sw) (filter (active z) es).
Proof. intros P. rewrite <- on_row_edges. unfold sweep_edges. apply Permutation_map. exact P. Qed.
Lemma count_ray z x sw : Permutation sw (on_row es z) -> count_right pts z x (sweep_edges sw) = ray polygons z x.
Proof.
  intros P. unfold count_right. rewrite (total_perm _ _ (Permutation_map _ (sweep_edges_perm z sw P))). unfold ray. rewrite polygons_es, map_map.
  clear. induction es as [|s l IH]; [reflexivity|]. cbn [filter map]. rewrite crosses_active. unfold total in *. destruct (active z s); cbn [map fold_right]; rewrite <- IH; [|lia].
  rewrite edge_x_place. reflexivity.
Qed.
Lemma sweep_total z sw : Permutation sw (on_row es z) -> dirs pts (sweep_edges sw) = 0.
Proof.
  intros P. unfold dirs. rewrite (total_perm _ _ (Permutation_map _ (sweep_edges_perm z sw P))). rewrite <- (polygons_total z rnorm ls). fold polygons. unfold row_total. rewrite polygons_es, map_map.
  clear. induction es as [|s l IH]; [reflexivity|]. cbn [filter map]. rewrite crosses_active. unfold total in *. destruct (active z s); cbn [map fold_right]; rewrite <- IH; reflexivity || lia.
Qed.
Lemma sweep_edges_in z sw s : Permutation sw (on_row es z) -> In s (sweep_edges sw) -> In (to_sedge pts s) polygons /\ active z s = true /\ py (sg_pa s) < py (sg_pb s).
Proof.
  intros P I. apply (Permutation_in _ (sweep_edges_perm z sw P)) in I. apply filter_In in I as (I & A). split; [rewrite polygons_es; apply in_map; exact I|]. split; [exact A|].
  pose proof es_down as D. rewrite Forall_forall in D. apply D. exact I.
Qed.
End WithEdges.

Definition scan (fuel : nat) := scan_all sort_events sort_new pts wbits width height fuel.

(** What each scan line means, if no assertion failed. *)
Definition means (s : scan_line) (e f : sedge) : Prop :=
  In e polygons /\ In f polygons /\ crosses_row (sl_y s) e = true /\ crosses_row (sl_y s) f = true /\
  sl_x1 s = pixel width (edge_x (sl_y s) f) /\ sl_x2 s = pixel width (edge_x (sl_y s) e) /\ (edge_x (sl_y s) f <= edge_x (sl_y s) e)%Q /\
  forall x, (edge_x (sl_y s) f < x)%Q -> (x < edge_x (sl_y s) e)%Q -> ray polygons (sl_y s) x = sl_winding s.
Hypothesis WB : width_ok wbits width.
Hypothesis HB : height <= 2 ^ 32.

Lemma pix_pixel y s : py (sg_pa s) < py (sg_pb s) -> to_uint (pix wbits width y s) = pixel width (place y s).
Proof.
  intros H. unfold to_uint. rewrite Z.mod_small by (pose proof (pix_range wbits width y s WB); destruct WB; lia).
  unfold pix. rewrite (hi_x_width wbits width WB), (to_coord_pixel width) by (try (apply x_intercept_valid; lia); destruct WB; lia). apply pixel_eq. apply x_intercept_val. lia.
Qed.

Lemma scan_split fuel out st' : scan fuel = Some (out, st') -> exists rws, scan_rows sort_events sort_new pts wbits width height fuel = Some (rws, st') /\ out = concat (map snd rws).
Proof. unfold scan, scan_all. destruct (scan_rows _ _ _ _ _ _ _) as [(rws, st)|]; [|discriminate]. intros E. injection E as <- <-. eauto. Qed.

Lemma in_concat_rows (rws : list (Z * list nat * list scan_line)) s : In s (concat (map snd rws)) <-> exists z sw spans, In (z, sw, spans) rws /\ In s spans.
Proof.
  rewrite in_concat. split.
  - intros (l & I & J). apply in_map_iff in I as (((z, sw), spans) & <- & I). eauto.
  - intros (z & sw & spans & I & J). exists spans. split; [|exact J]. apply in_map_iff. exists (z, sw, spans). auto.
Qed.

Lemma scan_sound fuel out st' s : scan fuel = Some (out, st') -> rs_ok st' = true -> In s out ->
  0 <= sl_y s < height /\ 0 <= sl_x1 s /\ sl_x1 s <= sl_x2 s /\ sl_x2 s <= width - 1 /\ sl_winding s <> 0 /\ exists e f, means s e f.
Proof.
  intros R OK I. apply scan_split in R as (rws & R & ->). destruct run_edges as (es & EP & ER).
  destruct (scan_rows_ok sort_events sort_new SE SN pts wbits width height es (es_down es ER) EP fuel rws st' R) as (A & _ & _).
  apply in_concat_rows in I as (z & sw & spans & IR & IS). destruct (A z sw spans IR) as (ZH & P & C & SP). specialize (C OK).
  destruct (Z.leb_spec 0 z) as [Z0|Z0]; [|injection SP as <-; destruct IS].
  pose proof (sweep_edges_nodes es z sw P) as NO. set (L := sweep_edges es sw) in *.
  pose proof (row_spans_spec pts wbits width (dummy_node :: es) z sw L [] 0 0 spans SP NO eq_refl (fun H => match H eq_refl with end)) as S. destruct (proj1 (S s) IS) as (A0 & p & e & B & EQ & _ & D & ES0). subst s.
  cbn [app] in EQ. clear S.
  assert (FD : forall t, In t L -> In (to_sedge pts t) polygons /\ active z t = true /\ py (sg_pa t) < py (sg_pb t)) by (intros t; apply (sweep_edges_in es ER z sw t P)).
  assert (SRT : StronglySorted (fun s t => (place z t <= place z s)%Q) L).
  { apply (consistent_sorted (dummy_node :: es) z sw L C NO). apply Forall_forall. intros t It. apply FD. exact It. }
  assert (Ip : In p L) by (rewrite EQ; apply in_or_app; right; left; reflexivity). assert (Ie : In e L) by (rewrite EQ; apply in_or_app; right; right; left; reflexivity).
  destruct (FD p Ip) as (P1 & P2 & P3). destruct (FD e Ie) as (E1 & E2 & E3).
  assert (LE : (place z e <= place z p)%Q).
  { pose proof SRT as S2. rewrite EQ in S2. change (A0 ++ p :: e :: B) with (A0 ++ [p] ++ e :: B) in S2. apply sorted_app_le in S2 as (_ & S2 & _). inversion S2 as [|? ? _ F]; subst. rewrite Forall_forall in F. apply F. left. reflexivity. }
  assert (UZ : to_uint z = z) by (unfold to_uint; apply Z.mod_small; lia).
  cbn [sl_x1 sl_x2 sl_y sl_winding]. rewrite UZ.
  rewrite (pix_pixel z e E3), (pix_pixel z p P3).
  split; [lia|]. pose proof (pixel_range wbits width (place z e) WB). pose proof (pixel_range wbits width (place z p) WB). pose proof (pixel_mono width _ _ LE).
  split; [lia|]. split; [lia|]. split; [lia|]. split; [exact D|]. exists (to_sedge pts p), (to_sedge pts e).
  unfold means. cbn [sl_x1 sl_x2 sl_y sl_winding]. rewrite !edge_x_place. repeat (split; [assumption || reflexivity|]).
  intros x X1 X2. rewrite <- (count_ray es ER z x sw P). fold L. rewrite EQ in *. apply count_between; assumption.
Qed.

Lemma scan_complete fuel out st' y x : scan fuel = Some (out, st') -> rs_ok st' = true -> 0 <= y < height ->
  (forall e, In e polygons -> crosses_row y e = true -> ~ (edge_x y e == x)%Q) -> ray polygons y x <> 0 ->
  exists s e f, In s out /\ sl_y s = y /\ sl_winding s = ray polygons y x /\ means s e f /\ (edge_x y f < x)%Q /\ (x < edge_x y e)%Q.
Proof.
  intros R OK Y N RAY. pose proof R as R0. apply scan_split in R as (rws & R & OUT). destruct run_edges as (es & EP & ER).
  destruct (scan_rows_ok sort_events sort_new SE SN pts wbits width height es (es_down es ER) EP fuel rws st' R) as (A & CV & _).
  destruct (CV y ltac:(lia)) as [I|NONE].
  2:{ exfalso. apply RAY. unfold ray. rewrite (polygons_es es ER), map_map. clear -NONE. unfold total. induction es as [|s l IH]; [reflexivity|]. cbn [map fold_right]. rewrite IH by (intros; apply NONE; right; assumption).
      rewrite crosses_active, (NONE s) by (left; reflexivity). reflexivity. }
  apply in_map_iff in I as (((z, sw), spans) & Z & IR). cbn in Z. subst z. destruct (A y sw spans IR) as (ZH & P & C & SP). specialize (C OK).
  destruct (Z.leb_spec 0 y) as [Z0|Z0]; [|lia].
  pose proof (sweep_edges_nodes es y sw P) as NO. set (L := sweep_edges es sw) in *.
  assert (FD : forall t, In t L -> In (to_sedge pts t) polygons /\ active y t = true /\ py (sg_pa t) < py (sg_pb t)) by (intros t; apply (sweep_edges_in es ER y sw t P)).
  assert (SRT : StronglySorted (fun s t => (place y t <= place y s)%Q) L).
  { apply (consistent_sorted (dummy_node :: es) y sw L C NO). apply Forall_forall. intros t It. apply FD. exact It. }
  destruct (find_gap pts y x L SRT) as (A0 & p & e & B & EQ & E & PP).
  - intros t It Q. destruct (FD t It) as (F1 & F2 & _). apply (N _ F1 F2 Q).
  - unfold L. rewrite (count_ray es ER y x sw P). exact RAY.
  - apply (sweep_total es ER y sw P).
  - pose proof (row_spans_spec pts wbits width (dummy_node :: es) y sw L [] 0 0 spans SP NO eq_refl (fun H => match H eq_refl with end)) as S.
    set (s := mk_scan (to_uint (pix wbits width y e)) (to_uint (pix wbits width y p)) (to_uint y) (dirs pts (A0 ++ [p]))).
    assert (RW : ray polygons y x = dirs pts (A0 ++ [p])).
    { rewrite <- (count_ray es ER y x sw P). fold L. rewrite EQ in *. apply count_between; assumption. }
    assert (IS : In s spans). { apply S. exists A0, p, e, B. split; [exact EQ|]. split; [cbn; lia|]. split; [congruence|reflexivity]. }
    assert (Ip : In p L) by (rewrite EQ; apply in_or_app; right; left; reflexivity). assert (Ie : In e L) by (rewrite EQ; apply in_or_app; right; right; left; reflexivity).
    destruct (FD p Ip) as (P1 & P2 & P3). destruct (FD e Ie) as (E1 & E2 & E3).
    assert (SY : sl_y s = y) by (cbn; unfold to_uint; apply Z.mod_small; lia).
    exists s, (to_sedge pts p), (to_sedge pts e). split; [rewrite OUT; apply in_concat_rows; eauto|]. split; [exact SY|]. split; [cbn; congruence|].
    split; [|rewrite !edge_x_place; auto]. unfold means. rewrite SY. rewrite !edge_x_place.
    split; [exact P1|]. split; [exact E1|]. split; [exact P2|]. split; [exact E2|].
    split; [apply (pix_pixel y e E3)|]. split; [apply (pix_pixel y p P3)|]. split; [lra|].
    intros x' X1 X2. rewrite <- (count_ray es ER y x' sw P). fold L. cbn [sl_winding s]. rewrite EQ in *. apply count_between; assumption.
Qed.
End Final.

(** ** Bounds without any assumption on the sorts *)
Section Bounds.
Variable sort_events : list revent -> list revent.
Variable sort_new : list (revent * nat) -> list (revent * nat).
Variable pts : list rpoint.
Variable wbits width height : Z.
Hypothesis WB : width_ok wbits width.
Lemma row_spans_bounds nodes y : forall l w x spans, row_spans pts wbits width nodes y l w x = Some spans -> (w = 0 \/ 0 <= x <= width - 1) ->
  forall s, In s spans -> 0 <= sl_x1 s <= width - 1 /\ 0 <= sl_x2 s <= width - 1 /\ sl_y s = to_uint y /\ sl_winding s <> 0.
Proof.
  induction l as [|i l IH]; intros w x spans E X s I; cbn [row_spans] in E; [injection E as <-; destruct I|].
  destruct (nth_error nodes i) as [e|]; [|discriminate]. destruct (goes_down pts e) as [m|]; [|discriminate]. cbv zeta in E.
  set (x' := to_coord _ _ _) in E. assert (XB : 0 <= x' <= width - 1) by (unfold x'; rewrite (hi_x_width wbits width WB); apply to_coord_range; destruct WB; lia).
  destruct (row_spans pts wbits width nodes y l _ x') as [rest|] eqn:R; [|discriminate]. injection E as <-.
  destruct (Z.eqb_spec w 0); [eapply IH; eauto|]. destruct I as [<-|I]; [|eapply IH; eauto].
  cbn. unfold to_uint. assert (width <= 2 ^ 32) by apply WB. rewrite !(Z.mod_small _ (2 ^ 32)) by lia. split; [lia|]. split; [lia|auto].
Qed.
Lemma rows_bounds fuel n : forall y st out st', rows sort_events sort_new pts wbits width fuel n y st = Some (out, st') ->
  forall z sw spans s, In (z, sw, spans) out -> In s spans -> (0 <= z < y + Z.of_nat n /\ y <= z) /\ 0 <= sl_x1 s <= width - 1 /\ 0 <= sl_x2 s <= width - 1 /\ sl_y s = to_uint z /\ sl_winding s <> 0.
Proof.
  induction n as [|n IH]; intros y st out st'; cbn [rows]; [intros E; injection E as <- <-; intros ? ? ? ? []|].
  destruct (at_end st); [intros E; injection E as <- <-; intros ? ? ? ? []|].
  destruct (event_loop _ _ RSwap _ _ _ _) as [s1|]; [|discriminate]. destruct (event_loop _ _ RBackward _ _ _ _) as [s2|]; [|discriminate]. destruct (event_loop _ _ RForward _ _ _ _) as [s3|]; [|discriminate]. cbv zeta.
  set (s4 := check _ s3). destruct (if 0 <=? y then _ else _) as [sp|] eqn:S; [|discriminate].
  destruct (rows _ _ _ _ _ _ n _ s4) as [(out', st0)|] eqn:R; [|discriminate]. intros E. injection E as <- <-. intros z sw spans s [I|I] J.
  - injection I as <- <- <-. destruct (Z.leb_spec 0 y); [|injection S as <-; destruct J]. split; [lia|]. eapply row_spans_bounds; [exact S|left; reflexivity|exact J].
  - destruct (IH _ _ _ _ R z sw spans s I J) as (A & B). split; [lia|exact B].
Qed.
Lemma scan_bounds fuel out st' s : height <= 2 ^ 32 -> scan_all sort_events sort_new pts wbits width height fuel = Some (out, st') -> In s out ->
  0 <= sl_y s < height /\ 0 <= sl_x1 s <= width - 1 /\ 0 <= sl_x2 s <= width - 1 /\ sl_winding s <> 0.
Proof.
  intros HB. unfold scan_all, scan_rows. destruct (scan_start sort_events sort_new pts) as [(y, st)|]; [|discriminate].
  destruct (rows _ _ _ _ _ _ _ y st) as [(rws, st0)|] eqn:R; [|discriminate]. intros E. injection E as <- <-. intros I. apply in_concat_rows in I as (z & sw & spans & I & J).
  destruct (rows_bounds _ _ _ _ _ _ R z sw spans s I J) as (A & B & C & D & F).
  assert (z < height) by lia.
  rewrite D. unfold to_uint. rewrite Z.mod_small by lia. split; [lia|]. split; [exact B|]. split; [exact C|exact F].
Qed.
End Bounds.
