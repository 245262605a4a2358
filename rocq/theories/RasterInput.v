(** Proofs about the input of the rasteriser, its sorts, its rules, and a run without end. *)
From Coq Require Import List Bool Arith ZArith QArith Qabs Permutation Sorted Lia Lqa.
From Verif Require Import GeomModel PointSinkSpec PointSinkProofs RasterModel RasterSpec RasterArith RasterOrder RasterRun RasterSpans RasterFinal.
Import ListNotations.
Local Open Scope Z_scope.

(** ** The edges of the input *)
Definition pe (l : list point) (c : point) : list sedge := match l with [] => [] | p :: l' => path_edges p l' c end.
Lemma edge_self p : edge_between p p = [].
Proof. unfold edge_between. rewrite Z.eqb_refl. reflexivity. Qed.
Lemma pe_uniq c l : pe (uniq l) c = pe l c.
Proof.
  induction l as [|p l IH]; [reflexivity|]. destruct l as [|q l]; [reflexivity|]. rewrite uniq_cons. cbn [pe path_edges]. cbn [pe] in IH. rewrite <- IH.
  destruct (uniq_hd q l) as (k & K). rewrite K in *. destruct (point_eqb p q) eqn:E.
  - apply point_eqb_eq in E. subst q. rewrite edge_self. reflexivity.
  - reflexivity.
Qed.
Lemma path_snoc c z m : forall p, path_edges p (m ++ [z]) c = path_edges p m z ++ edge_between z c.
Proof. induction m as [|q m IH]; intros p; cbn [app path_edges]; [reflexivity|]. rewrite IH, app_assoc. reflexivity. Qed.
Lemma polygon_uniq l : polygon_edges (uniq l) = polygon_edges l.
Proof.
  destruct l as [|p l]; [reflexivity|]. pose proof (pe_uniq p (p :: l)) as E. destruct (uniq_hd p l) as (k & K). rewrite K in *. exact E.
Qed.
Lemma polygon_open l : polygon_edges (open_end l) = polygon_edges l.
Proof.
  unfold open_end. destruct l as [|f [|g l]]; try reflexivity. destruct (point_eqb (last (f :: g :: l) f) f) eqn:E; [|reflexivity]. apply point_eqb_eq in E.
  assert (N : g :: l <> []) by discriminate. destruct (exists_last N) as (m & z & M). rewrite M in *. change (f :: m ++ [z]) with ((f :: m) ++ [z]) in *. rewrite last_last in E. subst z. rewrite removelast_last.
  cbn [app polygon_edges]. rewrite path_snoc, edge_self, app_nil_r. reflexivity.
Qed.
Lemma ray_app E F y x : ray (E ++ F) y x = ray E y x + ray F y x.
Proof. unfold ray. rewrite map_app. unfold total. induction (map _ E) as [|a l IH]; cbn; lia. Qed.
Lemma ray_back p q y x : ray (edge_between p q ++ edge_between q p) y x = 0.
Proof.
  unfold edge_between. rewrite (Z.eqb_sym (py q) (py p)). destruct (Z.eqb_spec (py p) (py q)) as [E|E]; [reflexivity|].
  destruct (Z.ltb_spec (py q) (py p)), (Z.ltb_spec (py p) (py q)); try lia; unfold ray, total; cbn [app map fold_right crosses_row edge_dir edge_x snd];
    destruct (_ && _); try lia; destruct (Qlt_le_dec _ _); lia.
Qed.
Lemma ray_short u y x : (length u < 3)%nat -> ray (polygon_edges u) y x = 0.
Proof.
  intros L. destruct u as [|p [|q [|r u]]]; cbn [length] in L; [reflexivity| |cbn [polygon_edges path_edges]; apply ray_back|lia].
  cbn [polygon_edges path_edges]. rewrite edge_self. reflexivity.
Qed.
Lemma rnorm_cases l : exists u, polygon_edges u = polygon_edges l /\ rnorm l = (if Nat.ltb (length u) 3 then [] else u).
Proof.
  unfold rnorm. destruct (rev l) as [|z [|y r]]; try (exists l; split; reflexivity).
  destruct (point_eqb z y); [exists (uniq l)|exists (open_end (uniq l))]; (split; [|reflexivity]); rewrite ?polygon_open, polygon_uniq; reflexivity.
Qed.
Lemma rnorm_edges l : rnorm l <> [] -> polygon_edges (rnorm l) = polygon_edges l.
Proof. destruct (rnorm_cases l) as (u & E & ->). destruct (Nat.ltb (length u) 3); [congruence|auto]. Qed.
Lemma rnorm_incl l : incl (polygon_edges (rnorm l)) (polygon_edges l).
Proof. destruct (rnorm_cases l) as (u & E & ->). destruct (Nat.ltb (length u) 3); [intros e []|]. rewrite E. apply incl_refl. Qed.
Lemma rnorm_ray l y x : ray (polygon_edges (rnorm l)) y x = ray (polygon_edges l) y x.
Proof. destruct (rnorm_cases l) as (u & E & ->). rewrite <- E. destruct (Nat.ltb_spec (length u) 3); [|reflexivity]. rewrite (ray_short u) by assumption. reflexivity. Qed.
Lemma polygons_ray ls y x : ray (polygons ls) y x = ray (flat_map polygon_edges ls) y x.
Proof. unfold polygons. induction ls as [|l ls IH]; [reflexivity|]. cbn [flat_map]. rewrite !ray_app, rnorm_ray, IH. reflexivity. Qed.
Lemma polygons_incl ls : incl (polygons ls) (flat_map polygon_edges ls).
Proof.
  intros e I. unfold polygons in I. apply in_flat_map in I as (l & I & J). apply in_flat_map. exists l. split; [exact I|apply rnorm_incl; exact J].
Qed.

(** ** The sorts *)
Lemma ins_by_perm {B} (lt : B -> B -> bool) x m : Permutation (x :: m) (ins_by lt x m).
Proof. induction m as [|y m IH]; cbn; [reflexivity|]. destruct (lt y x); [|reflexivity]. rewrite perm_swap. constructor. exact IH. Qed.
Lemma sort_by_ok {B} (ok : B -> Prop) (lt : B -> B -> bool) :
  (forall x y, ok x -> ok y -> lt x y = true -> lt y x = false) ->
  (forall x y z, ok x -> ok y -> ok z -> lt y x = false -> lt z y = false -> lt z x = false) ->
  sorts_valid ok lt (sort_by lt).
Proof.
  intros AS NT l. induction l as [|x l IH]; intros F; [split; constructor|]. inversion F as [|? ? Fx Fl]; subst. destruct (IH Fl) as (P & SRT). clear IH.
  cbn [sort_by fold_right]. fold (sort_by lt l). split; [etransitivity; [apply perm_skip; exact P|apply ins_by_perm]|].
  assert (FS : Forall ok (sort_by lt l)) by (apply (Permutation_Forall P); exact Fl). clear P F Fl. induction (sort_by lt l) as [|y m IH]; cbn; [constructor; constructor|].
  inversion SRT as [|? ? S1 F]; subst. inversion FS as [|? ? Fy Fm]; subst. destruct (lt y x) eqn:Q.
  - constructor; [apply IH; assumption|]. apply (Permutation_Forall (ins_by_perm lt x m)). constructor; [apply AS; assumption|exact F].
  - constructor; [exact SRT|]. constructor; [exact Q|]. rewrite Forall_forall in *. intros z Z. apply (NT x y z); auto.
Qed.
Lemma revent_neg x y z : valid x -> valid y -> valid z -> revent_lt x y = false -> revent_lt y z = false -> revent_lt x z = false.
Proof. intros X Y Z. rewrite !revent_lt_key by assumption. apply (EventsSpec.swo_neg _ _ key_swo). Qed.
Lemma revent_asym x y : valid x -> valid y -> revent_lt x y = true -> revent_lt y x = false.
Proof. intros X Y. rewrite !revent_lt_key by assumption. apply (EventsSpec.swo_asym _ _ key_swo). Qed.
Lemma revent_swo x y z : valid x -> valid y -> valid z ->
  revent_lt x x = false /\
  (revent_lt x y = true -> revent_lt y z = true -> revent_lt x z = true) /\
  (revent_lt x y = true -> revent_lt x z = true \/ revent_lt z y = true) /\
  (revent_lt x y = true -> revent_lt y x = false).
Proof.
  intros X Y Z. split; [|split; [|split]].
  - destruct (revent_lt x x) eqn:E; [|reflexivity]. pose proof (revent_asym x x X X E). congruence.
  - intros A B. destruct (revent_lt x z) eqn:E; [reflexivity|]. pose proof (revent_asym y z Y Z B) as F. pose proof (revent_neg x z y X Z Y E F). congruence.
  - intros A. destruct (revent_lt x z) eqn:E; [auto|]. destruct (revent_lt z y) eqn:F; [auto|]. pose proof (revent_neg x z y X Z Y E F). congruence.
  - apply revent_asym; assumption.
Qed.
Lemma rsort_ok : sorts_valid valid revent_lt rsort.
Proof. apply sort_by_ok; [exact revent_asym|]. intros x y z X Y Z A B. exact (revent_neg z y x Z Y X B A). Qed.
Lemma rsort_new_ok : sorts_valid (fun en => valid (fst en)) new_lt rsort_new.
Proof.
  apply sort_by_ok.
  - intros (x, i) (y, j) X Y. unfold new_lt. cbn [fst snd] in *. rewrite (Nat.eqb_sym j i). destruct (Nat.eqb_spec i j); cbn [negb].
    + apply revent_asym; assumption.
    + rewrite Nat.ltb_lt, Nat.ltb_ge. lia.
  - intros (x, i) (y, j) (z, k) X Y Z. unfold new_lt. cbn [fst snd] in *.
    destruct (Nat.eqb_spec j i), (Nat.eqb_spec k j), (Nat.eqb_spec k i); cbn [negb]; rewrite ?Nat.ltb_ge; try lia.
    intros A B. exact (revent_neg z y x Z Y X B A).
Qed.

(** ** Fill rules *)
Lemma fill_rules w :
  (should_fill NonZero w = true <-> w <> 0) /\ (should_fill EvenOdd w = true <-> Z.Odd w) /\
  (should_fill Positive w = true <-> 0 < w) /\ (should_fill Negative w = true <-> w < 0).
Proof.
  unfold should_fill. rewrite !negb_true_iff, !Z.eqb_neq, !Z.ltb_lt. split; [reflexivity|]. split; [|split; reflexivity].
  rewrite <- Z.odd_spec. pose proof (Z.quot_rem w 2 ltac:(lia)) as E. pose proof (Z.rem_bound_abs w 2 ltac:(lia)) as B.
  split; intros H.
  - rewrite Z.odd_spec. destruct (Z.eq_dec (Z.rem w 2) 1) as [R|R]; [exists (Z.quot w 2); lia|]. exists (Z.quot w 2 - 1). lia.
  - apply Z.odd_spec in H as (k & ->). intros R. lia.
Qed.

(** ** The active edges *)
Lemma active_rows sort_events sort_new ls wbits width height fuel rws st' es :
  sorts_valid valid revent_lt sort_events -> sorts_valid (fun en => valid (fst en)) new_lt sort_new ->
  edges_from (radd_loops [] ls) 0 (radd_loops [] ls) = Some es ->
  scan_rows sort_events sort_new (radd_loops [] ls) wbits width height fuel = Some (rws, st') ->
  (forall y sw spans, In (y, sw, spans) rws -> y < height /\ Permutation (map (fun n => nth n (dummy_node :: es) dummy_node) sw) (filter (active y) es)) /\
  (forall y, y < height -> In y (map (fun r => fst (fst r)) rws) \/ forall s, In s es -> active y s = false) /\
  StronglySorted Z.lt (map (fun r => fst (fst r)) rws).
Proof.
  intros SE SN EP R. destruct (run_edges ls) as (es' & EP' & ER). rewrite EP in EP'. injection EP' as <-.
  destruct (scan_rows_ok sort_events sort_new SE SN _ wbits width height es (es_down ls es ER) EP fuel rws st' R) as (A & B & C).
  split; [|split; [exact B|exact C]]. intros y sw spans I. destruct (A y sw spans I) as (Y & P & _). split; [exact Y|]. exact (sweep_edges_perm es y sw P).
Qed.

(** ** A run without end *)
Lemma step_prev f st s1 s2 y sw p e1 e2 w :
  existsb (Nat.eqb s1) (rs_sweep st) && existsb (Nat.eqb s2) (rs_sweep st) = true -> next_of s1 (rs_sweep st) = Some s2 ->
  put_before s1 s2 (erase_node s2 (rs_sweep st)) = sw -> prev_of s2 sw = Some p ->
  nth_error (rs_nodes st) p = Some e1 -> nth_error (rs_nodes st) s2 = Some e2 -> rintersects e1 e2 = Some w ->
  not_before w (wf_cmp w y) = true -> wf_eqb w y = true ->
  swap_and_check f (with_sweep st sw) p s2 y = None -> swap_and_check (S f) st s1 s2 y = None.
Proof.
  intros A B <- C D E F G H I. cbn [swap_and_check]. rewrite A, B. cbn [negb opt_nat_eqb]. rewrite Nat.eqb_refl. cbn [negb]. cbv zeta. cbn [with_sweep rs_sweep rs_nodes]. rewrite C, D, E, F, G, H.
  rewrite I. reflexivity.
Qed.
Lemma step_next f st s1 s2 y sw p e1 e2 n e3 w :
  existsb (Nat.eqb s1) (rs_sweep st) && existsb (Nat.eqb s2) (rs_sweep st) = true -> next_of s1 (rs_sweep st) = Some s2 ->
  put_before s1 s2 (erase_node s2 (rs_sweep st)) = sw -> prev_of s2 sw = Some p ->
  nth_error (rs_nodes st) p = Some e1 -> nth_error (rs_nodes st) s2 = Some e2 -> rintersects e1 e2 = None ->
  next_of s1 sw = Some n -> nth_error (rs_nodes st) s1 = Some e3 -> forall e4, nth_error (rs_nodes st) n = Some e4 -> rintersects e3 e4 = Some w ->
  not_before w (wf_cmp w y) = true -> wf_eqb w y = true ->
  swap_and_check f (with_sweep st sw) s1 n y = None -> swap_and_check (S f) st s1 s2 y = None.
Proof.
  intros A B <- C D E F J K e4 L G H I Q. cbn [swap_and_check]. rewrite A, B. cbn [negb opt_nat_eqb]. rewrite Nat.eqb_refl. cbn [negb]. cbv zeta. cbn [with_sweep rs_sweep rs_nodes]. rewrite C, D, E, F.
  cbn [with_sweep rs_sweep rs_nodes]. rewrite J, K, L, G, H, I. rewrite Q. reflexivity.
Qed.
Definition forever : list (list point) := [[(0,0); (2,2); (100,0)]; [(2,0); (0,2); (200,0)]; [(1,0); (1,2); (300,0)]].
Definition nodes6 : list cseg := Eval vm_compute in match edges_from (radd_loops [] forever) 0 (radd_loops [] forever) with Some es => dummy_node :: es | None => [] end.
Definition y1 : wfrac := mk_wfrac 1 (mk_frac 0 4).
Lemma swaps_forever f : forall ev la cu ok,
  (let run sw a b := swap_and_check f (mk_rstate ev la cu ([6; 4; 2] ++ sw)%nat nodes6 ok) a b y1 = None in
  run [3; 5; 1] 3 5 /\ run [5; 3; 1] 3 1 /\ run [5; 1; 3] 5 1 /\ run [1; 5; 3] 5 3 /\ run [1; 3; 5] 1 3 /\ run [3; 1; 5] 1 5)%nat.
Proof.
  induction f as [|f IH]; intros ev la cu ok; cbv zeta; [repeat split; reflexivity|].
  destruct (IH ev la cu ok) as (A & B & C & D & E & F).
  Ltac go := first [eapply step_prev; [vm_compute; reflexivity ..|assumption] | eapply step_next; [vm_compute; reflexivity ..|assumption]].
  split; [go|]. split; [go|]. split; [go|]. split; [go|]. split; go.
Qed.
Section Loops.
Variable se : list revent -> list revent.
Variable sn : list (revent * nat) -> list (revent * nat).
Lemma loop_none t h y f st e : at_end st = false -> current st = Some e -> at_or_before e y && is_type t e = true -> h st e = None -> event_loop se sn t h y (S f) st = None.
Proof. intros A B C D. cbn [event_loop]. rewrite A, B, C, D. reflexivity. Qed.
Lemma loop_one t h y f st e st1 st2 : at_end st = false -> current st = Some e -> at_or_before e y && is_type t e = true -> h st e = Some st1 -> rnext se sn st1 = Some st2 ->
  event_loop se sn t h y (S f) st = event_loop se sn t h y f st2.
Proof. intros A B C D E. cbn [event_loop]. rewrite A, B, C, D, E. reflexivity. Qed.
Variable pts : list rpoint.
Variable wbits width : Z.
Lemma rows_none f n y st : at_end st = false -> event_loop se sn RSwap (on_swap f) y f st = None -> rows se sn pts wbits width f (S n) y st = None.
Proof. intros A B. cbn [rows]. rewrite A, B. reflexivity. Qed.
Lemma rows_skip f n y st s1 s2 s3 : at_end st = false -> event_loop se sn RSwap (on_swap f) y f st = Some s1 -> event_loop se sn RBackward on_backward y f s1 = Some s2 ->
  event_loop se sn RForward (on_forward y) y f s2 = Some s3 -> (forall b, rows se sn pts wbits width f n (y + 1) (check b s3) = None) -> rows se sn pts wbits width f (S n) y st = None.
Proof.
  intros A B C D E. cbn [rows]. rewrite A, B, C, D. cbv zeta. rewrite E. destruct (if 0 <=? y then _ else _); reflexivity.
Qed.
End Loops.
Lemma no_end fuel : scan_all rsort rsort_new (radd_loops [] forever) 32 30 15 fuel = None.
Proof.
  assert (G : forall f, (7 <= f)%nat -> scan_all rsort rsort_new (radd_loops [] forever) 32 30 15 f = None).
  2:{ do 7 (destruct fuel as [|fuel]; [vm_compute; reflexivity|]). apply G. lia. }
  clear fuel. intros f L. assert (K : exists k, f = S (S (S (S (S (S (S k))))))) by (exists (f - 7)%nat; lia). clear L. destruct K as (k & ->). unfold scan_all, scan_rows.
  destruct (scan_start rsort rsort_new (radd_loops [] forever)) as [(y, st)|] eqn:ST; [|reflexivity].
  vm_compute in ST. injection ST as <- <-. change (Z.to_nat (15 - 0)) with 15%nat.
  erewrite rows_skip; [reflexivity|vm_compute; reflexivity ..|]. intros b.
  apply rows_none; [reflexivity|].
  match goal with |- context [check b ?s] => assert (CB : exists b', check b s = match s with mk_rstate a1 a2 a3 a4 a5 _ => mk_rstate a1 a2 a3 a4 a5 b' end) by (unfold check; destruct b; eexists; reflexivity) end.
  destruct CB as (b' & ->).
  erewrite loop_one; [|vm_compute; reflexivity ..].
  eapply loop_none; [vm_compute; reflexivity ..|].
  unfold on_swap. cbn [re_a re_b re_intr].
  match goal with |- swap_and_check ?f (mk_rstate ?ev ?la ?cu _ _ ?ok) _ _ _ = None => exact (proj1 (swaps_forever f ev la cu ok)) end.
Qed.

(** * Rounding *)
Lemma round_up w : proper w -> wf_round w = wf_whole w + 1.
Proof.
  intros (V & A & B). unfold wf_round, frac_valid in *. set (d := fr_den (wf_frac w)) in *. set (n := fr_num (wf_frac w)) in *.
  assert (H : Z.quot d 2 <= d - 1) by (rewrite Z.quot_div_nonneg by lia; assert (d / 2 < d) by (apply Z.div_lt; lia); lia). destruct (Z.leb_spec (Z.quot d 2) (n + d - 1)); lia.
Qed.
Lemma round_nearest w : proper w ->
  ((forall k, (Qabs.Qabs (inject_Z (wf_round w) - wf_val w) <= Qabs.Qabs (inject_Z k - wf_val w))%Q) <-> (1 # 2 <= frac_val (wf_frac w))%Q).
Proof.
  intros P. rewrite (round_up w P). pose proof P as (V & A & B). unfold wf_val, frac_valid in *. set (f := frac_val (wf_frac w)). set (z := wf_whole w).
  assert (F : (0 <= f < 1)%Q).
  { unfold f, frac_val, Qle, Qlt. cbn [Qnum Qden]. rewrite Z2Pos.id by exact V. lia. }
  clearbody f. rewrite inject_Z_plus. change (inject_Z 1) with 1%Q.
  assert (E1 : (Qabs.Qabs (inject_Z z + 1 - (inject_Z z + f)) == 1 - f)%Q) by (setoid_replace (inject_Z z + 1 - (inject_Z z + f))%Q with (1 - f)%Q by ring; apply Qabs.Qabs_pos; lra).
  split.
  - intros H. specialize (H z). rewrite E1 in H. setoid_replace (inject_Z z - (inject_Z z + f))%Q with (- f)%Q in H by ring. rewrite Qabs.Qabs_opp, Qabs.Qabs_pos in H by lra. lra.
  - intros H k. rewrite E1. destruct (Z_le_gt_dec k z) as [L|L].
    + rewrite Zle_Qle in L. rewrite Qabs.Qabs_neg by lra. lra.
    + assert (K : z + 1 <= k) by lia. rewrite Zle_Qle, inject_Z_plus in K. change (inject_Z 1) with 1%Q in K. rewrite Qabs.Qabs_pos by lra. lra.
Qed.
