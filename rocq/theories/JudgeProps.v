(** Judging the lines: properties C64 and C65. *)
From Coq Require Import ZArith QArith List Bool Arith Permutation Sorted Lia.
From Verif Require Import GeomModel GeomSpec GeomProofs BalanceModel WindSpec BalanceProofs GeomFinal EventsModel EventsSpec OutModel PointSinkModel ClipModel ClipSpec ClipProofs SweepProofs BalSweepProofs ClipProps.
Import ListNotations.
Local Open Scope nat_scope.

(** C64: whatever points are computed for intersections, once these are found the second
    sweep cannot fail. It judges exactly the lines marked for it, each once, by exactly the lines met by
    the vertical line through its first point, each looked at once. *)
Theorem C64_judged : forall isect place place' sort_events sort_new draws fuel fuel' pts rand st op,
  sorts event_lt sort_events -> sorts (lt_new _ _ (fun e => e) event_lt) sort_new -> places place -> proper_loops pts ->
  self_intersection isect place sort_events sort_new draws fuel pts rand = Some st ->
  (length (q_events _ (s_events st)) <= fuel' -> exists r, calc_line_bal place' sort_events sort_new fuel' op st = Some r) /\
  (forall pts' ss, calc_line_bal place' sort_events sort_new fuel' op st = Some (pts', ss) -> judged op (s_pts st) pts' ss).
Proof.
  intros isect place place' se sn draws fuel fuel' pts rand st op SE SN PLC PL H.
  destruct (self_intersection_ok pts isect place se sn draws SE SN fuel rand st PL H) as (s & all & u & O & M & FC).
  destruct (calc_ok pts st s all u place' se sn op O (FC PLC) M fuel') as (T & J). split; [|exact J].
  intros B. apply T in B. destruct (calc_line_bal place' se sn fuel' op st) as [r|]; [exists r; reflexivity|contradiction].
Qed.
Print Assumptions C64_judged.

(** The search used in concrete runs is one the theorem speaks about. *)
Example run_places : places run_place.
Proof.
  intros gs g D k. unfold k, run_place. clear k.
  assert (G : first_greater sweep_cmp gs g <= length gs /\ forall j h, j < first_greater sweep_cmp gs g -> nth_error gs j = Some h -> sweep_cmp g h = false).
  { clear D. induction gs as [|h gs IH]; cbn [first_greater length]; [split; [lia|]; intros j h B; lia|]. destruct (sweep_cmp g h) eqn:C; [split; [lia|]; intros j h' B; lia|].
    destruct IH as (IH1 & IH2). split; [lia|]. intros [|j] h' B N; cbn in N; [injection N as <-; exact C|apply (IH2 j h'); [lia|exact N]]. }
  destruct G as (L & G). rewrite Nat.min_l by exact L. set (k := first_greater sweep_cmp gs g) in *. destruct k as [|k]; [left; reflexivity|right].
  cbn [Nat.sub]. rewrite Nat.sub_0_r. destruct (nth_error gs k) as [h|] eqn:N; [|apply nth_error_None in N; lia]. exists h. split; [reflexivity|].
  destruct (sweep_cmp_total h g) as [C|C]; [apply D; eapply nth_error_In; exact N|exact C|]. rewrite (G k h) in C by (lia || exact N). discriminate.
Qed.
Example C64_example : exists st pts' ss, run_split 400 ex_pts rand_seed = Some st /\ length (q_events _ (s_events st)) <= 400 /\
  calc_line_bal run_place run_sort run_sort_new 400 OpUnion st = Some (pts', ss) /\
  length ss = 13 /\ option_map c_state (nth_error pts' 2) = Some (Res LSkeep) /\ option_map c_state (nth_error pts' 5) = Some (Res LSdiscard).
Proof.
  do 3 eexists. split; [vm_compute; reflexivity|]. split; [apply Nat.leb_le; vm_compute; reflexivity|]. split; [vm_compute; reflexivity|]. vm_compute. auto.
Qed.

(** C65: the lines after splitting are the edges of a family of polygons, and each judged
    line is kept, reversed or dropped as the winding numbers of that family, on both sides of the
    line, demand. Partial: for a line that no other line overlaps, if no line has two equal ends. *)
Theorem C65_family : forall isect place sort_events sort_new draws fuel pts rand st,
  sorts event_lt sort_events -> sorts (lt_new _ _ (fun e => e) event_lt) sort_new -> proper_loops pts ->
  self_intersection isect place sort_events sort_new draws fuel pts rand = Some st ->
  exists F, Permutation (map (fun l => (ln_set l, ln_e l)) (lines (s_pts st))) (family_edges F).
Proof.
  intros isect place se sn draws fuel pts rand st SE SN PL H. apply proper_family.
  destruct (self_intersection_ok pts isect place se sn draws SE SN fuel rand st PL H) as (s & all & u & O & _). apply O.
Qed.
Print Assumptions C65_family.

Lemma lines_index pts : map ln_i (lines pts) = seq 0 (length pts).
Proof.
  unfold lines. rewrite map_map. cbn [ln_i]. assert (G : forall (l : list cpoint) k, map (fun ip : nat * cpoint => fst ip) (combine (seq k (length l)) l) = seq k (length l)) by (induction l; intros k; cbn; [reflexivity|]; f_equal; auto).
  apply G.
Qed.
Theorem C65_region_partial : forall isect place place' sort_events sort_new draws fuel fuel' pts rand st op pts' ss F l1 p,
  sorts event_lt sort_events -> sorts (lt_new _ _ (fun e => e) event_lt) sort_new -> places place -> proper_loops pts ->
  self_intersection isect place sort_events sort_new draws fuel pts rand = Some st ->
  calc_line_bal place' sort_events sort_new fuel' op st = Some (pts', ss) ->
  Permutation (map (fun l => (ln_set l, ln_e l)) (lines (s_pts st))) (family_edges F) ->
  In l1 (lines (s_pts st)) -> nth_error (s_pts st) (ln_i l1) = Some p -> c_state p = Check ->
  (forall l, In l (lines (s_pts st)) -> fst (ln_e l) <> snd (ln_e l)) ->
  (forall l, In l (lines (s_pts st)) -> ln_i l <> ln_i l1 -> ~ edges_overlap (ln_e l1) (ln_e l)) ->
  exists p' r, nth_error pts' (ln_i l1) = Some p' /\ c_state p' = Res r /\
  exists N0, forall N, (N0 <= N)%Z -> exists ws wc ws' wc',
    let a := fst (ln_e l1) in let d := psub (snd (ln_e l1)) (fst (ln_e l1)) in
    winds F Subject N (left_near N a d) ws /\ winds F Clip N (left_near N a d) wc /\
    winds F Subject N (right_near N a d) ws' /\ winds F Clip N (right_near N a d) wc' /\
    fate_of r = wanted (selected op ws wc) (selected op ws' wc').
Proof.
  intros isect place place' se sn draws fuel fuel' pts rand st op pts' ss F l1 p SE SN PLC PL H CB PF I1 NP CK ND NO.
  destruct (C64_judged isect place place' se sn draws fuel fuel' pts rand st op SE SN PLC PL H) as (_ & J). destruct (J _ _ CB) as (_ & _ & _ & JI & JG).
  assert (S : In (ln_i l1) (map fst ss)) by (apply JI; exists p; auto). apply in_map_iff in S as ((i, hits) & Q & S). cbn [fst] in Q. subst i.
  destruct (JG _ _ S) as (l & ck & p' & IL & EL & NCK & ICK & NP' & ST & _).
  destruct (self_intersection_ok pts isect place se sn draws SE SN fuel rand st PL H) as (s & all & u & O & M & FC). destruct (final_of _ _ _ _ _ O (FC PLC) M) as (L & FIN & _).
  assert (l = l1) by exact (lines_inj _ _ _ FIN _ _ IL I1 EL).
  subst l. exists p', (line_result op l1 ck). split; [exact NP'|]. split; [exact ST|].
  apply (edge_boundary F (lines (s_pts st)) l1 ck op); try assumption. rewrite lines_index. apply seq_NoDup.
Qed.
Print Assumptions C65_region_partial.

(** Lines that are not parallel do not overlap. *)
Lemma cross_no_overlap e1 e2 : dir_cross (fst e1) (snd e1) (fst e2) (snd e2) <> 0%Z -> ~ edges_overlap e1 e2.
Proof.
  intros C (X & Y & X' & Y' & (t & _ & X1 & Y1) & (u & _ & X2 & Y2) & (t' & _ & X3 & Y3) & (u' & _ & X4 & Y4) & N). apply N. clear N.
  set (dx := inject_Z (px (snd e1) - px (fst e1))) in *. set (dy := inject_Z (py (snd e1) - py (fst e1))) in *.
  set (ex := inject_Z (px (snd e2) - px (fst e2))) in *. set (ey := inject_Z (py (snd e2) - py (fst e2))) in *.
  assert (H1 : ((t - t') * dx == (u - u') * ex)%Q).
  { transitivity (X - X')%Q; [rewrite X1, X3; ring|rewrite X2, X4; ring]. }
  assert (H2 : ((t - t') * dy == (u - u') * ey)%Q).
  { transitivity (Y - Y')%Q; [rewrite Y1, Y3; ring|rewrite Y2, Y4; ring]. }
  assert (H3 : ((t - t') * (dx * ey - dy * ex) == 0)%Q).
  { transitivity (((t - t') * dx) * ey - ((t - t') * dy) * ex)%Q; [ring|]. rewrite H1, H2. ring. }
  apply Qmult_integral in H3 as [H3|H3].
  - assert (T : (t == t')%Q) by (rewrite <- (Qplus_0_l t'), <- H3; ring). rewrite X1, X3, Y1, Y3, T. split; reflexivity.
  - exfalso. apply C. unfold dir_cross. unfold dx, dy, ex, ey in H3. rewrite <- !inject_Z_mult in H3. unfold Qminus in H3. rewrite <- inject_Z_opp, <- inject_Z_plus in H3.
    unfold Qeq in H3. cbn [Qnum Qden inject_Z] in H3. lia.
Qed.
Definition apart_check (ls : list line) (l1 : line) : bool :=
  forallb (fun l => negb (px (fst (ln_e l)) =? px (snd (ln_e l)))%Z || negb (py (fst (ln_e l)) =? py (snd (ln_e l)))%Z) ls &&
  forallb (fun l => (ln_i l =? ln_i l1) || negb (dir_cross (fst (ln_e l1)) (snd (ln_e l1)) (fst (ln_e l)) (snd (ln_e l)) =? 0)%Z) ls.
Lemma apart_ok ls l1 : apart_check ls l1 = true ->
  (forall l, In l ls -> fst (ln_e l) <> snd (ln_e l)) /\ (forall l, In l ls -> ln_i l <> ln_i l1 -> ~ edges_overlap (ln_e l1) (ln_e l)).
Proof.
  intros H. apply andb_prop in H as (A & B). rewrite forallb_forall in A, B. split.
  - intros l I Q. specialize (A l I). rewrite Q, !Z.eqb_refl in A. discriminate.
  - intros l I N. apply cross_no_overlap. specialize (B l I). apply Nat.eqb_neq in N. rewrite N in B. cbn [orb] in B. apply negb_true_iff, Z.eqb_neq in B. exact B.
Qed.
Example C65_example : exists st pts' ss F l1 l2,
  proper_loops ex_pts /\ self_intersection intersects run_place run_sort run_sort_new interior 400 ex_pts rand_seed = Some st /\ calc_line_bal run_place run_sort run_sort_new 400 OpUnion st = Some (pts', ss) /\
  Permutation (map (fun l => (ln_set l, ln_e l)) (lines (s_pts st))) (family_edges F) /\
  (forall l, l = l1 \/ l = l2 -> In l (lines (s_pts st)) /\ option_map c_state (nth_error (s_pts st) (ln_i l)) = Some Check /\
    (forall l', In l' (lines (s_pts st)) -> fst (ln_e l') <> snd (ln_e l')) /\ (forall l', In l' (lines (s_pts st)) -> ln_i l' <> ln_i l -> ~ edges_overlap (ln_e l) (ln_e l'))) /\
  option_map c_state (nth_error pts' (ln_i l1)) = Some (Res LSdiscard) /\ option_map c_state (nth_error pts' (ln_i l2)) = Some (Res LSkeep).
Proof.
  destruct (self_intersection intersects run_place run_sort run_sort_new interior 400 ex_pts rand_seed) as [st|] eqn:E; [|vm_compute in E; discriminate].
  destruct (C65_family intersects run_place run_sort run_sort_new interior 400 ex_pts rand_seed st (proj1 run_sorts) (proj2 run_sorts) ex_proper E) as (F & PF).
  assert (H : match self_intersection intersects run_place run_sort run_sort_new interior 400 ex_pts rand_seed with
    | Some st => match calc_line_bal run_place run_sort run_sort_new 400 OpUnion st, nth_error (lines (s_pts st)) 12, nth_error (lines (s_pts st)) 13 with
        | Some (pts', ss), Some l1, Some l2 =>
            apart_check (lines (s_pts st)) l1 && apart_check (lines (s_pts st)) l2 &&
            match option_map c_state (nth_error (s_pts st) (ln_i l1)), option_map c_state (nth_error (s_pts st) (ln_i l2)), option_map c_state (nth_error pts' (ln_i l1)), option_map c_state (nth_error pts' (ln_i l2)) with
            | Some Check, Some Check, Some (Res LSdiscard), Some (Res LSkeep) => true | _, _, _, _ => false end
        | _, _, _ => false end
    | None => false end = true) by (vm_compute; reflexivity).
  rewrite E in H. destruct (calc_line_bal run_place run_sort run_sort_new 400 OpUnion st) as [(pts', ss)|] eqn:EC; [|discriminate].
  destruct (nth_error (lines (s_pts st)) 12) as [l1|] eqn:N1; [|discriminate]. destruct (nth_error (lines (s_pts st)) 13) as [l2|] eqn:N2; [|discriminate].
  apply andb_prop in H as (H & S). apply andb_prop in H as (A1 & A2).
  exists st, pts', ss, F, l1, l2. split; [exact ex_proper|]. split; [reflexivity|]. split; [exact EC|]. split; [exact PF|]. clear E EC PF.
  destruct (option_map c_state (nth_error (s_pts st) (ln_i l1))) as [[| |[]]|] eqn:S1; try discriminate; destruct (option_map c_state (nth_error (s_pts st) (ln_i l2))) as [[| |[]]|] eqn:S2; try discriminate.
  split.
  - intros l [->| ->]; (split; [eapply nth_error_In; eassumption|]); (split; [assumption|]); apply apart_ok; assumption.
  - destruct (option_map c_state (nth_error pts' (ln_i l1))) as [[| |[]]|]; try discriminate; destruct (option_map c_state (nth_error pts' (ln_i l2))) as [[| |[]]|]; try discriminate. auto.
Qed.
