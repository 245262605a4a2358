(** Proofs that the rasteriser finishes, with no assertion failing, when no edges cross. *)
From Coq Require Import List Bool Arith ZArith QArith Permutation Sorted Lia Lqa.
From Verif Require Import GeomModel GeomSpec RasterModel RasterSpec RasterArith RasterOrder RasterRun RasterSpans RasterFinal RasterInput.
Import ListNotations.
Local Open Scope Z_scope.

(** ** Two edges on following rows *)
Definition xnum (s : cseg) (y : Z) : Z := px (sg_pa s) * (py (sg_pb s) - y) + px (sg_pb s) * (y - py (sg_pa s)).
Definition tall (s : cseg) : Z := py (sg_pb s) - py (sg_pa s).
Definition down (s : cseg) : Prop := py (sg_pa s) < py (sg_pb s).
Lemma x_intercept_down s y : down s -> x_intercept (sg_pa s) (sg_pb s) y = mk_frac (xnum s y) (tall s).
Proof. unfold down, x_intercept, make_frac, xnum, tall. intros H. destruct (Z.ltb_spec (py (sg_pa s) - py (sg_pb s)) 0); [|lia]. f_equal; ring. Qed.
(** Which of two edges is further right, as an integer. *)
Definition gap (s t : cseg) (y : Z) : Z := xnum s y * tall t - xnum t y * tall s.
Lemma gap_line s t y k : gap s t (y + k) = gap s t y + k * det s t.
Proof. unfold gap, xnum, tall, det. ring. Qed.
Definition tie (s t : cseg) : bool := if Nat.eqb (sg_b s) (sg_b t) then Nat.ltb (sg_a t) (sg_a s) else Nat.ltb (sg_b t) (sg_b s).
Lemma cmp_gap y s t : down s -> down t -> rsweep_cmp y t s = true <->
  gap s t y < 0 \/ (gap s t y = 0 /\ (gap s t (y + 1) < 0 \/ (gap s t (y + 1) = 0 /\ tie t s = true))).
Proof.
  intros S T. unfold rsweep_cmp. rewrite !x_intercept_down by assumption. unfold frac_cmp. cbn [fr_num fr_den]. fold (tie t s).
  unfold gap. destruct (Z.compare_spec (xnum t y * tall s) (xnum s y * tall t)); [|split; [discriminate|lia]|split; [lia|reflexivity]].
  destruct (Z.compare_spec (xnum t (y + 1) * tall s) (xnum s (y + 1) * tall t)); [|split; [discriminate|lia]|split; [lia|reflexivity]].
  split; [intros; right; split; [lia|]; right; split; [lia|assumption]|]. intros [?|(_ & [?|(_ & ?)])]; first [assumption|lia].
Qed.
Lemma gap_top_l s t : gap s t (py (sg_pa s)) = - (tall s * tnum s t).
Proof. unfold gap, xnum, tall, tnum. ring. Qed.
Lemma gap_end_l s t : gap s t (py (sg_pb s)) = tall s * (det s t - tnum s t).
Proof. unfold gap, xnum, tall, tnum, det. ring. Qed.
Lemma gap_top_r s t : gap s t (py (sg_pa t)) = - (tall t * unum s t).
Proof. unfold gap, xnum, tall, unum. ring. Qed.
Lemma gap_end_r s t : gap s t (py (sg_pb t)) = tall t * (det s t - unum s t).
Proof. unfold gap, xnum, tall, unum, det. ring. Qed.

(** An order of two edges that changes between rows comes from a crossing. *)
Lemma keep_order y s t : down s -> down t -> active y s = true -> active y t = true -> active (y + 1) s = true -> active (y + 1) t = true ->
  (forall X Y, ~ cross_at s t X Y) -> rsweep_cmp y t s = false -> rsweep_cmp (y + 1) t s = false.
Proof.
  intros S T A1 A2 A3 A4 NX C. unfold active in *. rewrite andb_true_iff, Z.leb_le, Z.ltb_lt in A1, A2, A3, A4.
  apply not_true_is_false. intros C'. apply (cmp_gap _ _ _ S T) in C'. assert (NC : ~ rsweep_cmp y t s = true) by congruence. rewrite (cmp_gap _ _ _ S T) in NC. clear C.
  assert (L1 : gap s t (y + 1) = gap s t y + det s t) by (rewrite gap_line; ring). assert (L2 : gap s t (y + 1 + 1) = gap s t (y + 1) + det s t) by (rewrite gap_line; ring).
  assert (B : 0 < gap s t y /\ gap s t (y + 1) <= 0).
  { destruct C' as [C'|(C0 & [C'|(C1 & C2)])]; lia. }
  assert (P : forall z, z <= y -> 0 < gap s t z). { intros z Z. replace z with (y + (z - y)) by ring. rewrite gap_line. nia. }
  assert (M : forall z, y + 1 < z -> gap s t z < 0). { intros z Z. replace z with (y + 1 + (z - y - 1)) by ring. rewrite gap_line. nia. }
  pose proof (P _ (proj1 A1)) as P1. pose proof (P _ (proj1 A2)) as P2. pose proof (M _ (proj2 A3)) as M1. pose proof (M _ (proj2 A4)) as M2.
  rewrite gap_top_l in P1. rewrite gap_top_r in P2. rewrite gap_end_l in M1. rewrite gap_end_r in M2. unfold down in S, T.
  assert (HS : 0 < tall s) by (unfold tall; lia). assert (HT : 0 < tall t) by (unfold tall; lia).
  destruct (cross_sound s t) as (X & CR); [right; split; [lia|nia]|right; split; [lia|nia]|]. exact (NX _ _ CR).
Qed.

(** The order of a row. *)
Definition rkey (y : Z) (s : cseg) : Q * (Q * (nat * nat)) := (place y s, (place (y + 1) s, (sg_b s, sg_a s))).
Definition rcmp := lex Qcompare (lex Qcompare (lex Nat.compare Nat.compare)).
Lemma rcmp_good : good_cmp rcmp.
Proof. repeat apply lex_good; auto using Q_good, nat_good. Qed.
Lemma sweep_key y s t : down s -> down t -> rsweep_cmp y s t = match rcmp (rkey y s) (rkey y t) with Gt => true | _ => false end.
Proof.
  unfold down. intros S T. unfold rsweep_cmp, rcmp, rkey, place. rewrite !frac_cmp_val by (apply x_intercept_valid; lia).
  unfold lex at 1. cbn [fst snd].
  assert (E : forall z, (frac_val (x_intercept (sg_pa s) (sg_pb s) z) ?= frac_val (x_intercept (sg_pa t) (sg_pb t) z))%Q = (line_x (sg_pa s) (sg_pb s) (inject_Z z) ?= line_x (sg_pa t) (sg_pb t) (inject_Z z))%Q) by (intros z; rewrite !x_intercept_val by lia; reflexivity).
  rewrite !E. destruct (line_x (sg_pa s) (sg_pb s) (inject_Z y) ?= line_x (sg_pa t) (sg_pb t) (inject_Z y))%Q; try reflexivity.
  unfold lex at 1. cbn [fst snd]. destruct (line_x (sg_pa s) (sg_pb s) (inject_Z (y + 1)) ?= line_x (sg_pa t) (sg_pb t) (inject_Z (y + 1)))%Q; try reflexivity.
  unfold lex. cbn [fst snd]. destruct (Nat.compare_spec (sg_b s) (sg_b t)) as [H|H|H].
  - rewrite H, Nat.eqb_refl. destruct (Nat.compare_spec (sg_a s) (sg_a t)), (Nat.ltb_spec (sg_a t) (sg_a s)); try reflexivity; lia.
  - destruct (Nat.eqb_spec (sg_b s) (sg_b t)); [lia|]. destruct (Nat.ltb_spec (sg_b t) (sg_b s)); [lia|reflexivity].
  - destruct (Nat.eqb_spec (sg_b s) (sg_b t)); [lia|]. destruct (Nat.ltb_spec (sg_b t) (sg_b s)); [reflexivity|lia].
Qed.
Lemma cmp_irrefl y s : down s -> rsweep_cmp y s s = false.
Proof. intros S. rewrite sweep_key by assumption. pose proof (gc_sym _ rcmp_good (rkey y s) (rkey y s)) as H. destruct (rcmp (rkey y s) (rkey y s)); cbn in H; congruence. Qed.
Lemma cmp_asym y s t : down s -> down t -> rsweep_cmp y s t = true -> rsweep_cmp y t s = false.
Proof. intros S T. rewrite !sweep_key by assumption. rewrite (gc_sym _ rcmp_good (rkey y s) (rkey y t)). destruct (rcmp (rkey y s) (rkey y t)); cbn; congruence. Qed.
Lemma cmp_trans y s t u : down s -> down t -> down u -> rsweep_cmp y t s = false -> rsweep_cmp y u t = false -> rsweep_cmp y u s = false.
Proof.
  intros S T U. rewrite !sweep_key by assumption. intros A B. pose proof (gc_trans _ rcmp_good (rkey y u) (rkey y t) (rkey y s)) as G.
  destruct (rcmp (rkey y t) (rkey y s)), (rcmp (rkey y u) (rkey y t)), (rcmp (rkey y u) (rkey y s)); try congruence; exfalso; apply G; congruence.
Qed.

Section Ends.
Variable sort_events : list revent -> list revent.
Variable sort_new : list (revent * nat) -> list (revent * nat).
Hypothesis SE : sorts_valid valid revent_lt sort_events.
Hypothesis SN : sorts_valid (fun en => valid (fst en)) new_lt sort_new.
Variable pts : list rpoint.
Variable wbits width height : Z.
Variable es : list cseg.
Hypothesis ES : Forall (fun s => py (sg_pa s) < py (sg_pb s)) es.
Hypothesis EP : edges_from pts 0 pts = Some es.
Hypothesis GD : forall s, In s es -> exists m, goes_down pts s = Some m.
Hypothesis NX : forall s t X Y, In s es -> In t es -> ~ cross_at s t X Y.

Notation rnext := (rnext sort_events sort_new).
Notation edge_at := (edge_at es).
Notation settled := (settled es).
Notation event_loop := (event_loop sort_events sort_new).

Lemma edge_in n s : edge_at n = Some s -> In s es.
Proof. destruct n; [discriminate|]. cbn. apply nth_error_In. Qed.
Lemma edge_down n s : edge_at n = Some s -> down s.
Proof. intros E. apply edge_in in E. rewrite Forall_forall in ES. exact (ES s E). Qed.
Lemma edge_node n s : edge_at n = Some s -> nth_error (dummy_node :: es) n = Some s.
Proof. destruct n; [discriminate|]. auto. Qed.
Lemma no_swap s t : In s es -> In t es -> rintersects s t = None.
Proof.
  intros I J. destruct (rintersects s t) as [w|] eqn:E; [|reflexivity]. exfalso. apply rintersects_eq in E as (_ & A & B & _).
  destruct (cross_sound s t A B) as (X & C). exact (NX _ _ _ _ I J C).
Qed.

(** The order of the sweep. *)
Definition members (l : list nat) : Prop := forall n, In n l -> exists s, edge_at n = Some s.
Definition ordered (y : Z) (l : list nat) : Prop :=
  StronglySorted (fun i j => forall s t, edge_at i = Some s -> edge_at j = Some t -> rsweep_cmp y t s = false) l.
Lemma ordered_consistent y l : members l -> ordered y l -> consistent (dummy_node :: es) y l = true.
Proof.
  intros M O. unfold consistent. induction O as [|i l O IH F]; [reflexivity|]. destruct (M i) as (s & E); [left; reflexivity|].
  rewrite !andb_true_iff. split; [split|apply IH; intros n I; apply M; right; exact I].
  - rewrite (edge_node _ _ E), cmp_irrefl by (apply (edge_down _ _ E)). reflexivity.
  - apply forallb_forall. intros j J. rewrite Forall_forall in F. destruct (M j) as (t & E'); [right; exact J|]. rewrite (edge_node _ _ E), (edge_node _ _ E'), (F j J s t E E'). reflexivity.
Qed.
Lemma insert_exists y n s l : members l -> exists l', insert_sorted (dummy_node :: es) y n s l = Some l'.
Proof.
  induction l as [|x l IH]; intros M; cbn [insert_sorted]; [eauto|]. destruct (M x) as (t & E); [left; reflexivity|]. rewrite (edge_node _ _ E).
  destruct (rsweep_cmp y s t); [eauto|]. destruct IH as (l' & E'); [intros k K; apply M; right; exact K|]. rewrite E'. cbn. eauto.
Qed.
Lemma insert_ordered y n s : edge_at n = Some s -> forall l l', members l -> ordered y l -> insert_sorted (dummy_node :: es) y n s l = Some l' -> ordered y l'.
Proof.
  intros EN. pose proof (edge_down _ _ EN) as DN. induction l as [|x l IH]; intros l' M O; cbn [insert_sorted]; [intros E; injection E as <-; constructor; constructor|].
  destruct (M x) as (t & E); [left; reflexivity|]. rewrite (edge_node _ _ E). pose proof (edge_down _ _ E) as DT. apply StronglySorted_inv in O as (O & F). rewrite Forall_forall in F.
  destruct (rsweep_cmp y s t) eqn:C.
  - intros E'. injection E' as <-. constructor; [constructor; [exact O|apply Forall_forall; exact F]|]. apply Forall_forall. intros j J a b A B. rewrite EN in A. injection A as <-.
    pose proof (cmp_asym y s t DN DT C) as C'. destruct J as [<-|J]; [rewrite E in B; injection B as <-; exact C'|]. exact (cmp_trans y s t b DN DT (edge_down _ _ B) C' (F j J t b E B)).
  - destruct (insert_sorted (dummy_node :: es) y n s l) as [l0|] eqn:E0; [|discriminate]. cbn. intros E'. injection E' as <-.
    constructor; [apply (IH l0); [intros k K; apply M; right; exact K|exact O|reflexivity]|]. apply Forall_forall. intros j J a b A B.
    apply (Permutation_in _ (insert_sorted_perm _ _ _ _ _ _ E0)) in J as [<-|J]; [|exact (F j J a b A B)]. rewrite E in A. injection A as <-. rewrite EN in B. injection B as <-. exact C.
Qed.
Lemma filter_ordered y f l : ordered y l -> ordered y (filter f l).
Proof.
  induction 1 as [|i l O IH F]; cbn; [constructor|]. destruct (f i); [|exact IH]. constructor; [exact IH|]. rewrite Forall_forall in F |- *. intros j J. apply filter_In in J as (J & _). exact (F j J).
Qed.
Lemma next_ordered y l : (forall n s, In n l -> edge_at n = Some s -> active (y - 1) s = true /\ active y s = true) -> ordered (y - 1) l -> ordered y l.
Proof.
  intros A. induction 1 as [|i l O IH F]; constructor; [apply IH; intros n s I; apply A; right; exact I|]. rewrite Forall_forall in F |- *. intros j J s t E E'.
  destruct (A i s) as (A1 & A2); [left; reflexivity|exact E|]. destruct (A j t) as (A3 & A4); [right; exact J|exact E'|].
  replace y with (y - 1 + 1) by ring. apply keep_order; try (replace (y - 1 + 1) with y by ring); try assumption; try (eapply edge_down; eassumption); [|exact (F j J s t E E')].
  intros X Y. apply NX; eapply edge_in; eassumption.
Qed.

(** ** One event *)
Definition calm (st : rstate) (L : list revent) (c : nat) : Prop := settled st L c /\ (forall e, In e L -> is_swap e = false).
Lemma calm_members st L c : calm st L c -> members (rs_sweep st).
Proof. intros (ST & _) n I. apply (se_in _ _ _ _ ST) in I as (s & E & _). eauto. Qed.
Lemma neighbours_in n l m : next_of n l = Some m \/ prev_of n l = Some m -> In m l.
Proof.
  induction l as [|a [|b l] IH]; cbn [next_of prev_of]; try (intros [?|?]; discriminate). intros [H|H].
  - destruct (Nat.eqb a n); [injection H as <-; right; left; reflexivity|]. right. apply IH. auto.
  - destruct (Nat.eqb b n); [injection H as <-; left; reflexivity|]. right. apply IH. auto.
Qed.
Lemma check_none st i j y s t : rs_nodes st = dummy_node :: es -> edge_at i = Some s -> edge_at j = Some t -> check_intersection st i j y = Some st.
Proof. intros NO I J. unfold check_intersection. rewrite NO, (edge_node _ _ I), (edge_node _ _ J), no_swap by (eapply edge_in; eassumption). reflexivity. Qed.

Lemma back_calm st L c x : calm st L c -> nth_error L c = Some x -> re_type x = RBackward -> exists st1, on_backward st x = Some st1 /\
  rs_events st1 = rs_events st /\ rs_ok st1 = rs_ok st /\ rs_sweep st1 = erase_node (re_node x) (rs_sweep st).
Proof.
  intros (ST & NS) N T. assert (IB : In x (base es)) by (apply (in_base_nonswap es L); [apply ST|eapply nth_error_In; exact N|apply NS; eapply nth_error_In; exact N]).
  apply base_edge in IB as (s & E & [X|X]); [exfalso; rewrite X in T; discriminate|]. set (n := re_node x) in *.
  assert (IN : In n (rs_sweep st)).
  { apply (se_in _ _ _ _ ST). exists s. split; [exact E|]. split.
    - destruct (edge_fwd es n s E) as (IF & _). apply (Permutation_in _ (Permutation_sym (se_base _ _ _ _ ST))) in IF. apply filter_In in IF as (IF & _).
      rewrite <- (firstn_skipn c L) in IF. apply in_app_or in IF as [IF|IF]; [exact IF|exfalso].
      apply In_nth_error in IF as (i & I). rewrite nth_skipn in I. pose proof (sorted_nth L c (c + i) _ _ (qo_sorted _ _ _ _ (se_queue _ _ _ _ ST)) ltac:(lia) N I) as LE.
      apply le_k_lex in LE. rewrite X in LE. unfold ev_h at 1 in LE. cbn [is_swap bwd re_type re_y] in LE. apply lex_ns in LE; [|reflexivity]. cbn in LE. pose proof (edge_down _ _ E) as D. unfold down in D. lia.
    - intros I. apply (nodup_split es L c (se_base _ _ _ _ ST) (bwd n s) eq_refl I). rewrite <- X. apply cur_in_skip. exact N. }
  unfold on_backward. fold n. rewrite (proj2 (existsb_in n (rs_sweep st)) IN). cbn [negb].
  destruct (prev_of n (rs_sweep st)) as [p|] eqn:EP', (next_of n (rs_sweep st)) as [q|] eqn:EQ; try (eexists; split; [reflexivity|auto]).
  assert (exists s1, edge_at p = Some s1) as (s1 & E1) by (apply (calm_members st L c (conj ST NS)); apply (neighbours_in n); auto).
  assert (exists s2, edge_at q = Some s2) as (s2 & E2) by (apply (calm_members st L c (conj ST NS)); apply (neighbours_in n); auto).
  eexists. split; [apply (check_none _ p q _ s1 s2); try assumption; apply ST|]. auto.
Qed.
Lemma fwd_calm y st L c x : calm st L c -> nth_error L c = Some x -> re_type x = RForward -> exists st1 s, on_forward y st x = Some st1 /\
  rs_events st1 = rs_events st /\ rs_ok st1 = rs_ok st /\ edge_at (re_node x) = Some s /\ insert_sorted (dummy_node :: es) y (re_node x) s (rs_sweep st) = Some (rs_sweep st1).
Proof.
  intros (ST & NS) N T. assert (IB : In x (base es)) by (apply (in_base_nonswap es L); [apply ST|eapply nth_error_In; exact N|apply NS; eapply nth_error_In; exact N]).
  apply base_edge in IB as (s & E & [X|X]); [|exfalso; rewrite X in T; discriminate]. set (n := re_node x) in *.
  pose proof (calm_members st L c (conj ST NS)) as M. destruct (insert_exists y n s (rs_sweep st) M) as (sw & IS).
  unfold on_forward. fold n. rewrite (se_nodes _ _ _ _ ST), (edge_node _ _ E), IS.
  assert (M' : members sw). { intros k K. apply (Permutation_in _ (insert_sorted_perm _ _ _ _ _ _ IS)) in K as [<-|K]; [eauto|apply M; exact K]. }
  assert (P : match prev_of n sw with Some p => check_intersection (with_sweep st sw) p n (re_y x) | None => Some (with_sweep st sw) end = Some (with_sweep st sw)).
  { destruct (prev_of n sw) as [p|] eqn:EP'; [|reflexivity]. destruct (M' p) as (t & E1); [apply (neighbours_in n); auto|]. apply (check_none _ p n _ t s); try assumption. apply ST. }
  rewrite P. exists (with_sweep st sw), s. split; [|auto].
  destruct (next_of n sw) as [q|] eqn:EQ; [|reflexivity]. destruct (M' q) as (t & E1); [apply (neighbours_in n); auto|]. apply (check_none _ n q _ s t); try assumption. apply ST.
Qed.
Lemma next_calm st L J c x st2 : queue_ok st L J c -> rs_events st = L -> nth_error L c = Some x -> rnext st = Some st2 -> rs_events st2 = L /\ rs_ok st2 = rs_ok st.
Proof.
  intros Q EV N. assert (CL : (c < length L)%nat) by (apply nth_error_Some; congruence). unfold RasterModel.rnext. cbv zeta. unfold check, with_events. cbn [rs_events rs_last rs_cur rs_sweep rs_nodes rs_ok].
  rewrite EV, (qo_last _ _ _ _ Q), (qo_cur _ _ _ _ Q). destruct (Nat.ltb_spec (length L) (length L)); [lia|]. intros E. injection E as <-. cbn. split; [reflexivity|].
  destruct (Z.ltb_spec (Z.of_nat c) (Z.of_nat (length L))); [apply andb_true_r|lia].
Qed.

(** ** The loops *)
Lemma loop_calm t h y (P : list nat -> Prop) : handler_ok es t h ->
  (forall st L c x, calm st L c -> nth_error L c = Some x -> re_type x = t -> P (rs_sweep st) -> exists st1, h st x = Some st1 /\ rs_events st1 = rs_events st /\ rs_ok st1 = rs_ok st /\ P (rs_sweep st1)) ->
  forall f st L c, calm st L c -> P (rs_sweep st) -> (length L <= c + f)%nat ->
  exists st' c', event_loop t h y f st = Some st' /\ calm st' L c' /\ (c <= c')%nat /\ P (rs_sweep st') /\ rs_ok st' = rs_ok st.
Proof.
  intros H HC. induction f as [|f IH]; intros st L c (ST & NS) HP LF.
  all: pose proof (se_queue _ _ _ _ ST) as Q; cbn [RasterModel.event_loop]; unfold at_end; rewrite (qo_events _ _ _ _ Q), (qo_cur _ _ _ _ Q), app_nil_r.
  all: destruct (Z.leb_spec (Z.of_nat (length L)) (Z.of_nat c)); [exists st, c; unfold calm; auto|].
  { lia. }
  destruct (nth_error L c) as [x|] eqn:N; [|apply nth_error_None in N; lia]. rewrite (current_at st L [] c x Q N).
  destruct (at_or_before x y && is_type t x) eqn:C; [|exists st, c; unfold calm; auto].
  apply andb_true_iff in C as (_ & C2). assert (T : re_type x = t) by (unfold is_type, rtype_eqb in C2; apply Nat.eqb_eq in C2; destruct (re_type x), t; cbn in C2; congruence).
  destruct (HC st L c x (conj ST NS) N T HP) as (st1 & E1 & EV & OK & HP1). rewrite E1.
  destruct (H st L c x st1 ST N T E1) as (J & Q1 & NO & ND & _ & IN).
  assert (EV1 : rs_events st1 = L) by (rewrite EV, (qo_events _ _ _ _ Q); apply app_nil_r).
  destruct (rnext_ok sort_events sort_new SN st1 L J c x Q1 N) as (st2 & _ & E2 & _). rewrite E2.
  destruct (finish sort_events sort_new SN es st st1 L J c x ST N Q1 NO ND IN st2 E2) as (L1 & ST1 & _ & _ & SW).
  destruct (next_calm st1 L J c x st2 Q1 EV1 N E2) as (EV2 & OK2).
  assert (L1 = L) as ->. { pose proof (qo_events _ _ _ _ (se_queue _ _ _ _ ST1)) as EV3. rewrite app_nil_r in EV3. congruence. }
  destruct (IH st2 L (S c) (conj ST1 NS)) as (st' & c' & A1 & A2 & A3 & A4 & A5); [rewrite SW; exact HP1|lia|].
  exists st', c'. split; [exact A1|]. split; [exact A2|]. split; [lia|]. split; [exact A4|congruence].
Qed.

(** ** A row *)
Lemma settled_unique st L c L' c' : settled st L c -> settled st L' c' -> L' = L /\ c' = c.
Proof.
  intros A B. destruct (se_queue _ _ _ _ A) as [E1 _ C1 _ _ _ _ _]. destruct (se_queue _ _ _ _ B) as [E2 _ C2 _ _ _ _ _]. rewrite app_nil_r in E1, E2. split; [congruence|lia].
Qed.
Lemma where_rest st L c n s : settled st L c -> edge_at n = Some s -> ~ In (bwd n s) (firstn c L) -> In (bwd n s) (skipn c L).
Proof.
  intros ST E N. destruct (edge_fwd es n s E) as (_ & IB). apply (Permutation_in _ (Permutation_sym (se_base _ _ _ _ ST))) in IB. apply filter_In in IB as (IB & _).
  rewrite <- (firstn_skipn c L) in IB. apply in_app_or in IB. tauto.
Qed.
Lemma row_calm y f st L c : row_state es y st L c -> calm st L c -> ordered (y - 1) (rs_sweep st) -> (length L <= f)%nat -> rs_ok st = true ->
  exists s1 s2 s3 c3, event_loop RSwap (on_swap f) y f st = Some s1 /\ event_loop RBackward on_backward y f s1 = Some s2 /\
    event_loop RForward (on_forward y) y f s2 = Some s3 /\ row_done es y s3 L c3 /\ calm s3 L c3 /\ ordered y (rs_sweep s3) /\ rs_ok s3 = true.
Proof.
  intros RS CA O LF OK.
  destruct (loop_calm RSwap (on_swap f) y (fun sw => sw = rs_sweep st) (swap_handler es f)) with (f := f) (st := st) (L := L) (c := c) as (s1 & c1 & E1 & CA1 & _ & P1 & OK1); [|exact CA|reflexivity|lia|].
  { intros a L0 b x (_ & NS) N T. exfalso. specialize (NS x (nth_error_In _ _ N)). unfold is_swap in NS. rewrite T in NS. discriminate. }
  destruct (loop_calm RBackward on_backward y (fun sw => ordered (y - 1) sw /\ incl sw (rs_sweep st)) (back_handler es)) with (f := f) (st := s1) (L := L) (c := c1) as (s2 & c2 & E2 & CA2 & _ & (P2 & I2) & OK2); [|exact CA1|rewrite P1; split; [exact O|apply incl_refl]|lia|].
  { intros a L0 b x C N T (A1 & A2). destruct (back_calm a L0 b x C N T) as (a1 & B1 & B2 & B3 & B4). exists a1. split; [exact B1|]. split; [exact B2|]. split; [exact B3|]. rewrite B4. unfold erase_node. split; [apply filter_ordered; exact A1|].
    intros n I. apply filter_In in I as (I & _). auto. }
  assert (O2 : ordered y (rs_sweep s2)).
  { apply next_ordered; [|exact P2]. intros n s I E. destruct RS as (ST & FR & UP).
    destruct (loop_ok sort_events sort_new SN es RSwap (on_swap f) y (swap_handler es f) f st L c s1 ST E1) as (L1 & c1' & ST1 & _ & END1 & F1 & FR1 & _).
    destruct (settled_unique _ _ _ _ _ (proj1 CA1) ST1) as (-> & ->). specialize (FR1 FR).
    destruct (loop_ok sort_events sort_new SN es RBackward on_backward y (back_handler es) f s1 L c1 s2 ST1 E2) as (L2 & c2' & ST2 & _ & END2 & F2 & FR2 & A2 & _).
    destruct (settled_unique _ _ _ _ _ (proj1 CA2) ST2) as (-> & ->).
    pose proof (I2 n I) as I0. apply (se_in _ _ _ _ ST) in I0 as (s' & E' & IF & _). rewrite E in E'. injection E' as <-. pose proof (UP _ IF eq_refl) as U. cbn in U.
    apply (se_in _ _ _ _ ST2) in I as (s' & E' & _ & NB). rewrite E in E'. injection E' as <-. pose proof (where_rest s2 L c2 n s ST2 E NB) as IB.
    assert (NS : forall e, In e L -> is_swap e = false) by apply CA.
    assert (R : y < py (sg_pb s)).
    { assert (AB : above y 0 L c1). { intros e Ie. assert (SW : is_swap e = false) by (apply NS; rewrite <- (firstn_skipn c1 L); apply in_or_app; auto).
        pose proof (FR1 e Ie SW) as Y. unfold lex at 1. cbn [fst snd]. unfold ev_h. rewrite SW. unfold cmp_h, lex. cbn [fst snd].
        destruct (Z.compare_spec y (re_y e)) as [E0|E0|E0]; [|discriminate|lia]. cbn. destruct (rrank (re_type e)); discriminate. }
      specialize (A2 0%nat AB). destruct END2 as [AE|(e & N & [B|B])].
      - rewrite (at_end_rest es _ _ _ ST2 AE) in IB. destruct IB.
      - exact (not_before_fin y L c2 e (qo_sorted _ _ _ _ (se_queue _ _ _ _ ST2)) N (cur_valid es s2 L c2 e ST2 N) B _ IB eq_refl).
      - assert (AB1 : above y 1 L c2).
        { apply (above_next y 1 L c2 e (qo_sorted _ _ _ _ (se_queue _ _ _ _ ST2)) N). pose proof (A2 e (cur_in_skip _ _ _ N)) as G. unfold lex at 1 in G. unfold lex at 1. cbn [fst snd] in *.
          destruct (cmp_h (y, 0%Q) (ev_h e)); try congruence. destruct (re_type e); [congruence|cbn; discriminate|cbn; discriminate]. }
        specialize (AB1 _ IB). apply lex_ns in AB1; [|reflexivity]. cbn in AB1. lia. }
    unfold active. rewrite !andb_true_iff, !Z.leb_le, !Z.ltb_lt. lia. }
  destruct (loop_calm RForward (on_forward y) y (ordered y) (fwd_handler es ES y)) with (f := f) (st := s2) (L := L) (c := c2) as (s3 & c3 & E3 & CA3 & _ & P3 & OK3); [|exact CA2|exact O2|lia|].
  { intros a L0 b x C N T A. destruct (fwd_calm y a L0 b x C N T) as (a1 & s & B1 & B2 & B3 & B4 & B5). exists a1. split; [exact B1|]. split; [exact B2|]. split; [exact B3|]. eapply insert_ordered; try eassumption. eapply calm_members. exact C. }
  exists s1, s2, s3, c3. split; [exact E1|]. split; [exact E2|]. split; [exact E3|].
  destruct (row_ok sort_events sort_new SN es ES y f st L c s1 s2 s3 RS E1 E2 E3) as (L3 & c3' & RD & _).
  destruct (settled_unique _ _ _ _ _ (proj1 CA3) (proj1 RD)) as (-> & ->). split; [exact RD|]. split; [exact CA3|]. split; [exact P3|congruence].
Qed.
Lemma spans_exist y l : members l -> forall w x, exists r, row_spans pts wbits width (dummy_node :: es) y l w x = Some r.
Proof.
  induction l as [|n l IH]; intros M w x; cbn [row_spans]; [eauto|]. destruct (M n) as (s & E); [left; reflexivity|]. rewrite (edge_node _ _ E).
  destruct (GD s (edge_in _ _ E)) as (m & ->). cbv zeta. destruct (IH (fun k K => M k (or_intror K)) (w + (if m then 1 else -1)) (to_coord (x_intercept (sg_pa s) (sg_pb s) y) 0 (hi_x wbits width))) as (r & ->). eauto.
Qed.
Lemma rows_calm f L : (length L <= f)%nat -> forall n y st c, row_state es y st L c -> calm st L c -> ordered (y - 1) (rs_sweep st) -> rs_ok st = true ->
  exists out st', rows sort_events sort_new pts wbits width f n y st = Some (out, st') /\ rs_ok st' = true.
Proof.
  intros LF. induction n as [|n IH]; intros y st c RS CA O OK; cbn [rows]; [eauto|]. destruct (at_end st) eqn:AE; [eauto|].
  destruct (row_calm y f st L c RS CA O LF OK) as (s1 & s2 & s3 & c3 & -> & -> & -> & RD & CA3 & O3 & OK3).
  pose proof (calm_members _ _ _ CA3) as M. pose proof RD as (ST3 & FIN & _). pose proof (se_queue _ _ _ _ ST3) as Q3.
  set (b := _ && consistent (rs_nodes s3) y (rs_sweep s3)). assert (B : b = true).
  { unfold b. rewrite (se_nodes _ _ _ _ ST3), (ordered_consistent y _ M O3), andb_true_r. destruct (nth_error L c3) as [e|] eqn:N.
    - rewrite (current_at s3 L [] c3 e Q3 N). assert (SW : is_swap e = false) by (apply CA; eapply nth_error_In; exact N).
      pose proof (FIN e (cur_in_skip _ _ _ N) SW) as Y. unfold at_or_before. rewrite SW. destruct (Z.leb_spec (re_y e) y); [lia|]. apply orb_true_r.
    - assert (A : at_end s3 = true) by (unfold at_end; rewrite (qo_events _ _ _ _ Q3), (qo_cur _ _ _ _ Q3), app_nil_r; apply Z.leb_le; apply nth_error_None in N; lia).
      rewrite A. destruct (current s3); reflexivity. }
  rewrite B. pose proof (check_state es true s3 L c3 y RD) as RD'. cbv zeta. cbn [rs_nodes rs_sweep check]. rewrite (se_nodes _ _ _ _ ST3).
  assert (exists r, (if 0 <=? y then row_spans pts wbits width (dummy_node :: es) y (rs_sweep s3) 0 0 else Some []) = Some r) as (r & ->) by (destruct (0 <=? y); [apply spans_exist; exact M|eauto]).
  destruct (IH (y + 1) (check true s3) c3 (row_done_next es _ _ _ _ RD')) as (out & st' & E & OK').
  - split; [apply RD'|apply CA].
  - replace (y + 1 - 1) with y by ring. exact O3.
  - cbn. rewrite OK3. reflexivity.
  - rewrite E. eauto.
Qed.
Lemma start_exists : exists y st, scan_start sort_events sort_new pts = Some (y, st) /\ rs_ok st = true /\ rs_sweep st = [] /\
  Permutation (rs_events st) (base es).
Proof.
  unfold scan_start. rewrite EP. fold (base es). unfold RasterModel.rnext. cbv zeta. unfold check, with_events. cbn [rs_events rs_last rs_cur rs_sweep rs_nodes rs_ok Nat.eqb].
  destruct (Nat.ltb_spec 0 (length (base es))) as [LB|LB]; cbn [rs_events rs_last rs_cur rs_sweep rs_nodes rs_ok].
  - destruct (SE (base es) (base_valid es)) as (P & _). match goal with |- context [at_end ?a] => set (st0 := a) end.
    assert (O : rs_ok st0 = true) by (cbn; destruct (Z.ltb_spec (-1) (Z.of_nat (length (base es)))); [reflexivity|lia]).
    assert (LL : (0 < length (sort_events (base es)))%nat) by (rewrite <- (Permutation_length P); exact LB).
    assert (AE : at_end st0 = false) by (apply Z.leb_gt; cbn; lia). rewrite AE.
    assert (CU : current st0 = nth_error (sort_events (base es)) 0) by reflexivity. rewrite CU.
    destruct (sort_events (base es)) as [|x l] eqn:SB; [cbn in LL; lia|]. cbn [nth_error].
    exists (re_y x), st0. split; [reflexivity|]. split; [exact O|]. split; [reflexivity|]. symmetry. first [exact P|rewrite <- SB in P; exact P].
  - assert (base es = []) as -> by (destruct (base es); [reflexivity|cbn in LB; lia]). cbn. do 2 eexists. split; [reflexivity|]. cbn. auto.
Qed.
Lemma base_length : length (base es) = (2 * length es)%nat.
Proof.
  assert (G : forall l k, length (all_events k l) = (2 * length l)%nat); [|apply G].
  induction l as [|s l IH]; intros k; [reflexivity|]. cbn [all_events fb_events app length]. rewrite IH. lia.
Qed.
Lemma scan_calm f : (2 * length es <= f)%nat -> exists out st', scan_all sort_events sort_new pts wbits width height f = Some (out, st') /\ rs_ok st' = true.
Proof.
  intros LF. assert (G : exists out st', scan_rows sort_events sort_new pts wbits width height f = Some (out, st') /\ rs_ok st' = true).
  2:{ destruct G as (out & st' & E & OK). unfold scan_all. rewrite E. eauto. }
  unfold scan_rows. destruct start_exists as (y & st & E & OK & SW & P). rewrite E.
  destruct (start_ok sort_events sort_new SE pts es ES EP y st E) as [(_ & AE)|(L & RS & _)].
  - destruct (Z.to_nat (height - y)); cbn [rows]; [|rewrite AE]; eauto.
  - assert (EL : L = rs_events st). { destruct RS as (ST & _). pose proof (qo_events _ _ _ _ (se_queue _ _ _ _ ST)) as Q. rewrite app_nil_r in Q. congruence. }
    apply (rows_calm f L) with (c := O); try assumption.
    + rewrite EL, (Permutation_length P), base_length. exact LF.
    + split; [apply RS|]. rewrite EL. intros e I. apply (Permutation_in _ P) in I. apply base_nonswap in I. exact I.
    + rewrite SW. constructor.
Qed.
End Ends.

Lemma rnorm_shorter l : (length (polygon_edges (rnorm l)) <= length (polygon_edges l))%nat.
Proof. destruct (rnorm l) as [|p m] eqn:E; [cbn; lia|]. rewrite <- E, rnorm_edges by congruence. lia. Qed.
Lemma scan_ends sort_events sort_new ls wbits width height fuel :
  sorts_valid valid revent_lt sort_events -> sorts_valid (fun en => valid (fst en)) new_lt sort_new ->
  (forall e f, In e (flat_map polygon_edges ls) -> In f (flat_map polygon_edges ls) -> ~ edges_cross e f) ->
  (2 * length (flat_map polygon_edges ls) <= fuel)%nat ->
  exists out st', scan_all sort_events sort_new (radd_loops [] ls) wbits width height fuel = Some (out, st') /\ rs_ok st' = true.
Proof.
  intros SE SN NX LF. destruct (run_edges ls) as (es & EP & ER). pose proof (es_down ls es ER) as ES.
  assert (F : forall s, In s es -> exists e, In e (flat_map polygon_edges ls) /\ edge_rel (radd_loops [] ls) s e).
  { intros s I. assert (G : exists e, In e (polygons ls) /\ edge_rel (radd_loops [] ls) s e).
    { clear -ER I. induction ER as [|s' e l l' H F IH]; [destruct I|]. destruct I as [<-|I]; [exists e; split; [left; reflexivity|exact H]|]. destruct (IH I) as (e' & J & K). exists e'. split; [right; exact J|exact K]. }
    destruct G as (e & J & K). exists e. split; [apply polygons_incl; exact J|exact K]. }
  apply (scan_calm sort_events sort_new SE SN (radd_loops [] ls) wbits width height es ES EP).
  - intros s I. destruct (F s I) as (((a, b), d) & _ & (_ & _ & _ & m & G & _)). eauto.
  - intros s t X Y I J C. destruct (F s I) as (((a, b), d) & I' & (<- & <- & _)). destruct (F t J) as (((a', b'), d') & J' & (<- & <- & _)).
    destruct C as (C1 & C2). apply (NX _ _ I' J'). split; [exact C1|]. exists X, Y. exact C2.
  - assert (length es = length (polygons ls)) by (clear -ER; induction ER; cbn; congruence).
    assert (length (polygons ls) <= length (flat_map polygon_edges ls))%nat. { unfold polygons. clear. induction ls as [|l ls IH]; [cbn; lia|]. cbn [flat_map]. rewrite !app_length. pose proof (rnorm_shorter l). lia. }
    lia.
Qed.

(** A test for the examples. *)
Definition within_b (d t : Z) : bool := ((0 <? d) && (0 <? t) && (t <? d)) || ((d <? 0) && (d <? t) && (t <? 0)).
Lemma within_dec d t : within d t -> within_b d t = true.
Proof. unfold within, within_b. rewrite orb_true_iff, !andb_true_iff, !Z.ltb_lt. tauto. Qed.
Definition as_seg (e : sedge) : cseg := mk_cseg 0 0 (fst (fst e)) (snd (fst e)).
Definition cross_b (e f : sedge) : bool :=
  within_b (det (as_seg e) (as_seg f)) (tnum (as_seg e) (as_seg f)) && within_b (det (as_seg e) (as_seg f)) (unum (as_seg e) (as_seg f)).
Lemma cross_b_ok E : forallb (fun e => forallb (fun f => negb (cross_b e f)) E) E = true -> forall e f, In e E -> In f E -> ~ edges_cross e f.
Proof.
  intros H e f I J C. rewrite forallb_forall in H. specialize (H e I). cbn beta in H. rewrite forallb_forall in H. specialize (H f J). apply negb_true_iff in H.
  destruct e as ((a, b), d), f as ((a', b'), d'). destruct C as (C1 & X & Y & C2).
  assert (C : cross_at (as_seg (a, b, d)) (as_seg (a', b', d')) X Y) by (split; [exact C1|exact C2]).
  apply cross_complete in C as (W1 & W2 & _). apply within_dec in W1, W2. unfold cross_b in H. rewrite W1, W2 in H. discriminate.
Qed.
