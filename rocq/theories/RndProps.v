(** Lines never cross in the result of a sweep with rounded crossing points, and the result of an
    operation encloses what it selects. *)
From Coq Require Import ZArith QArith List Bool Arith Permutation Lia.
From Verif Require Import GeomModel GeomSpec BalanceModel EventsModel EventsSpec EventsProofs WindSpec OutModel ClipModel ClipSpec ClipProofs SweepProofs PointSinkModel PointSinkSpec JoinSpec ClipProps JudgeProps ArrangeSpec RegionProps
  SegSpec SegClean SegProps WholeProofs WholeRuns WholeCore WholeTotal WholeSpec WholeInput WholeProps TotalSpec TotalEnds TotalProps ExactProofs GeneralProofs GeneralExact GeneralProps DynSpec RndSpec RndFinal.
Import ListNotations.
Local Open Scope nat_scope.

(** C44: whatever the rounding of the crossing points, the lines that splitting leaves have the
    same ends or meet only where both end. Missing: sweeps during which a loop comes to go back
    along its own line. *)
Theorem C44_rounded_partial : forall place sort_events sort_new draws fuel pts rand st,
  sorts event_lt sort_events -> sorts (lt_new _ _ (fun e => e) event_lt) sort_new -> finds place -> places place ->
  proper_loops pts -> (forall i P Q, SegSpec.edge_of pts i P Q -> P <> Q) ->
  never_goes_back (sweep_step intersects place sort_events sort_new draws) pts rand ->
  self_intersection intersects place sort_events sort_new draws fuel pts rand = Some st ->
  SegSpec.apart (s_pts st) /\ marked (s_pts st) (s_pts st).
Proof. intros place se sn draws fuel pts rand st SE SN FI PLC PL NZ NB H. exact (rounded_final place se sn draws SE SN PLC FI pts PL NZ fuel rand st NB H). Qed.
Print Assumptions C44_rounded_partial.

(** C70: the operation gives a result, and its polygons wind once around the points that are
    selected by the split loops and not around the others. Missing: as above. *)
Theorem C70_rounded_partial : forall place sort_events sort_new draws fuel op tree pt rand ps,
  sorts event_lt sort_events -> sorts (lt_new _ _ (fun e => e) event_lt) sort_new -> finds place -> places place ->
  plain_input None ps ->
  never_goes_back (sweep_step intersects place sort_events sort_new draws) (stored (rings 0 ps)) rand ->
  let n := length (all_edges ps) in let t := all_steps ps in
  (t - n) * (8 * t + 2) + 4 * t <= fuel -> t * (2 + t) <= fuel ->
  exists c log st fps loops ss merged r Ls,
    add_all clip_new [] pt ps = Done (c, log) /\
    self_intersection intersects place sort_events sort_new draws fuel (stored (cs_points c)) rand = Some st /\
    do_op intersects place sort_events sort_new draws fuel op tree (stored (cs_points c)) rand = Some (fps, loops, ss, s_log st, merged, r) /\
    Forall2 (fun loc L => L <> [] /\ iterate_loop fps (fst loc) (snd loc) = Some L) loops Ls /\
    encloses op (s_pts st) (flat_map (loop_lines fps) Ls).
Proof.
  intros place se sn draws fuel op tree pt rand ps SE SN FI PLC PI NB n t F1 F2.
  destruct (C70_region_partial place se sn draws fuel op tree pt rand ps SE SN PLC PI F1 F2) as (c & log & st & A & R & H).
  destruct (add_rings ps clip_new [] pt None eq_refl) as (c' & log' & A' & P & _); [intros p (m & b & E & _); destruct m; discriminate|exact PI|]. cbn [clip_new cs_points app length] in P. rewrite A in A'. injection A' as <- <-.
  assert (X : SegSpec.apart (s_pts st) /\ marked (s_pts st) (s_pts st)).
  { rewrite P in R. eapply C44_rounded_partial; [exact SE|exact SN|exact FI|exact PLC|exact (poly_proper ps)|exact (poly_nonzero ps)|exact NB|exact R]. }
  destruct X as (AP & MK). destruct (H AP MK) as (fps & loops & ss & merged & r & Ls & D & F & E & _). exists c, log, st, fps, loops, ss, merged, r, Ls. auto 10.
Qed.
Print Assumptions C70_rounded_partial.

(** * A case with rounding *)
Section Check.
Variable step : cstate -> option cstate.
Definition on_check (pts : list cpoint) : bool :=
  forallb (fun p => match nth_error pts (c_next p) with None => true | Some q => match nth_error pts (c_next q) with None => true | Some r =>
    let p := c_data p in let q := c_data q in let r := c_data r in
    negb (((px q - px p) * (py r - py q) =? (py q - py p) * (px r - px q)) && ((px q - px p) * (px r - px q) + (py q - py p) * (py r - py q) <? 0))%Z end end) pts.
Lemma on_ok pts : on_check pts = true -> loops_go_on pts.
Proof.
  intros H i p q r N1 N2 N3 (G1 & G2). unfold on_check in H. rewrite forallb_forall in H. specialize (H p (nth_error_In _ _ N1)). rewrite N2, N3 in H. cbn zeta in H. apply Z.eqb_eq in G1. apply Z.ltb_lt in G2. rewrite G1, G2 in H. discriminate.
Qed.
Fixpoint run_check (fuel : nat) (st : cstate) : bool :=
  on_check (s_pts st) && (if more _ (s_events st) then match fuel with 0 => false | S f => match step st with None => true | Some st1 => run_check f st1 end end else true).
Lemma run_ok fuel : forall st, run_check fuel st = true -> forall st2, visits step st st2 -> loops_go_on (s_pts st2).
Proof.
  induction fuel as [|f IH]; intros st H st2 V; cbn [run_check] in H; apply andb_prop in H as (H1 & H2); inversion V as [|? st1 ? M E V']; subst; try (apply on_ok; exact H1); rewrite M in H2; [discriminate|]. rewrite E in H2. apply (IH st1 H2 st2 V').
Qed.
Lemma never_ok fuel pts rand : (match add_lines (mk_cs pts [] (q_empty _) [] rand []) (length pts) 0 with Some st1 => run_check fuel st1 | None => true end) = true -> never_goes_back step pts rand.
Proof. intros H st1 st2 A V. rewrite A in H. exact (run_ok fuel st1 H st2 V). Qed.
End Check.

(** Two triangles; most of their crossings do not have whole coordinates. *)
Definition star : polygons := [(Subject, [(0, 0); (7, 3); (2, 6)]); (Clip, [(0, 5); (6, 0); (5, 6)])]%Z.
Lemma star_plain : plain_input None star.
Proof.
  cbn [plain_input star]. repeat match goal with |- _ /\ _ => split | |- _ <> 1 => discriminate | |- ~ trailing_repeat _ => apply no_trailing; reflexivity | |- True => exact I end; intros p H; unfold first_is in H; cbn in H; injection H as <-; vm_compute; discriminate.
Qed.
Example star_steps : all_steps star = 50 /\ length (all_edges star) = 6.
Proof. split; vm_compute; reflexivity. Qed.
Definition star_fuel : nat := (50 - 6) * (8 * 50 + 2) + 4 * 50.
(** Twelve new points; the one at (4, 2) is not on the edge from (0, 5) to (6, 0) that it splits. *)
Example star_splits : option_map (fun st => map c_data (skipn 6 (s_pts st))) (run_split star_fuel (stored (rings 0 star)) rand_seed) =
  Some [(2, 4); (2, 4); (2, 5); (2, 5); (4, 2); (4, 2); (3, 6); (3, 6); (6, 4); (6, 4); (6, 2); (6, 2)]%Z.
Proof. vm_compute. reflexivity. Qed.
Example star_rounded : triangle_winding (0, 5)%Z (6, 0)%Z (4, 2)%Z <> 0%Z.
Proof. discriminate. Qed.
Lemma star_never : never_goes_back (sweep_step intersects run_place run_sort run_sort_new interior) (stored (rings 0 star)) rand_seed.
Proof. apply (never_ok _ 400). vm_compute. reflexivity. Qed.
Example star_region : exists c log st fps loops ss merged r Ls,
  add_all clip_new [] false star = Done (c, log) /\
  self_intersection intersects run_place run_sort run_sort_new interior star_fuel (stored (cs_points c)) rand_seed = Some st /\
  do_op intersects run_place run_sort run_sort_new interior star_fuel OpXor false (stored (cs_points c)) rand_seed = Some (fps, loops, ss, s_log st, merged, r) /\
  Forall2 (fun loc L => L <> [] /\ iterate_loop fps (fst loc) (snd loc) = Some L) loops Ls /\
  encloses OpXor (s_pts st) (flat_map (loop_lines fps) Ls).
Proof.
  destruct run_sorts as (S1 & S2).
  apply (C70_rounded_partial run_place run_sort run_sort_new interior star_fuel OpXor false false rand_seed star S1 S2 first_greater_finds run_places star_plain star_never); apply Nat.leb_le; vm_compute; reflexivity.
Qed.
