(** Properties of the region enclosed by the judged lines. *)
From Coq Require Import ZArith QArith List Bool Arith Lia Permutation.
From Verif Require Import GeomModel GeomSpec BalanceModel WindSpec JoinSpec ArrangeSpec ArrangeCore ArrangeProofs ArrangeSum ArrangeHit ArrangeVertex ArrangeStack ArrangeCheck ArrangeProps ArrangeColumn ArrangeRegion RegionProofs.
Import ListNotations.
Local Open Scope Z_scope.

(** The lines of one set. *)
Definition set_lines (c : bool_set) (ls : list line) : list (point * point) := map ln_e (filter (fun l => bset_eqb (ln_set l) c) ls).
(** The lines put into the output by the judgements. *)
Definition outcome (op : bool_op) (cks : line -> list line) (ls : list line) : list (point * point) := flat_map (fun l => output_of (line_result op l (cks l)) (ln_e l)) ls.
(** The lines es wind w times around the point (px p / k, py p / k). *)
Definition wind_around (k : Z) (p : point) (es : list (point * point)) (w : Z) : Prop := sumZ (map (quarter_turns p) (map (fun e => (scale k (fst e), scale k (snd e))) es)) = 4 * w.
(** The point (px p / k, py p / k) is on no line. *)
Definition off_lines (k : Z) (p : point) (es : list (point * point)) : Prop := forall e, In e es -> ~ on_edge (scale k (fst e), scale k (snd e)) p.

Lemma region_one op ls cks v : arranged ls -> (forall l, In l ls -> column l ls (cks l)) -> (forall l, In l ls -> ~ on_edge (ln_e l) v) ->
  exists ws wc, sumZ (map (quarter_turns v) (set_lines Subject ls)) = 4 * ws /\ sumZ (map (quarter_turns v) (set_lines Clip ls)) = 4 * wc /\
  sumZ (map (quarter_turns v) (outcome op cks ls)) = 4 * f01 (selected op ws wc).
Proof.
  intros AR CO OFF. exists (passing ls Subject v), (passing ls Clip v).
  assert (P : forall c, sumZ (map (quarter_turns v) (set_lines c ls)) = 4 * passing ls c v).
  { intros c. rewrite turns_above.
    - f_equal. unfold set_lines, passing. rewrite tot_map, tot_filter. apply tot_ext. intros m _. change (above_e (ln_e m) v) with (above_pt m v). unfold wt, own. destruct (bset_eqb _ _); cbn [f01]; lia.
    - apply AR.
    - intros e I. unfold set_lines in I. apply in_map_iff in I as (l & <- & I). apply filter_In in I. apply OFF, I. }
  split; [apply P|]. split; [apply P|]. destruct (some_size ls v) as (M & SZ). rewrite turns_above.
  - f_equal. transitivity (sel op (passing ls Subject v) (passing ls Clip v) - sel op 0 0); [|assert (sel op 0 0 = 0) as -> by (destruct op; reflexivity); unfold sel; lia]. rewrite <- (region_jump ls v M AR OFF SZ (sel op)). unfold outcome. rewrite tot_flat. apply tot_ext. intros l I.
    destruct (result_jumps ls op l _ AR I (CO l I)) as (E & _). rewrite <- E. assert (T : forall e, lsgn (turned e) * f01 (above_e (turned e) v) = - (lsgn e * f01 (above_e e v))).
    { intros e. rewrite <- !hit_above. unfold turned, WindProofs.hit. cbn [fst snd]. set (a := (px (snd e) - px v)). set (b := py (snd e) - py v). set (c := px (fst e) - px v). set (d := py (fst e) - py v).
      replace (c * b - a * d) with (- (a * d - c * b)) by ring. generalize (a * d - c * b). intros z. change (0 <? 1) with true. cbn iota.
      destruct (Z.ltb_spec 0 z), (Z.ltb_spec z 0), (Z.ltb_spec 0 (- z)), (Z.ltb_spec (- z) 0); try lia; rewrite ?andb_false_r, ?andb_true_r; destruct ((a <=? 0) && (0 <? c)), ((c <=? 0) && (0 <? a)); reflexivity. }
    destruct (line_result op l (cks l)); cbn [output_of value]; rewrite ?tot_cons, ?tot_nil, ?T; lia.
  - apply (C25_balance op ls cks AR CO).
  - intros e I. apply in_flat_map in I as (l & IL & I). specialize (OFF l IL). destruct (line_result op l (cks l)); cbn [output_of] in I; try destruct I as [<-|[]]; try destruct I; [exact OFF|]. apply WindProofs.not_on_swap. unfold turned. cbn [fst snd]. rewrite <- surjective_pairing. exact OFF.
Qed.

(** C67: closed loops, split where they meet, and every line judged by the lines of its
    column: the output lines wind once around the points selected by the operation and not at
    all around the others, for every rational point that is on no line. *)
Theorem C67_region op ls cks k p :
  arranged ls -> (forall l, In l ls -> column l ls (cks l)) -> 0 < k -> off_lines k p (map ln_e ls) ->
  exists ws wc, wind_around k p (set_lines Subject ls) ws /\ wind_around k p (set_lines Clip ls) wc /\
    wind_around k p (outcome op cks ls) (if selected op ws wc then 1 else 0).
Proof.
  intros AR CO K OFF. pose (back := fun l => match find (fun m => Nat.eqb (ln_i m) (ln_i l)) ls with Some m => map (sline k) (cks m) | None => [] end).
  assert (FB : forall l, In l ls -> back (sline k l) = map (sline k) (cks l)).
  { intros l I. unfold back. destruct (find _ ls) as [m|] eqn:F.
    - apply find_some in F as (J & E). apply Nat.eqb_eq in E. cbn [sline ln_i] in E. rewrite (arr_inj ls l m AR I J E). reflexivity.
    - exfalso. apply (find_none _ _ F) in I. cbn [sline ln_i] in I. rewrite Nat.eqb_refl in I. discriminate. }
  destruct (region_one op (map (sline k) ls) back p) as (ws & wc & W1 & W2 & W3).
  - apply arranged_s; assumption.
  - intros l I. apply in_map_iff in I as (m & <- & I). rewrite (FB m I). apply column_s; auto.
  - intros l I. apply in_map_iff in I as (m & <- & I). apply (OFF (ln_e m)). apply in_map, I.
  - exists ws, wc. assert (S : forall c, set_lines c (map (sline k) ls) = map (se k) (set_lines c ls)).
    { intros c. unfold set_lines. clear. induction ls as [|l ls IH]; [reflexivity|]. cbn [map filter sline ln_set]. destruct (bset_eqb _ _); cbn [map]; rewrite IH; reflexivity. }
    rewrite S in W1, W2. split; [exact W1|]. split; [exact W2|]. unfold wind_around. etransitivity; [|exact W3]. f_equal. f_equal. change (fun e => (scale k (fst e), scale k (snd e))) with (se k).
    unfold outcome. clearbody back. revert FB. clear - K. induction ls as [|l ls IH]; intros FB; [reflexivity|]. cbn [map flat_map]. rewrite map_app, (FB l) by (left; reflexivity). rewrite result_s by exact K. cbn [sline ln_e]. rewrite output_s. f_equal. apply IH. intros m I. apply FB. right. exact I.
Qed.
Print Assumptions C67_region.

(** The two squares of C25, around the middle of one quarter of the unit square at (2,0): both
    wind around it, the symmetric difference does not. *)
Lemma off_check k p es : forallb (fun e => negb (area2 (scale k (fst e)) (scale k (snd e)) p =? 0)) es = true -> off_lines k p es.
Proof. intros H e I O. rewrite forallb_forall in H. specialize (H e I). apply on_area in O. cbn [fst snd] in O. rewrite O in H. discriminate. Qed.
Definition ex_out (op : bool_op) : list (point * point) := outcome op (column_of ex_lines) ex_lines.
Example C67_meets : arranged ex_lines /\ (forall l, In l ex_lines -> column l ex_lines (column_of ex_lines l)) /\ off_lines 2 (5, 1) (map ln_e ex_lines) /\ off_lines 2 (1, 3) (map ln_e ex_lines).
Proof. destruct C25_meets as (A & C). split; [exact A|]. split; [exact C|]. split; apply off_check; vm_compute; reflexivity. Qed.
Example C67_inside : wind_around 2 (5, 1) (set_lines Subject ex_lines) 1 /\ wind_around 2 (5, 1) (set_lines Clip ex_lines) 1 /\
  wind_around 2 (5, 1) (ex_out OpIntersection) 1 /\ wind_around 2 (5, 1) (ex_out OpUnion) 1 /\ wind_around 2 (5, 1) (ex_out OpXor) 0 /\ wind_around 2 (5, 1) (ex_out OpDifference) 0.
Proof. vm_compute. repeat split. Qed.
Example C67_outside : wind_around 2 (1, 3) (set_lines Subject ex_lines) 1 /\ wind_around 2 (1, 3) (set_lines Clip ex_lines) 0 /\
  wind_around 2 (1, 3) (ex_out OpIntersection) 0 /\ wind_around 2 (1, 3) (ex_out OpUnion) 1 /\ wind_around 2 (1, 3) (ex_out OpXor) 1 /\ wind_around 2 (1, 3) (ex_out OpDifference) 1.
Proof. vm_compute. repeat split. Qed.
