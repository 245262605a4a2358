(** The lines of the output loops are exactly the lines judged to be kept. *)
From Coq Require Import ZArith List Bool Arith Permutation Lia.
From Verif Require Import GeomModel OutModel OutSpec JoinSpec CycleProofs JoinProofs LinkProofs MatchProofs FinishProofs.
Import ListNotations.

(** * Balance of a path *)
Definition cnt (k x : point) : nat := if point_eqb x k then 1 else 0.
Lemma last_next (l : list point) : forall a b, last (b :: l) a = last l b.
Proof. induction l as [|c l IH]; intros a b; [reflexivity|]. rewrite (IH b c). change (last (b :: c :: l) a) with (last (c :: l) a). apply IH. Qed.
Lemma path_balance k l : forall a, ends_at k (segs (a :: l)) + cnt k a = starts_at k (segs (a :: l)) + cnt k (last l a).
Proof.
  induction l as [|b l IH]; intros a; [reflexivity|]. specialize (IH b). change (segs (a :: b :: l)) with ((a, b) :: segs (b :: l)).
  rewrite last_next.
  unfold ends_at, starts_at in *. cbn [filter fst snd]. unfold cnt in *. destruct (point_eqb b k), (point_eqb a k); cbn [length] in *; lia.
Qed.
Lemma ends_app k l l' : ends_at k (l ++ l') = ends_at k l + ends_at k l'.
Proof. unfold ends_at. rewrite filter_app, app_length. reflexivity. Qed.
Lemma starts_app k l l' : starts_at k (l ++ l') = starts_at k l + starts_at k l'.
Proof. unfold starts_at. rewrite filter_app, app_length. reflexivity. Qed.
Lemma ends_turned k l : ends_at k (map turned l) = starts_at k l.
Proof. unfold ends_at, starts_at. induction l as [|(a, b) l IH]; [reflexivity|]. cbn [map filter turned fst snd]. destruct (point_eqb a k); cbn [length]; rewrite ?IH; reflexivity. Qed.
Lemma starts_turned k l : starts_at k (map turned l) = ends_at k l.
Proof. unfold ends_at, starts_at. induction l as [|(a, b) l IH]; [reflexivity|]. cbn [map filter turned fst snd]. destruct (point_eqb b k); cbn [length]; rewrite ?IH; reflexivity. Qed.
Definition occ (k : point) (l : list point) : nat := length (filter (fun x => point_eqb x k) l).
Lemma occ_app k l l' : occ k (l ++ l') = occ k l + occ k l'.
Proof. unfold occ. rewrite filter_app, app_length. reflexivity. Qed.
Lemma occ_one k x : occ k [x] = cnt k x.
Proof. unfold occ, cnt. cbn [filter]. destruct (point_eqb x k); reflexivity. Qed.
Lemma point_dec (a b : point) : {a = b} + {a <> b}.
Proof. decide equality; apply Z.eq_dec. Qed.
Lemma point_eqb_dec a b : point_eqb a b = if point_dec a b then true else false.
Proof.
  destruct a as (ax, ay), b as (bx, by'). unfold point_eqb, px, py. cbn [fst snd]. destruct (point_dec (ax, ay) (bx, by')) as [H|H].
  - injection H as -> ->. rewrite !Z.eqb_refl. reflexivity.
  - destruct (Z.eqb_spec ax bx), (Z.eqb_spec ay by'); subst; try reflexivity. contradiction.
Qed.
Lemma occ_count k l : occ k l = count_occ point_dec l k.
Proof.
  unfold occ. induction l as [|a l IH]; [reflexivity|]. cbn [filter count_occ]. rewrite point_eqb_dec. destruct (point_dec a k); cbn [length]; rewrite IH; reflexivity.
Qed.
Lemma occ_perm l l' : (forall k, occ k l = occ k l') -> Permutation l l'.
Proof. intros H. apply (Permutation_count_occ point_dec). intros k. rewrite <- !occ_count. apply H. Qed.
Lemma run_balance pts k R : ends_at k (run_lines pts R) + cnt k (pos pts (head R)) = starts_at k (run_lines pts R) + cnt k (pos pts (snd R)).
Proof.
  destruct R as ((i, c), e). unfold run_lines, head. cbn [fst snd]. cbn [map]. rewrite path_balance. rewrite map_app. cbn [map]. rewrite last_last. reflexivity.
Qed.
Lemma wanted_ends pts k RS : ends_at k (flat_map (wanted pts) RS) + occ k (flat_map (w_start pts) RS) = starts_at k (flat_map (wanted pts) RS) + occ k (flat_map (w_end pts) RS).
Proof.
  induction RS as [|R RS IH]; [reflexivity|]. cbn [flat_map]. rewrite ends_app, starts_app, !occ_app. pose proof (run_balance pts k R) as B.
  unfold wanted at 1 3, w_start at 1, w_end at 1. destruct (judgement pts R) as [| |[]]; rewrite ?ends_turned, ?starts_turned, ?occ_one; cbn [ends_at starts_at occ filter length]; try lia.
Qed.
Lemma reversed_ends pts k RS : ends_at k (flat_map (reversed pts) RS) + occ k (flat_map (r_start pts) RS) = starts_at k (flat_map (reversed pts) RS) + occ k (flat_map (r_end pts) RS).
Proof.
  induction RS as [|R RS IH]; [reflexivity|]. cbn [flat_map]. rewrite ends_app, starts_app, !occ_app. pose proof (run_balance pts k R) as B.
  unfold reversed at 1 3, r_start at 1, r_end at 1. destruct (judgement pts R) as [| |[]]; rewrite ?occ_one; cbn [ends_at starts_at occ filter length]; try lia.
Qed.
Lemma balanced_wanted pts RS : balanced (flat_map (wanted pts) RS) -> Permutation (flat_map (w_start pts) RS) (flat_map (w_end pts) RS).
Proof. intros B. apply occ_perm. intros k. pose proof (wanted_ends pts k RS). specialize (B k). lia. Qed.
Lemma balanced_reversed pts RS : balanced (flat_map (reversed pts) RS) -> Permutation (flat_map (r_start pts) RS) (flat_map (r_end pts) RS).
Proof. intros B. apply occ_perm. intros k. pose proof (reversed_ends pts k RS). specialize (B k). lia. Qed.

(** With no zero-length lines, no line of a run is one. *)
Lemma trail_nonzero pts : no_zero_lines pts -> forall c n e a, nth_error pts a = Some n -> trail pts (o_next n) c e -> nonzero (segs (map (pos pts) (a :: c ++ [e]))) = segs (map (pos pts) (a :: c ++ [e])).
Proof.
  intros NZ. induction c as [|x c IH]; intros n e a E T; cbn [app map].
  - destruct T as (<- & _). unfold segs. cbn [combine tl nonzero filter fst snd]. rewrite point_eqb_dec. destruct (point_dec _ _) as [X|X]; [|reflexivity]. destruct (NZ a n E). rewrite <- X. unfold pos at 1. rewrite E. reflexivity.
  - destruct T as (-> & q & E2 & _ & T). specialize (IH q e (o_next n) E2 T). cbn [app map] in IH. change (segs (pos pts a :: pos pts (o_next n) :: map (pos pts) (c ++ [e]))) with ((pos pts a, pos pts (o_next n)) :: segs (pos pts (o_next n) :: map (pos pts) (c ++ [e]))).
    unfold nonzero in *. cbn [filter fst snd]. rewrite IH. rewrite point_eqb_dec. destruct (point_dec _ _) as [X|X]; [|reflexivity]. destruct (NZ a n E). rewrite <- X. unfold pos at 1. rewrite E. reflexivity.
Qed.
Lemma nonzero_turned l : nonzero (map turned l) = map turned (nonzero l).
Proof. unfold nonzero. induction l as [|(a, b) l IH]; [reflexivity|]. cbn [map filter turned fst snd]. rewrite IH, !point_eqb_dec. destruct (point_dec b a), (point_dec a b); try reflexivity; congruence. Qed.
Lemma wanted_nonzero pts RS : no_zero_lines pts -> Forall (is_run pts) RS -> nonzero (flat_map (wanted pts) RS) = flat_map (wanted pts) RS.
Proof.
  intros NZ F. induction F as [|R RS I F IH]; [reflexivity|]. cbn [flat_map]. unfold nonzero in *. rewrite filter_app, IH. f_equal.
  destruct R as ((i, c), e). destruct I as (p & r & E & _ & T). pose proof (trail_nonzero pts NZ c p e i E T) as W. unfold wanted, run_lines.
  destruct (judgement pts (i, c, e)) as [| |[]]; try reflexivity; [exact W|]. fold nonzero. fold (nonzero (map turned (segs (map (pos pts) (i :: c ++ [e]))))). rewrite nonzero_turned, W. reflexivity.
Qed.

(** ** C43
    The runs (a judged point, the unjudged points that follow it, the next judged point) are
    taken in the order in which their first points were judged. *)
(** Every output loop can be iterated, is not empty, and the lines of all output loops are,
    zero-length lines aside, exactly the lines of the runs judged to be kept, those judged
    to be kept and reversed being turned around. *)
Theorem C43_edges fuel tree pts ss fps loops ss' merged :
  judged_points pts ss -> finish fuel tree pts ss = Some (fps, loops, ss', merged) ->
  exists RS Ls, Forall (is_run pts) RS /\ map (fun R : run => fst (fst R)) RS = map fst ss /\
  Forall2 (fun loc L => L <> [] /\ iterate_loop fps (fst loc) (snd loc) = Some L) loops Ls /\
  Permutation (nonzero (flat_map (loop_lines fps) Ls)) (nonzero (flat_map (wanted pts) RS)) /\
  (no_zero_lines pts -> Permutation (flat_map (loop_lines fps) Ls) (flat_map (wanted pts) RS)).
Proof.
  intros J H. destruct (all_runs pts) with (l := map fst ss) as (RS & HD & F).
  - destruct J as (P & _). exact P.
  - intros p I. destruct J as (_ & A & _). apply A. exact I.
  - intros i I. destruct J as (_ & _ & _ & A & _). apply A in I. exact I.
  - destruct (finish_ok fuel tree pts ss RS J F HD) as (_ & S). destruct (S _ _ _ _ H) as (Ls & I & P & Z). exists RS, Ls.
    split; [exact F|]. split; [exact HD|]. split; [exact I|]. split; [exact P|]. intros NZ. rewrite (Z NZ), (wanted_nonzero _ _ NZ F) in P. exact P.
Qed.
Print Assumptions C43_edges.

(** The last stage succeeds whenever the lines to be kept, as well as the lines to be
    reversed, enter and leave every position equally often. *)
Theorem C43_success fuel tree pts ss RS :
  judged_points pts ss -> no_zero_lines pts -> Forall (is_run pts) RS -> map (fun R : run => fst (fst R)) RS = map fst ss ->
  balanced (flat_map (wanted pts) RS) -> balanced (flat_map (reversed pts) RS) ->
  length pts + length ss + length (flat_map snd ss) <= fuel ->
  exists fps loops ss' merged, finish fuel tree pts ss = Some (fps, loops, ss', merged).
Proof.
  intros J NZ F HD BW BR FU. destruct (finish_ok fuel tree pts ss RS J F HD) as (T & _). specialize (T NZ (balanced_wanted _ _ BW) (balanced_reversed _ _ BR) FU).
  destruct (finish fuel tree pts ss) as [(((a, b), c), d)|]; [|contradiction]. exists a, b, c, d. reflexivity.
Qed.
Print Assumptions C43_success.

(** Two overlapping squares, split where they cross (points 8 to 11): the symmetric
    difference reverses the two lines inside and gives one loop in two parts. *)
Definition ex_pts : list opoint :=
  let p (x y : Z) (n : nat) (s : pstate) := mk_op (x, y) n s false in
  [p 0%Z 0%Z 1 Undef; p 4%Z 0%Z 8 Undef; p 4%Z 4%Z 9 Undef; p 0%Z 4%Z 0 Undef; p 2%Z 2%Z 10 Undef; p 6%Z 2%Z 6 Undef; p 6%Z 6%Z 7 Undef; p 2%Z 6%Z 11 Undef;
   p 4%Z 2%Z 2 (Res LSkeep_rev); p 2%Z 4%Z 3 (Res LSkeep); p 4%Z 2%Z 5 (Res LSkeep); p 2%Z 4%Z 4 (Res LSkeep_rev)].
Definition ex_ss : list sample := [(9, []); (11, [9]); (8, [9]); (10, [9])].
Definition ex_runs : list run := [(9, [3; 0; 1], 8); (11, [4], 10); (8, [2], 9); (10, [5; 6; 7], 11)].
Example ex_judged : judged_points ex_pts ex_ss.
Proof.
  split; [apply NoDup_Permutation_bis; [vm_compute; repeat constructor; cbn; intuition congruence|cbn; lia|vm_compute; intuition]|].
  split; [intros p I; cbn in I; repeat (destruct I as [<-|I]; [split; [reflexivity|discriminate]|]); destruct I|].
  split; [vm_compute; repeat constructor; cbn; intuition congruence|]. split.
  - intros i. split.
    + intros I. cbn in I. repeat (destruct I as [<-|I]; [eexists; eexists; split; [reflexivity|reflexivity]|]). destruct I.
    + intros (p & r & E & S). do 12 (destruct i as [|i]; [cbn in E; injection E as <-; cbn in S; try discriminate; cbn; tauto|]). cbn in E. destruct i; discriminate.
  - intros s i I J. cbn in I. repeat (destruct I as [<-|I]; [cbn in J; destruct J as [<-|[]] || destruct J; cbn; lia|]). destruct I.
Qed.
Example ex_no_zero : no_zero_lines ex_pts.
Proof. intros i p E. do 12 (destruct i as [|i]; [cbn in E; injection E as <-; cbn; congruence|]). destruct i; discriminate. Qed.
Example ex_is_runs : Forall (is_run ex_pts) ex_runs /\ map (fun R : run => fst (fst R)) ex_runs = map fst ex_ss.
Proof. split; [|reflexivity]. repeat constructor; cbn; repeat eexists. Qed.
Lemma balanced_check l : forallb (fun k => ends_at k l =? starts_at k l) (map fst l ++ map snd l) = true -> balanced l.
Proof.
  intros H k. rewrite forallb_forall in H. destruct (in_dec point_dec k (map fst l ++ map snd l)) as [I|N]; [apply Nat.eqb_eq; apply H; exact I|].
  assert (G : forall f, (forall e, In e l -> f e <> k) -> length (filter (fun e : point * point => point_eqb (f e) k) l) = 0).
  { intros f D. clear H N. induction l as [|e l IH]; [reflexivity|]. cbn [filter]. rewrite point_eqb_dec. destruct (point_dec (f e) k) as [X|X]; [destruct (D e); [left; reflexivity|exact X]|]. apply IH. intros e' I. apply D. right. exact I. }
  unfold ends_at, starts_at. rewrite !G; [reflexivity| |]; intros e I X; apply N; apply in_app_iff; [left|right]; apply in_map_iff; exists e; auto.
Qed.
Example ex_balanced : balanced (flat_map (wanted ex_pts) ex_runs) /\ balanced (flat_map (reversed ex_pts) ex_runs).
Proof. split; apply balanced_check; vm_compute; reflexivity. Qed.
Example ex_finish tree : exists fps loops ss' merged, finish 40 tree ex_pts ex_ss = Some (fps, loops, ss', merged) /\ loops <> [].
Proof. destruct tree; do 4 eexists; (split; [vm_compute; reflexivity|discriminate]). Qed.
(** A failing case: without balance the joining of the lines fails. *)
Example ex_unbalanced : finish 40 false (put ex_pts 9 (mk_op (2, 4)%Z 3 (Res LSdiscard) false)) ex_ss = None.
Proof. vm_compute. reflexivity. Qed.
