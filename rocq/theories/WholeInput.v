(** The points stored for polygons: closed loops with one point marked in each. *)
From Coq Require Import ZArith QArith List Bool Arith Permutation Lia.
From Verif Require Import GeomModel GeomSpec BalanceModel OutModel ClipModel ClipSpec PointSinkModel PointSinkSpec PointSinkProofs WindSpec ArrangeSpec RegionProps SegSpec WholeProofs WholeRuns WholeCore WholeSpec.
Import ListNotations.
Local Open Scope nat_scope.

Lemma nth_error_ext'' {A} (l m : list A) : (forall i, nth_error l i = nth_error m i) -> l = m.
Proof. revert m. induction l as [|a l IH]; intros [|b m] H; try reflexivity; try (specialize (H 0); discriminate). pose proof (H 0) as H0. cbn in H0. injection H0 as ->. f_equal. apply IH. intros i. exact (H (S i)). Qed.
(** The stored points. *)
Fixpoint rings (base : nat) (ps : polygons) : list lpoint :=
  match ps with [] => [] | (cat, l) :: ps' => ring base cat (norm l) ++ rings (base + length (norm l)) ps' end.
Lemma ring_nth base cat l i : nth_error (ring base cat l) i = option_map (fun p => mk_lpoint p (if S i =? length l then base else base + S i) cat (S i =? length l)) (nth_error l i).
Proof.
  unfold ring. rewrite nth_error_map. assert (X : nth_error (combine (seq 0 (length l)) l) i = option_map (fun p => (i, p)) (nth_error l i)).
  { assert (G : forall l b i, nth_error (combine (seq b (length l)) l) i = option_map (fun p : point => (b + i, p)) (nth_error l i)); [|exact (G l 0 i)].
    clear. induction l as [|a l IH]; intros b [|i]; cbn [length seq combine nth_error option_map]; try reflexivity; [rewrite Nat.add_0_r; reflexivity|]. rewrite IH. destruct (nth_error l i); cbn; [do 2 f_equal; lia|reflexivity]. }
  rewrite X. destruct (nth_error l i); cbn; [|reflexivity]. match goal with |- context [if ?b then _ else _] => destruct b end; reflexivity.
Qed.
Lemma ring_length base cat l : length (ring base cat l) = length l.
Proof. unfold ring. rewrite map_length, combine_length, seq_length. lia. Qed.
Lemma norm_size l : norm l = [] \/ 3 <= length (norm l).
Proof. unfold norm. destruct (Nat.ltb_spec (length (open_end (uniq l))) 3); auto. Qed.

(** Adding. *)
Lemma add_rings ps : forall c log pt last, cs_ran c = false -> (forall p, last_stored c p -> last = Some p) -> plain_input last ps ->
  exists c' log', add_all c log pt ps = Done (c', log') /\ cs_points c' = cs_points c ++ rings (length (cs_points c)) ps /\ cs_ran c' = false.
Proof.
  induction ps as [|(cat, l) ps IH]; intros c log pt last R L PI; cbn [add_all rings]; [exists c, log; rewrite app_nil_r; auto|].
  destruct PI as (A1 & A2 & A3 & A4). destruct (add_loop_norm c log cat pt l R A1) as (c1 & log1 & E & P1); [|exact A2|].
  - intros p F K. apply (A3 p F). apply L. exact K.
  - rewrite E. pose proof E as D. apply add_loop_done in D as (s & D & _). injection D as D _.
    destruct (IH c1 log1 pt (match rev (norm l) with [] => last | p :: _ => Some p end)) as (c' & log' & X & P2 & R2); [| |exact A4|].
    + rewrite D. reflexivity.
    + intros p (m & b & Q & Qb). destruct (rev (norm l)) as [|z u] eqn:RV; apply (f_equal (@rev _)) in RV; rewrite rev_involutive in RV; cbn in RV.
      * rewrite P1, RV in Q. cbn in Q. rewrite app_nil_r in Q. apply L. exists m, b. auto.
      * f_equal. rewrite P1 in Q. rewrite RV in Q. pose proof (ring_nth (length (cs_points c)) cat (rev u ++ [z]) (length (rev u))) as RN. rewrite nth_error_app2, Nat.sub_diag in RN by lia. cbn [nth_error option_map] in RN.
        assert (LM : length m = length (cs_points c) + length (rev u)).
        { apply (f_equal (@length _)) in Q. rewrite !app_length, ring_length, app_length in Q. cbn [length] in Q. lia. }
        apply (f_equal (fun l => nth_error l (length (cs_points c) + length (rev u)))) in Q. rewrite nth_error_app2 in Q by lia. replace (_ + _ - _) with (length (rev u)) in Q by lia. rewrite RN in Q.
        rewrite nth_error_app2, LM, Nat.sub_diag in Q by lia. cbn in Q. injection Q as <-. cbn in Qb. exact Qb.
    + exists c', log'. split; [exact X|]. split; [|exact R2]. rewrite P2, P1, <- app_assoc, app_length, ring_length. reflexivity.
Qed.

(** The points of the polygon that follows the ones in a. *)
Definition size (ps : polygons) : nat := length (flat_map (fun sp => norm (snd sp)) ps).
Lemma rings_length ps : forall base, length (rings base ps) = size ps.
Proof. induction ps as [|(cat, l) ps IH]; intros base; cbn [rings]; [reflexivity|]. unfold size in *. cbn [flat_map snd]. rewrite !app_length, ring_length, IH. reflexivity. Qed.
Lemma rings_app a b : forall base, rings base (a ++ b) = rings base a ++ rings (base + size a) b.
Proof.
  induction a as [|(cat, l) a IH]; intros base; cbn [rings app]; [unfold size; cbn; rewrite Nat.add_0_r; reflexivity|]. rewrite IH, <- app_assoc. unfold size. cbn [flat_map snd]. rewrite app_length. do 3 f_equal. lia.
Qed.
Section Points.
Variable ps : polygons.
Notation pts := (ClipModel.stored (rings 0 ps)).
Lemma at_poly a cat l b k p : ps = a ++ (cat, l) :: b -> nth_error (norm l) k = Some p ->
  nth_error pts (size a + k) = Some (mk_cp p (if S k =? length (norm l) then size a else size a + S k) cat (if S k =? length (norm l) then Check else Undef)).
Proof.
  intros E N. unfold ClipModel.stored. rewrite nth_error_map, E, rings_app. cbn [rings Nat.add]. rewrite nth_error_app2 by (rewrite rings_length; lia). rewrite rings_length. replace (_ + k - _) with k by lia.
  rewrite nth_error_app1 by (rewrite ring_length; apply nth_error_Some; congruence). rewrite ring_nth, N. reflexivity.
Qed.
Lemma poly_at i c : nth_error pts i = Some c -> exists a cat l b k p, ps = a ++ (cat, l) :: b /\ nth_error (norm l) k = Some p /\ i = size a + k.
Proof.
  intros N. assert (L : i < size ps) by (rewrite <- (rings_length ps 0); rewrite <- (map_length (fun p => mk_cp (lp_data p) (lp_next p) (lp_set p) (if lp_check p then Check else Undef))); apply nth_error_Some; unfold ClipModel.stored in N; congruence).
  clear N c. revert i L. generalize ps. intros qs. induction qs as [|(cat, l) qs IH] using rev_ind; intros i L; [cbn in L; lia|].
  destruct (Nat.lt_ge_cases i (size qs)) as [H|H].
  - destruct (IH i H) as (a & cat' & l' & b & k & p & -> & N & ->). exists a, cat', l', (b ++ [(cat, l)]), k, p. split; [rewrite <- app_assoc; reflexivity|]. auto.
  - assert (K : i - size qs < length (norm l)) by (unfold size in *; rewrite flat_map_app, app_length in L; cbn [flat_map snd] in L; rewrite app_nil_r in L; lia).
    destruct (nth_error (norm l) (i - size qs)) as [p|] eqn:N; [|apply nth_error_None in N; lia]. exists qs, cat, l, [], (i - size qs), p. split; [reflexivity|]. split; [exact N|]. lia.
Qed.
(** The point that follows. *)
Lemma next_at a cat l b k p : ps = a ++ (cat, l) :: b -> nth_error (norm l) k = Some p -> 
  exists c k' q, nth_error pts (size a + k) = Some c /\ c_next c = size a + k' /\ k' = S k mod length (norm l) /\ nth_error (norm l) k' = Some q /\ c_data c = p /\ c_set c = cat.
Proof.
  intros E N. pose proof (at_poly a cat l b k p E N) as A. assert (K : k < length (norm l)) by (apply nth_error_Some; congruence). set (n := length (norm l)) in *.
  exists (mk_cp p (if S k =? n then size a else size a + S k) cat (if S k =? n then Check else Undef)). exists (S k mod n).
  assert (KM : S k mod n < n) by (apply Nat.mod_upper_bound; lia). destruct (nth_error (norm l) (S k mod n)) as [q|] eqn:Q; [|apply nth_error_None in Q; fold n in Q; lia].
  exists q. split; [exact A|]. cbn [c_next c_data c_set]. split; [|auto]. destruct (Nat.eqb_spec (S k) n) as [->|D]; [rewrite Nat.mod_same by lia; lia|rewrite Nat.mod_small by lia; reflexivity].
Qed.
Lemma poly_proper : proper_loops pts.
Proof.
  split.
  - intros i c N. pose proof N as N0. apply poly_at in N as (a & cat & l & b & k & p & E & NK & ->).
    destruct (next_at a cat l b k p E NK) as (c' & k1 & q1 & A1 & X1 & K1 & Q1 & _ & S1). rewrite A1 in N0. injection N0 as ->.
    destruct (next_at a cat l b k1 q1 E Q1) as (c1 & k2 & q2 & A2 & X2 & K2 & Q2 & _ & S2). destruct (next_at a cat l b k2 q2 E Q2) as (c2 & k3 & q3 & A3 & X3 & K3 & Q3 & _ & S3).
    exists c1, c2. rewrite X1, X2. split; [exact A2|]. split; [exact A3|].
    assert (K : k < length (norm l)) by (apply nth_error_Some; congruence). assert (3 <= length (norm l)) by (destruct (norm_size l) as [Z|Z]; [rewrite Z in K; cbn in K; lia|exact Z]).
    set (n := length (norm l)) in *. clearbody n. split; [|split; [|congruence]].
    + intros Q. destruct (Nat.eq_dec (S k) n) as [Z|Z]; [rewrite Z, Nat.mod_same in K1 by lia; lia|rewrite Nat.mod_small in K1 by lia; lia].
    + intros Q. destruct (Nat.eq_dec (S k) n) as [Z|Z]; [rewrite Z, Nat.mod_same in K1 by lia; rewrite K1, Nat.mod_small in K2 by lia; lia|rewrite (Nat.mod_small (S k)) in K1 by lia].
      rewrite K1 in K2. destruct (Nat.eq_dec (S (S k)) n) as [Z2|Z2]; [rewrite Z2, Nat.mod_same in K2 by lia; lia|rewrite Nat.mod_small in K2 by lia; lia].
  - intros i j c d Ni Nj Q. pose proof Ni as Ni0. pose proof Nj as Nj0. apply poly_at in Ni as (a & cat & l & b & k & p & E & NK & ->). apply poly_at in Nj as (a' & cat' & l' & b' & k' & p' & E' & NK' & ->).
    destruct (next_at a cat l b k p E NK) as (c' & k1 & q1 & A1 & X1 & K1 & Q1 & _). rewrite A1 in Ni0. injection Ni0 as ->. destruct (next_at a' cat' l' b' k' p' E' NK') as (d' & k1' & q1' & A1' & X1' & K1' & Q1' & _). rewrite A1' in Nj0. injection Nj0 as ->.
    rewrite X1, X1' in Q. assert (L1 : k1 < length (norm l)) by (apply nth_error_Some; congruence). assert (L1' : k1' < length (norm l')) by (apply nth_error_Some; congruence).
    assert (SAME : a = a').
    { clear -E E' Q L1 L1'. subst ps. apply app_eq_app in E' as (m & [(-> & M)|(-> & M)]).
      - destruct m as [|x m]; [rewrite app_nil_r; reflexivity|exfalso]. injection M as <- ->. unfold size in *. rewrite flat_map_app in Q. cbn [flat_map snd] in Q. rewrite !app_length in Q. lia.
      - destruct m as [|x m]; [rewrite app_nil_r; reflexivity|exfalso]. injection M as <- ->. unfold size in *. rewrite flat_map_app in Q. cbn [flat_map snd] in Q. rewrite !app_length in Q. lia. }
    subst a'. rewrite E in E'. apply app_inv_head in E'. injection E' as <- <- <-. assert (k1 = k1') by lia. f_equal.
    assert (K : k < length (norm l)) by (apply nth_error_Some; congruence). assert (K' : k' < length (norm l)) by (apply nth_error_Some; congruence). set (n := length (norm l)) in *. clearbody n.
    destruct (Nat.eq_dec (S k) n) as [Z|Z]; [rewrite Z, Nat.mod_same in K1 by lia|rewrite Nat.mod_small in K1 by lia]; (destruct (Nat.eq_dec (S k') n) as [Z'|Z']; [rewrite Z', Nat.mod_same in K1' by lia|rewrite Nat.mod_small in K1' by lia]); lia.
Qed.
Lemma poly_unjudged : unjudged pts.
Proof. intros c r I. unfold ClipModel.stored in I. apply in_map_iff in I as (p & <- & _). cbn. destruct (lp_check p); discriminate. Qed.
Lemma poly_judge i : i < length pts -> after_judge pts i.
Proof.
  intros L. destruct (nth_error pts i) as [c|] eqn:N; [|apply nth_error_None in N; lia]. apply poly_at in N as (a & cat & l & b & k & p & E & NK & ->).
  assert (K : k < length (norm l)) by (apply nth_error_Some; congruence). set (n := length (norm l)) in *.
  assert (LAST : after_judge pts (size a + (n - 1))).
  { destruct (nth_error (norm l) (n - 1)) as [z|] eqn:Z; [|apply nth_error_None in Z; fold n in Z; lia]. pose proof (at_poly a cat l b (n - 1) z E Z) as A. fold n in A. replace (S (n - 1)) with n in A by lia. rewrite Nat.eqb_refl in A.
    apply after_here. eexists. split; [exact A|reflexivity]. }
  clear NK L p. induction k as [|k IH].
  - destruct (nth_error (norm l) (n - 1)) as [z|] eqn:Z; [|apply nth_error_None in Z; fold n in Z; lia]. destruct (next_at a cat l b (n - 1) z E Z) as (c' & k' & q & A & X & KE & _). fold n in KE. replace (S (n - 1)) with n in KE by lia. rewrite Nat.mod_same in KE by lia. subst k'. rewrite <- X.
    eapply after_next; [exact LAST|exact A].
  - destruct (nth_error (norm l) k) as [z|] eqn:Z; [|apply nth_error_None in Z; fold n in Z; lia]. destruct (next_at a cat l b k z E Z) as (c' & k' & q & A & X & KE & _). fold n in KE. rewrite Nat.mod_small in KE by lia. subst k'. rewrite <- X.
    eapply after_next; [apply IH; lia|exact A].
Qed.

(** The lines of the points are the edges of the polygons. *)
Lemma edges_length l : length (edges l) = length l.
Proof. destruct l as [|x l]; [reflexivity|]. unfold edges. rewrite combine_length, app_length. cbn [length]. lia. Qed.
Lemma combine_nth_error {A B} (l : list A) (m : list B) k x y : nth_error l k = Some x -> nth_error m k = Some y -> nth_error (combine l m) k = Some (x, y).
Proof. revert m k. induction l as [|a l IH]; intros [|b m] [|k] H K; cbn in *; try discriminate; [congruence|]. apply IH; assumption. Qed.
Lemma edges_nth l k p q : nth_error l k = Some p -> nth_error l (S k mod length l) = Some q -> nth_error (edges l) k = Some (p, q).
Proof.
  intros P Q. assert (K : k < length l) by (apply nth_error_Some; congruence). destruct l as [|x l]; [cbn in K; lia|]. unfold edges. apply combine_nth_error; [exact P|]. cbn [length] in *.
  destruct (Nat.eq_dec k (length l)) as [->|D].
  - rewrite Nat.mod_same in Q by lia. cbn in Q. rewrite nth_error_app2, Nat.sub_diag by lia. exact Q.
  - rewrite Nat.mod_small in Q by lia. cbn [nth_error] in Q. rewrite nth_error_app1 by lia. exact Q.
Qed.
Lemma all_edges_length qs : length (all_edges qs) = size qs.
Proof. unfold all_edges, size. induction qs as [|(cat, l) qs IH]; [reflexivity|]. cbn [flat_map fst snd]. rewrite !app_length, map_length, edges_length, IH. reflexivity. Qed.
Lemma edge_at a cat l b k p q : ps = a ++ (cat, l) :: b -> nth_error (norm l) k = Some p -> nth_error (norm l) (S k mod length (norm l)) = Some q -> nth_error (all_edges ps) (size a + k) = Some (cat, (p, q)).
Proof.
  intros E P Q. rewrite E. unfold all_edges. rewrite flat_map_app. fold (all_edges a). rewrite nth_error_app2 by (rewrite all_edges_length; lia). rewrite all_edges_length. replace (_ + k - _) with k by lia.
  cbn [flat_map fst snd]. rewrite nth_error_app1 by (rewrite map_length, edges_length; apply nth_error_Some; congruence). rewrite nth_error_map, (edges_nth _ _ _ _ P Q). reflexivity.
Qed.
Lemma lines_nth (cs : list cpoint) i c q : nth_error cs i = Some c -> nth_error cs (c_next c) = Some q -> nth_error (lines cs) i = Some (mk_line i (c_data c, c_data q) (c_set c)).
Proof.
  intros N M. unfold lines. rewrite nth_error_map. rewrite (combine_nth_error _ _ _ i c); [cbn [option_map fst snd]; rewrite M; reflexivity| |exact N].
  rewrite (nth_error_nth' _ 0) by (rewrite seq_length; apply nth_error_Some; congruence). rewrite seq_nth by (apply nth_error_Some; congruence). reflexivity.
Qed.
Lemma pts_length : length pts = size ps.
Proof. unfold ClipModel.stored. rewrite map_length. apply rings_length. Qed.
Lemma poly_edge i c : nth_error pts i = Some c -> exists q, nth_error pts (c_next c) = Some q /\ nth_error (all_edges ps) i = Some (c_set c, (c_data c, c_data q)) /\ c_data c <> c_data q.
Proof.
  intros N. pose proof N as N0. apply poly_at in N as (a & cat & l & b & k & p & E & NK & ->). destruct (next_at a cat l b k p E NK) as (c' & k1 & q1 & A1 & X1 & K1 & Q1 & D1 & S1). rewrite A1 in N0. injection N0 as ->.
  destruct (next_at a cat l b k1 q1 E Q1) as (c1 & k2 & q2 & A2 & X2 & K2 & Q2 & D2 & S2). exists c1. rewrite X1. split; [exact A2|]. rewrite D1, D2, S1. rewrite K1 in Q1. split; [exact (edge_at a cat l b k p q1 E NK Q1)|]. exact (norm_neighbours l k p q1 NK Q1).
Qed.
Lemma poly_lines : map (fun l => (ln_set l, ln_e l)) (lines pts) = all_edges ps.
Proof.
  assert (LL : length (map (fun l => (ln_set l, ln_e l)) (lines pts)) = length (all_edges ps)).
  { rewrite map_length, all_edges_length, <- pts_length. unfold lines. rewrite map_length, combine_length, seq_length. lia. }
  apply nth_error_ext''. intros i. destruct (nth_error pts i) as [c|] eqn:N.
  - destruct (poly_edge i c N) as (q & NQ & NE & _). rewrite nth_error_map, (lines_nth _ _ _ _ N NQ), NE. reflexivity.
  - apply nth_error_None in N. rewrite !(proj2 (nth_error_None _ _)); [reflexivity| |]; rewrite ?LL, all_edges_length, <- pts_length; exact N.
Qed.
Lemma poly_nonzero i P Q : edge_of pts i P Q -> P <> Q.
Proof. intros (c & q & N & M & <- & <-). destruct (poly_edge i c N) as (q' & M' & _ & D). rewrite M in M'. injection M' as <-. exact D. Qed.
Lemma poly_apart : only_meet_at_ends (map snd (all_edges ps)) -> SegSpec.apart pts.
Proof.
  intros H i j P Q P' Q' (c & q & N & M & <- & <-) (c' & q' & N' & M' & <- & <-) D. destruct (poly_edge i c N) as (x & X & E & _). destruct (poly_edge j c' N') as (y & Y & F & _). rewrite M in X. injection X as <-. rewrite M' in Y. injection Y as <-.
  apply (H i j); [rewrite nth_error_map, E; reflexivity|rewrite nth_error_map, F; reflexivity|exact D].
Qed.
Lemma poly_set s : set_lines s (lines pts) = edges_of s ps.
Proof.
  unfold set_lines, edges_of. rewrite <- poly_lines. generalize (lines pts). induction l as [|x l IH]; [reflexivity|]. cbn [filter map fst]. destruct (bset_eqb (ln_set x) s); cbn [map snd]; [f_equal|]; exact IH.
Qed.
Lemma poly_region op es : encloses op pts es -> region_of op ps es.
Proof.
  intros H k p K OFF. unfold encloses in H. rewrite !poly_set in H. apply H; [exact K|]. assert (X : map ln_e (lines pts) = map snd (all_edges ps)) by (rewrite <- poly_lines, map_map; reflexivity). rewrite X. exact OFF.
Qed.
End Points.
