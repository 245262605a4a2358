(** The points stored for polygons whose edges cross at points with whole coordinates. *)
From Coq Require Import ZArith QArith List Bool Arith Permutation Lia Lqa.
From Verif Require Import GeomModel GeomSpec BalanceModel OutModel ClipModel ClipSpec PointSinkModel PointSinkSpec WindSpec ArrangeSpec RegionProps SegOrder SegSpec WholeSpec WholeInput DynShape DynSpec.
Import ListNotations.
Local Open Scope nat_scope.

Section Points.
Variable ps : polygons.
Notation pts := (ClipModel.stored (rings 0 ps)).
Lemma poly_grid : meet_on_grid (map snd (all_edges ps)) -> grid pts.
Proof.
  intros H P Q P' Q' (i & p & q & N & M & -> & ->) (j & p' & q' & N' & M' & -> & ->) D X Y O1 O2.
  destruct (poly_edge ps i p N) as (x & X1 & E & _). destruct (poly_edge ps j p' N') as (y & Y1 & F & _). rewrite M in X1. injection X1 as <-. rewrite M' in Y1. injection Y1 as <-.
  apply nth_error_In in E, F. apply (in_map snd) in E, F. cbn [snd] in E, F. destruct (H _ _ X Y E F) as (a & b & A & B); [|exact O1|exact O2|exists (a, b); auto].
  cbn [fst snd]. intros Z. apply D. unfold dir_cross. apply Z.sub_move_0_r. exact Z.
Qed.
Lemma poly_no_fold : Forall (fun sp => no_going_back (norm (snd sp))) ps -> no_fold pts.
Proof.
  intros H i p q r N M R (F1 & F2). pose proof N as N0. apply poly_at in N as (a & cat & l & b & k & z & E & NK & ->).
  destruct (next_at ps a cat l b k z E NK) as (c & k1 & q1 & A1 & X1 & K1 & Q1 & D1 & _). rewrite A1 in N0. injection N0 as <-.
  destruct (next_at ps a cat l b k1 q1 E Q1) as (c1 & k2 & q2 & A2 & X2 & K2 & Q2 & D2 & _). rewrite X1, A2 in M. injection M as <-.
  destruct (next_at ps a cat l b k2 q2 E Q2) as (c2 & k3 & q3 & A3 & X3 & K3 & Q3 & D3 & _). rewrite X2, A3 in R. injection R as <-.
  rewrite D1, D2, D3 in *. rewrite Forall_forall in H. assert (I : In (cat, l) ps) by (rewrite E; apply in_or_app; right; left; reflexivity). specialize (H _ I). cbn [snd] in H.
  assert (L : length (norm l) <> 0) by (intros Z; apply length_zero_iff_nil in Z; rewrite Z in NK; destruct k; discriminate).
  apply (H k z q1 q2 NK); [rewrite <- K1; exact Q1| |].
  - rewrite K1 in K2. replace (S (S k) mod length (norm l)) with k2; [exact Q2|]. rewrite K2. apply (Nat.add_mod_idemp_r 1 (S k)). exact L.
  - split; [unfold triangle_winding in F1|unfold dot in F2]; clear -F1 F2; lia.
Qed.
End Points.

(** * Checking it *)
Definition grid_check (es : list (point * point)) : bool :=
  forallb (fun e => forallb (fun f =>
    let dx := (px (snd e) - px (fst e))%Z in let dy := (py (snd e) - py (fst e))%Z in let fx := (px (snd f) - px (fst f))%Z in let fy := (py (snd f) - py (fst f))%Z in
    let d := (dx * fy - dy * fx)%Z in let n := ((px (fst f) - px (fst e)) * fy - (py (fst f) - py (fst e)) * fx)%Z in
    (d =? 0)%Z || (n * d <? 0)%Z || (d * d <? n * d)%Z || ((n * dx mod d =? 0)%Z && (n * dy mod d =? 0)%Z)) es) es.
Lemma grid_ok es : grid_check es = true -> meet_on_grid es.
Proof.
  intros H (P, Q) (P', Q') X Y I J D (t & (T1 & T2) & TX & TY) (u & _ & UX & UY). unfold grid_check in H. rewrite forallb_forall in H. specialize (H _ I). rewrite forallb_forall in H. specialize (H _ J). cbn [fst snd] in *.
  set (dx := (px Q - px P)%Z) in *. set (dy := (py Q - py P)%Z) in *. set (fx := (px Q' - px P')%Z) in *. set (fy := (py Q' - py P')%Z) in *.
  set (d := (dx * fy - dy * fx)%Z) in *. set (n := ((px P' - px P) * fy - (py P' - py P) * fx)%Z) in *.
  assert (DN : (inject_Z d * t == inject_Z n)%Q).
  { unfold d, n, Z.sub. rewrite !inject_Z_plus, !inject_Z_opp, !inject_Z_mult, !inject_Z_plus, !inject_Z_opp. 
    assert (A : (inject_Z (px P') + - inject_Z (px P) == t * inject_Z dx - u * inject_Z fx)%Q) by (rewrite TX in UX; lra).
    assert (B : (inject_Z (py P') + - inject_Z (py P) == t * inject_Z dy - u * inject_Z fy)%Q) by (rewrite TY in UY; lra). rewrite A, B. ring. }
  assert (D0 : d <> 0%Z) by (intros Z; apply D; apply Z.sub_move_0_r; exact Z). assert (DQ : ~ (inject_Z d == 0)%Q) by (intros Z; apply D0; apply (proj1 (inject_Z_injective d 0)); exact Z).
  apply Z.eqb_neq in D0 as D1. rewrite D1 in H. cbn [orb] in H. apply orb_prop in H as [H|H]; [apply orb_prop in H as [H|H]|].
  - apply Z.ltb_lt in H. exfalso. rewrite Zlt_Qlt, inject_Z_mult, <- DN in H. change (inject_Z 0) with 0%Q in H. pose proof (Qmult_le_0_compat _ _ T1 (sq_nn (inject_Z d))) as W. assert (E : (inject_Z d * t * inject_Z d == t * (inject_Z d * inject_Z d))%Q) by ring. rewrite E in H. clear -W H. lra.
  - apply Z.ltb_lt in H. exfalso. rewrite Zlt_Qlt, !inject_Z_mult, <- DN in H. assert (T3 : (0 <= 1 - t)%Q) by (clear -T2; lra). pose proof (Qmult_le_0_compat _ _ T3 (sq_nn (inject_Z d))) as W.
    assert (E : ((1 - t) * (inject_Z d * inject_Z d) == inject_Z d * inject_Z d - inject_Z d * t * inject_Z d)%Q) by ring. rewrite E in W. clear -W H. lra.
  - apply andb_prop in H as (H1 & H2). apply Z.eqb_eq in H1, H2. apply Z.mod_divide in H1; [|exact D0]. apply Z.mod_divide in H2; [|exact D0]. destruct H1 as (a & A). destruct H2 as (b & B).
    assert (C : forall k c, (n * k = c * d)%Z -> (t * inject_Z k == inject_Z c)%Q).
    { intros k c E. assert (Z : (inject_Z d * (t * inject_Z k - inject_Z c) == 0)%Q). { transitivity (inject_Z d * t * inject_Z k - inject_Z c * inject_Z d)%Q; [ring|]. rewrite DN, <- !inject_Z_mult, E. ring. }
      apply Qmult_integral in Z as [Z|Z]; [contradiction|lra]. }
    exists (px P + a)%Z, (py P + b)%Z. rewrite !inject_Z_plus. rewrite TX, TY. split; [rewrite (C dx a A); reflexivity|rewrite (C dy b B); reflexivity].
Qed.
Definition back_check (l : list point) : bool :=
  forallb (fun k => match nth_error l k, nth_error l (S k mod length l), nth_error l (S (S k) mod length l) with
    | Some p, Some q, Some r => negb (((px q - px p) * (py r - py q) =? (py q - py p) * (px r - px q))%Z && ((px q - px p) * (px r - px q) + (py q - py p) * (py r - py q) <? 0)%Z)
    | _, _, _ => true end) (seq 0 (length l)).
Lemma back_ok l : back_check l = true -> no_going_back l.
Proof.
  intros H k p q r A B C (G1 & G2). unfold back_check in H. rewrite forallb_forall in H. assert (L : k < length l) by (apply nth_error_Some; congruence). specialize (H k). rewrite A, B, C in H.
  apply Z.eqb_eq in G1. apply Z.ltb_lt in G2. rewrite G1, G2 in H. assert (X : false = true) by (apply H; apply in_seq; lia). discriminate.
Qed.
