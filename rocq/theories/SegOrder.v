(** The order of two lines at a vertical line, for lines whose first end is not to the
    right of the second. *)
From Coq Require Import ZArith QArith Qminmax List Bool Arith Lia Lqa.
From Verif Require Import GeomModel GeomSpec GeomProofs.
Import ListNotations.
Local Open Scope Z_scope.

Definition vt (g : cseg) : bool := px (sg_pa g) =? px (sg_pb g).
Definition good (g : cseg) : Prop := px (sg_pa g) <= px (sg_pb g) /\ sg_pa g <> sg_pb g.
Definition cover (g : cseg) (x : Z) : Prop := px (sg_pa g) <= x <= px (sg_pb g).
Notation inj := inject_Z.
(** The height of a line that is not vertical, and the lowest and highest point of any line. *)
Definition yq (g : cseg) (X : Q) : Q := line_y (sg_pa g) (sg_pb g) X.
Definition lo (g : cseg) (x : Z) : Q := if vt g then inj (Z.min (py (sg_pa g)) (py (sg_pb g))) else yq g (inj x).
Definition hi (g : cseg) (x : Z) : Q := if vt g then inj (Z.max (py (sg_pa g)) (py (sg_pb g))) else yq g (inj x).
Definition slope (g : cseg) : Q := (inj (py (sg_pb g) - py (sg_pa g)) / inj (px (sg_pb g) - px (sg_pa g)))%Q.

Lemma inj_lt a b : (inj a < inj b)%Q <-> a < b. Proof. rewrite <- Zlt_Qlt. reflexivity. Qed.
Lemma inj_le a b : (inj a <= inj b)%Q <-> a <= b. Proof. rewrite <- Zle_Qle. reflexivity. Qed.
Lemma inj_eqz a b : (inj a == inj b)%Q <-> a = b. Proof. apply inject_Z_injective. Qed.
Lemma inj_lt1 a b : (inj a < inj b)%Q -> a < b. Proof. apply inj_lt. Qed.
Lemma inj_le1 a b : (inj a <= inj b)%Q -> a <= b. Proof. apply inj_le. Qed.
Lemma inj_eq1 a b : (inj a == inj b)%Q -> a = b. Proof. apply inj_eqz. Qed.
Lemma inj_sub a b : (inj (a - b) == inj a - inj b)%Q.
Proof. unfold Z.sub. rewrite inject_Z_plus, inject_Z_opp. reflexivity. Qed.
Lemma vt_true g : vt g = true <-> px (sg_pa g) = px (sg_pb g). Proof. apply Z.eqb_eq. Qed.
Lemma vt_false g : good g -> vt g = false -> px (sg_pa g) < px (sg_pb g).
Proof. intros (A & _) V. apply Z.eqb_neq in V. lia. Qed.
Lemma vt_py g : good g -> vt g = true -> py (sg_pa g) <> py (sg_pb g).
Proof. intros (_ & N) V E. apply vt_true in V. apply N. destruct (sg_pa g), (sg_pb g). cbn in *. congruence. Qed.
Lemma lo_hi g x : (lo g x <= hi g x)%Q.
Proof. unfold lo, hi. destruct (vt g); [|apply Qle_refl]. apply inj_le. lia. Qed.

Lemma yq_eq g X : (yq g X == injY (sg_pa g) + (X - injX (sg_pa g)) * slope g)%Q.
Proof. reflexivity. Qed.
Lemma yq_comp g X X' : (X == X')%Q -> (yq g X == yq g X')%Q.
Proof. intros E. rewrite !yq_eq, E. reflexivity. Qed.
Lemma slope_dx g : good g -> vt g = false -> (slope g * inj (px (sg_pb g) - px (sg_pa g)) == inj (py (sg_pb g) - py (sg_pa g)))%Q.
Proof.
  intros G V. apply (vt_false g G) in V. unfold slope. field. change 0%Q with (inj 0). rewrite inj_eqz. lia.
Qed.
Lemma yq_pa g : (yq g (injX (sg_pa g)) == injY (sg_pa g))%Q.
Proof. rewrite yq_eq. ring. Qed.
Lemma yq_pb g : good g -> vt g = false -> (yq g (injX (sg_pb g)) == injY (sg_pb g))%Q.
Proof.
  intros G V. pose proof (slope_dx g G V) as E. rewrite yq_eq. unfold injX, injY. rewrite !inj_sub in E.
  setoid_replace ((inj (px (sg_pb g)) - inj (px (sg_pa g))) * slope g)%Q with (slope g * (inj (px (sg_pb g)) - inj (px (sg_pa g))))%Q by ring. rewrite E. ring.
Qed.

(** * Points on lines *)
Lemma on_nv g X Y : good g -> vt g = false -> (on_seg (sg_pa g) (sg_pb g) X Y <-> (injX (sg_pa g) <= X <= injX (sg_pb g) /\ Y == yq g X)%Q).
Proof.
  intros G V. pose proof (slope_dx g G V) as E. pose proof (vt_false g G V) as L. rewrite yq_eq. unfold injX, injY.
  set (d := inj (px (sg_pb g) - px (sg_pa g))) in *. assert (D : (0 < d)%Q) by (unfold d; change 0%Q with (inj 0); apply inj_lt; lia).
  assert (PB : (inj (px (sg_pb g)) == inj (px (sg_pa g)) + d)%Q) by (unfold d; rewrite inj_sub; ring).
  split.
  - intros (t & T & EX & EY). fold d in EX. split.
    + rewrite EX, PB. split; nra.
    + rewrite EY, EX. setoid_replace ((inj (px (sg_pa g)) + t * d - inj (px (sg_pa g))) * slope g)%Q with (t * (slope g * d))%Q by ring. rewrite E. reflexivity.
  - intros ((A & B) & EY). exists ((X - inj (px (sg_pa g))) / d)%Q. fold d. split; [|split].
    + split; [apply Qle_shift_div_l; [exact D|lra]|apply Qle_shift_div_r; [exact D|lra]].
    + field. intros Z. lra.
    + rewrite EY, <- E. field. intros Z. lra.
Qed.
Lemma on_v g X Y : good g -> vt g = true -> (on_seg (sg_pa g) (sg_pb g) X Y <-> (X == injX (sg_pa g) /\ lo g 0 <= Y <= hi g 0)%Q).
Proof.
  intros G V. pose proof (vt_py g G V) as N. unfold lo, hi. rewrite V. apply vt_true in V. unfold injX.
  split.
  - intros (t & T & EX & EY). rewrite V, Z.sub_diag in EX. split; [rewrite EX, V; ring|]. rewrite EY, inj_sub.
    destruct (Z.min_spec (py (sg_pa g)) (py (sg_pb g))) as [(A & ->)|(A & ->)]; destruct (Z.max_spec (py (sg_pa g)) (py (sg_pb g))) as [(B & ->)|(B & ->)]; try lia;
      try (apply inj_lt in A; split; nra); apply inj_le in A; split; nra.
  - intros (EX & A & B). exists ((Y - inj (py (sg_pa g))) / inj (py (sg_pb g) - py (sg_pa g)))%Q.
    assert (NZ : ~ (inj (py (sg_pb g) - py (sg_pa g)) == 0)%Q) by (change 0%Q with (inj 0); rewrite inj_eqz; lia).
    split; [|split].
    + destruct (Z.lt_trichotomy (py (sg_pa g)) (py (sg_pb g))) as [H|[H|H]]; [|contradiction|].
      * rewrite Z.min_l, Z.max_r in * by lia. assert (D : (0 < inj (py (sg_pb g) - py (sg_pa g)))%Q) by (change 0%Q with (inj 0); apply inj_lt; lia).
        split; [apply Qle_shift_div_l; [exact D|lra]|apply Qle_shift_div_r; [exact D|rewrite inj_sub; lra]].
      * rewrite Z.min_r, Z.max_l in * by lia. set (d := inj (py (sg_pb g) - py (sg_pa g))) in *.
        assert (D : (0 < inj (py (sg_pa g) - py (sg_pb g)))%Q) by (change 0%Q with (inj 0); apply inj_lt; lia).
        assert (DD : (d == - inj (py (sg_pa g) - py (sg_pb g)))%Q) by (unfold d; rewrite !inj_sub; ring).
        set (d' := inj (py (sg_pa g) - py (sg_pb g))) in *.
        assert (R : ((Y - inj (py (sg_pa g))) / d == (inj (py (sg_pa g)) - Y) / d')%Q) by (rewrite DD; field; intros Z; lra).
        rewrite R. split; [apply Qle_shift_div_l; [exact D|lra]|apply Qle_shift_div_r; [exact D|unfold d'; rewrite inj_sub; lra]].
    + rewrite EX, V, Z.sub_diag. ring.
    + field. exact NZ.
Qed.
Lemma on_at g x : good g -> cover g x -> on_seg (sg_pa g) (sg_pb g) (inj x) (lo g x).
Proof.
  intros G (A & B). destruct (vt g) eqn:V.
  - apply on_v; auto. unfold lo, hi. rewrite V. pose proof (proj1 (vt_true g) V). unfold injX. split; [apply inj_eqz; lia|]. split; [apply Qle_refl|apply inj_le; lia].
  - apply on_nv; auto. unfold lo, injX. rewrite V. split; [split; apply inj_le; assumption|reflexivity].
Qed.
Lemma on_between g x Y : good g -> cover g x -> (lo g x <= Y <= hi g x)%Q -> on_seg (sg_pa g) (sg_pb g) (inj x) Y.
Proof.
  intros G (A & B) H. destruct (vt g) eqn:V.
  - apply on_v; auto. unfold lo, hi in *. rewrite V in *. pose proof (proj1 (vt_true g) V). unfold injX. split; [apply inj_eqz; lia|]. exact H.
  - apply on_nv; auto. unfold lo, hi, injX in *. rewrite V in *. split; [split; apply inj_le; assumption|]. destruct H as (H1 & H2). apply Qle_antisym; assumption.
Qed.
Lemma on_range g x Y : good g -> on_seg (sg_pa g) (sg_pb g) (inj x) Y -> cover g x /\ (lo g x <= Y <= hi g x)%Q.
Proof.
  intros G H. destruct (vt g) eqn:V.
  - apply on_v in H as (E & H); auto. unfold injX in E. apply inj_eq1 in E. apply vt_true in V as V2. split; [unfold cover; rewrite <- V2, <- E; split; apply Z.le_refl|]. unfold lo, hi in *. rewrite V in *. exact H.
  - apply on_nv in H as ((A & B) & H); auto. unfold injX in *. apply inj_le1 in A, B. split; [split; assumption|]. unfold lo, hi. rewrite V. rewrite H. split; apply Qle_refl.
Qed.

(** * Affine functions *)
Lemma yq_aff g X Z : (yq g X == yq g Z + (X - Z) * slope g)%Q.
Proof. rewrite !yq_eq. ring. Qed.
Lemma cross g h X1 X2 : (X1 < X2)%Q -> (yq h X1 < yq g X1)%Q -> (yq g X2 < yq h X2)%Q -> exists X, (X1 < X < X2)%Q /\ (yq g X == yq h X)%Q.
Proof.
  intros L A B. rewrite (yq_aff g X2 X1), (yq_aff h X2 X1) in B. set (D := (yq g X1 - yq h X1)%Q). set (K := (slope h - slope g)%Q).
  assert (DP : (0 < D)%Q) by (unfold D; lra). assert (KL : (D < (X2 - X1) * K)%Q) by (unfold D, K; lra).
  assert (KP : (0 < K)%Q) by (destruct (Qlt_le_dec 0 K) as [H|H]; [exact H|exfalso; nra]).
  exists (X1 + D / K)%Q. split; [split|].
  - assert (0 < D / K)%Q by (apply Qlt_shift_div_l; lra). lra.
  - assert (D / K < X2 - X1)%Q by (apply Qlt_shift_div_r; lra). lra.
  - rewrite (yq_aff g _ X1), (yq_aff h _ X1). setoid_replace (X1 + D / K - X1)%Q with (D / K)%Q by ring.
    assert (E : (D / K * K == D)%Q) by (field; lra). revert E. generalize (D / K)%Q. intros r E. unfold D, K in E. lra.
Qed.
(** Between two places where the order is the same it stays so. *)
Lemma between_aff g h X1 X2 X : (X1 < X < X2)%Q -> (yq h X1 <= yq g X1)%Q -> (yq h X2 <= yq g X2)%Q -> (yq h X <= yq g X)%Q /\
  ((yq h X == yq g X)%Q -> (yq h X1 == yq g X1)%Q /\ (yq h X2 == yq g X2)%Q).
Proof.
  intros (L1 & L2) A B. rewrite (yq_aff g X2 X1), (yq_aff h X2 X1) in *. rewrite (yq_aff g X X1), (yq_aff h X X1).
  set (a := yq g X1) in *. set (b := yq h X1) in *. set (s := slope g) in *. set (t := slope h) in *. split.
  - destruct (Qlt_le_dec s t) as [H|H]; nra.
  - intros E. assert (Z1 : (a == b)%Q). { destruct (Qlt_le_dec b a) as [H|H]; [exfalso; destruct (Qlt_le_dec s t) as [H'|H']; nra|lra]. }
    split; [lra|]. rewrite Z1 in *. assert (Z2 : ((X - X1) * (s - t) == 0)%Q) by lra. apply Qmult_integral in Z2 as [Z2|Z2]; [lra|]. assert (s == t)%Q by lra. rewrite H. reflexivity.
Qed.

(** * Windings *)
Lemma tw_y g p : good g -> vt g = false -> (inj (triangle_winding (sg_pb g) (sg_pa g) p) == inj (px (sg_pb g) - px (sg_pa g)) * (yq g (injX p) - injY p))%Q.
Proof.
  intros G V. pose proof (slope_dx g G V) as E. unfold triangle_winding. rewrite inj_sub, !inject_Z_mult, yq_eq. unfold injX, injY.
  setoid_replace (inj (px (sg_pb g) - px (sg_pa g)) * (inj (py (sg_pa g)) + (inj (px p) - inj (px (sg_pa g))) * slope g - inj (py p)))%Q
    with (inj (px (sg_pb g) - px (sg_pa g)) * (inj (py (sg_pa g)) - inj (py p)) + (inj (px p) - inj (px (sg_pa g))) * (slope g * inj (px (sg_pb g) - px (sg_pa g))))%Q by ring.
  rewrite E, !inj_sub. ring.
Qed.
Lemma tw_rev a b p : triangle_winding a b p = - triangle_winding b a p.
Proof. unfold triangle_winding. ring. Qed.
Lemma dxpos g : good g -> vt g = false -> (0 < inj (px (sg_pb g) - px (sg_pa g)))%Q.
Proof. intros G V. apply (vt_false g G) in V. change 0%Q with (inj 0). apply inj_lt. lia. Qed.
Lemma tw_pos g p : good g -> vt g = false -> (0 < triangle_winding (sg_pb g) (sg_pa g) p <-> (injY p < yq g (injX p))%Q).
Proof. intros G V. rewrite <- inj_lt, (tw_y g p G V). pose proof (dxpos g G V). change (inj 0) with 0%Q. split; intros; nra. Qed.
Lemma tw_neg g p : good g -> vt g = false -> (triangle_winding (sg_pb g) (sg_pa g) p < 0 <-> (yq g (injX p) < injY p)%Q).
Proof. intros G V. rewrite <- inj_lt, (tw_y g p G V). pose proof (dxpos g G V). change (inj 0) with 0%Q. split; intros; nra. Qed.
Lemma tw_zero g p : good g -> vt g = false -> (triangle_winding (sg_pb g) (sg_pa g) p = 0 <-> (yq g (injX p) == injY p)%Q).
Proof.
  intros G V. pose proof (tw_pos g p G V). pose proof (tw_neg g p G V). split.
  - intros E. apply Qle_antisym; apply Qnot_lt_le; intros X; [apply H in X|apply H0 in X]; lia.
  - intros E. destruct (Z.lt_trichotomy (triangle_winding (sg_pb g) (sg_pa g) p) 0) as [X|[X|X]]; [apply H0 in X; lra|exact X|apply H in X; lra].
Qed.
