(** The line balance is the pair of winding numbers on the left of the line. *)
From Coq Require Import ZArith QArith Lqa List Bool Lia ZifyBool ZifyNat Permutation.
From Verif Require Import GeomModel GeomSpec WindSpec BalanceModel GeomProofs IsectProofs SweepOrderProofs WindProofs.
Import ListNotations.
Local Open Scope Z_scope.

(** ** Signs of quadratic polynomials for large N *)

Definition lex3 (a b c : Z) : comparison :=
  match a ?= 0 with
  | Eq => match b ?= 0 with Eq => c ?= 0 | r => r end
  | r => r
  end.

Lemma poly_lex a b c N : Z.abs a + Z.abs b + Z.abs c + 1 <= N -> (a * (N * N) + b * N + c ?= 0) = lex3 a b c.
Proof.
  intros H. assert (HN : 1 <= N) by lia. unfold lex3.
  destruct (Z.compare_spec a 0) as [E|E|E].
  - subst a. destruct (Z.compare_spec b 0) as [E|E|E].
    + subst b. reflexivity.
    + apply Z.compare_lt_iff. assert (b * N <= - N) by nia. lia.
    + apply Z.compare_gt_iff. assert (N <= b * N) by nia. lia.
  - apply Z.compare_lt_iff. assert (a * (N * N) <= - (N * N)) by nia.
    assert (b * N + c <= (Z.abs b + Z.abs c) * N) by nia. nia.
  - apply Z.compare_gt_iff. assert (N * N <= a * (N * N)) by nia.
    assert (- ((Z.abs b + Z.abs c) * N) <= b * N + c) by nia. nia.
Qed.

Lemma if_false (b c : bool) : (if b then false else c) = negb b && c.
Proof. destruct b; reflexivity. Qed.

Lemma if_and (b c : bool) (x : Z) : (if b then if c then x else 0 else 0) = if b && c then x else 0.
Proof. destruct b, c; reflexivity. Qed.

(** ** One edge near the start of another *)

Definition esc (k : Z) (e : point * point) : point * point := (scale k (fst e), scale k (snd e)).

Section Near.
  Variables (p dp : point) (eps : Z).
  Hypothesis Hdp : dp <> (0, 0).
  Hypothesis Heps : eps = 1 \/ eps = -1.

  Definition near_pt (N : Z) : point :=
    (N * N * px p + N * px dp + eps * py dp, N * N * py p + N * py dp - eps * px dp).
  Definition hs' : Z := if px dp =? 0 then eps * py dp else px dp.
  Definition tie' : bool := eps * px dp <? 0.

  Lemma hs'_nz : hs' <> 0.
  Proof.
    unfold hs'. destruct (Z.eqb_spec (px dp) 0) as [E|E]; [|assumption].
    assert (py dp <> 0).
    { intros E'. apply Hdp. rewrite <- (pair_eta dp). congruence. }
    lia.
  Qed.

  (* position of near_pt relative to a scaled abscissa *)
  Lemma near_x a N : Z.abs (px p - a) + Z.abs (px dp) + Z.abs (eps * py dp) + 1 <= N ->
    (px (near_pt N) - N * N * a ?= 0) = match (px p - a ?= 0) with Eq => (hs' ?= 0) | r => r end.
  Proof.
    intros HN. replace (px (near_pt N) - N * N * a) with ((px p - a) * (N * N) + px dp * N + eps * py dp)
      by (unfold near_pt, px; cbn [fst]; ring).
    rewrite poly_lex by assumption. unfold lex3, hs'.
    destruct (px p - a ?= 0); try reflexivity.
    destruct (Z.eqb_spec (px dp) 0) as [E|E].
    - rewrite E. cbn [Z.compare]. reflexivity.
    - destruct (Z.compare_spec (px dp) 0); try reflexivity. contradiction.
  Qed.

  (* position relative to a scaled non-vertical line *)
  Definition crossN (sa sb : point) (N : Z) : Z :=
    (N * N * px sb - N * N * px sa) * (py (near_pt N) - N * N * py sa)
    - (px (near_pt N) - N * N * px sa) * (N * N * py sb - N * N * py sa).

  Lemma crossN_poly sa sb N : crossN sa sb N =
    (N * N) * (((py p - py sa) * (px sb - px sa) - (px p - px sa) * (py sb - py sa)) * (N * N)
               + (py dp * (px sb - px sa) - (py sb - py sa) * px dp) * N
               + (- eps * ((px sb - px sa) * px dp + (py sb - py sa) * py dp))).
  Proof. unfold crossN, near_pt, px, py. cbn [fst snd]. ring. Qed.

  Lemma near_cross sa sb : px sa < px sb -> exists N0, 1 <= N0 /\ forall N, N0 <= N ->
    (crossN sa sb N ?= 0) =
      match ((py p - py sa) * (px sb - px sa) ?= (px p - px sa) * (py sb - py sa)) with
      | Eq => match (py dp * (px sb - px sa) ?= (py sb - py sa) * px dp) with
              | Eq => if tie' then Gt else Lt
              | r => r end
      | r => r end.
  Proof.
    intros Hab.
    exists (Z.abs ((py p - py sa) * (px sb - px sa) - (px p - px sa) * (py sb - py sa))
       + Z.abs (py dp * (px sb - px sa) - (py sb - py sa) * px dp)
       + Z.abs (- eps * ((px sb - px sa) * px dp + (py sb - py sa) * py dp)) + 1). split; [lia|].
    intros N HN. rewrite crossN_poly, cmul_ok.
    assert (HNN : (N * N ?= 0) = Gt) by (apply Z.compare_gt_iff; nia). rewrite HNN.
    rewrite poly_lex by assumption. unfold lex3.
    rewrite (Z.compare_sub (( py p - py sa) * (px sb - px sa))). 
    rewrite (Z.compare_sub (py dp * (px sb - px sa))).
    destruct (_ - _ ?= 0); try reflexivity.
    destruct (Z.compare_spec (py dp * (px sb - px sa) - (py sb - py sa) * px dp) 0) as [E|E|E]; try reflexivity.
    (* parallel *)
    assert (Hx : px dp <> 0).
    { intros E0. rewrite E0 in E. assert (py dp = 0) by nia. apply Hdp. rewrite <- (pair_eta dp). congruence. }
    set (D := (px sb - px sa) * px dp + (py sb - py sa) * py dp).
    assert (HD : D * px dp = (px sb - px sa) * (px dp * px dp + py dp * py dp)).
    { unfold D. assert (py dp * (px sb - px sa) = (py sb - py sa) * px dp) as E' by lia.
      transitivity ((px sb - px sa) * px dp * px dp + ((py sb - py sa) * px dp) * py dp); [ring|].
      rewrite <- E'. ring. }
    assert (HP : 0 < (px sb - px sa) * (px dp * px dp + py dp * py dp)) by nia.
    unfold tie'. destruct (Z.ltb_spec (eps * px dp) 0).
    - assert (0 < - eps * D).
      { destruct Heps; subst eps; nia. }
      destruct (Z.compare_spec (- eps * D) 0); try lia. reflexivity.
    - assert (- eps * D < 0).
      { destruct Heps; subst eps; nia. }
      destruct (Z.compare_spec (- eps * D) 0); try lia. reflexivity.
  Qed.

  Lemma on_seg_cross a b o : on_edge (a, b) o -> (px b - px a) * (py o - py a) - (px o - px a) * (py b - py a) = 0.
  Proof.
    intros (t & _ & HX & HY). cbn [fst snd] in *. unfold injX, injY in *. apply inj_eq.
    rewrite injm, !inject_Z_mult, !injm in *. change (inject_Z 0) with 0%Q. rewrite HX, HY. ring.
  Qed.

  Lemma on_edge_swap a b o : on_edge (a, b) o -> on_edge (b, a) o.
  Proof.
    intros (t & Ht & HX & HY). exists (1 - t)%Q. cbn [fst snd] in *.
    split; [lra|]. split; [rewrite HX|rewrite HY]; rewrite !injm; ring.
  Qed.

  Lemma edge_limit e : exists N0, 1 <= N0 /\ forall N, N0 <= N ->
    ~ on_edge (esc (N * N) e) (near_pt N) /\
    (if in_xrange (near_pt N) (esc (N * N) e) then ray_count (near_pt N) 1 (1, 0) false (esc (N * N) e) else 0)
    = (if in_xrange p e then ray_count p hs' dp tie' e else 0).
  Proof.
    (* the same for the stored segment *)
    assert (G : forall sa sb, px sa <= px sb -> exists N0, 1 <= N0 /\ forall N, N0 <= N ->
      ~ on_edge (scale (N * N) sa, scale (N * N) sb) (near_pt N) /\
      ((px (scale (N * N) sa) <=? px (near_pt N)) && (px (near_pt N) <=? px (scale (N * N) sb))
        && up_ray (scale (N * N) sa) (scale (N * N) sb) (near_pt N) 1 (1, 0) false)
      = ((px sa <=? px p) && (px p <=? px sb) && up_ray sa sb p hs' dp tie')).
    { intros sa sb Hab. pose proof hs'_nz as Hh.
      set (Na := Z.abs (px p - px sa) + Z.abs (px dp) + Z.abs (eps * py dp) + 1).
      set (Nb := Z.abs (px p - px sb) + Z.abs (px dp) + Z.abs (eps * py dp) + 1).
      destruct (Z.eq_dec (px sa) (px sb)) as [E|E].
      - (* vertical *)
        exists (Na + Nb). split; [lia|]. intros N HN.
        pose proof (near_x (px sa) N ltac:(lia)) as XA.
        assert (NE : px (near_pt N) <> N * N * px sa).
        { intros K. rewrite K, Z.sub_diag in XA. cbn [Z.compare] in XA.
          destruct (px p - px sa ?= 0); try discriminate. symmetry in XA. apply Z.compare_eq_iff in XA. contradiction. }
        split.
        + intros O. apply on_seg_bounds in O. destruct O as [O _]. cbn [fst snd] in O.
          change (px (scale (N * N) sa)) with (N * N * px sa) in O.
          change (px (scale (N * N) sb)) with (N * N * px sb) in O. rewrite <- E, Z.min_id, Z.max_id in O.
          unfold injX in O. destruct O as [O1 O2]. apply (proj1 (inj_le _ _)) in O1, O2. lia.
        + change (px (scale (N * N) sa)) with (N * N * px sa).
          change (px (scale (N * N) sb)) with (N * N * px sb). rewrite <- E.
          transitivity false.
          * destruct (Z.leb_spec (N * N * px sa) (px (near_pt N))), (Z.leb_spec (px (near_pt N)) (N * N * px sa));
              cbn [andb]; try reflexivity; lia.
          * symmetry. unfold up_ray. change (px (psub sb sa)) with (px sb - px sa).
            replace (px sb - px sa =? 0) with true by lia. unfold vert_overlap, tie'.
            destruct (Z.eqb_spec (px dp) 0) as [E0|E0].
            -- rewrite E0, Z.mul_0_r. cbn [Z.ltb Z.compare andb]. apply andb_false_r.
            -- rewrite !andb_false_r. cbn [andb]. reflexivity.
      - assert (Hlt : px sa < px sb) by lia.
        destruct (near_cross sa sb Hlt) as (Nc & HNc & HC).
        exists (Na + Nb + Nc). split; [lia|]. intros N HN.
        pose proof (near_x (px sa) N ltac:(lia)) as XA. pose proof (near_x (px sb) N ltac:(lia)) as XB.
        specialize (HC N ltac:(lia)).
        assert (HNN : 0 < N * N) by nia.
        assert (Hlt' : px (scale (N * N) sa) < px (scale (N * N) sb)).
        { change (N * N * px sa < N * N * px sb). nia. }
        assert (NO : ~ on_edge (scale (N * N) sa, scale (N * N) sb) (near_pt N)).
        { intros O. apply on_seg_cross in O. change (crossN sa sb N = 0) in O. rewrite O in HC. cbn [Z.compare] in HC.
          destruct (_ ?= _); try discriminate. destruct (_ ?= _); try discriminate. destruct tie'; discriminate. }
        split; [exact NO|].
        rewrite (up_ray_off _ _ _ 1 (1, 0) false ltac:(lia) Hlt' NO).
        replace ((px (scale (N * N) sa) - px (near_pt N)) * (py (scale (N * N) sb) - py (near_pt N)) -
          (px (scale (N * N) sb) - px (near_pt N)) * (py (scale (N * N) sa) - py (near_pt N)))
          with (crossN sa sb N).
        2:{ unfold crossN, scale, px, py. cbn [fst snd]. ring. }
        change (px (scale (N * N) sa)) with (N * N * px sa). change (px (scale (N * N) sb)) with (N * N * px sb).
        unfold up_ray. change (px (psub sb sa)) with (px sb - px sa). change (py (psub sb sa)) with (py sb - py sa).
        replace (px sb - px sa =? 0) with false by lia. unfold lower_angle.
        change (px (psub sb sa)) with (px sb - px sa). change (py (psub sb sa)) with (py sb - py sa).
        rewrite (cpos_ok (crossN sa sb N)), HC. cbn [Z.ltb Z.compare].
        revert XA XB. generalize (N * N * px sa) (N * N * px sb) (px (near_pt N)). intros xa xb xn XA XB.
        generalize ((py p - py sa) * (px sb - px sa)) ((px p - px sa) * (py sb - py sa))
          (py dp * (px sb - px sa)) ((py sb - py sa) * px dp). intros u t w v.
        generalize tie'. intros ti. clear - XA XB Hh Hlt. rewrite !if_false.
        destruct (Z.compare_spec (px p - px sa) 0), (Z.compare_spec (px p - px sb) 0),
          (Z.compare_spec hs' 0), (Z.compare_spec (xn - xa) 0), (Z.compare_spec (xn - xb) 0);
          try discriminate; try lia;
          destruct (Z.compare_spec u t), (Z.compare_spec w v), ti; cbn [cpos]; lia. }
    unfold in_xrange, ray_count.
    destruct (Z.ltb_spec (px (snd e)) (px (fst e))) as [L|L].
    - destruct (G (snd e) (fst e) ltac:(lia)) as (N0 & H0 & HG). exists N0. split; [assumption|].
      intros N HN. destruct (HG N HN) as [NO EQ]. split.
      + intros O. apply NO. apply on_edge_swap. exact O.
      + assert (HNN : 0 < N * N) by nia.
        assert (EL : edge_lo (esc (N * N) e) = scale (N * N) (snd e) /\ edge_hi (esc (N * N) e) = scale (N * N) (fst e)
          /\ edge_sign (esc (N * N) e) = -1).
        { unfold edge_lo, edge_hi, edge_sign, esc. cbn [fst snd].
          replace (px (scale (N * N) (snd e)) <? px (scale (N * N) (fst e))) with true; [auto|].
          symmetry. apply Z.ltb_lt. change (N * N * px (snd e) < N * N * px (fst e)). nia. }
        destruct EL as (-> & -> & ->).
        unfold edge_lo, edge_hi, edge_sign. replace (px (snd e) <? px (fst e)) with true by lia.
        rewrite !if_and, EQ. reflexivity.
    - destruct (G (fst e) (snd e) ltac:(lia)) as (N0 & H0 & HG). exists N0. split; [assumption|].
      intros N HN. destruct (HG N HN) as [NO EQ]. split; [exact NO|].
      assert (HNN : 0 < N * N) by nia.
      assert (EL : edge_lo (esc (N * N) e) = scale (N * N) (fst e) /\ edge_hi (esc (N * N) e) = scale (N * N) (snd e)
          /\ edge_sign (esc (N * N) e) = 1).
      { unfold edge_lo, edge_hi, edge_sign, esc. cbn [fst snd].
        replace (px (scale (N * N) (snd e)) <? px (scale (N * N) (fst e))) with false; [auto|].
        symmetry. apply Z.ltb_ge. change (N * N * px (fst e) <= N * N * px (snd e)). nia. }
      destruct EL as (-> & -> & ->).
      unfold edge_lo, edge_hi, edge_sign. replace (px (snd e) <? px (fst e)) with false by lia.
      rewrite !if_and, EQ. reflexivity.
  Qed.

  Lemma edges_limit es : exists N0, 1 <= N0 /\ forall N, N0 <= N ->
    (forall e, In e es -> ~ on_edge (esc (N * N) e) (near_pt N)) /\
    ray_sum (near_pt N) 1 (1, 0) false (map (esc (N * N)) es) = ray_sum p hs' dp tie' es.
  Proof.
    induction es as [|e es (N1 & H1 & IH)].
    - exists 1. split; [lia|]. intros N HN. split; [intros e []|reflexivity].
    - destruct (edge_limit e) as (N2 & H2 & HE). exists (N1 + N2). split; [lia|]. intros N HN.
      destruct (IH N ltac:(lia)) as [I1 I2]. destruct (HE N ltac:(lia)) as [E1 E2]. split.
      + intros e' [<-|I]; auto.
      + unfold ray_sum in *. rewrite !sum_filter in *. cbn [map]. unfold sumZ in *. cbn [fold_right].
        rewrite I2, E2. reflexivity.
  Qed.

  (** Winding number of a polygon around the near point. *)
  Lemma turns_limit l : exists N0, 1 <= N0 /\ forall N, N0 <= N ->
    turns (map (scale (N * N)) l) (near_pt N) = 4 * ray_sum p hs' dp tie' (closed_edges l).
  Proof.
    destruct (edges_limit (closed_edges l)) as (N0 & H0 & HL). exists N0. split; [assumption|].
    intros N HN. destruct (HL N HN) as [I1 I2]. rewrite <- I2.
    assert (E : closed_edges (map (scale (N * N)) l) = map (esc (N * N)) (closed_edges l)) by apply closed_edges_map.
    rewrite <- E. apply ray_sum_turns; [lia|]. rewrite E. intros e He. apply in_map_iff in He.
    destruct He as (e' & <- & He'). apply I1. assumption.
  Qed.

  Lemma turns_all_limit ls : exists N0, 1 <= N0 /\ forall N, N0 <= N ->
    turns_all (map (map (scale (N * N))) ls) (near_pt N)
    = 4 * ray_sum p hs' dp tie' (flat_map closed_edges ls).
  Proof.
    induction ls as [|l ls (N1 & H1 & IH)].
    - exists 1. split; [lia|]. reflexivity.
    - destruct (turns_limit l) as (N2 & H2 & HE). exists (N1 + N2). split; [lia|]. intros N HN.
      specialize (IH N ltac:(lia)). specialize (HE N ltac:(lia)).
      unfold turns_all in *. cbn [map flat_map]. unfold sumZ in *. cbn [fold_right]. rewrite IH, HE.
      unfold ray_sum. rewrite filter_app, map_app, sumZ_app. unfold sumZ. lia.
  Qed.
End Near.

(** ** Ties only matter for overlapping edges *)

Lemma seg_y_unique a b X Y Y' : px a < px b -> on_seg a b X Y -> on_seg a b X Y' -> (Y == Y')%Q.
Proof.
  intros H H1 H2. destruct (slope_intercept a b H) as (k & c & F). rewrite (F _ _ H1), (F _ _ H2). reflexivity.
Qed.

Lemma on_seg_swap a b X Y : on_seg a b X Y -> on_seg b a X Y.
Proof.
  intros (t & Ht & HX & HY). exists (1 - t)%Q. split; [lra|]. split; [rewrite HX|rewrite HY]; rewrite !injm; ring.
Qed.

Lemma on_lohi e X Y : on_seg (fst e) (snd e) X Y <-> on_seg (edge_lo e) (edge_hi e) X Y.
Proof.
  unfold edge_lo, edge_hi. destruct (px (snd e) <? px (fst e)); [|tauto]. split; apply on_seg_swap.
Qed.

Lemma lo_le_hi e : px (edge_lo e) <= px (edge_hi e).
Proof. unfold edge_lo, edge_hi. destruct (Z.ltb_spec (px (snd e)) (px (fst e))); lia. Qed.

(* a point on the line of a non-vertical segment, within its x range, is on it *)
Lemma on_by_cross a b X Y : px a < px b -> (injX a <= X <= injX b)%Q ->
  ((X - injX a) * inject_Z (py b - py a) == (Y - injY a) * inject_Z (px b - px a))%Q -> on_seg a b X Y.
Proof.
  intros H HX E. destruct (seg_at a b X H HX) as [Y' HY].
  assert (EQ : (Y == Y')%Q).
  { pose proof HY as (t & _ & HX' & HY').
    assert (Hq : (0 < inject_Z (px b - px a))%Q) by (apply (inj_lt 0); lia).
    apply (Qmult_inj_r _ _ (inject_Z (px b - px a))); [lra|].
    transitivity ((X - injX a) * inject_Z (py b - py a) + injY a * inject_Z (px b - px a))%Q; [lra|].
    rewrite HX', HY'. unfold injX, injY. ring. }
  destruct HY as (t & Ht & HX' & HY'). exists t. split; [assumption|]. split; [assumption|]. rewrite EQ. assumption.
Qed.

Lemma tie_indep e1 e tie :
  fst e1 <> snd e1 -> fst e <> snd e -> ~ edges_overlap e1 e -> in_xrange (fst e1) e = true ->
  up_ray (edge_lo e) (edge_hi e) (fst e1) (hsign_of (psub (snd e1) (fst e1))) (psub (snd e1) (fst e1)) tie
  = up_ray (edge_lo e) (edge_hi e) (fst e1) (hsign_of (psub (snd e1) (fst e1))) (psub (snd e1) (fst e1)) false.
Proof.
  intros N1 Ne NO IX. unfold in_xrange in IX.
  set (p := fst e1) in *. set (q := snd e1) in *. set (sa := edge_lo e) in *. set (sb := edge_hi e) in *.
  assert (Nab : sa <> sb).
  { unfold sa, sb, edge_lo, edge_hi. destruct (_ <? _); congruence. }
  destruct tie; [|reflexivity].
  assert (OV : forall X Y, on_seg p q (injX p) (injY p) -> on_seg sa sb (injX p) (injY p) ->
     on_seg p q X Y -> on_seg sa sb X Y -> ~ (injX p == X /\ injY p == Y)%Q -> False).
  { intros X Y A B C D E. apply NO. exists (injX p), (injY p), X, Y.
    repeat split; try assumption; apply on_lohi; assumption. }
  pose proof (on_seg_a p q) as Op.
  unfold up_ray. change (px (psub sb sa)) with (px sb - px sa). change (py (psub sb sa)) with (py sb - py sa).
  destruct (Z.eqb_spec (px sb - px sa) 0) as [V|V].
  - (* vertical: vert_overlap *)
    unfold vert_overlap. change (px (psub q p)) with (px q - px p). change (py (psub q p)) with (py q - py p).
    cbn [andb].
    destruct (Z.eqb_spec (px q - px p) 0) as [Vq|Vq]; [|reflexivity].
    destruct (Bool.eqb (0 <? py q - py p) (py sa <? py sb)) eqn:D; [|reflexivity].
    destruct (Z.eqb_spec (py p) (py sa)) as [Y|Y]; [|reflexivity]. exfalso.
    apply eqb_prop in D. assert (X : px p = px sa) by lia.
    assert (EP : p = sa) by (rewrite <- (pair_eta p), <- (pair_eta sa); congruence).
    assert (Hy1 : py q <> py p) by (intros K; apply N1; rewrite <- (pair_eta p), <- (pair_eta q); f_equal; lia).
    assert (Hy2 : py sb <> py sa) by (intros K; apply Nab; rewrite <- (pair_eta sa), <- (pair_eta sb); f_equal; lia).
    assert (Osa : on_seg sa sb (injX p) (injY p)) by (rewrite EP; apply on_seg_a).
    (* the nearer end lies on both *)
    assert (VON : forall a b z : point, px a = px b -> px z = px a -> py a <> py b ->
       Z.min (py a) (py b) <= py z <= Z.max (py a) (py b) -> on_seg a b (injX z) (injY z)).
    { intros a b z E1 E2 E3 E4. exists (inject_Z (py z - py a) / inject_Z (py b - py a))%Q.
      assert (Hq : ~ (inject_Z (py b - py a) == 0)%Q) by (apply inj_nz; lia).
      split; [|split].
      - apply (in_unit_q (py z - py a) (py b - py a)); [lia|field; assumption|]. unfold in_unit. lia.
      - unfold injX. rewrite E2, <- E1, Z.sub_diag. change (inject_Z 0) with 0%Q. ring.
      - unfold injY. rewrite (injm (py z)). field. assumption. }
    destruct (Z_lt_ge_dec (Z.abs (py sb - py sa)) (Z.abs (py q - py p))) as [L|L].
    + apply (OV (injX sb) (injY sb) Op Osa); [apply VON; lia|apply on_seg_b|].
      intros [_ K]. apply (proj1 (inj_eq _ _)) in K. lia.
    + apply (OV (injX q) (injY q) Op Osa); [apply on_seg_b|apply VON; lia|].
      intros [_ K]. apply (proj1 (inj_eq _ _)) in K. lia.
  - assert (Hab : px sa < px sb) by (assert (K : px sa <= px sb) by apply lo_le_hi; lia).
    unfold lower_angle. change (px (psub sb sa)) with (px sb - px sa). change (py (psub sb sa)) with (py sb - py sa).
    unfold hsign_of. change (px (psub q p)) with (px q - px p). change (py (psub q p)) with (py q - py p).
    destruct (Z.eqb_spec ((px p - px sa) * (py sb - py sa)) ((py p - py sa) * (px sb - px sa))) as [T|T];
      [|cbn [andb]; reflexivity].
    destruct (Z.eqb_spec ((py sb - py sa) * (px q - px p)) ((py q - py p) * (px sb - px sa))) as [W|W];
      [|cbn [andb]; reflexivity].
    destruct (Z.eqb_spec (px q - px p) 0) as [Z0|Z0].
    { exfalso. rewrite Z0, Z.mul_0_r in W. assert (py q - py p = 0) by nia.
      apply N1. rewrite <- (pair_eta p), <- (pair_eta q). f_equal; lia. }
    (* p is on e and the two are parallel: an overlap unless the x ranges exclude it *)
    assert (Op2 : on_seg sa sb (injX p) (injY p)).
    { apply on_by_cross; [assumption|unfold injX; split; apply inj_le; lia|].
      unfold injX, injY. rewrite <- !injm, <- !inject_Z_mult. apply inj_eq. lia. }
    assert (BOTH : forall x, px sa <= x <= px sb -> Z.min (px p) (px q) <= x <= Z.max (px p) (px q) -> x <> px p -> False).
    { intros x R1 R2 Nx.
      assert (exists Y, on_seg p q (inject_Z x) Y) as [Y OY].
      { destruct (Z_lt_ge_dec (px p) (px q)).
        - apply seg_at; [assumption|]. unfold injX. split; apply inj_le; lia.
        - destruct (seg_at q p (inject_Z x)) as [Y OY]; [lia|unfold injX; split; apply inj_le; lia|].
          exists Y. apply on_seg_swap. assumption. }
      apply (OV (inject_Z x) Y Op Op2 OY).
      - apply on_by_cross; [assumption|unfold injX; split; apply inj_le; lia|].
        destruct OY as (t & _ & HX & HY).
        apply (f_equal inject_Z) in T, W. rewrite !inject_Z_mult in T, W.
        rewrite HX, HY. unfold injX, injY.
        transitivity (inject_Z (px p - px sa) * inject_Z (py sb - py sa)
           + t * (inject_Z (py sb - py sa) * inject_Z (px q - px p)))%Q.
        { rewrite (injm (px p) (px sa)). ring. }
        rewrite T, W. rewrite (injm (py p) (py sa)). ring.
      - intros [K _]. apply (proj1 (inj_eq _ _)) in K. lia. }
    destruct (Z.ltb_spec (px p) (px sa)), (Z.ltb_spec (px sb) (px p)); try lia. cbn [orb].
    destruct (Z.ltb_spec (px q - px p) 0), (Z.ltb_spec 0 (px q - px p)); try lia.
    + destruct (Z.eqb_spec (px p) (px sa)) as [K|K]; [reflexivity|].
      exfalso. apply (BOTH (Z.max (px sa) (px q))); lia.
    + destruct (Z.eqb_spec (px p) (px sb)) as [K|K]; [rewrite !andb_false_r; reflexivity|].
      exfalso. apply (BOTH (Z.min (px sb) (px q))); lia.
Qed.

(** The line's own test with the tie broken either way. *)
Lemma own_up_ray e tie : px (fst e) <> px (snd e) ->
  up_ray (edge_lo e) (edge_hi e) (fst e) (hsign_of (psub (snd e) (fst e))) (psub (snd e) (fst e)) tie = tie.
Proof.
  intros Hx. unfold up_ray, edge_lo, edge_hi, hsign_of, lower_angle.
  destruct e as [[ax ay] [bx b_y]]. unfold psub, px, py in *. cbn [fst snd] in *.
  destruct (Z.ltb_spec bx ax); cbn [fst snd].
  - destruct (Z.eqb_spec (ax - bx) 0); [lia|].
    destruct (Z.eqb_spec (bx - ax) 0); [lia|].
    destruct (Z.ltb_spec ax bx); [lia|]. destruct (Z.eqb_spec ax bx); [lia|]. cbn [orb andb].
    rewrite Z.ltb_irrefl. destruct (Z.ltb_spec 0 (bx - ax)); [lia|]. rewrite andb_false_r. cbn [orb].
    replace ((ay - b_y) * (ax - bx)) with ((ax - bx) * (ay - b_y)) by lia.
    rewrite Z.ltb_irrefl, Z.eqb_refl.
    replace ((ay - b_y) * (bx - ax)) with ((b_y - ay) * (ax - bx)) by lia.
    rewrite Z.ltb_irrefl, Z.eqb_refl. reflexivity.
  - destruct (Z.eqb_spec (bx - ax) 0); [lia|].
    rewrite Z.ltb_irrefl. destruct (Z.ltb_spec (bx - ax) 0); [lia|]. rewrite andb_false_r. cbn [orb].
    destruct (Z.ltb_spec bx ax); [lia|]. destruct (Z.eqb_spec ax bx); [lia|]. cbn [orb andb].
    rewrite !Z.sub_diag, !Z.mul_0_l. rewrite Z.ltb_irrefl, Z.eqb_refl.
    rewrite Z.ltb_irrefl, Z.eqb_refl. reflexivity.
Qed.
