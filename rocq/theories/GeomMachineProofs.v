(** The checked predicates agree with the ideal ones for moderate coordinates. *)
From Coq Require Import ZArith QArith Lqa List Bool Lia ZifyBool.
From Verif Require Import GeomModel GeomSpec GeomProofs IsectProofs GeomMachine.
Import ListNotations.
Local Open Scope Z_scope.

Definition small (w c : Z) : Prop := Z.abs c < 2 ^ (w - 2).
Definition small_pt (w : Z) (p : point) : Prop := small w (px p) /\ small w (py p).
Definition small_seg (w : Z) (s : cseg) : Prop := small_pt w (sg_pa s) /\ small_pt w (sg_pb s).

Lemma chk_ok w z : - 2 ^ (w - 1) <= z < 2 ^ (w - 1) -> chk w z = Ok z.
Proof.
  intros H. unfold chk. destruct (Z.leb_spec (- 2 ^ (w - 1)) z), (Z.ltb_spec z (2 ^ (w - 1))); try lia. reflexivity.
Qed.

Section W.
  Variable w : Z.
  Hypothesis Hw2 : 2 <= w.
  Let H := 2 ^ (w - 2).

  Lemma H_pos : 0 < H.
  Proof. unfold H. apply Z.pow_pos_nonneg; lia. Qed.
  Lemma half_w : 2 ^ (w - 1) = 2 * H.
  Proof. unfold H. rewrite <- Z.pow_succ_r by lia. f_equal. lia. Qed.
  Lemma half_2w : 2 ^ (2 * w - 1) = 8 * (H * H).
  Proof. unfold H. rewrite <- Z.pow_add_r by lia. change 8 with (2 ^ 3). rewrite <- Z.pow_add_r by lia. f_equal. lia. Qed.

  (* magnitude of a difference and of products of differences *)
  Definition dif (z : Z) : Prop := Z.abs z < 2 * H.

  Lemma prod_small a b : dif a -> dif b -> Z.abs (a * b) < 4 * (H * H).
  Proof.
    unfold dif. intros A B. rewrite Z.abs_mul.
    assert (K := H_pos). generalize dependent H. intros h A B K.
    assert (0 <= Z.abs a) by lia. assert (0 <= Z.abs b) by lia. nia.
  Qed.

  Lemma msub_ok a b : small w a -> small w b -> msub w a b = Ok (a - b) /\ dif (a - b).
  Proof.
    unfold small, dif, msub. intros A B. fold H in A, B. split; [|lia].
    apply chk_ok. rewrite half_w. lia.
  Qed.
  Lemma mmul_ok a b : dif a -> dif b -> mmul w a b = Ok (a * b).
  Proof. intros A B. apply chk_ok. rewrite half_2w. pose proof (prod_small a b A B). lia. Qed.

  Lemma mdet_ok a b c d e f g h : small w a -> small w b -> small w c -> small w d ->
    small w e -> small w f -> small w g -> small w h ->
    mdet w a b c d e f g h = Ok ((a - b) * (c - d) - (e - f) * (g - h)).
  Proof.
    intros Ha Hb Hc Hd He Hf Hg Hh. unfold mdet.
    destruct (msub_ok a b Ha Hb) as [-> D1]. destruct (msub_ok c d Hc Hd) as [-> D2].
    destruct (msub_ok e f He Hf) as [-> D3]. destruct (msub_ok g h Hg Hh) as [-> D4]. cbn [mbind].
    rewrite !mmul_ok by assumption. cbn [mbind]. unfold mlsub. apply chk_ok. rewrite half_2w.
    pose proof (prod_small _ _ D1 D2). pose proof (prod_small _ _ D3 D4).
    generalize dependent ((a - b) * (c - d)). generalize dependent ((e - f) * (g - h)). intros. lia.
  Qed.

  Lemma triangle_winding_ok p1 p2 p3 : small_pt w p1 -> small_pt w p2 -> small_pt w p3 ->
    triangle_winding_m w p1 p2 p3 = Ok (triangle_winding p1 p2 p3).
  Proof. intros [] [] []. unfold triangle_winding_m. rewrite mdet_ok by assumption. reflexivity. Qed.

  Lemma mpsub_ok a b : small_pt w a -> small_pt w b ->
    mpsub w a b = Ok (psub a b) /\ dif (px (psub a b)) /\ dif (py (psub a b)).
  Proof.
    intros [A1 A2] [B1 B2]. unfold mpsub.
    destruct (msub_ok _ _ A1 B1) as [-> D1]. destruct (msub_ok _ _ A2 B2) as [-> D2].
    split; [reflexivity|]. split; assumption.
  Qed.

  Lemma int_dot_ok a b : dif (px a) -> dif (py a) -> dif (px b) -> dif (py b) -> int_dot_m w a b = Ok (int_dot a b).
  Proof.
    intros A1 A2 B1 B2. unfold int_dot_m, int_dot. rewrite !mmul_ok by assumption. cbn [mbind].
    apply chk_ok. rewrite half_2w.
    pose proof (prod_small _ _ A1 B1). pose proof (prod_small _ _ A2 B2).
    generalize dependent (px a * px b). generalize dependent (py a * py b). intros. lia.
  Qed.

  Lemma intersects_parallel_ok s1 s2 : small_seg w s1 -> small_seg w s2 ->
    intersects_parallel_m w s1 s2 = Ok (intersects_parallel s1 s2).
  Proof.
    intros [A1 B1] [A2 B2]. unfold intersects_parallel_m, intersects_parallel.
    rewrite triangle_winding_ok by assumption. cbn [mbind].
    destruct (negb _); [reflexivity|].
    destruct (mpsub_ok _ _ B1 A1) as (-> & D1 & D2). cbn [mbind].
    rewrite int_dot_ok by assumption. cbn [mbind].
    destruct (mpsub_ok _ _ A2 A1) as (-> & D3 & D4). cbn [mbind].
    rewrite int_dot_ok by assumption. cbn [mbind].
    destruct (mpsub_ok _ _ B2 A1) as (-> & D5 & D6). cbn [mbind].
    rewrite int_dot_ok by assumption. cbn [mbind]. reflexivity.
  Qed.

  (* rounded fraction of a difference, 0 < t/d < 1 *)
  Lemma frac_chk (r : bool) t d z : (0 <= t <= d \/ d <= t <= 0) -> d <> 0 ->
    Z.abs (if r then qfloor (t * z) d else qceil (t * z) d) <= Z.abs z.
  Proof.
    intros Ht Hd. unfold qfloor, qceil.
    assert (K : forall t d z, 0 <= t <= d -> 0 < d ->
       Z.abs (t * z / d) <= Z.abs z /\ Z.abs (- (- (t * z) / d)) <= Z.abs z).
    { clear. intros t d z Ht Hd.
      assert (E : forall z, - Z.abs z <= t * z / d <= Z.abs z).
      { intros x. split.
        - apply Z.div_le_lower_bound; [assumption|]. destruct (Z.abs_spec x) as [[? ->]|[? ->]]; nia.
        - apply Z.div_le_upper_bound; [assumption|]. destruct (Z.abs_spec x) as [[? ->]|[? ->]]; nia. }
      pose proof (E z). pose proof (E (- z)). replace (t * - z) with (- (t * z)) in * by ring. lia. }
    destruct Ht as [Ht|Ht].
    - destruct (K t d z Ht ltac:(lia)). destruct r; assumption.
    - destruct (K (- t) (- d) z ltac:(lia) ltac:(lia)) as [K1 K2].
      replace (- t * z) with (- (t * z)) in * by ring.
      rewrite Z.div_opp_opp in K1 by lia. rewrite Z.div_opp_opp in K2 by lia.
      destruct r; assumption.
  Qed.

  Lemma frac_sum (r : bool) t d a b : (0 <= t <= d \/ d <= t <= 0) -> d <> 0 ->
    Z.min a b <= a + (if r then qfloor (t * (b - a)) d else qceil (t * (b - a)) d) <= Z.max a b.
  Proof.
    intros Ht Hd. unfold qfloor, qceil.
    assert (K : forall t d z, 0 <= t <= d -> 0 < d ->
       Z.min 0 z <= t * z / d <= Z.max 0 z).
    { clear. intros t d z Ht Hd. split.
      - apply Z.div_le_lower_bound; [assumption|]. destruct (Z.min_spec 0 z) as [[? ->]|[? ->]]; nia.
      - apply Z.div_le_upper_bound; [assumption|]. destruct (Z.max_spec 0 z) as [[? ->]|[? ->]]; nia. }
    destruct Ht as [Ht|Ht].
    - pose proof (K t d (b - a) Ht ltac:(lia)). pose proof (K t d (- (b - a)) Ht ltac:(lia)).
      replace (t * - (b - a)) with (- (t * (b - a))) in * by ring. destruct r; lia.
    - pose proof (K (- t) (- d) (b - a) ltac:(lia) ltac:(lia)) as K1.
      pose proof (K (- t) (- d) (- (b - a)) ltac:(lia) ltac:(lia)) as K2.
      replace (- t * - (b - a)) with (- - (t * (b - a))) in K2 by ring.
      replace (- t * (b - a)) with (- (t * (b - a))) in K1 by ring.
      rewrite Z.div_opp_opp in K1 by lia. rewrite Z.div_opp_opp in K2 by lia. destruct r; lia.
  Qed.

  Lemma intersects_ok rx ry s1 s2 : small_seg w s1 -> small_seg w s2 ->
    intersects_m w rx ry s1 s2 = Ok (intersects rx ry s1 s2).
  Proof.
    intros S1 S2. pose proof S1 as [[X1 Y1] [X2 Y2]]. pose proof S2 as [[X3 Y3] [X4 Y4]].
    unfold intersects_m, intersects. rewrite !mdet_ok by assumption. cbn [mbind].
    set (d := (px (sg_pa s1) - px (sg_pb s1)) * (py (sg_pa s2) - py (sg_pb s2))
            - (py (sg_pa s1) - py (sg_pb s1)) * (px (sg_pa s2) - px (sg_pb s2))).
    destruct (Z.eqb_spec d 0) as [Ed|Ed]; [apply intersects_parallel_ok; assumption|].
    destruct (_ || _ || _ || _)%bool; [reflexivity|].
    set (t := (px (sg_pa s1) - px (sg_pa s2)) * (py (sg_pa s2) - py (sg_pb s2))
            - (py (sg_pa s1) - py (sg_pa s2)) * (px (sg_pa s2) - px (sg_pb s2))).
    set (u := (px (sg_pa s1) - px (sg_pa s2)) * (py (sg_pa s1) - py (sg_pb s1))
            - (py (sg_pa s1) - py (sg_pa s2)) * (px (sg_pa s1) - px (sg_pb s1))).
    destruct (if 0 <? d then _ else _) eqn:R; [reflexivity|].
    destruct (t =? 0); [reflexivity|]. destruct (t =? d); [reflexivity|].
    destruct (u =? 0); [reflexivity|]. destruct (u =? d); [reflexivity|].
    assert (RT : 0 <= t <= d \/ d <= t <= 0).
    { clear - R. clearbody d t u. destruct (Z.ltb_spec 0 d); lia. }
    clearbody d t u.
    destruct (msub_ok _ _ X2 X1) as [-> D1]. destruct (msub_ok _ _ Y2 Y1) as [-> D2]. cbn [mbind].
    pose proof (frac_chk rx t d (px (sg_pb s1) - px (sg_pa s1)) RT Ed) as F1.
    pose proof (frac_chk ry t d (py (sg_pb s1) - py (sg_pa s1)) RT Ed) as F2.
    pose proof (frac_sum rx t d (px (sg_pa s1)) (px (sg_pb s1)) RT Ed) as G1.
    pose proof (frac_sum ry t d (py (sg_pa s1)) (py (sg_pb s1)) RT Ed) as G2.
    unfold small, dif in *. fold H in X1, X2, Y1, Y2.
    rewrite !chk_ok; [cbn [mbind]; rewrite !chk_ok; [reflexivity| |]| |]; rewrite half_w; clear - D1 D2 F1 F2 G1 G2 X1 X2 Y1 Y2; lia.
  Qed.

  Lemma lower_angle_ok ds dp tie : dif (px ds) -> dif (py ds) -> dif (px dp) -> dif (py dp) ->
    lower_angle_m w ds dp tie = Ok (lower_angle ds dp tie).
  Proof. intros. unfold lower_angle_m. rewrite !mmul_ok by assumption. reflexivity. Qed.

  Lemma up_ray_ok sa sb p q tie : small_pt w sa -> small_pt w sb -> small_pt w p -> small_pt w q ->
    up_ray_m w sa sb p (hsign_of (psub q p)) (psub q p) tie = Ok (up_ray sa sb p (hsign_of (psub q p)) (psub q p) tie).
  Proof.
    intros A B P Q. unfold up_ray_m, up_ray.
    destruct (mpsub_ok _ _ B A) as (-> & D1 & D2). destruct (mpsub_ok _ _ Q P) as (_ & D3 & D4). cbn [mbind].
    destruct (_ =? 0); [reflexivity|]. destruct (_ || _); [reflexivity|]. destruct (_ || _); [reflexivity|].
    destruct P as [PX PY], A as [AX AY].
    destruct (msub_ok _ _ PX AX) as [-> D5]. destruct (msub_ok _ _ PY AY) as [-> D6]. cbn [mbind].
    rewrite !mmul_ok by assumption. cbn [mbind].
    destruct (_ <? _); [reflexivity|]. destruct (_ =? _); [|reflexivity].
    apply lower_angle_ok; assumption.
  Qed.

  Lemma sweep_cmp_ok s1 s2 : small_seg w s1 -> small_seg w s2 -> sweep_cmp_m w s1 s2 = Ok (sweep_cmp s1 s2).
  Proof.
    intros [A1 B1] [A2 B2]. unfold sweep_cmp_m, sweep_cmp.
    rewrite !triangle_winding_ok by assumption.
    destruct (msub_ok (py (sg_pa s1)) (py (sg_pa s2)) (proj2 A1) (proj2 A2)) as [-> _].
    destruct (msub_ok (py (sg_pb s1)) (py (sg_pb s2)) (proj2 B1) (proj2 B2)) as [-> _].
    cbn [mbind].
    destruct (_ =? _).
    - destruct (negb _); [reflexivity|]. destruct (negb _); reflexivity.
    - destruct (_ <? _).
      + destruct (negb _); [|reflexivity]. destruct (negb _); reflexivity.
      + destruct (negb _); [|reflexivity]. destruct (negb _); reflexivity.
  Qed.

  (** winding_dir: the accumulator is bounded by the number of edges. *)
  Lemma wd_term_ok M p q : 0 <= M < H -> Z.abs (px p) <= M -> Z.abs (py p) <= M -> Z.abs (px q) <= M -> Z.abs (py q) <= M ->
    wd_term_m w p q = Ok ((px p - px q) * (py p + py q)) /\ Z.abs ((px p - px q) * (py p + py q)) <= 4 * (M * M).
  Proof.
    intros HM A B C D. unfold wd_term_m, msub.
    rewrite (chk_ok w (px p - px q)) by (rewrite half_w; lia). cbn [mbind].
    rewrite chk_ok by (rewrite half_w; lia). cbn [mbind]. split.
    - apply mmul_ok; unfold dif; lia.
    - rewrite Z.abs_mul. assert (Z.abs (px p - px q) <= 2 * M) by lia. assert (Z.abs (py p + py q) <= 2 * M) by lia.
      assert (0 <= Z.abs (px p - px q)) by lia. assert (0 <= Z.abs (py p + py q)) by lia. nia.
  Qed.

  Lemma wd_loop_ok M first : 0 <= M < H -> Z.abs (px first) <= M -> Z.abs (py first) <= M ->
    forall rest prev r, Z.abs (px prev) <= M -> Z.abs (py prev) <= M ->
    Forall (fun p => Z.abs (px p) <= M /\ Z.abs (py p) <= M) rest ->
    Z.abs r + (Z.of_nat (length rest) + 1) * (4 * (M * M)) < 2 ^ (2 * w - 1) ->
    wd_loop_m w first prev r rest
    = Ok (let '(pr, s) := fold_left winding_dir_step rest (prev, r) in s + (px pr - px first) * (py pr + py first)).
  Proof.
    intros HM F1 F2. induction rest as [|p rest IH]; intros prev r P1 P2 HF HB; cbn [wd_loop_m fold_left length] in *.
    - destruct (wd_term_ok M prev first) as [-> B]; try assumption. cbn [mbind]. unfold mladd. apply chk_ok. lia.
    - inversion HF as [|? ? [Q1 Q2] HF']; subst.
      destruct (wd_term_ok M prev p) as [-> B]; try assumption. cbn [mbind]. unfold mladd.
      assert (K : 0 <= 4 * (M * M)) by (clear; pose proof (Z.square_nonneg M); lia).
      assert (S : Z.abs r + Z.abs ((px prev - px p) * (py prev + py p)) + (Z.of_nat (length rest) + 1) * (4 * (M * M))
              < 2 ^ (2 * w - 1)).
      { rewrite Nat2Z.inj_succ in HB. clear - HB B. generalize dependent (4 * (M * M)).
        generalize (2 ^ (2 * w - 1)) (Z.of_nat (length rest)). intros. lia. }
      assert (S2 : 0 <= (Z.of_nat (length rest) + 1) * (4 * (M * M))).
      { apply Z.mul_nonneg_nonneg; [lia|assumption]. }
      change (winding_dir_step (prev, r) p) with (p, r + (px prev - px p) * (py prev + py p)).
      clear HB B. generalize dependent ((px prev - px p) * (py prev + py p)). intros t S.
      rewrite chk_ok by (clear - S S2; lia). cbn [mbind].
      rewrite IH; [|assumption|assumption|assumption|clear - S; lia].
      reflexivity.
  Qed.

  Lemma winding_dir_ok M l : 0 <= M < H ->
    (forall p, In p l -> Z.abs (px p) <= M /\ Z.abs (py p) <= M) ->
    Z.of_nat (length l) * (4 * (M * M)) < 2 ^ (2 * w - 1) ->
    winding_dir_m w l = Ok (winding_dir l).
  Proof.
    intros HM HF HB. destruct l as [|p l]; [reflexivity|]. cbn [winding_dir_m winding_dir].
    destruct (HF p (or_introl eq_refl)).
    apply (wd_loop_ok M); try assumption.
    - apply Forall_forall. intros q Hq. apply HF. right. assumption.
    - cbn [length] in HB. lia.
  Qed.
End W.
