(** Two lines that touch only at common ends: which is above the other, seen from either end. *)
From Coq Require Import ZArith List Bool Arith Lia Psatz.
From Verif Require Import GeomModel GeomSpec.
Import ListNotations.
Local Open Scope Z_scope.

(** Four abscissas, and heights Pc, Pd of c, d over the line ab; Qa, Qb of a, b over cd. *)
Definition f01 (b : bool) : Z := if b then 1 else 0.
Lemma mid_sign u v w p q : 0 < u -> 0 < v -> 0 < w -> (v + w) * p + u * q < 0 -> w * p + (u + v) * q > 0 -> p < 0 /\ q > 0.
Proof.
  intros U V W H1 H2. assert (q > 0).
  { destruct (Z_le_gt_dec q 0) as [Q|Q]; [exfalso|exact Q]. assert (v * q <= 0) by (apply Z.mul_nonneg_nonpos; lia). assert (u * q <= 0) by (apply Z.mul_nonneg_nonpos; lia).
    assert (0 < w * p) by lia. assert (0 < p) by (apply (Z.mul_pos_cancel_l w); assumption). assert (0 < v * p) by (apply Z.mul_pos_pos; assumption). lia. }
  split; [|exact H]. assert (0 < u * q) by (apply Z.mul_pos_pos; lia). assert ((v + w) * p < 0) by lia. destruct (Z_lt_ge_dec p 0) as [P|P]; [exact P|exfalso]. assert (0 <= (v + w) * p) by (apply Z.mul_nonneg_nonneg; lia). lia.
Qed.

Lemma neg_of k q : 0 < k -> k * q < 0 -> q < 0.
Proof. intros K H. destruct (Z_lt_ge_dec q 0) as [Q|Q]; [exact Q|exfalso]. assert (0 <= k * q) by (apply Z.mul_nonneg_nonneg; lia). lia. Qed.
Lemma pos_of k q : 0 < k -> 0 < k * q -> 0 < q.
Proof. intros K H. apply (Z.mul_pos_cancel_l k); assumption. Qed.
Lemma opp_sign a b : (a < 0 /\ 0 < b) \/ (0 < a /\ b < 0) -> a * b < 0.
Proof. intros [(A & B)|(A & B)]; [apply Z.mul_neg_pos|apply Z.mul_pos_neg]; assumption. Qed.
(** One end of the second line beyond, the other inside. *)
Lemma half_sign k u v w p q ra rb : 0 < k -> 0 < u -> 0 < v -> 0 < w -> k * ra = - (v * p + u * q) -> k * rb = w * p - (u + v + w) * q -> 0 < ra -> 0 < q -> p < 0 /\ rb < 0.
Proof.
  intros K U V W E1 E2 A B. assert (0 < k * ra) by (apply Z.mul_pos_pos; lia). assert (0 < u * q) by (apply Z.mul_pos_pos; lia). assert (P : p < 0) by (apply (neg_of v); lia).
  split; [exact P|]. apply (neg_of k); [exact K|]. rewrite E2. assert (w * p < 0) by (apply Z.mul_pos_neg; lia). assert (0 < (u + v + w) * q) by (apply Z.mul_pos_pos; lia). lia.
Qed.
(** Both ends of the second line inside. *)
Lemma both_sign k u v w p q ra rb : 0 < k -> 0 < u -> 0 < v -> 0 < w -> k * ra = - ((u + v) * p - u * q) -> k * rb = w * p - (v + w) * q -> p < 0 -> 0 < q -> 0 < ra /\ rb < 0.
Proof.
  intros K U V W E1 E2 A B. assert ((u + v) * p < 0) by (apply Z.mul_pos_neg; lia). assert (0 < u * q) by (apply Z.mul_pos_pos; lia). assert (w * p < 0) by (apply Z.mul_pos_neg; lia). assert (0 < (v + w) * q) by (apply Z.mul_pos_pos; lia).
  split; [apply (pos_of k)|apply (neg_of k)]; lia.
Qed.
Lemma end_sign k w p q : 0 < k -> 0 < w -> k * q = - (w * p) -> (0 <? q) = (p <? 0) /\ (p <> 0 -> q <> 0).
Proof.
  intros K W E. destruct (Z.lt_trichotomy p 0) as [P|[P|P]].
  - assert (w * p < 0) by (apply Z.mul_pos_neg; lia). assert (0 < q) by (apply (pos_of k); lia). lia.
  - subst p. assert (q = 0) by (apply (Z.mul_reg_l _ _ k); lia). subst q. split; [reflexivity|lia].
  - assert (0 < w * p) by (apply Z.mul_pos_pos; lia). assert (q < 0) by (apply (neg_of k); lia). lia.
Qed.
Ltac few := repeat match goal with H : _ -> _ |- _ => clear H end; repeat match goal with H : _ * _ = _ |- _ => clear H end; lia.
Ltac lean := repeat match goal with H : _ < _ < _ -> _ |- _ => clear H | H : @eq Z _ _ -> _ |- _ => clear H end.
Ltac leaner := lean; repeat match goal with H : _ * _ < 0 -> _ |- _ => clear H end.
Section Core.
Variables (xa xb xc xd Pc Pd Qa Qb : Z) (over : bool).
Hypothesis (AB : xa < xb) (CD : xc < xd).
Hypothesis (EA : (xb - xa) * Qa = - ((xd - xa) * Pc + (xa - xc) * Pd)).
Hypothesis (EB : (xb - xa) * Qb = - ((xd - xb) * Pc + (xb - xc) * Pd)).
Hypothesis (NC : xa < xc < xb -> Pc <> 0) (ND : xa < xd < xb -> Pd <> 0) (NA : xc < xa < xd -> Qa <> 0) (NB : xc < xb < xd -> Qb <> 0).
Hypothesis (NX : Pc * Pd < 0 -> Qa * Qb < 0 -> False).
Hypothesis (SAC : xa = xc -> Pc = 0 /\ Qa = 0) (SAD : xa = xd -> Pd = 0 /\ Qa = 0) (SBC : xb = xc -> Pc = 0 /\ Qb = 0) (SBD : xb = xd -> Pd = 0 /\ Qb = 0).
Let ab_lo := ((xc <? xa) && (xa <? xd) && (0 <? Qa)) || ((xc =? xa) && ((0 <? Qb) || ((Qb =? 0) && over))).
Let ab_hi := ((xc <? xb) && (xb <? xd) && (0 <? Qb)) || ((xd =? xb) && ((0 <? Qa) || ((Qa =? 0) && over))).
Let f (x P : Z) := (xa <? x) && (x <? xb) && (P <? 0).
Lemma core : f01 ab_hi - f01 ab_lo = f01 (f xc Pc) - f01 (f xd Pd).
Proof.
  unfold ab_lo, ab_hi, f. clear ab_lo ab_hi f.
  destruct (Z.lt_trichotomy xc xa) as [C1|[C1|C1]].
  - destruct (Z.lt_trichotomy xd xa) as [D1|[D1|D1]].
    + replace (xa <? xd) with false by few. replace (xb <? xd) with false by few. replace (xd =? xb) with false by few. replace (xc =? xa) with false by few. replace (xa <? xc) with false by few. rewrite ?andb_false_r. reflexivity.
    + replace (xa <? xd) with false by few. replace (xb <? xd) with false by few. replace (xd =? xb) with false by few. replace (xc =? xa) with false by few. replace (xa <? xc) with false by few. rewrite ?andb_false_r. reflexivity.
    + specialize (NA (conj C1 D1)). replace (xc <? xa) with true by few. replace (xa <? xd) with true by few. replace (xc =? xa) with false by few. replace (xa <? xc) with false by few. replace (xc <? xb) with true by few. cbn [andb orb].
      destruct (Z.lt_trichotomy xd xb) as [D2|[D2|D2]].
      * specialize (ND (conj D1 D2)). replace (xb <? xd) with false by few. replace (xd =? xb) with false by few. replace (xd <? xb) with true by few. cbn [andb orb].
        (* Qa > 0 <-> Pd < 0 *)
        assert (H : (0 <? Qa) = (Pd <? 0)).
        { destruct (Z.ltb_spec 0 Qa), (Z.ltb_spec Pd 0); try reflexivity; exfalso; lean.
          - destruct (half_sign (xb - xa) (xa - xc) (xd - xa) (xb - xd) Pc Pd Qa Qb); try (apply NX; apply opp_sign; few); leaner; lia.
          - destruct (half_sign (xb - xa) (xa - xc) (xd - xa) (xb - xd) (- Pc) (- Pd) (- Qa) (- Qb)); try (apply NX; apply opp_sign; few); leaner; lia. }
        rewrite H. rewrite ?Z.eqb_refl; destruct (Pd <? 0); reflexivity.
      * specialize (SBD (eq_sym D2)) as (-> & ->). replace (xd =? xb) with true by few. replace (xb <? xd) with false by few. replace (xd <? xb) with false by few. cbn [andb orb]. replace (Qa =? 0) with false by few.
        rewrite ?andb_false_l, ?andb_false_r, ?orb_false_r. cbn [f01]. few.
      * replace (xb <? xd) with true by few. replace (xd =? xb) with false by few. replace (xd <? xb) with false by few. cbn [andb orb]. specialize (NB ltac:(few)). rewrite ?orb_false_r, ?andb_false_r. cbn [andb f01].
        assert (H : (0 <? Qa) = (0 <? Qb)).
        { destruct (Z.ltb_spec 0 Qa), (Z.ltb_spec 0 Qb); try reflexivity; exfalso; lean.
          - assert (0 < (xb - xa) * Qa) by (apply Z.mul_pos_pos; few). assert ((xb - xa) * Qb < 0) by (apply Z.mul_pos_neg; few). destruct (mid_sign (xa - xc) (xb - xa) (xd - xb) Pc Pd); try (apply NX; apply opp_sign; few); leaner; lia.
          - assert ((xb - xa) * Qa < 0) by (apply Z.mul_pos_neg; few). assert (0 < (xb - xa) * Qb) by (apply Z.mul_pos_pos; few). destruct (mid_sign (xa - xc) (xb - xa) (xd - xb) (- Pc) (- Pd)); try (apply NX; apply opp_sign; few); leaner; lia. }
        rewrite H. few.
  - specialize (SAC (eq_sym C1)) as (-> & ->). subst xc. replace (xa <? xa) with false by few. rewrite !Z.eqb_refl. cbn [andb orb]. replace (xa <? xb) with true by few. replace (xa <? xd) with true by few. cbn [andb].
    destruct (Z.lt_trichotomy xd xb) as [D2|[D2|D2]].
    + specialize (ND ltac:(few)). replace (xb <? xd) with false by few. replace (xd =? xb) with false by few. replace (xd <? xb) with true by few. cbn [andb orb].
      destruct (end_sign (xb - xa) (xb - xa) Pd Qb) as (H2 & H3); leaner; try lia. specialize (H3 ND). replace (Qb =? 0) with false by few. cbn [andb]. rewrite orb_false_r.
      rewrite H2. rewrite ?Z.eqb_refl; destruct (Pd <? 0); reflexivity.
    + specialize (SBD (eq_sym D2)) as (-> & ->). replace (xd =? xb) with true by few. replace (xb <? xd) with false by few. replace (xd <? xb) with false by few. rewrite ?Z.eqb_refl; cbn; destruct over; reflexivity.
    + specialize (NB ltac:(few)). replace (xb <? xd) with true by few. replace (xd =? xb) with false by few. replace (xd <? xb) with false by few. replace (Qb =? 0) with false by few. cbn [andb orb]. rewrite ?orb_false_r, ?andb_false_r. cbn [f01]. few.
  - replace (xc <? xa) with false by few. replace (xc =? xa) with false by few. replace (xa <? xc) with true by few. cbn [andb orb].
    destruct (Z.lt_trichotomy xc xb) as [C2|[C2|C2]].
    + specialize (NC (conj C1 C2)). replace (xc <? xb) with true by few. replace (xa <? xd) with true by few. cbn [andb].
      destruct (Z.lt_trichotomy xd xb) as [D2|[D2|D2]].
      * specialize (ND ltac:(few)). replace (xb <? xd) with false by few. replace (xd =? xb) with false by few. replace (xd <? xb) with true by few. cbn [andb orb].
        assert (H : (Pc <? 0) = (Pd <? 0)).
        { destruct (Z.ltb_spec Pc 0), (Z.ltb_spec Pd 0); try reflexivity; exfalso; lean.
          - destruct (both_sign (xb - xa) (xc - xa) (xd - xc) (xb - xd) Pc Pd Qa Qb); try (apply NX; apply opp_sign; few); leaner; lia.
          - destruct (both_sign (xb - xa) (xc - xa) (xd - xc) (xb - xd) (- Pc) (- Pd) (- Qa) (- Qb)); try (apply NX; apply opp_sign; few); leaner; lia. }
        rewrite H. cbn [f01]. few.
      * specialize (SBD (eq_sym D2)) as (-> & ->). replace (xd =? xb) with true by few. replace (xb <? xd) with false by few. replace (xd <? xb) with false by few. cbn [andb orb].
        destruct (end_sign (xb - xa) (xb - xa) Pc Qa) as (H2 & H3); leaner; try lia. specialize (H3 NC). replace (Qa =? 0) with false by few. cbn [andb]. rewrite orb_false_r. rewrite H2. destruct (Pc <? 0); reflexivity.
      * specialize (NB ltac:(few)). replace (xb <? xd) with true by few. replace (xd =? xb) with false by few. replace (xd <? xb) with false by few. cbn [andb orb]. rewrite orb_false_r.
        assert (H : (0 <? Qb) = (Pc <? 0)).
        { destruct (Z.ltb_spec 0 Qb), (Z.ltb_spec Pc 0); try reflexivity; exfalso; lean.
          - destruct (half_sign (xb - xa) (xd - xb) (xb - xc) (xc - xa) Pd Pc Qb Qa); try (apply NX; apply opp_sign; few); leaner; lia.
          - destruct (half_sign (xb - xa) (xd - xb) (xb - xc) (xc - xa) (- Pd) (- Pc) (- Qb) (- Qa)); try (apply NX; apply opp_sign; few); leaner; lia. }
        rewrite H. cbn [f01]. few.
    + replace (xc <? xb) with false by few. replace (xd =? xb) with false by few. replace (xd <? xb) with false by few. rewrite ?andb_false_r. reflexivity.
    + replace (xc <? xb) with false by few. replace (xd =? xb) with false by few. replace (xd <? xb) with false by few. rewrite ?andb_false_r. reflexivity.
Qed.
End Core.
