(** The order of the lines in the set of the sweep while lines get split: a line put
    between two neighbours is in order with all others, and a line that is cut short
    keeps its place. *)
From Coq Require Import ZArith QArith Qminmax List Bool Arith Lia Lqa.
From Verif Require Import GeomModel GeomSpec GeomProofs SweepOrderProofs SegOrder SegPair SegTrace.
Import ListNotations.
Local Open Scope Z_scope.

Lemma first_nz_tie l t1 t2 : (t1 = true -> t2 = true) -> first_nz l t1 = true -> first_nz l t2 = true.
Proof. intros T. induction l as [|r l IH]; cbn [first_nz fold_right]; [exact T|]. destruct (negb (r =? 0)); [auto|exact IH]. Qed.
Lemma same_l a l n : sg_pa a = sg_pa l -> sg_pb a = sg_pb l -> sweep_cmp a l = true -> sweep_cmp l n = true -> sweep_cmp a n = true.
Proof.
  intros A B C. rewrite sweep_cmp_same in C by assumption. rewrite !sweep_cmp_tests. unfold sweep_tests. rewrite A, B. apply first_nz_tie. intros D. eapply sweep_tie_trans; eassumption.
Qed.
Lemma same_r n h b : sg_pa h = sg_pa b -> sg_pb h = sg_pb b -> sweep_cmp h b = true -> sweep_cmp n h = true -> sweep_cmp n b = true.
Proof.
  intros A B C. rewrite sweep_cmp_same in C by assumption. rewrite !sweep_cmp_tests. unfold sweep_tests. rewrite A, B. apply first_nz_tie. intros D. eapply sweep_tie_trans; eassumption.
Qed.

Section Chain.
Variable mk : nat -> nat -> Prop.
Hypothesis mk_trans : forall i j k, mk i j -> mk j k -> mk i k.
Hypothesis mk_refl : forall i, mk i i.
Hypothesis mk_sym : forall i j, mk i j -> mk j i.

Lemma twin_nv g h : good g -> good h -> vt g = false -> twin mk g h -> sg_pa g = sg_pa h /\ sg_pb g = sg_pb h.
Proof. intros (A & _) (B & _) V [(E1 & E2 & _)|(E1 & E2 & _)]; [auto|]. apply Z.eqb_neq in V. rewrite E1, E2 in *. lia. Qed.
Lemma coincide g h z : good g -> good h -> vt g = false -> vt h = false -> (yq g (inj z) == yq h (inj z))%Q -> (yq g (inj (z + 1)) == yq h (inj (z + 1)))%Q -> rel mk z g h -> rel mk (z + 1) g h -> twin mk g h.
Proof.
  intros G H V W E1 E2 [T|P] [T'|P']; try assumption. set (X := (inj z + (1 # 2))%Q). assert (IZ : (inj (z + 1) == inj z + 1)%Q) by (rewrite inject_Z_plus; reflexivity).
  assert (E : (yq g X == yq h X)%Q).
  { rewrite (yq_aff g X (inj z)), (yq_aff h X (inj z)). rewrite (yq_aff g _ (inj z)), (yq_aff h _ (inj z)), IZ in E2. unfold X. lra. }
  destruct (between_meet mk mk_trans mk_refl mk_sym g h z X G H V W) as [T|((i & A) & _)]; try assumption; [unfold X; rewrite IZ; lra|]. exfalso.
  assert (K : forall k, (X == inj k)%Q -> False). { intros k Q. unfold X in Q. assert (z < k) by (apply inj_lt1; lra). assert (k < z + 1) by (apply inj_lt1; rewrite IZ; lra). lia. }
  destruct A as [(_ & A & _)|(_ & A & _)]; eapply K; exact A.
Qed.
Lemma rel_y g h x : good g -> good h -> rel mk x g h -> vt g = false -> vt h = false -> (yq h (inj x) <= yq g (inj x))%Q.
Proof.
  intros G H R V W. destruct R as [T|(P & _)]; [|unfold hi, lo in P; rewrite V, W in P; exact P]. destruct (twin_nv g h G H V T) as (E1 & E2). unfold yq. rewrite E1, E2. apply Qle_refl.
Qed.
Lemma rel_pt g h x : good g -> good h -> rel mk x g h -> vt g <> vt h -> (hi h x <= lo g x)%Q.
Proof. intros G H [T|(P & _)] V; [|exact P]. destruct (twin_geom mk g h G H T) as (E & _). congruence. Qed.

Ltac toQ := repeat match goal with
  | H : py _ < py _ |- _ => apply inj_lt in H
  | H : py _ <= py _ |- _ => apply inj_le in H
  | H : py _ = py _ |- _ => apply inj_eqz in H
  end; unfold injY in *.
Lemma vlo g x : vt g = true -> (lo g x <= inj (py (sg_pa g)) /\ lo g x <= inj (py (sg_pb g)) /\ inj (py (sg_pa g)) <= hi g x /\ inj (py (sg_pb g)) <= hi g x)%Q.
Proof. intros V. unfold lo, hi. rewrite V. repeat split; apply inj_le; lia. Qed.
Lemma nlo g x : vt g = false -> lo g x = yq g (inj x) /\ hi g x = yq g (inj x).
Proof. intros V. unfold lo, hi. rewrite V. auto. Qed.

Ltac bnd g x := match goal with
  | V : vt g = true |- _ => let H := fresh "BD" in pose proof (vlo g x V) as H; destruct H as (? & ? & ? & ?)
  | V : vt g = false |- _ => let H := fresh "BD" in pose proof (nlo g x V) as H; destruct H as (H & ?); rewrite ?H in *; repeat match goal with E : hi g x = _ |- _ => rewrite E in *; clear E end
  end.

(** * Below the last of those before it *)
Lemma chain_up a l n X0 : good a -> good l -> good n -> cover a X0 -> cover l X0 -> px (sg_pa n) = X0 ->
  (vt n = false -> vt a = false -> X0 + 1 <= px (sg_pb a)) -> (vt n = false -> vt l = false -> X0 + 1 <= px (sg_pb l)) ->
  rel mk X0 a l -> (vt n = false -> vt a = false -> vt l = false -> (yq a (inj X0) == yq l (inj X0))%Q -> rel mk (X0 + 1) a l) -> sweep_cmp a l = true -> sweep_cmp l n = true -> sweep_cmp n a = false.
Proof.
  intros Ga Gl Gn Ca Cl Xn Wa Wl R0 R1 Cal Cln. destruct (sweep_cmp n a) eqn:Cna; [exfalso|reflexivity]. pose proof Ca as (Ca1 & Ca2). pose proof Cl as (Cl1 & Cl2).
  assert (SAME : sg_pa a = sg_pa l -> sg_pb a = sg_pb l -> False).
  { intros E1 E2. pose proof (same_l a l n E1 E2 Cal Cln) as C. apply sweep_cmp_asym in C. congruence. }
  destruct (vt n) eqn:Vn, (vt a) eqn:Va, (vt l) eqn:Vl.
  - pose proof (proj1 (vt_true a) Va). pose proof (proj1 (vt_true l) Vl).
    apply cmp_v_v in Cal; auto; [|lia]. apply cmp_v_v in Cln; auto; [|lia]. apply cmp_v_v in Cna; auto; [|lia].
    destruct Cal as [?|(? & [?|(? & T1)])]; [lia| |apply SAME; apply pt_eq; lia].
    destruct Cln as [?|(? & [?|(? & T2)])]; destruct Cna as [?|(? & [?|(? & T3)])]; lia.
  - pose proof (proj1 (vt_true a) Va) as Ea. pose proof (rel_pt a l X0 Ga Gl R0 ltac:(congruence)) as P. pose proof (vt_py a Ga Va). pose proof (vt_py n Gn Vn).
    apply (cmp_nv_v l n X0) in Cln; auto. apply cmp_v_v in Cna; auto; [|lia]. bnd a X0; bnd l X0; destruct Cln as [C|(C & C')], Cna as [D|(D & [D'|(D' & _)])]; toQ; lra.
  - pose proof (proj1 (vt_true l) Vl) as El. pose proof (rel_pt a l X0 Ga Gl R0 ltac:(congruence)) as P. pose proof (vt_py l Gl Vl).
    apply cmp_v_v in Cln; auto; [|lia]. apply (cmp_v_nv n a X0) in Cna; auto. bnd a X0; bnd l X0; destruct Cln as [C|(C & [C'|(C' & _)])], Cna as [D|(D & D')]; toQ; lra.
  - pose proof (rel_y a l X0 Ga Gl R0 Va Vl) as P. apply (cmp_nv_v l n X0) in Cln; auto. apply (cmp_v_nv n a X0) in Cna; auto.
    destruct Cln as [C|(C & C')], Cna as [D|(D & D')]; toQ; lra.
  - pose proof (proj1 (vt_true a) Va) as Ea. pose proof (proj1 (vt_true l) Vl) as El. pose proof (vt_false n Gn Vn) as Wn. pose proof (vt_py a Ga Va). pose proof (vt_py l Gl Vl).
    apply (cmp_v_nv l n X0) in Cln; auto; try lia. apply (cmp_nv_v n a X0) in Cna; auto; try lia.
    destruct R0 as [[(E1 & E2 & _)|(E1 & E2 & _)]|(P & _)]; [apply SAME; assumption| |].
    + apply cmp_v_v in Cal; auto; [|lia]. rewrite E1, E2 in *. destruct Cal as [C|(C & _)]; [|lia]. destruct Cln as [D|(D & D')], Cna as [F|(F & F')]; toQ; lra.
    + bnd a X0; bnd l X0; destruct Cln as [D|(D & D')], Cna as [F|(F & F')]; toQ; lra.
  - pose proof (proj1 (vt_true a) Va) as Ea. pose proof (vt_false n Gn Vn) as Wn. pose proof (rel_pt a l X0 Ga Gl R0 ltac:(congruence)) as P. pose proof (vt_py a Ga Va).
    apply (cmp_nv l n X0) in Cln; auto; try lia. apply (cmp_nv_v n a X0) in Cna; auto; try lia. bnd a X0; bnd l X0.
    assert (L : (yq n (inj X0) <= yq l (inj X0))%Q) by (destruct Cln as [C|[(C & _)|((C & _) & _)]]; lra). clear Cln.
    destruct Cna as [F|(F & F')]; toQ; lra.
  - pose proof (proj1 (vt_true l) Vl) as El. pose proof (vt_false n Gn Vn) as Wn. pose proof (rel_pt a l X0 Ga Gl R0 ltac:(congruence)) as P. pose proof (vt_py l Gl Vl).
    apply (cmp_v_nv l n X0) in Cln; auto; try lia. apply (cmp_nv n a X0) in Cna; auto; try lia. bnd a X0; bnd l X0.
    assert (L : (yq a (inj X0) <= yq n (inj X0))%Q) by (destruct Cna as [C|[(C & _)|((C & _) & _)]]; lra). clear Cna.
    destruct Cln as [F|(F & F')]; toQ; lra.
  - pose proof (vt_false n Gn Vn) as Wn. specialize (Wa eq_refl eq_refl). specialize (Wl eq_refl eq_refl).
    pose proof (rel_y a l X0 Ga Gl R0 Va Vl) as P.
    apply (cmp_nv l n X0) in Cln; auto; try lia. apply (cmp_nv n a X0) in Cna; auto; try lia.
    assert (R1' : rel mk (X0 + 1) a l) by (apply R1; try reflexivity; destruct Cln as [C|[(C & _)|((C & _) & _)]], Cna as [D|[(D & _)|((D & _) & _)]]; lra).
    pose proof (rel_y a l _ Ga Gl R1' Va Vl) as P'.
    assert (IZ : (inj (X0 + 1) == inj X0 + 1)%Q) by (rewrite inject_Z_plus; reflexivity).
    assert (S : (yq l (inj X0) == yq a (inj X0) /\ slope l == slope a)%Q).
    { rewrite (yq_aff a (inj (X0 + 1)) (inj X0)), (yq_aff l (inj (X0 + 1)) (inj X0)), IZ in P'. destruct Cln as [C|[(C & C')|((C & C') & _)]], Cna as [D|[(D & D')|((D & D') & _)]]; split; lra. }
    destruct S as (S1 & S2). assert (TW : twin mk a l).
    { apply (coincide a l X0); auto; [symmetry; exact S1|]. rewrite (yq_aff a _ (inj X0)), (yq_aff l _ (inj X0)), S1, S2. reflexivity. }
    destruct (twin_nv a l Ga Gl Va TW) as (E1 & E2). apply SAME; assumption.
Qed.
(** * Above the first of those after it *)
Lemma chain_down n h b X0 : good n -> good h -> good b -> cover h X0 -> cover b X0 -> px (sg_pa n) = X0 ->
  (vt n = false -> vt h = false -> X0 + 1 <= px (sg_pb h)) -> (vt n = false -> vt b = false -> X0 + 1 <= px (sg_pb b)) ->
  rel mk X0 h b -> (vt n = false -> vt h = false -> vt b = false -> (yq h (inj X0) == yq b (inj X0))%Q -> rel mk (X0 + 1) h b) -> sweep_cmp h b = true -> sweep_cmp n h = true -> sweep_cmp b n = false.
Proof.
  intros Gn Gh Gb Ch Cb Xn Wh Wb R0 R1 Chb Cnh. destruct (sweep_cmp b n) eqn:Cbn; [exfalso|reflexivity]. pose proof Ch as (Ch1 & Ch2). pose proof Cb as (Cb1 & Cb2).
  assert (SAME : sg_pa h = sg_pa b -> sg_pb h = sg_pb b -> False).
  { intros E1 E2. pose proof (same_r n h b E1 E2 Chb Cnh) as C. apply sweep_cmp_asym in C. congruence. }
  destruct (vt n) eqn:Vn, (vt h) eqn:Vh, (vt b) eqn:Vb.
  - pose proof (proj1 (vt_true h) Vh). pose proof (proj1 (vt_true b) Vb).
    apply cmp_v_v in Chb; auto; [|lia]. apply cmp_v_v in Cnh; auto; [|lia]. apply cmp_v_v in Cbn; auto; [|lia].
    destruct Chb as [?|(? & [?|(? & T1)])]; [lia| |apply SAME; apply pt_eq; lia].
    destruct Cnh as [?|(? & [?|(? & T2)])]; destruct Cbn as [?|(? & [?|(? & T3)])]; lia.
  - pose proof (proj1 (vt_true h) Vh) as Eh. pose proof (rel_pt h b X0 Gh Gb R0 ltac:(congruence)) as P. pose proof (vt_py h Gh Vh). pose proof (vt_py n Gn Vn).
    apply (cmp_nv_v b n X0) in Cbn; auto. apply cmp_v_v in Cnh; auto; [|lia]. bnd h X0; bnd b X0; destruct Cbn as [C|(C & C')], Cnh as [D|(D & [D'|(D' & _)])]; toQ; lra.
  - pose proof (proj1 (vt_true b) Vb) as Eb. pose proof (rel_pt h b X0 Gh Gb R0 ltac:(congruence)) as P. pose proof (vt_py b Gb Vb). pose proof (vt_py n Gn Vn).
    apply cmp_v_v in Cbn; auto; [|lia]. apply (cmp_v_nv n h X0) in Cnh; auto. bnd h X0; bnd b X0; destruct Cbn as [C|(C & [C'|(C' & _)])], Cnh as [D|(D & D')]; toQ; lra.
  - pose proof (rel_y h b X0 Gh Gb R0 Vh Vb) as P. apply (cmp_nv_v b n X0) in Cbn; auto. apply (cmp_v_nv n h X0) in Cnh; auto.
    destruct Cbn as [C|(C & C')], Cnh as [D|(D & D')]; toQ; lra.
  - pose proof (proj1 (vt_true h) Vh) as Eh. pose proof (proj1 (vt_true b) Vb) as Eb. pose proof (vt_false n Gn Vn) as Wn. pose proof (vt_py h Gh Vh). pose proof (vt_py b Gb Vb).
    apply (cmp_v_nv b n X0) in Cbn; auto; try lia. apply (cmp_nv_v n h X0) in Cnh; auto; try lia.
    destruct R0 as [[(E1 & E2 & _)|(E1 & E2 & _)]|(P & _)]; [apply SAME; assumption| |].
    + apply cmp_v_v in Chb; auto; [|lia]. rewrite E1, E2 in *. destruct Chb as [C|(C & _)]; [|lia]. destruct Cbn as [D|(D & D')], Cnh as [F|(F & F')]; toQ; lra.
    + bnd h X0; bnd b X0; destruct Cbn as [D|(D & D')], Cnh as [F|(F & F')]; toQ; lra.
  - pose proof (proj1 (vt_true h) Vh) as Eh. pose proof (vt_false n Gn Vn) as Wn. pose proof (rel_pt h b X0 Gh Gb R0 ltac:(congruence)) as P. pose proof (vt_py h Gh Vh).
    apply (cmp_nv b n X0) in Cbn; auto; try lia. apply (cmp_nv_v n h X0) in Cnh; auto; try lia. bnd h X0; bnd b X0.
    assert (L : (yq n (inj X0) <= yq b (inj X0))%Q) by (destruct Cbn as [C|[(C & _)|((C & _) & _)]]; lra). clear Cbn.
    destruct Cnh as [F|(F & F')]; toQ; lra.
  - pose proof (proj1 (vt_true b) Vb) as Eb. pose proof (vt_false n Gn Vn) as Wn. pose proof (rel_pt h b X0 Gh Gb R0 ltac:(congruence)) as P. pose proof (vt_py b Gb Vb).
    apply (cmp_v_nv b n X0) in Cbn; auto; try lia. apply (cmp_nv n h X0) in Cnh; auto; try lia. bnd h X0; bnd b X0.
    assert (L : (yq h (inj X0) <= yq n (inj X0))%Q) by (destruct Cnh as [C|[(C & _)|((C & _) & _)]]; lra). clear Cnh.
    destruct Cbn as [F|(F & F')]; toQ; lra.
  - pose proof (vt_false n Gn Vn) as Wn. specialize (Wh eq_refl eq_refl). specialize (Wb eq_refl eq_refl).
    pose proof (rel_y h b X0 Gh Gb R0 Vh Vb) as P.
    apply (cmp_nv b n X0) in Cbn; auto; try lia. apply (cmp_nv n h X0) in Cnh; auto; try lia.
    assert (R1' : rel mk (X0 + 1) h b) by (apply R1; try reflexivity; destruct Cbn as [C|[(C & _)|((C & _) & _)]], Cnh as [D|[(D & _)|((D & _) & _)]]; lra).
    pose proof (rel_y h b _ Gh Gb R1' Vh Vb) as P'.
    assert (IZ : (inj (X0 + 1) == inj X0 + 1)%Q) by (rewrite inject_Z_plus; reflexivity).
    assert (S : (yq b (inj X0) == yq h (inj X0) /\ slope b == slope h)%Q).
    { rewrite (yq_aff h (inj (X0 + 1)) (inj X0)), (yq_aff b (inj (X0 + 1)) (inj X0)), IZ in P'. destruct Cbn as [C|[(C & C')|((C & C') & _)]], Cnh as [D|[(D & D')|((D & D') & _)]]; split; lra. }
    destruct S as (S1 & S2). assert (TW : twin mk h b).
    { apply (coincide h b X0); auto; [symmetry; exact S1|]. rewrite (yq_aff h _ (inj X0)), (yq_aff b _ (inj X0)), S1, S2. reflexivity. }
    destruct (twin_nv h b Gh Gb Vh TW) as (E1 & E2). apply SAME; assumption.
Qed.

(** * A line cut short keeps its place *)
(** [c] lies on the line, and is not its first end. *)
Definition within (g : cseg) (c : point) : Prop := on_seg (sg_pa g) (sg_pb g) (injX c) (injY c) /\ c <> sg_pa g /\ c <> sg_pb g.
Lemma within_t g c : within g c -> exists t, (0 < t < 1)%Q /\ (injX c == injX (sg_pa g) + t * (injX (sg_pb g) - injX (sg_pa g)))%Q /\ (injY c == injY (sg_pa g) + t * (injY (sg_pb g) - injY (sg_pa g)))%Q.
Proof.
  intros ((t & (T1 & T2) & TX & TY) & N1 & N2). exists t. rewrite inj_sub in TX, TY. split; [|unfold injX, injY in *; split; lra]. split.
  - apply Qle_lteq in T1 as [T1|T1]; [exact T1|exfalso]. apply N1. apply pt_eq; apply inj_eq1; unfold injX, injY in *; rewrite <- T1 in TX, TY; lra.
  - apply Qle_lteq in T2 as [T2|T2]; [exact T2|exfalso]. apply N2. apply pt_eq; apply inj_eq1; unfold injX, injY in *; rewrite T2 in TX, TY; lra.
Qed.
Lemma tw_q a b c : (inj (triangle_winding a b c) == (injX b - injX a) * (injY c - injY b) - (injY b - injY a) * (injX c - injX b))%Q.
Proof. unfold triangle_winding, injX, injY. rewrite inj_sub, !inject_Z_mult, !inj_sub. ring. Qed.
Lemma scale_sign t x y : (0 < t)%Q -> (inj x == t * inj y)%Q -> (0 <? x) = (0 <? y) /\ (x =? 0) = (y =? 0).
Proof.
  intros T E. assert (P : 0 < x <-> 0 < y) by (rewrite <- !inj_lt; change (inj 0) with 0%Q; split; intros; nra).
  assert (M : x < 0 <-> y < 0) by (rewrite <- !inj_lt; change (inj 0) with 0%Q; split; intros; nra).
  split; [destruct (Z.ltb_spec 0 x), (Z.ltb_spec 0 y)|destruct (Z.eqb_spec x 0), (Z.eqb_spec y 0)]; try reflexivity; lia.
Qed.
Lemma tw_scale g c a b : within g c -> triangle_winding a b (sg_pa g) = 0 -> (0 <? triangle_winding a b c) = (0 <? triangle_winding a b (sg_pb g)) /\ (triangle_winding a b c =? 0) = (triangle_winding a b (sg_pb g) =? 0).
Proof.
  intros W Z0. destruct (within_t g c W) as (t & (T1 & T2) & TX & TY). apply (scale_sign t); [exact T1|]. apply (proj2 (inj_eqz _ _)) in Z0. rewrite tw_q in Z0 |- *. rewrite tw_q. change (inj 0) with 0%Q in Z0. rewrite TX, TY. nra.
Qed.
Lemma line_twin K q X0 : good K -> good q -> vt K = false -> vt q = false -> px (sg_pa K) = X0 -> X0 + 1 <= px (sg_pb K) -> X0 + 1 <= px (sg_pb q) -> px (sg_pa q) <= X0 ->
  rel mk X0 K q \/ rel mk X0 q K -> rel mk (X0 + 1) K q \/ rel mk (X0 + 1) q K ->
  (yq q (injX (sg_pa K)) == injY (sg_pa K))%Q -> (yq q (injX (sg_pb K)) == injY (sg_pb K))%Q -> twin mk K q.
Proof.
  intros GK Gq VK Vq X W1 W2 Cq R0 R1 E1 E2. pose proof (vt_false K GK VK) as WK. pose proof (yq_pa K) as A. pose proof (yq_pb K GK VK) as B.
  assert (S : (slope K == slope q)%Q).
  { rewrite (yq_aff K _ (injX (sg_pa K))) in B. rewrite (yq_aff q _ (injX (sg_pa K))), E1 in E2. rewrite A in B. unfold injX in B, E2. apply inj_lt in WK.
    assert (M : ((inj (px (sg_pb K)) - inj (px (sg_pa K))) * (slope K - slope q) == 0)%Q) by lra. apply Qmult_integral in M as [M|M]; lra. }
  assert (AT : forall Z, (yq K Z == yq q Z)%Q) by (intros Z; rewrite (yq_aff K Z (injX (sg_pa K))), (yq_aff q Z (injX (sg_pa K))), A, E1, S; reflexivity).
  assert (TW : forall g h, (forall Z, (yq g Z == yq h Z)%Q) -> good g -> good h -> vt g = false -> vt h = false -> rel mk X0 g h -> rel mk (X0 + 1) g h -> twin mk g h) by (intros; apply (coincide g h X0); auto).
  destruct R0 as [R0|R0], R1 as [R1|R1].
  - apply TW; auto.
  - destruct R0 as [T|P]; [exact T|]. destruct R1 as [T|P']; [apply twin_sym; assumption|]. apply (coincide K q X0); auto; [right; exact P|]. right. split; [unfold hi, lo; rewrite VK, Vq, AT; apply Qle_refl|].
    intros _. apply tie_sym; [exact mk_sym|]. destruct P' as (_ & P'). eapply tie_comp; [reflexivity| |apply P'; unfold hi, lo; rewrite VK, Vq; apply AT]. unfold lo. rewrite VK, Vq. symmetry. apply AT.
  - destruct R0 as [T|P]; [apply twin_sym; assumption|]. destruct R1 as [T|P']; [exact T|]. apply (coincide K q X0); auto; [|right; exact P']. right. split; [unfold hi, lo; rewrite VK, Vq, AT; apply Qle_refl|].
    intros _. apply tie_sym; [exact mk_sym|]. destruct P as (_ & P). eapply tie_comp; [reflexivity| |apply P; unfold hi, lo; rewrite VK, Vq; apply AT]. unfold lo. rewrite VK, Vq. symmetry. apply AT.
  - apply twin_sym; [exact mk_sym|]. apply TW; auto. intros Z. symmetry. apply AT.
Qed.
Lemma tw_first a b : triangle_winding a b a = 0 /\ triangle_winding a b b = 0.
Proof. unfold triangle_winding. split; ring. Qed.
Section Cut.
Variables (K K1 q : cseg) (c : point) (X0 : Z).
Hypothesis GK : good K.
Hypothesis Gq : good q.
Hypothesis W : within K c.
Hypothesis EA : sg_pa K1 = sg_pa K.
Hypothesis EB : sg_pb K1 = c.
Hypothesis XK : px (sg_pa K) = X0.
Hypothesis Cq : cover q X0.
Hypothesis FAR : vt K = false -> vt q = false -> X0 + 1 <= px (sg_pb q).
Lemma cut_l : rel mk X0 K q -> (cover K (X0 + 1) -> cover q (X0 + 1) -> rel mk (X0 + 1) K q) -> sweep_cmp K q = true -> sweep_cmp K1 q = true \/ twin mk K q.
Proof.
  intros R0 R1 C. destruct Cq as (Cq1 & Cq2).
  assert (LT : vt K = false -> vt q = false -> (yq q (injX (sg_pa K)) == injY (sg_pa K))%Q -> (yq q (injX (sg_pb K)) == injY (sg_pb K))%Q -> twin mk K q).
  { intros VK Vq E1 E2. pose proof (vt_false K GK VK) as WK. specialize (FAR VK Vq). apply (line_twin K q X0); auto; try lia. left. apply R1; split; lia. }
  unfold sweep_cmp in C |- *. rewrite EA, EB. destruct (Z.eqb_spec (px (sg_pa K)) (px (sg_pa q))) as [E|E].
  - destruct (Z.eqb_spec (py (sg_pa K) - py (sg_pa q)) 0) as [E1|E1]; cbn [negb] in *; [|left; exact C].
    assert (PE : sg_pa K = sg_pa q) by (apply pt_eq; lia).
    assert (FLIP : forall z, triangle_winding z (sg_pa K) (sg_pb q) = triangle_winding (sg_pb q) (sg_pa q) z * -1) by (intros z; rewrite PE; unfold triangle_winding; ring).
    rewrite !FLIP in *. destruct (tw_scale K c (sg_pb q) (sg_pa q) W) as (S1 & S2); [rewrite PE; apply tw_first|].
    set (u := triangle_winding (sg_pb q) (sg_pa q) c) in *. set (w := triangle_winding (sg_pb q) (sg_pa q) (sg_pb K)) in *.
    destruct (Z.eqb_spec w 0) as [W0|W0].
    + apply Z.eqb_eq in S2. rewrite W0, S2 in *. cbn [Z.mul Z.eqb negb] in *.
      destruct (vt K) eqn:VK, (vt q) eqn:Vq.
      * destruct R0 as [T|(P & _)]; [right; exact T|left]. destruct (within_t K c W) as (t & (T1 & T2) & TX & TY).
        destruct (vlo K X0 VK) as (L1 & L2 & L3 & L4). destruct (vlo q X0 Vq) as (M1 & M2 & M3 & M4). pose proof (vt_py K GK VK) as NY. pose proof (vt_py q Gq Vq) as NY'.
        assert (U1 : py (sg_pa K) < py (sg_pb K)). { assert (py (sg_pa K) <= py (sg_pb K)) by (apply inj_le1; rewrite <- PE in M3; lra). lia. }
        assert (U2 : py (sg_pb q) < py (sg_pa q)). { assert (py (sg_pb q) <= py (sg_pa q)) by (apply inj_le1; rewrite PE in L1; lra). lia. }
        assert (U3 : py (sg_pa K) < py c). { apply inj_lt1. apply inj_lt in U1. unfold injY in TY. nra. }
        rewrite PE in *. destruct (Z.eqb_spec (py c - py (sg_pb q)) 0); cbn [negb]; [lia|]. apply Z.ltb_lt. lia.
      * exfalso. apply (tw_zero q (sg_pb K)) in W0; auto. pose proof (yq_pa q) as Y. rewrite <- PE in Y. apply vt_true in VK. unfold injX in *. rewrite VK in Y. apply (vt_py K GK); [apply vt_true; exact VK|]. apply inj_eq1. unfold injY in *. lra.
      * exfalso. apply vt_true in Vq. pose proof (vt_false K GK VK) as WK. pose proof (vt_py q Gq (proj2 (vt_true q) Vq)) as NY. unfold w, triangle_winding in W0. rewrite <- PE in *. nia.
      * right. apply LT; auto; [rewrite PE; apply yq_pa|]. apply tw_zero; assumption.
    + left. assert (S2' : (u =? 0) = false) by exact S2. apply Z.eqb_neq in S2'.
      destruct (Z.eqb_spec (w * -1) 0); [lia|]. destruct (Z.eqb_spec (u * -1) 0); [lia|]. cbn [negb] in *. apply Z.ltb_lt in C. apply Z.ltb_lt. destruct (Z.ltb_spec 0 u), (Z.ltb_spec 0 w); try discriminate; lia.
  - destruct (Z.ltb_spec (px (sg_pa K)) (px (sg_pa q))) as [L|L]; [lia|]. assert (Vq : vt q = false) by (apply Z.eqb_neq; lia). unfold vt in Vq. rewrite Vq in *. cbn [negb] in *.
    destruct (Z.eqb_spec (triangle_winding (sg_pa q) (sg_pb q) (sg_pa K)) 0) as [E1|E1]; cbn [negb] in *; [|left; exact C].
    destruct (tw_scale K c (sg_pa q) (sg_pb q) W E1) as (S1 & S2). rewrite S1, S2.
    destruct (Z.eqb_spec (triangle_winding (sg_pa q) (sg_pb q) (sg_pb K)) 0) as [E2|E2]; cbn [negb] in *; [|left; exact C].
    rewrite tw_rev in E1, E2. assert (F1 : triangle_winding (sg_pb q) (sg_pa q) (sg_pa K) = 0) by lia. assert (F2 : triangle_winding (sg_pb q) (sg_pa q) (sg_pb K) = 0) by lia.
    apply tw_zero in F1; auto. apply tw_zero in F2; auto. destruct (vt K) eqn:VK; [|right; apply LT; auto].
    exfalso. pose proof (proj1 (vt_true K) VK) as V'. apply (vt_py K GK VK). apply inj_eq1. unfold injX, injY in *. rewrite V' in F1. lra.
Qed.
Lemma cut_r : rel mk X0 q K -> (cover K (X0 + 1) -> cover q (X0 + 1) -> rel mk (X0 + 1) q K) -> sweep_cmp q K = true -> sweep_cmp q K1 = true \/ twin mk q K.
Proof.
  intros R0 R1 C. destruct Cq as (Cq1 & Cq2).
  assert (LT : vt K = false -> vt q = false -> (yq q (injX (sg_pa K)) == injY (sg_pa K))%Q -> (yq q (injX (sg_pb K)) == injY (sg_pb K))%Q -> twin mk q K).
  { intros VK Vq E1 E2. pose proof (vt_false K GK VK) as WK. specialize (FAR VK Vq). apply twin_sym; [exact mk_sym|]. apply (line_twin K q X0); auto; try lia. right. apply R1; split; lia. }
  unfold sweep_cmp in C |- *. rewrite EA, EB. rewrite (Z.eqb_sym (px (sg_pa q))) in *. destruct (Z.eqb_spec (px (sg_pa K)) (px (sg_pa q))) as [E|E].
  - destruct (Z.eqb_spec (py (sg_pa q) - py (sg_pa K)) 0) as [E1|E1]; cbn [negb] in *; [|left; exact C].
    assert (PE : sg_pa K = sg_pa q) by (apply pt_eq; lia).
    destruct (tw_scale K c (sg_pb q) (sg_pa q) W) as (S1 & S2); [rewrite PE; apply tw_first|]. rewrite S1, S2.
    destruct (Z.eqb_spec (triangle_winding (sg_pb q) (sg_pa q) (sg_pb K)) 0) as [W0|W0]; cbn [negb] in *; [|left; exact C].
    destruct (vt K) eqn:VK, (vt q) eqn:Vq.
    + destruct R0 as [T|(P & _)]; [right; exact T|left]. destruct (within_t K c W) as (t & (T1 & T2) & TX & TY).
      destruct (vlo K X0 VK) as (L1 & L2 & L3 & L4). destruct (vlo q X0 Vq) as (M1 & M2 & M3 & M4). pose proof (vt_py K GK VK) as NY. pose proof (vt_py q Gq Vq) as NY'.
      assert (U1 : py (sg_pb K) < py (sg_pa K)). { assert (py (sg_pb K) <= py (sg_pa K)) by (apply inj_le1; rewrite <- PE in M1; lra). lia. }
      assert (U2 : py (sg_pa q) < py (sg_pb q)). { assert (py (sg_pa q) <= py (sg_pb q)) by (apply inj_le1; rewrite PE in L3; lra). lia. }
      assert (U3 : py c < py (sg_pa K)). { apply inj_lt1. apply inj_lt in U1. unfold injY in TY. nra. }
      rewrite PE in *. destruct (Z.eqb_spec (py (sg_pb q) - py c) 0); cbn [negb]; [lia|]. apply Z.ltb_lt. lia.
    + exfalso. apply (tw_zero q (sg_pb K)) in W0; auto. pose proof (yq_pa q) as Y. rewrite <- PE in Y. apply vt_true in VK. unfold injX in *. rewrite VK in Y. apply (vt_py K GK); [apply vt_true; exact VK|]. apply inj_eq1. unfold injY in *. lra.
    + exfalso. apply vt_true in Vq. pose proof (vt_false K GK VK) as WK. pose proof (vt_py q Gq (proj2 (vt_true q) Vq)) as NY. unfold triangle_winding in W0. rewrite <- PE in *. nia.
    + right. apply LT; auto; [rewrite PE; apply yq_pa|]. apply tw_zero; assumption.
  - destruct (Z.ltb_spec (px (sg_pa q)) (px (sg_pa K))) as [L|L]; [|lia]. assert (Vq : vt q = false) by (apply Z.eqb_neq; lia). unfold vt in Vq. rewrite Vq in *. cbn [negb] in *.
    destruct (Z.eqb_spec (triangle_winding (sg_pb q) (sg_pa q) (sg_pa K)) 0) as [E1|E1]; cbn [negb] in *; [|left; exact C].
    destruct (tw_scale K c (sg_pb q) (sg_pa q) W E1) as (S1 & S2). rewrite S1, S2.
    destruct (Z.eqb_spec (triangle_winding (sg_pb q) (sg_pa q) (sg_pb K)) 0) as [E2|E2]; cbn [negb] in *; [|left; exact C].
    apply tw_zero in E1; auto. apply tw_zero in E2; auto. destruct (vt K) eqn:VK; [|right; apply LT; auto].
    exfalso. pose proof (proj1 (vt_true K) VK) as V'. apply (vt_py K GK VK). apply inj_eq1. unfold injX, injY in *. rewrite V' in E1. lra.
Qed.
End Cut.

(** * Order in the whole set *)
(** In order at [X0], and if they touch there also right after it. *)
Definition rel2 (far : bool) (X0 : Z) (g h : cseg) : Prop :=
  rel mk X0 g h /\ (far = true -> vt g = false -> vt h = false -> (yq g (inj X0) == yq h (inj X0))%Q -> rel mk (X0 + 1) g h).
Lemma rel2_trans far X0 g h k : good g -> good h -> good k -> rel2 far X0 g h -> rel2 far X0 h k -> rel2 far X0 g k.
Proof.
  intros G H K (A & A') (B & B'). split; [apply (rel_trans mk mk_trans mk_sym X0 g h k); assumption|]. intros F Vg Vk E.
  destruct (vt h) eqn:Vh.
  - exfalso. pose proof (rel_pt g h X0 G H A ltac:(congruence)) as P1. pose proof (rel_pt h k X0 H K B ltac:(congruence)) as P2. pose proof (vt_py h H Vh) as NY.
    unfold lo, hi in *. rewrite Vg, Vh, Vk in *. assert (L : Z.max (py (sg_pa h)) (py (sg_pb h)) <= Z.min (py (sg_pa h)) (py (sg_pb h))) by (apply inj_le1; lra). lia.
  - pose proof (rel_y g h X0 G H A Vg Vh). pose proof (rel_y h k X0 H K B Vh Vk). apply (rel_trans mk mk_trans mk_sym _ g h k); auto; [apply A'|apply B']; auto; lra.
Qed.
Lemma over_rel2 far X X0 g h : over mk X None g h -> X <= X0 -> cover g X0 -> cover h X0 -> (far = true -> vt g = false -> X0 + 1 <= px (sg_pb g)) -> (far = true -> vt h = false -> X0 + 1 <= px (sg_pb h)) -> rel2 far X0 g h.
Proof.
  intros O L C D F1 F2. split; [eapply over_rel; [exact O|exact L|exact I|exact C|exact D]|]. intros F V W _. eapply over_rel; [exact O|lia|exact I| |]; destruct C, D; split; [lia|auto|lia|auto].
Qed.
End Chain.

Section Set_.
Variable v : nat -> cseg.
Fixpoint ord (l : list nat) : Prop := match l with [] => True | a :: l => (forall b, In b l -> sweep_cmp (v a) (v b) = true) /\ ord l end.
Lemma ord_app l1 : forall l2, ord (l1 ++ l2) <-> ord l1 /\ ord l2 /\ (forall a b, In a l1 -> In b l2 -> sweep_cmp (v a) (v b) = true).
Proof.
  induction l1 as [|x l1 IH]; intros l2; cbn [app ord]; [split; [intros H; split; [exact I|split; [exact H|intros a b []]]|intros (_ & H & _); exact H]|]. rewrite IH. split.
  - intros (A & B & C & D). split; [split; [intros b I; apply A, in_or_app; auto|exact B]|]. split; [exact C|]. intros a b [<-|I] J; [apply A, in_or_app; auto|auto].
  - intros ((A & B) & C & D). split; [intros b I; apply in_app_or in I as [I|I]; [auto|apply D; cbn; auto]|]. split; [exact B|]. split; [exact C|]. intros a b I J. apply D; cbn; auto.
Qed.
Lemma ord_remove k l : ord l -> ord (remove Nat.eq_dec k l).
Proof.
  induction l as [|a l IH]; cbn [ord remove]; [auto|]. intros (A & B). destruct (Nat.eq_dec k a); [auto|]. cbn [ord]. split; [|auto]. intros b I. apply in_remove in I as (I & _). auto.
Qed.
Lemma ord_drop A n B : ord (A ++ n :: B) -> ord (A ++ B).
Proof. rewrite !ord_app. cbn [ord]. intros (X & (Y & Z) & W). split; [exact X|]. split; [exact Z|]. intros a b I J. apply W; cbn; auto. Qed.
Lemma ord_irr a l : ord l -> In a l -> forall A B, l = A ++ a :: B -> ~ In a B.
Proof. intros O _ A B -> J. apply ord_app in O as (_ & (O & _) & _). specialize (O a J). rewrite sweep_cmp_irrefl in O. discriminate. Qed.
Lemma app_cases {T} (A : list T) : forall B A2 B2, A ++ B = A2 ++ B2 -> (exists c C, A = A2 ++ c :: C /\ B2 = c :: C ++ B) \/ (A = A2 /\ B = B2) \/ (exists c C, A2 = A ++ c :: C /\ B = c :: C ++ B2).
Proof.
  induction A as [|a A IH]; intros B A2 B2 E; destruct A2 as [|a2 A2]; cbn [app] in *.
  - right; left. auto.
  - right; right. exists a2, A2. subst. auto.
  - left. exists a, A. subst. auto.
  - injection E as <- E. destruct (IH _ _ _ E) as [(c & C & -> & ->)|[(-> & ->)|(c & C & -> & ->)]]; [left; exists c, C; auto|right; left; auto|right; right; exists c, C; auto].
Qed.
Lemma last_snoc {T} (A : list T) c C : exists d, last_of (A ++ c :: C) = Some d /\ In d (c :: C).
Proof.
  revert c. induction C as [|d C IH] using rev_ind; intros c.
  - exists c. unfold last_of. rewrite rev_app_distr. cbn. auto.
  - exists d. unfold last_of. rewrite app_comm_cons, app_assoc, rev_app_distr. cbn. split; [reflexivity|]. right. apply in_or_app. cbn. auto.
Qed.
(** There is only one place for a line that is in order with all others. *)
Lemma ord_place A n B A2 B2 : ord (A ++ n :: B) -> A ++ B = A2 ++ B2 -> (forall a, last_of A2 = Some a -> sweep_cmp (v a) (v n) = true) -> (forall b, hd_error B2 = Some b -> sweep_cmp (v n) (v b) = true) -> A2 = A /\ B2 = B.
Proof.
  intros O E LA HB. apply ord_app in O as (_ & (O2 & _) & O3). destruct (app_cases _ _ _ _ E) as [(c & C & -> & ->)|[(-> & ->)|(c & C & -> & ->)]]; [exfalso|auto|exfalso].
  - specialize (HB c eq_refl). specialize (O3 c n). apply sweep_cmp_asym in HB. rewrite O3 in HB; [discriminate| |left; reflexivity]. apply in_or_app. cbn. auto.
  - destruct (last_snoc A c C) as (d & D & I). specialize (LA d D). specialize (O2 d). apply sweep_cmp_asym in LA. rewrite O2 in LA; [discriminate|]. rewrite app_comm_cons. apply in_or_app. auto.
Qed.
Variable mk : nat -> nat -> Prop.
Hypothesis mk_trans : forall i j k, mk i j -> mk j k -> mk i k.
Hypothesis mk_refl : forall i, mk i i.
Hypothesis mk_sym : forall i j, mk i j -> mk j i.
Lemma last_split {T} (A : list T) a : last_of A = Some a -> exists A', A = A' ++ [a].
Proof. unfold last_of. intros H. destruct (rev A) as [|x l] eqn:E; [discriminate|]. injection H as ->. exists (rev l). rewrite <- (rev_involutive A), E. reflexivity. Qed.
(** A line put between two neighbours is in order with all others. *)
Lemma ord_insert A n B X0 : let far := negb (vt (v n)) in good (v n) -> px (sg_pa (v n)) = X0 ->
  (forall a, In a (A ++ B) -> good (v a) /\ cover (v a) X0 /\ (far = true -> vt (v a) = false -> X0 + 1 <= px (sg_pb (v a))) /\ (sg_a (v a), sg_b (v a)) <> (sg_a (v n), sg_b (v n))) ->
  adj (fun a b => rel2 mk far X0 (v a) (v b)) (A ++ B) -> ord (A ++ B) ->
  (forall a, last_of A = Some a -> sweep_cmp (v a) (v n) = true) -> (forall b, hd_error B = Some b -> sweep_cmp (v n) (v b) = true) -> ord (A ++ n :: B).
Proof.
  intros far Gn Xn ALL AD O LA HB. assert (FAR : vt (v n) = false -> far = true) by (unfold far; intros ->; reflexivity).
  assert (TR : forall l1 a l2 b l3, A ++ B = l1 ++ a :: l2 ++ b :: l3 -> rel2 mk far X0 (v a) (v b)).
  { apply (adj_trans (fun a b => rel2 mk far X0 (v a) (v b)) (fun a => In a (A ++ B))); [|auto|exact AD]. intros a b c Ia Ib Ic. apply rel2_trans; auto; apply ALL; assumption. }
  assert (TOT : forall a, In a (A ++ B) -> (sweep_cmp (v n) (v a) = false -> sweep_cmp (v a) (v n) = true) /\ (sweep_cmp (v a) (v n) = false -> sweep_cmp (v n) (v a) = true)).
  { intros a I. destruct (ALL a I) as (_ & _ & _ & D). destruct (sweep_cmp_total (v a) (v n) D) as [T|T]; split; intros F; congruence. }
  pose proof O as O'. apply ord_app in O as (O1 & O2 & O3). apply ord_app. split; [exact O1|]. split.
  - cbn [ord]. split; [|exact O2]. intros b I. apply in_split in I as (B1 & B2 & EB). destruct B1 as [|h B1]; [apply HB; rewrite EB; reflexivity|].
    assert (Ih : In h (A ++ B)) by (apply in_or_app; right; rewrite EB; left; reflexivity). assert (Ib : In b (A ++ B)) by (apply in_or_app; right; rewrite EB; apply in_or_app; right; left; reflexivity).
    apply (TOT b Ib). destruct (ALL h Ih) as (Gh & Ch & Fh & _). destruct (ALL b Ib) as (Gb & Cb & Fb & _). assert (R2 : rel2 mk far X0 (v h) (v b)) by (apply (TR A h B1 b B2); rewrite EB; reflexivity).
    apply (chain_down mk mk_trans mk_refl mk_sym (v n) (v h) (v b) X0); auto; [apply R2|intros V Vh Vb E; apply R2; auto| |apply HB; rewrite EB; reflexivity].
    rewrite EB in O2. cbn [app ord] in O2. apply O2. apply in_or_app. right. left. reflexivity.
  - intros a b I [<-|J]; [|auto]. destruct (last_of A) as [l|] eqn:LL; [|exfalso; destruct A as [|x A]; [destruct I|]; rewrite last_of_cons in LL; destruct (last_of A); discriminate].
    destruct (last_split A l LL) as (A' & EA). rewrite EA in I. apply in_app_or in I as [I|[<-|[]]]; [|auto]. apply in_split in I as (A1 & A2 & EI).
    assert (EA2 : A = A1 ++ a :: A2 ++ [l]) by (rewrite EA, EI, <- app_assoc; reflexivity).
    assert (Ia : In a (A ++ B)) by (apply in_or_app; left; rewrite EA2; apply in_or_app; right; left; reflexivity).
    assert (Il : In l (A ++ B)) by (apply in_or_app; left; rewrite EA; apply in_or_app; right; left; reflexivity).
    apply (TOT a Ia). destruct (ALL a Ia) as (Ga & Ca & Fa & _). destruct (ALL l Il) as (Gl & Cl & Fl & _). assert (R2 : rel2 mk far X0 (v a) (v l)) by (apply (TR A1 a A2 l B); rewrite EA2, <- !app_assoc; cbn [app]; rewrite <- app_assoc; reflexivity).
    apply (chain_up mk mk_trans mk_refl mk_sym (v a) (v l) (v n) X0); auto; [apply R2|intros V Va Vl E; apply R2; auto|].
    rewrite EA2 in O1. apply ord_app in O1 as (_ & O1 & _). cbn [ord] in O1. apply O1. apply in_or_app. right. left. reflexivity.
Qed.
End Set_.
