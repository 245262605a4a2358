(** The history of a sweep in which lines get split, without the lines that are gone:
    a sequence of sets whose neighbours are in order, as if these lines had never been
    there. *)
From Coq Require Import ZArith QArith List Bool Arith Lia Lqa.
From Verif Require Import GeomModel GeomSpec GeomProofs EventsModel EventsSpec EventsProofs ClipModel ClipProofs SegOrder SegPair SegTrace DynOrder.
Import ListNotations.
Local Open Scope Z_scope.

Lemma remove_app' k (A B : list nat) : remove Nat.eq_dec k (A ++ B) = remove Nat.eq_dec k A ++ remove Nat.eq_dec k B.
Proof. apply remove_app. Qed.
Lemma remove_cons k n (B : list nat) : remove Nat.eq_dec k (n :: B) = if Nat.eq_dec k n then remove Nat.eq_dec k B else n :: remove Nat.eq_dec k B.
Proof. reflexivity. Qed.
Lemma remove_mid k A B : NoDup (A ++ k :: B) -> remove Nat.eq_dec k (A ++ k :: B) = A ++ B.
Proof.
  intros ND. apply NoDup_remove_2 in ND. rewrite remove_app', remove_cons. destruct (Nat.eq_dec k k) as [_|X]; [|contradiction]. rewrite !notin_remove; [reflexivity| |]; intros I; apply ND, in_or_app; auto.
Qed.
(** The events that are not of line k. *)
Definition rme (k : nat) (s : list ev) : list ev := filter (fun e => negb (e_node e =? k)%nat) s.
Lemma rme_in k s e : In e (rme k s) <-> In e s /\ e_node e <> k.
Proof. unfold rme. rewrite filter_In, negb_true_iff, Nat.eqb_neq. reflexivity. Qed.
Lemma rme_app k s t : rme k (s ++ t) = rme k s ++ rme k t.
Proof. apply filter_app. Qed.
Lemma rme_id k s : (forall e, In e s -> e_node e <> k) -> rme k s = s.
Proof. intros H. unfold rme. induction s as [|e s IH]; [reflexivity|]. cbn [filter]. destruct (Nat.eqb_spec (e_node e) k) as [Q|Q]; [exfalso; apply (H e); cbn; auto|]. cbn [negb]. f_equal. apply IH. intros x I. apply H. right. exact I. Qed.

(** Events of two lines that start at the same point. *)
Definition same_start (e1 e2 : ev) : Prop := e_x e1 = e_x e2 /\ e_type e1 = e_type e2 /\ e_a e1 = e_a e2.
Lemma same_start_sym a b : same_start a b -> same_start b a.
Proof. intros (A & B & C). repeat split; congruence. Qed.
Lemma same_start_trans a b c : same_start a b -> same_start b c -> same_start a c.
Proof. intros (A & B & C) (D & E & F). repeat split; congruence. Qed.
(** Between two events of the same start there are only such. *)
Lemma between_start a y b : same_start a b -> event_lt y a = false -> event_lt y b = true -> same_start a y.
Proof.
  intros (X & T & A) L1 L2. unfold event_lt, type_eqb in L1, L2. rewrite <- X, <- T, <- A in L2.
  destruct (Z.eqb_spec (e_x y) (e_x a)) as [E1|E1]; cbn [negb] in *; [|apply Z.ltb_ge in L1; apply Z.ltb_lt in L2; lia].
  destruct (Nat.eqb_spec (type_rank (e_type y)) (type_rank (e_type a))) as [E2|E2]; cbn [negb] in *; [|apply Nat.ltb_ge in L1; apply Nat.ltb_lt in L2; lia].
  destruct (Nat.eqb_spec (e_a y) (e_a a)) as [E3|E3]; cbn [negb] in *; [|apply Nat.ltb_ge in L1; apply Nat.ltb_lt in L2; lia].
  split; [congruence|]. split; [destruct (e_type y), (e_type a); cbn in E2; congruence|congruence].
Qed.

Section Dyn.
Variable v : nat -> cseg.
Variable mk : nat -> nat -> Prop.
Hypothesis mk_trans : forall i j k, mk i j -> mk j k -> mk i k.
Hypothesis mk_refl : forall i, mk i i.
Hypothesis mk_sym : forall i j, mk i j -> mk j i.
Notation nb := (nb v mk).
Notation ord := (ord v).

Inductive dtr : list ev -> list nat -> Prop :=
| d_nil : dtr [] []
| d_in e s A B : dtr s (A ++ B) -> is_f e = true -> (forall e', In e' s -> e_node e' <> e_node e) -> adj (nb (e_x e)) (A ++ e_node e :: B) -> ord (A ++ e_node e :: B) ->
    dtr (e :: s) (A ++ e_node e :: B)
| d_out e s A B : dtr s (A ++ e_node e :: B) -> is_f e = false -> adj (nb (e_x e)) (A ++ B) -> dtr (e :: s) (A ++ B)
| d_pair e2 e1 s A B A' B' : dtr s (A ++ B) -> is_f e1 = true -> is_f e2 = true -> same_start e1 e2 -> (forall e', In e' s -> e_node e' <> e_node e1) -> (forall e', In e' (e1 :: s) -> e_node e' <> e_node e2) ->
    A ++ e_node e1 :: B = A' ++ B' -> adj (nb (e_x e2)) (A' ++ e_node e2 :: B') -> ord (A' ++ e_node e2 :: B') -> dtr (e2 :: e1 :: s) (A' ++ e_node e2 :: B').

Lemma mem_in e s A B : is_f e = true -> (forall e', In e' s -> e_node e' <> e_node e) ->
  (NoDup (A ++ B) /\ forall n, In n (A ++ B) <-> (exists e, In e s /\ is_f e = true /\ e_node e = n) /\ (forall e, In e s -> is_f e = false -> e_node e <> n)) ->
  NoDup (A ++ e_node e :: B) /\ forall n, In n (A ++ e_node e :: B) <-> (exists e', In e' (e :: s) /\ is_f e' = true /\ e_node e' = n) /\ (forall e', In e' (e :: s) -> is_f e' = false -> e_node e' <> n).
Proof.
  intros F NEW (ND & IH). assert (NI : ~ In (e_node e) (A ++ B)). { intros I. apply IH in I as ((e' & I & _ & Q) & _). apply (NEW e' I Q). }
  split; [apply NoDup_Add with (a := e_node e) (l := A ++ B); [apply Add_app|split; assumption]|].
  intros n. split.
  + intros I. apply in_app_or in I. assert (I' : n = e_node e \/ In n (A ++ B)) by (destruct I as [I|[I|I]]; [right; apply in_or_app; auto|left; auto|right; apply in_or_app; auto]).
    destruct I' as [->|I'].
    * split; [exists e; cbn; auto|]. intros e' [<-|I2] F2; [congruence|apply NEW; exact I2].
    * apply IH in I' as ((e' & I2 & F2 & Q) & W). split; [exists e'; cbn; auto|]. intros e2 [<-|I3] F3; [congruence|apply W; assumption].
  + intros ((e' & [<-|I] & F2 & Q) & W); [subst n; apply in_or_app; cbn; auto|].
    assert (J : In n (A ++ B)) by (apply IH; split; [eauto|intros e2 I2; apply W; cbn; auto]). apply in_app_or in J. apply in_or_app. cbn. tauto.
Qed.
Lemma d_mem s R : dtr s R -> NoDup R /\ forall n, In n R <-> (exists e, In e s /\ is_f e = true /\ e_node e = n) /\ (forall e, In e s -> is_f e = false -> e_node e <> n).
Proof.
  induction 1 as [|e s A B T IH F NEW AD O|e s A B T (ND & IH) F AD|e2 e1 s A B A' B' T IH F1 F2 SS NEW1 NEW2 EQ AD O].
  - split; [constructor|]. intros n. cbn. split; [intros []|]. intros ((e & [] & _) & _).
  - apply mem_in; assumption.
  - pose proof ND as ND'. apply NoDup_remove in ND' as (ND1 & NI). split; [exact ND1|]. intros n. split.
    + intros I. assert (J : In n (A ++ e_node e :: B)) by (apply in_app_or in I; apply in_or_app; cbn; tauto). apply IH in J as ((e' & I2 & F2 & Q) & W).
      split; [exists e'; cbn; auto|]. intros e2 [<-|I3] F3; [|apply W; assumption]. intros Q2. apply NI. rewrite Q2. exact I.
    + intros ((e' & [<-|I] & F2 & Q) & W); [congruence|]. assert (J : In n (A ++ e_node e :: B)) by (apply IH; split; [eauto|intros e2 I2; apply W; cbn; auto]).
      apply in_app_or in J as [J|[J|J]]; [apply in_or_app; auto| |apply in_or_app; auto]. exfalso. apply (W e); cbn; auto.
  - apply mem_in; [exact F2|exact NEW2|]. rewrite <- EQ. apply mem_in; assumption.
Qed.
Lemma d_adj e t R : dtr (e :: t) R -> adj (nb (e_x e)) R.
Proof. inversion 1; subst; assumption. Qed.
Lemma d_ord s R : dtr s R -> ord R.
Proof. induction 1; try assumption; [exact I|]. eapply ord_drop; eassumption. Qed.

(** * From one point of the history to a later one *)
Section Path.
Variables (t : list ev) (Rt : list nat).
Inductive path : list ev -> list nat -> Prop :=
| p_nil : path t Rt
| p_in e s A B : path s (A ++ B) -> is_f e = true -> path (e :: s) (A ++ e_node e :: B)
| p_out e s A B : path s (A ++ e_node e :: B) -> is_f e = false -> ord (A ++ e_node e :: B) -> path (e :: s) (A ++ B).
Lemma path_len s R : path s R -> (length t <= length s)%nat /\ (length s = length t -> s = t /\ R = Rt).
Proof. induction 1 as [|e s A B P (IH & _) F|e s A B P (IH & _) F O]; [auto| |]; cbn [length]; split; try lia; intros; lia. Qed.
Lemma path_f e s R : path (e :: s) R -> (length t < length (e :: s))%nat -> is_f e = true -> exists A B, R = A ++ e_node e :: B /\ path s (A ++ B).
Proof. inversion 1; subst; intros L F; [lia|eauto|congruence]. Qed.
Lemma path_b e s R : path (e :: s) R -> (length t < length (e :: s))%nat -> is_f e = false -> exists A B, R = A ++ B /\ ord (A ++ e_node e :: B) /\ path s (A ++ e_node e :: B).
Proof. inversion 1; subst; intros L F; [lia|congruence|eauto]. Qed.
End Path.
Lemma path_trans t Rt s R s' R' : path t Rt s R -> path s R s' R' -> path t Rt s' R'.
Proof. intros P. induction 1; [exact P|apply p_in; assumption|apply p_out; assumption]. Qed.
(** Without one line. *)
Lemma path_rm k t Rt s R : path t Rt s R -> path (rme k t) (remove Nat.eq_dec k Rt) (rme k s) (remove Nat.eq_dec k R).
Proof.
  induction 1 as [|e s A B P IH F|e s A B P IH F O]; [constructor| |]; unfold rme in *; cbn [filter]; rewrite !remove_app', ?remove_cons in *; destruct (Nat.eqb_spec (e_node e) k) as [Q|Q]; cbn [negb].
  - destruct (Nat.eq_dec k (e_node e)) as [_|X]; [exact IH|congruence].
  - destruct (Nat.eq_dec k (e_node e)) as [X|_]; [congruence|]. apply p_in; assumption.
  - destruct (Nat.eq_dec k (e_node e)) as [_|X]; [exact IH|congruence].
  - destruct (Nat.eq_dec k (e_node e)) as [X|_]; [congruence|]. apply p_out; [assumption|exact F|]. apply (ord_remove v k) in O. rewrite remove_app', remove_cons in O. destruct (Nat.eq_dec k (e_node e)); [congruence|exact O].
Qed.
(** An earlier point of a history. Two lines with the same start may have been put in
    together. *)
Lemma dtr_suffix s2 t : forall R, dtr (s2 ++ t) R -> (exists Rt, dtr t Rt /\ path t Rt (s2 ++ t) R) \/
  (exists s3 e2 e1 c A B, s2 = s3 ++ [e2] /\ t = e1 :: c /\ dtr c (A ++ B) /\ is_f e1 = true /\ is_f e2 = true /\ same_start e1 e2 /\ (forall e', In e' c -> e_node e' <> e_node e1) /\ e_node e1 <> e_node e2 /\
    path t (A ++ e_node e1 :: B) (s2 ++ t) R).
Proof.
  remember (length s2) as k eqn:K. revert s2 K. induction k as [k IH] using lt_wf_ind. intros s2 K R D. destruct s2 as [|e s2]; [left; exists R; split; [exact D|constructor]|]. cbn [app] in *.
  inversion D as [|? ? A B D' F NEW AD O E1 E2|? ? A B D' F AD E1 E2|e2 e1 s0 A B A' B' D' F1 F2 SS NEW1 NEW2 EQ AD O E1 E2]; subst.
  - destruct (IH (length s2) ltac:(cbn; lia) s2 eq_refl _ D') as [(Rt & T & P)|(s3 & x2 & x1 & c & A1 & B1 & -> & -> & T & G1 & G2 & SS & N1 & N2 & P)].
    + left. exists Rt. split; [exact T|]. apply p_in; assumption.
    + right. exists (e :: s3), x2, x1, c, A1, B1. repeat (split; [first [reflexivity|assumption]|]). apply p_in; assumption.
  - pose proof (d_ord _ _ D') as O. destruct (IH (length s2) ltac:(cbn; lia) s2 eq_refl _ D') as [(Rt & T & P)|(s3 & x2 & x1 & c & A1 & B1 & -> & -> & T & G1 & G2 & SS & N1 & N2 & P)].
    + left. exists Rt. split; [exact T|]. apply p_out; assumption.
    + right. exists (e :: s3), x2, x1, c, A1, B1. repeat (split; [first [reflexivity|assumption]|]). apply p_out; assumption.
  - destruct s2 as [|y s2]; cbn [app] in *.
    + match goal with Q : e1 :: s0 = t |- _ => subst t end. right. exists [], e, e1, s0, A, B. repeat (split; [first [reflexivity|assumption|congruence]|]). split; [apply NEW2; left; reflexivity|]. apply p_in; [|exact F2]. rewrite <- EQ. apply p_nil.
    + match goal with Q : e1 :: s0 = y :: _ |- _ => injection Q as <- -> end. destruct (IH (length s2) ltac:(cbn; lia) s2 eq_refl _ D') as [(Rt & T & P)|(s3 & x2 & x1 & c & A1 & B1 & -> & -> & T & G1 & G2 & SS' & N1 & N2 & P)].
      * left. exists Rt. split; [exact T|]. apply p_in; [|exact F2]. rewrite <- EQ. apply p_in; assumption.
      * right. exists (e :: e1 :: s3), x2, x1, c, A1, B1. repeat (split; [first [reflexivity|assumption]|]). apply p_in; [|exact F2]. rewrite <- EQ. apply p_in; assumption.
Qed.

(** * A line is missing *)
(** The line [k0] is gone; [k1], its first part, comes next. *)
Definition debt (s : list ev) (R : list nat) (k1 : nat) : Prop :=
  exists x r A B k0 A' B', s = x :: r /\ R = A ++ e_node x :: B /\ dtr r (A ++ B) /\ is_f x = true /\ (forall e', In e' r -> e_node e' <> e_node x) /\
    R = A' ++ B' /\ adj (nb (e_x x)) (A' ++ k0 :: B') /\ ord (A' ++ k0 :: B') /\ good (v k0) /\
    e_x x = px (sg_pa (v k0)) /\ e_type x = (if vert (v k0) then VForward else Forward) /\ e_a x = sg_a (v k0) /\
    sg_a (v k1) = sg_a (v k0) /\ sg_pa (v k1) = sg_pa (v k0) /\ within (v k0) (sg_pb (v k1)).
Lemma debt_ord s R k1 : debt s R k1 -> ord R.
Proof. intros (x & r & A & B & k0 & A' & B' & _ & _ & _ & _ & _ & -> & _ & O & _). eapply ord_drop; exact O. Qed.
Lemma debt_mem s R k1 : debt s R k1 -> NoDup R /\ forall n, In n R <-> (exists e, In e s /\ is_f e = true /\ e_node e = n) /\ (forall e, In e s -> is_f e = false -> e_node e <> n).
Proof. intros (x & r & A & B & k0 & A' & B' & -> & -> & D & F & NW & _). apply mem_in; [exact F|exact NW|]. apply d_mem. exact D. Qed.

(** Taking away a line that was put in at the end, or just before another line with the same start. *)
Lemma two_split k A x B R1 : NoDup (A ++ x :: B) -> k <> x -> In k (A ++ B) -> remove Nat.eq_dec k (A ++ B) = R1 ->
  exists A3 B3 A' B', remove Nat.eq_dec k (A ++ x :: B) = A3 ++ x :: B3 /\ A3 ++ B3 = R1 /\ A ++ x :: B = A' ++ k :: B' /\ A3 ++ x :: B3 = A' ++ B'.
Proof.
  intros ND D I <-. exists (remove Nat.eq_dec k A), (remove Nat.eq_dec k B). assert (J : In k (A ++ x :: B)) by (apply in_app_or in I; apply in_or_app; cbn; tauto). apply in_split in J as (A' & B' & E). exists A', B'.
  assert (E1 : remove Nat.eq_dec k (A ++ x :: B) = remove Nat.eq_dec k A ++ x :: remove Nat.eq_dec k B). { rewrite remove_app', remove_cons. destruct (Nat.eq_dec k x); [contradiction|reflexivity]. }
  split; [exact E1|]. split; [symmetry; apply remove_app'|]. split; [exact E|]. rewrite <- E1, E. apply remove_mid. rewrite <- E. exact ND.
Qed.
Lemma take_away b1 Rt ek r k1 : dtr b1 Rt -> is_f ek = true ->
  (b1 = ek :: r \/ exists x, b1 = x :: ek :: r /\ is_f x = true /\ same_start ek x /\ (forall y, In y r -> same_start ek y -> False)) ->
  (forall y, In y r -> e_node y <> e_node ek) ->
  let k := e_node ek in good (v k) -> e_x ek = px (sg_pa (v k)) -> e_type ek = (if vert (v k) then VForward else Forward) -> e_a ek = sg_a (v k) ->
  sg_a (v k1) = sg_a (v k) -> sg_pa (v k1) = sg_pa (v k) -> within (v k) (sg_pb (v k1)) ->
  dtr (rme k b1) (remove Nat.eq_dec k Rt) \/ debt (rme k b1) (remove Nat.eq_dec k Rt) k1.
Proof.
  intros D FK CASE RN k GK XK TK AK S1 S2 W. pose proof (d_mem _ _ D) as (ND & _). destruct CASE as [->|(x & -> & FX & SS & NO)].
  - assert (ER : rme k (ek :: r) = r). { unfold rme. cbn [filter]. fold k. rewrite Nat.eqb_refl. cbn [negb]. apply rme_id. exact RN. } rewrite ER.
    inversion D as [|? ? A B D' F NEW AD O E1 E2|? ? A B D' F AD E1 E2|e2 e1 s0 A B A' B' D' F1 F2 SS NEW1 NEW2 EQ AD O E1 E2]; subst; [|congruence|].
    + left. fold k in ND |- *. rewrite remove_mid by exact ND. exact D'.
    + right. fold k in ND |- *. rewrite remove_mid by exact ND. destruct SS as (SX & ST & SA). exists e1, s0, A, B, k, A', B'.
      rewrite SX, ST, SA. repeat (split; [first [reflexivity|assumption|congruence]|]). exact W.
  - assert (D1 : e_node x <> k). { intros Q. inversion D; subst; try congruence; match goal with N : forall e', In e' (ek :: r) -> _ |- _ => apply (N ek (or_introl eq_refl)); symmetry; exact Q end. }
    assert (ER : rme k (x :: ek :: r) = x :: r). { unfold rme. cbn [filter]. fold k. rewrite Nat.eqb_refl. destruct (Nat.eqb_spec (e_node x) k); [contradiction|]. cbn [negb]. f_equal. apply rme_id. exact RN. } rewrite ER.
    right. destruct SS as (SX & ST & SA).
    assert (GO : forall A B R1, Rt = A ++ e_node x :: B -> In k (A ++ B) -> remove Nat.eq_dec k (A ++ B) = R1 -> dtr r R1 -> adj (nb (e_x x)) Rt -> ord Rt -> (forall e', In e' r -> e_node e' <> e_node x) -> debt (x :: r) (remove Nat.eq_dec k Rt) k1).
    { intros A B R1 ER' IK E1 DR AD O FR. rewrite ER' in ND. destruct (two_split k A (e_node x) B R1 ND (not_eq_sym D1) IK E1) as (A3 & B3 & A' & B' & X1 & X2 & X3 & X4). exists x, r, A3, B3, k, A', B'.
      rewrite <- ER' in X1. rewrite X1, <- SX, <- ST, <- SA. rewrite ER', X3, <- SX in AD. rewrite ER', X3 in O. subst R1. rewrite <- X2 in DR. repeat (split; [first [reflexivity|assumption|congruence]|]). exact W. }
    inversion D as [|? ? A B D' F NEW AD O E1 E2|? ? A B D' F AD E1 E2|e2 e1 s0 A B A' B' D' F1 F2 SS NEW1 NEW2 EQ AD O E1 E2]; subst; [|congruence|].
    + pose proof (d_mem _ _ D') as (ND' & _).
      inversion D' as [|? ? A1 B1 D2 F' NEW' AD' O' E1 E2|? ? A1 B1 D2 F' AD' E1 E2|e2 e1 s0 A1 B1 A1' B1' D2 F1 F2 SS NEW1 NEW2 EQ AD' O' E1 E2]; subst; [|congruence|].
      * match goal with Q : A1 ++ e_node ek :: B1 = A ++ B |- _ => rename Q into EQ1 end. fold k in EQ1, ND'. apply (GO A B (A1 ++ B1)); try assumption; try reflexivity.
        -- rewrite <- EQ1. apply in_or_app. right. left. reflexivity.
        -- rewrite <- EQ1. apply remove_mid. rewrite EQ1. exact ND'.
        -- intros e' I. apply NEW. right. exact I.
      * exfalso. apply (NO e1); [left; reflexivity|]. apply same_start_sym. exact SS.
    + fold k in EQ. assert (ND1 : NoDup (A ++ k :: B)). { pose proof (d_mem _ _ D') as M. apply (mem_in ek r A B FK NEW1) in M as (M & _). exact M. }
      apply (GO A' B' (A ++ B)); try assumption; try reflexivity.
      * rewrite <- EQ. apply in_or_app. right. left. reflexivity.
      * rewrite <- EQ. apply remove_mid. exact ND1.
      * intros e' I. apply NEW2. right. exact I.
Qed.
End Dyn.
