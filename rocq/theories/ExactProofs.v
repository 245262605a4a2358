(** New points that lie on the edge they split change no winding number. *)
From Coq Require Import ZArith QArith Qfield List Bool Arith Permutation Lia Lqa ZifyBool.
From Verif Require Import GeomModel GeomSpec GeomProofs BalanceModel WindSpec ArrangeProofs OutModel CycleProofs PointSinkModel ClipModel ClipSpec RegionProps.
Import ListNotations.
Local Open Scope Z_scope.

(** c divides the line from P to Q in the ratio a to b - a. *)
Definition divides (P Q c : point) : Prop := exists a b, 0 <= a <= b /\ 0 < b /\ b * (px c - px P) = a * (px Q - px P) /\ b * (py c - py P) = a * (py Q - py P).
Lemma divides_scale k P Q c : divides P Q c -> divides (scale k P) (scale k Q) (scale k c).
Proof. intros (a & b & A & B & X & Y). exists a, b. split; [exact A|]. split; [exact B|]. unfold scale. cbn [px py fst snd] in *. split. 1: clear Y. 2: clear X. 1: change (px (k * px P, k * py P)) with (k * px P) in *. 1: change (px (k * px Q, k * py Q)) with (k * px Q) in *.
  1: change (px (k * px c, k * py c)) with (k * px c) in *. 1: apply (f_equal (Z.mul k)) in X; lia. change (py (k * px P, k * py P)) with (k * py P) in *. change (py (k * px Q, k * py Q)) with (k * py Q) in *.
  change (py (k * px c, k * py c)) with (k * py c) in *. apply (f_equal (Z.mul k)) in Y; lia. Qed.
Lemma divides_on P Q c X Y : divides P Q c -> on_seg P c X Y \/ on_seg c Q X Y -> on_seg P Q X Y.
Proof.
  intros (a & b & A & B & E1 & E2) H.
  assert (BQ : (0 < inject_Z b)%Q) by (rewrite (Zlt_Qlt 0 b) in B; exact B). assert (AQ : (0 <= inject_Z a <= inject_Z b)%Q) by (split; [change 0%Q with (inject_Z 0)|]; rewrite <- Zle_Qle; lia).
  set (u := (inject_Z a / inject_Z b)%Q). assert (U : (u * inject_Z b == inject_Z a)%Q) by (unfold u; field; lra).
  assert (U01 : (0 <= u <= 1)%Q) by (split; [apply Qle_shift_div_l|apply Qle_shift_div_r]; lra).
  assert (CX : (inject_Z (px c) == inject_Z (px P) + u * inject_Z (px Q - px P))%Q).
  { assert (E : (inject_Z b * (inject_Z (px c) - inject_Z (px P)) == inject_Z a * inject_Z (px Q - px P))%Q) by (rewrite <- inject_Z_mult, <- E1, inject_Z_mult; unfold Zminus; rewrite inject_Z_plus, inject_Z_opp; ring).
    rewrite <- U in E. apply (Qmult_inj_l _ _ (inject_Z b)); [lra|]. lra. }
  assert (CY : (inject_Z (py c) == inject_Z (py P) + u * inject_Z (py Q - py P))%Q).
  { assert (E : (inject_Z b * (inject_Z (py c) - inject_Z (py P)) == inject_Z a * inject_Z (py Q - py P))%Q) by (rewrite <- inject_Z_mult, <- E2, inject_Z_mult; unfold Zminus; rewrite inject_Z_plus, inject_Z_opp; ring).
    rewrite <- U in E. apply (Qmult_inj_l _ _ (inject_Z b)); [lra|]. lra. }
  clearbody u. unfold Zminus in *. rewrite ?inject_Z_plus, ?inject_Z_opp in *.
  destruct H as [(t & T & HX & HY)|(t & T & HX & HY)]; unfold Zminus in *; rewrite ?inject_Z_plus, ?inject_Z_opp in *.
  - exists (t * u)%Q. split; [clear -T U01; nra|]. unfold Zminus. rewrite !inject_Z_plus, !inject_Z_opp. rewrite HX, HY, CX, CY. split; ring.
  - exists (u + t * (1 - u))%Q. split; [clear -T U01; nra|]. unfold Zminus. rewrite !inject_Z_plus, !inject_Z_opp. rewrite HX, HY, CX, CY. split; ring.
Qed.
(** Opposite directions from o: it is on the line. *)
Lemma opposite_on o P Q : (px P - px o) * (px Q - px o) <= 0 -> (py P - py o) * (py Q - py o) <= 0 -> area2 o P Q = 0 -> on_seg P Q (injX o) (injY o).
Proof.
  intros X Y S.
  assert (W : forall n d, 0 < d -> 0 <= n <= d -> d * px o = d * px P + n * (px Q - px P) -> d * py o = d * py P + n * (py Q - py P) -> on_seg P Q (injX o) (injY o)).
  { intros n d D N A B. apply (on_at P Q n d); auto; unfold injX, injY; rewrite <- inject_Z_mult, ?A, ?B; reflexivity. }
  set (p1 := px P - px o) in *. set (p2 := py P - py o) in *. set (q1 := px Q - px o) in *. set (q2 := py Q - py o) in *.
  assert (S' : p1 * q2 = p2 * q1) by (unfold area2 in S; unfold p1, p2, q1, q2; lia).
  assert (W' : forall n d, 0 < d -> 0 <= n <= d -> d * p1 + n * (q1 - p1) = 0 -> d * p2 + n * (q2 - p2) = 0 -> on_seg P Q (injX o) (injY o)).
  { intros n d D N A B. apply (W n d D N). 1: clear -A; unfold p1, q1 in *; lia. clear -B; unfold p2, q2 in *; lia. }
  clear W S. clearbody p1 p2 q1 q2.
  destruct (Z.lt_trichotomy p1 q1) as [L|[E|L]].
  - assert (p1 <= 0 <= q1) by (clear -L X; nia). apply (W' (- p1) (q1 - p1)); lia.
  - assert (p1 = 0 /\ q1 = 0) as (-> & ->) by (clear -E X; nia). destruct (Z.lt_trichotomy p2 q2) as [M|[E2|M]].
    + assert (p2 <= 0 <= q2) by (clear -M Y; nia). apply (W' (- p2) (q2 - p2)); lia.
    + assert (p2 = 0 /\ q2 = 0) as (-> & ->) by (clear -E2 Y; nia). apply (W' 0 1); lia.
    + assert (q2 <= 0 <= p2) by (clear -M Y; nia). apply (W' p2 (p2 - q2)); lia.
  - assert (q1 <= 0 <= p1) by (clear -L X; nia). apply (W' p1 (p1 - q1)); lia.
Qed.
Definition quad (x y : Z) : Z := if (0 <? x) && (0 <=? y) then 0 else if (x <=? 0) && (0 <? y) then 1 else if (x <? 0) && (y <=? 0) then 2 else 3.
Lemma quad_cases x y : (x <> 0 \/ y <> 0) -> (quad x y = 0 /\ 0 < x /\ 0 <= y) \/ (quad x y = 1 /\ x <= 0 /\ 0 < y) \/ (quad x y = 2 /\ x < 0 /\ y <= 0) \/ (quad x y = 3 /\ 0 <= x /\ y < 0).
Proof. unfold quad. intros H. destruct (0 <? x) eqn:A, (0 <=? y) eqn:B, (x <=? 0) eqn:C, (0 <? y) eqn:D, (x <? 0) eqn:E, (y <=? 0) eqn:F; cbn [andb]; lia. Qed.
Definition steps4 (d s : Z) : Z := let d := d mod 4 in if d =? 0 then 0 else if d =? 1 then 1 else if d =? 3 then -1 else if 0 <? s then 2 else -2.
Lemma turns_vectors p1 p2 c1 c2 q1 q2 s s1 s2 :
  s = p1 * q2 - p2 * q1 -> s1 = p1 * c2 - p2 * c1 -> s2 = c1 * q2 - c2 * q1 ->
  (0 < s /\ 0 < s1 /\ 0 < s2) \/ (s < 0 /\ s1 < 0 /\ s2 < 0) \/ (s = 0 /\ s1 = 0 /\ s2 = 0 /\ (0 < p1 * q1 \/ 0 < p2 * q2)) ->
  (p1 <= c1 <= q1 \/ q1 <= c1 <= p1) -> (p2 <= c2 <= q2 \/ q2 <= c2 <= p2) ->
  steps4 (quad q1 q2 - quad p1 p2) s = steps4 (quad c1 c2 - quad p1 p2) s1 + steps4 (quad q1 q2 - quad c1 c2) s2.
Proof.
  intros S S1 S2 G BX BY.
  assert (P0 : p1 <> 0 \/ p2 <> 0) by (clear -S S1 S2 G; nia). assert (Q0 : q1 <> 0 \/ q2 <> 0) by (clear -S S1 S2 G; nia).
  assert (C0 : c1 <> 0 \/ c2 <> 0) by (clear -S S1 S2 G BX BY; nia).
  destruct G as [(G & G1 & G2)|[(G & G1 & G2)|(-> & -> & -> & G)]].
  - unfold steps4. assert (0 <? s = true) as -> by lia. assert (0 <? s1 = true) as -> by lia. assert (0 <? s2 = true) as -> by lia.
    destruct (quad_cases _ _ P0) as [(-> & ? & ?)|[(-> & ? & ?)|[(-> & ? & ?)|(-> & ? & ?)]]]; destruct (quad_cases _ _ Q0) as [(-> & ? & ?)|[(-> & ? & ?)|[(-> & ? & ?)|(-> & ? & ?)]]];
      destruct (quad_cases _ _ C0) as [(-> & ? & ?)|[(-> & ? & ?)|[(-> & ? & ?)|(-> & ? & ?)]]]; try reflexivity; exfalso; clear P0 Q0 C0; nia.
  - unfold steps4. assert (0 <? s = false) as -> by lia. assert (0 <? s1 = false) as -> by lia. assert (0 <? s2 = false) as -> by lia.
    destruct (quad_cases _ _ P0) as [(-> & ? & ?)|[(-> & ? & ?)|[(-> & ? & ?)|(-> & ? & ?)]]]; destruct (quad_cases _ _ Q0) as [(-> & ? & ?)|[(-> & ? & ?)|[(-> & ? & ?)|(-> & ? & ?)]]];
      destruct (quad_cases _ _ C0) as [(-> & ? & ?)|[(-> & ? & ?)|[(-> & ? & ?)|(-> & ? & ?)]]]; try reflexivity; exfalso; clear P0 Q0 C0; nia.
  - destruct (quad_cases _ _ P0) as [(-> & ? & ?)|[(-> & ? & ?)|[(-> & ? & ?)|(-> & ? & ?)]]]; destruct (quad_cases _ _ Q0) as [(-> & ? & ?)|[(-> & ? & ?)|[(-> & ? & ?)|(-> & ? & ?)]]];
      destruct (quad_cases _ _ C0) as [(-> & ? & ?)|[(-> & ? & ?)|[(-> & ? & ?)|(-> & ? & ?)]]]; try reflexivity; exfalso; clear P0 Q0 C0; nia.
Qed.
Lemma turns_divided o P Q c : divides P Q c -> ~ on_edge (P, Q) o -> quarter_turns o (P, Q) = quarter_turns o (P, c) + quarter_turns o (c, Q).
Proof.
  intros (a & b & A & B & E1 & E2) NO.
  destruct (Z.eq_dec a 0) as [->|A0]. { assert (c = P) as -> by (destruct c, P; unfold px, py in *; cbn [fst snd] in *; f_equal; clear -E1 E2 B; nia). unfold quarter_turns at 2. cbn [fst snd]. rewrite Z.sub_diag. reflexivity. }
  destruct (Z.eq_dec a b) as [->|AB]. { assert (c = Q) as -> by (destruct c, Q; unfold px, py in *; cbn [fst snd] in *; f_equal; clear -E1 E2 B; nia). unfold quarter_turns at 3. cbn [fst snd]. rewrite Z.sub_diag, Z.add_0_r. reflexivity. }
  assert (S1 : b * area2 o P c = a * area2 o P Q).
  { assert (W : b * area2 o P c = (px P - px o) * (b * (py c - py P)) - (py P - py o) * (b * (px c - px P))) by (unfold area2; ring). rewrite W, E1, E2. unfold area2. ring. }
  assert (S2 : b * area2 o c Q = (b - a) * area2 o P Q).
  { assert (W : b * area2 o c Q = b * area2 o P Q + (py Q - py o) * (b * (px c - px P)) - (px Q - px o) * (b * (py c - py P))) by (unfold area2; ring). rewrite W, E1, E2. unfold area2. ring. }
  apply (turns_vectors (px P - px o) (py P - py o) (px c - px o) (py c - py o) (px Q - px o) (py Q - py o) (area2 o P Q) (area2 o P c) (area2 o c Q)).
  - unfold area2; ring.
  - unfold area2; ring.
  - unfold area2; ring.
  - pose proof (opposite_on o P Q) as O. unfold on_edge in NO. cbn [fst snd] in NO. set (s := area2 o P Q) in *. set (s1 := area2 o P c) in *. set (s2 := area2 o c Q) in *. clearbody s s1 s2.
    destruct (Z.lt_trichotomy s 0) as [L|[E|L]].
    + right. left. clear -L S1 S2 A B A0 AB. nia.
    + right. right. subst s. assert (s1 = 0 /\ s2 = 0) as (-> & ->) by (clear -S1 S2 B; nia). repeat split; auto.
      set (x := (px P - px o) * (px Q - px o)) in *. set (y := (py P - py o) * (py Q - py o)) in *. clearbody x y. destruct (Z.lt_ge_cases 0 x); [left; assumption|]. destruct (Z.lt_ge_cases 0 y); [right; assumption|]. exfalso. apply NO, O; auto.
    + left. clear -L S1 S2 A B A0 AB. nia.
  - clear -E1 A B. set (u := px c - px P) in *. set (v := px Q - px P) in *. assert (0 <= u <= v \/ v <= u <= 0) by (clearbody u v; nia). unfold u, v in *. lia.
  - clear -E2 A B. set (u := py c - py P) in *. set (v := py Q - py P) in *. assert (0 <= u <= v \/ v <= u <= 0) by (clearbody u v; nia). unfold u, v in *. lia.
Qed.
Lemma on_divides P Q c : on_seg P Q (injX c) (injY c) -> divides P Q c.
Proof.
  intros (t & (T0 & T1) & X & Y). destruct t as (n, d). exists n, (Z.pos d). unfold injX, injY, Qle, Qeq, inject_Z in *. cbn [Qnum Qden Qplus Qmult] in *. rewrite ?Z.mul_1_r, ?Z.mul_1_l, ?Pos.mul_1_l, ?Pos.mul_1_r in *. lia.
Qed.

(** * Sums over links *)
Definition total (f : nat -> nat -> Z) (l : list nat) : Z := sumZ (map (fun ij => f (fst ij) (snd ij)) (combine (seq 0 (length l)) l)).
Definition tfrom (s : nat) (f : nat -> nat -> Z) (l : list nat) : Z := sumZ (map (fun ij => f (fst ij) (snd ij)) (combine (seq s (length l)) l)).
Lemma tfrom_cons s f a l : tfrom s f (a :: l) = f s a + tfrom (S s) f l.
Proof. reflexivity. Qed.
Lemma tfrom_app f a : forall l s, tfrom s f (l ++ [a]) = tfrom s f l + f (s + length l)%nat a.
Proof.
  induction l as [|b l IH]; intros s; [cbn [app length]; rewrite tfrom_cons, Nat.add_0_r; unfold tfrom; cbn [combine seq length map sumZ fold_right]; lia|].
  cbn [app length]. rewrite !tfrom_cons, IH. replace (S s + length l)%nat with (s + S (length l))%nat by lia. lia.
Qed.
Lemma tfrom_put f b m : forall l i s, nth_error l i = Some b -> tfrom s f (put l i m) = tfrom s f l - f (s + i)%nat b + f (s + i)%nat m.
Proof.
  induction l as [|c l IH]; intros [|i] s N; try discriminate; cbn [put nth_error] in *.
  - injection N as ->. rewrite !tfrom_cons, Nat.add_0_r. lia.
  - rewrite !tfrom_cons, (IH i (S s) N). replace (S s + i)%nat with (s + S i)%nat by lia. lia.
Qed.
Lemma tfrom_ext f g : forall l s, (forall i j, nth_error l i = Some j -> f (s + i)%nat j = g (s + i)%nat j) -> tfrom s f l = tfrom s g l.
Proof.
  induction l as [|c l IH]; intros s H; [reflexivity|]. rewrite !tfrom_cons. rewrite (IH (S s)).
  - specialize (H 0%nat c eq_refl). rewrite Nat.add_0_r in H. lia.
  - intros i j N. specialize (H (S i) j N). replace (S s + i)%nat with (s + S i)%nat by lia. exact H.
Qed.

Lemma put_at (l : list nat) m a i : (a < length l)%nat -> nth_error (put l a m) i = if (a =? i)%nat then Some m else nth_error l i.
Proof.
  revert a i. induction l as [|x l IH]; intros a i L; [cbn in L; lia|]. destruct a as [|a], i as [|i]; cbn [put nth_error Nat.eqb]; try reflexivity. apply IH. cbn [length] in L. lia.
Qed.
Section Grown.
Variable f : nat -> nat -> Z.
Variable good : nat -> nat -> Prop.
Variable D : nat -> point.
Variable same : nat -> nat -> Prop.
Hypothesis same_refl : forall i, same i i.
Hypothesis same_trans : forall i j k, same i j -> same j k -> same i k.
Hypothesis parts : forall a b c, good a b -> divides (D a) (D b) (D c) -> same a c -> f a b = f a c + f c b /\ good a c /\ good c b.
Lemma grown_same l log l' : ClipSpec.grown l log l' -> (forall i j, nth_error l' i = Some j -> same i j) -> forall i j, nth_error l i = Some j -> same i j.
Proof.
  induction 1 as [l|l a b log l' N G IH]; [auto|]. intros SA i j NI. specialize (IH SA).
  assert (LA : (a < length l)%nat) by (apply nth_error_Some; congruence). set (m := length l) in *. assert (LP : length (put l a m) = m) by apply CycleProofs.put_length.
  assert (PUT : forall i, nth_error (put l a m) i = if (a =? i)%nat then Some m else nth_error l i) by (intros i0; apply put_at; exact LA).
  destruct (Nat.eq_dec i a) as [->|DI].
  - rewrite N in NI. injection NI as <-. apply (same_trans a m b).
    + apply IH. rewrite nth_error_app1 by lia. rewrite PUT, Nat.eqb_refl. reflexivity.
    + apply IH. rewrite nth_error_app2 by lia. rewrite LP, Nat.sub_diag. reflexivity.
  - assert (i < m)%nat by (apply nth_error_Some; congruence). apply IH. rewrite nth_error_app1 by lia. rewrite PUT. destruct (Nat.eqb_spec a i); [congruence|exact NI].
Qed.
Lemma grown_total l log l' : ClipSpec.grown l log l' ->
  (forall k a b, nth_error log k = Some (a, b) -> divides (D a) (D b) (D (length l + k)%nat)) ->
  (forall i j, nth_error l' i = Some j -> same i j) -> (forall i j, nth_error l i = Some j -> good i j) ->
  (forall i j, nth_error l i = Some j -> same i j) /\ total f l = total f l' /\ (forall i j, nth_error l' i = Some j -> good i j).
Proof.
  induction 1 as [l|l a b log l' N G IH]; intros DV SA GO; [auto|].
  assert (LA : (a < length l)%nat) by (apply nth_error_Some; congruence). set (m := length l) in *.
  assert (LP : length (put l a m) = m) by apply CycleProofs.put_length.
  assert (PUT : forall i, nth_error (put l a m) i = if (a =? i)%nat then Some m else nth_error l i) by (intros i; apply put_at; exact LA).
  assert (N1 : nth_error (put l a m ++ [b]) a = Some m) by (rewrite nth_error_app1 by lia; rewrite PUT, Nat.eqb_refl; reflexivity).
  assert (N2 : nth_error (put l a m ++ [b]) m = Some b) by (rewrite nth_error_app2 by lia; rewrite LP, Nat.sub_diag; reflexivity).
  assert (NO : forall i j, i <> a -> nth_error l i = Some j -> nth_error (put l a m ++ [b]) i = Some j).
  { intros i j DI NI. assert (i < m)%nat by (apply nth_error_Some; congruence). rewrite nth_error_app1 by lia. rewrite PUT. destruct (Nat.eqb_spec a i); [congruence|exact NI]. }
  assert (DV0 : divides (D a) (D b) (D m)) by (specialize (DV 0%nat a b eq_refl); rewrite Nat.add_0_r in DV; exact DV).
  assert (STEP : same a m -> (f a b = f a m + f m b /\ good a m /\ good m b)) by (intros SM; apply parts; [apply GO, N|exact DV0|exact SM]).
  assert (SL : forall i j, nth_error (put l a m ++ [b]) i = Some j -> same i j).
  { exact (grown_same _ _ _ G SA). }
  destruct (STEP (SL _ _ N1)) as (FE & G1 & G2).
  destruct IH as (_ & TE & GL).
  - intros k x y NK. rewrite app_length, LP. cbn [length]. replace (m + 1 + k)%nat with (m + S k)%nat by lia. apply DV. exact NK.
  - exact SA.
  - intros i j NI. destruct (Nat.eq_dec i a) as [->|DI]; [rewrite N1 in NI; injection NI as <-; exact G1|]. destruct (Nat.eq_dec i m) as [->|DM]; [rewrite N2 in NI; injection NI as <-; exact G2|].
    apply GO. assert (i < length (put l a m ++ [b]))%nat by (apply nth_error_Some; congruence). rewrite app_length, LP in H. cbn [length] in H. rewrite nth_error_app1 in NI by lia. rewrite PUT in NI. destruct (Nat.eqb_spec a i); [congruence|exact NI].
  - split; [|split; [|exact GL]].
    + intros i j NI. destruct (Nat.eq_dec i a) as [->|DI]; [|apply SL, NO; assumption]. rewrite N in NI. injection NI as <-. exact (same_trans _ _ _ (SL _ _ N1) (SL _ _ N2)).
    + rewrite <- TE. unfold total. fold (tfrom 0 f l). fold (tfrom 0 f (put l a m ++ [b])). rewrite tfrom_app, (tfrom_put f b m l a 0 N), LP. cbn [Nat.add]. lia.
Qed.
End Grown.

(** * The lines of split loops *)
(** The position of a point. *)
Definition data_at (pts : list cpoint) (i : nat) : point := match nth_error pts i with Some p => c_data p | None => (0, 0) end.
Definition set_at (pts : list cpoint) (i : nat) : bool_set := match nth_error pts i with Some p => c_set p | None => Subject end.
(** Each new point of the log, numbered from n on, lies on the line that it splits. *)
Definition exact_splits (n : nat) (pts : list cpoint) (log : list (nat * nat)) : Prop :=
  forall k a b, nth_error log k = Some (a, b) -> on_edge (data_at pts a, data_at pts b) (data_at pts (n + k)%nat).

Section Lines.
Variables D : nat -> point.
Variable S' : nat -> bool_set.
Variables (k : Z) (p : point) (c : bool_set).
Definition fturns (i j : nat) : Z := if bset_eqb (S' i) c then quarter_turns p (scale k (D i), scale k (D j)) else 0.
Definition sc (e : point * point) := (scale k (fst e), scale k (snd e)).
Lemma lines_from (all : list cpoint) : forall l s, (forall i q, nth_error l i = Some q -> D (s + i)%nat = c_data q /\ S' (s + i)%nat = c_set q /\ exists r, nth_error all (c_next q) = Some r /\ D (c_next q) = c_data r) ->
  sumZ (map (quarter_turns p) (map sc (map ln_e (filter (fun x => bset_eqb (ln_set x) c)
    (map (fun ip => mk_line (fst ip) (c_data (snd ip), match nth_error all (c_next (snd ip)) with Some q => c_data q | None => c_data (snd ip) end) (c_set (snd ip))) (combine (seq s (length l)) l))))))
  = tfrom s fturns (map c_next l).
Proof.
  induction l as [|q l IH]; intros s H; [reflexivity|].
  assert (IH' := IH (S s)). clear IH. rewrite map_cons, tfrom_cons. rewrite <- IH'.
  - destruct (H 0%nat q eq_refl) as (A & B & r & N & E). rewrite Nat.add_0_r in A, B. cbn [length seq combine map fst snd filter ln_set]. unfold fturns. rewrite A, B, N, E. destruct (bset_eqb (c_set q) c); reflexivity.
  - intros i x N. specialize (H (S i) x N). replace (S s + i)%nat with (s + S i)%nat by lia. exact H.
Qed.
End Lines.
Lemma lines_sum D S' k p c pts : (forall i q, nth_error pts i = Some q -> D i = c_data q /\ S' i = c_set q) -> (forall i q, nth_error pts i = Some q -> (c_next q < length pts)%nat) ->
  sumZ (map (quarter_turns p) (map (sc k) (RegionProps.set_lines c (lines pts)))) = total (fturns D S' k p c) (map c_next pts).
Proof.
  intros H R. unfold RegionProps.set_lines, lines, total. fold (tfrom 0 (fturns D S' k p c) (map c_next pts)). apply lines_from. intros i q N. cbn [Nat.add]. destruct (H i q N) as (A & B). split; [exact A|]. split; [exact B|].
  specialize (R i q N). destruct (nth_error pts (c_next q)) as [r|] eqn:E; [|apply nth_error_None in E; lia]. exists r. split; [reflexivity|]. apply (H _ _ E).
Qed.
Lemma lines_in pts e : (forall i q, nth_error pts i = Some q -> (c_next q < length pts)%nat) -> In e (map ln_e (lines pts)) <-> exists i q r, nth_error pts i = Some q /\ nth_error pts (c_next q) = Some r /\ e = (c_data q, c_data r).
Proof.
  intros R. unfold lines. rewrite map_map, in_map_iff. split.
  - intros ((i, q) & <- & I). assert (N : nth_error pts i = Some q).
    { apply In_nth_error in I as (n & I). revert I. assert (W : forall s l n, nth_error (combine (seq s (length l)) l) n = Some (i, q) -> i = (s + n)%nat /\ nth_error l n = Some q).
      { clear. intros s l. revert s. induction l as [|x l IH]; intros s [|n] H; try discriminate; cbn in H; [injection H as <- <-; cbn; auto with arith|]. apply IH in H as (-> & H). split; [lia|exact H]. }
      intros H. apply W in H as (-> & H). exact H. }
    specialize (R i q N). destruct (nth_error pts (c_next q)) as [r|] eqn:E; [|apply nth_error_None in E; lia]. exists i, q, r. cbn [ln_e fst snd]. rewrite E. auto.
  - intros (i & q & r & N & M & ->). exists (i, q). cbn [ln_e fst snd]. rewrite M. split; [reflexivity|].
    assert (W : forall s l n, nth_error l n = Some q -> In ((s + n)%nat, q) (combine (seq s (length l)) l)).
    { clear. intros s l. revert s. induction l as [|x l IH]; intros s [|n] H; try discriminate; cbn in H |- *; [injection H as <-; left; rewrite Nat.add_0_r; reflexivity|]. right. replace (s + S n)%nat with (S s + n)%nat by lia. apply IH, H. }
    apply (W 0%nat pts i N).
Qed.
