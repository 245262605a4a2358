(** Proofs about offsetting. *)
From Coq Require Import ZArith List Bool Arith Lia.
From Verif Require Import GeomModel PointSinkModel PointSinkSpec PointSinkProofs OffsetModel OffsetSpec.
Import ListNotations.
Local Open Scope Z_scope.

Lemma wrap_wrap i j : wrap (wrap i + j) = wrap (i + j).
Proof. unfold wrap. apply Z.add_mod_idemp_l. discriminate. Qed.
Lemma wrap_small i : 0 <= i < 2 ^ 64 -> wrap i = i.
Proof. apply Z.mod_small. Qed.
Lemma eqb_neq p q : point_eqb p q = false <-> p <> q.
Proof. split; [intros E <-; assert (point_eqb p p = true) by (apply point_eqb_eq; reflexivity); congruence|]. intros N. destruct (point_eqb p q) eqn:E; [|reflexivity]. apply point_eqb_eq in E. contradiction. Qed.

Lemma windows_snoc m a b c : windows (m ++ [a; b; c]) = windows (m ++ [a; b]) ++ [(a, b, c)].
Proof.
  induction m as [|x m IH]; [reflexivity|]. destruct m as [|y m]; [reflexivity|]. destruct m as [|z m]; [reflexivity|].
  change (windows ((x :: y :: z :: m) ++ [a; b; c])) with ((x, y, z) :: windows ((y :: z :: m) ++ [a; b; c])). rewrite IH. reflexivity.
Qed.
Lemma windows_in l p1 p2 p3 : In (p1, p2, p3) (windows l) -> exists k, nth_error l k = Some p1 /\ nth_error l (S k) = Some p2 /\ nth_error l (S (S k)) = Some p3.
Proof.
  induction l as [|a l IH]; [intros []|]. destruct l as [|b [|c l]]; [intros []|intros []|]. intros [E|I].
  - injection E as <- <- <-. exists O. auto.
  - destruct (IH I) as (k & A & B & C). exists (S k). auto.
Qed.
Lemma shape_app a b : shape (a ++ b) = shape a ++ shape b.
Proof. apply flat_map_app. Qed.

(** The tail of a line. *)
Lemma tail_spec step input : forall i prev2 prev1 ws i' q2 q1, tail_open input step i prev2 prev1 = (ws, (i', q2, q1)) -> wrap i = i -> prev2 <> prev1 ->
  i' = wrap (i + step * Z.of_nat (length input)) /\
  shape ws = windows (prev2 :: uniq (prev1 :: input)) /\ (exists m, prev2 :: uniq (prev1 :: input) = m ++ [q2; q1]) /\ q2 <> q1 /\
  nth_error (prev2 :: prev1 :: input) (S (length input)) = Some q1 /\
  (no_repeat (prev1 :: input) -> nth_error (prev2 :: prev1 :: input) (length input) = Some q2) /\
  forall w, In w ws -> exists k i1 i2 p1 p2 p3, w = Corner i1 i2 p1 p2 p3 /\ (k < length input)%nat /\
    i1 = wrap (i + step * Z.of_nat k) /\ i2 = wrap (i + step * (Z.of_nat k + 1)) /\
    nth_error (prev2 :: prev1 :: input) (S k) = Some p2 /\ (no_repeat (prev1 :: input) -> nth_error (prev2 :: prev1 :: input) k = Some p1) /\ p1 <> p2 /\ p2 <> p3.
Proof.
  induction input as [|p l IH]; intros i prev2 prev1 ws i' q2 q1 E W N.
  - cbn in E. injection E as <- <- <- <-. cbn [length Z.of_nat]. rewrite Z.mul_0_r, Z.add_0_r, W. split; [reflexivity|]. split; [reflexivity|]. split; [exists []; reflexivity|]. split; [exact N|]. split; [reflexivity|]. split; [reflexivity|]. intros w [].
  - cbn [tail_open] in E. assert (W' : wrap (signed_add i step) = signed_add i step) by (unfold signed_add, wrap; apply Z.mod_mod; discriminate).
    assert (SH : forall k, wrap (signed_add i step + step * k) = wrap (i + step * (k + 1))). { intros k. unfold signed_add. rewrite wrap_wrap. f_equal. lia. }
    assert (LEN : wrap (signed_add i step + step * Z.of_nat (length l)) = wrap (i + step * Z.of_nat (length (p :: l)))). { rewrite SH. cbn [length]. do 2 f_equal. lia. }
    assert (NR : no_repeat (prev1 :: p :: l) -> no_repeat (p :: l)) by (intros H k; exact (H (S k))).
    destruct (point_eqb p prev1) eqn:Q; cbn [negb] in E.
    + apply point_eqb_eq in Q. subst p. destruct (IH _ _ _ _ _ _ _ E W' N) as (A & B & C & D & F & G & H).
      assert (NO : no_repeat (prev1 :: prev1 :: l) -> False) by (intros X; exact (X O prev1 prev1 eq_refl eq_refl eq_refl)).
      assert (U : uniq (prev1 :: prev1 :: l) = uniq (prev1 :: l)). { rewrite uniq_cons. assert (point_eqb prev1 prev1 = true) as -> by (apply point_eqb_eq; reflexivity). reflexivity. }
      rewrite U. split; [rewrite A; exact LEN|]. split; [exact B|]. split; [exact C|]. split; [exact D|]. split; [exact F|]. split; [intros X; destruct (NO X)|].
      intros w I. destruct (H w I) as (k & i1 & i2 & p1 & p2 & p3 & E0 & K & I1 & I2 & P2 & P1 & D1 & D2). exists (S k), i1, i2, p1, p2, p3. split; [exact E0|]. split; [cbn; lia|].
      split; [rewrite I1, SH; do 2 f_equal; lia|]. split; [rewrite I2, SH; do 2 f_equal; lia|]. split; [exact P2|]. split; [intros X; destruct (NO X)|auto].
    + destruct (tail_open l step (signed_add i step) prev1 p) as (ws0, ((i0, r2), r1)) eqn:T. injection E as <- <- <- <-. apply eqb_neq in Q.
      destruct (IH _ _ _ _ _ _ _ T W' (fun e => Q (eq_sym e))) as (A & B & (m & C) & D & F & G & H).
      assert (U : uniq (prev1 :: p :: l) = prev1 :: uniq (p :: l)). { rewrite uniq_cons. assert (point_eqb prev1 p = false) as -> by (apply eqb_neq; congruence). reflexivity. }
      destruct (uniq_hd p l) as (k0 & UH). rewrite U.
      split; [rewrite A; exact LEN|]. split; [cbn [shape flat_map]; fold (shape ws0); rewrite B, UH; reflexivity|]. split; [exists (prev2 :: m); rewrite C; reflexivity|]. split; [exact D|]. split; [exact F|].
      split; [intros X; exact (G (NR X))|]. intros w [<-|I].
      * exists O, i, (signed_add i step), prev2, prev1, p. split; [reflexivity|]. split; [cbn; lia|]. cbn [Z.of_nat]. rewrite Z.mul_0_r, Z.add_0_r, W. split; [reflexivity|]. split; [unfold signed_add; f_equal; lia|]. split; [reflexivity|]. split; [reflexivity|]. split; [exact N|]. intros X. apply Q. symmetry. exact X.
      * destruct (H w I) as (k & i1 & i2 & p1 & p2 & p3 & E0 & K & I1 & I2 & P2 & P1 & D1 & D2). exists (S k), i1, i2, p1, p2, p3. split; [exact E0|]. split; [cbn; lia|].
        split; [rewrite I1, SH; do 2 f_equal; lia|]. split; [rewrite I2, SH; do 2 f_equal; lia|]. split; [exact P2|]. split; [intros X; exact (P1 (NR X))|auto].
Qed.
Lemma closed_tail input : forall i p2 p1, closed_loop input i p2 p1 = tail_open input 1 i p2 p1.
Proof. induction input as [|p l IH]; intros; cbn; [reflexivity|]. unfold signed_add. rewrite !IH. reflexivity. Qed.

(** ** Closed sequences *)
Lemma uniq_repeat p n l : uniq (p :: repeat p n ++ l) = uniq (p :: l).
Proof. induction n as [|n IH]; [reflexivity|]. cbn [repeat app]. rewrite uniq_cons. assert (point_eqb p p = true) as -> by (apply point_eqb_eq; reflexivity). exact IH. Qed.
Lemma closed_from_cases pos base l : forall first, 
  (exists n, l = repeat first n /\ closed_from pos base l first = ([Lone base first], lone_end pos base)) \/
  (exists n second l' , l = repeat first n ++ second :: l' /\ second <> first /\ closed_from pos base l first = closed_from pos base (second :: l') first).
Proof.
  induction l as [|s l IH]; intros first; [left; exists O; auto|]. destruct (point_eqb s first) eqn:Q.
  - apply point_eqb_eq in Q. subst s. assert (E : closed_from pos base (first :: l) first = closed_from pos base l first) by (cbn [closed_from]; assert (point_eqb first first = true) as -> by (apply point_eqb_eq; reflexivity); reflexivity).
    rewrite E. destruct (IH first) as [(n & -> & R)|(n & s & l' & -> & N & R)]; [left; exists (S n); auto|right; exists (S n), s, l'; auto].
  - right. exists O, s, l. apply eqb_neq in Q. auto.
Qed.
Lemma closed_step pos base first second l' : second <> first -> wrap base = base ->
  exists ws i q2 q1, tail_open l' 1 base first second = (ws, (i, q2, q1)) /\ q2 <> q1 /\
  closed_from pos base (second :: l') first =
    (ws ++ [Corner i (wrap (i + 1)) q2 q1 (if point_eqb q1 first then second else first)] ++
      (if negb (point_eqb q1 first) then [Corner (wrap (i + 1)) base q1 first second] else []), wrap (wrap (i + 1) + 1)).
Proof.
  intros N W. cbn [closed_from]. assert (point_eqb second first = false) as -> by (apply eqb_neq; exact N). cbn [negb]. rewrite closed_tail.
  destruct (tail_open l' 1 base first second) as (ws, ((i, q2), q1)) eqn:T. exists ws, i, q2, q1. split; [reflexivity|].
  destruct (tail_spec _ _ _ _ _ _ _ _ _ T W (fun e => N (eq_sym e))) as (_ & _ & _ & D & _). split; [exact D|]. assert (point_eqb q2 q1 = false) as -> by (apply eqb_neq; exact D). reflexivity.
Qed.
Lemma closed_shape pos base l ws e : plan_closed pos base l = Some (ws, e) -> wrap base = base -> ~ all_equal l -> shape ws = corners (open_end (uniq l)).
Proof.
  unfold plan_closed. destruct l as [|first l]; [discriminate|]. intros E W NE. injection E as E. destruct (closed_from_cases pos base l first) as [(n & -> & _)|(n & second & l' & -> & N & R)].
  - exfalso. apply NE. assert (A : forall p, In p (first :: repeat first n) -> p = first) by (intros p [<-|I]; [reflexivity|exact (repeat_spec _ _ _ I)]). intros p q P Q. rewrite (A p P), (A q Q). reflexivity.
  - rewrite R in E. clear R NE. destruct (closed_step pos base first second l' N W) as (ws0 & i & q2 & q1 & T & Q & R). rewrite R in E. injection E as <- _.
    destruct (tail_spec _ _ _ _ _ _ _ _ _ T W (fun e => N (eq_sym e))) as (_ & B & (m & C) & _). rewrite uniq_repeat, uniq_cons. assert (point_eqb first second = false) as -> by (apply eqb_neq; congruence).
    destruct (uniq_hd second l') as (k & K). rewrite K in *. rewrite !shape_app, B.
    assert (HD : exists m', m ++ [q2] = first :: m' /\ (m' ++ [q1] = second :: k)).
    { clear -C. destruct m as [|x m0]; cbn [app] in C.
      - injection C as -> -> ->. exists []. auto.
      - assert (C1 : first = x) by congruence. assert (C2 : second :: k = m0 ++ [q2; q1]) by congruence. subst x. exists (m0 ++ [q2]). split; [reflexivity|]. rewrite <- app_assoc. symmetry. exact C2. }
    destruct HD as (m' & HD & HD2).
    assert (L : last (m ++ [q2; q1]) first = q1) by (change [q2; q1] with ([q2] ++ [q1]); rewrite app_assoc, last_last; reflexivity).
    assert (RL : removelast (m ++ [q2; q1]) = m ++ [q2]) by (change [q2; q1] with ([q2] ++ [q1]); rewrite app_assoc, removelast_last; reflexivity).
    assert (SP : m ++ [q2; q1] = first :: second :: k) by (symmetry; exact C).
    change (open_end (first :: second :: k)) with (if point_eqb (last (first :: second :: k) first) first then removelast (first :: second :: k) else first :: second :: k). rewrite <- SP, L.
    destruct (point_eqb q1 first) eqn:QF.
    + cbn [shape negb flat_map app]. rewrite RL. apply point_eqb_eq in QF. subst q1. unfold corners.
      assert (F2 : firstn 2 (m ++ [q2]) = [first; second]). { rewrite HD. destruct m' as [|y m']; [cbn in HD2; injection HD2 as HD2 _; congruence|]. cbn in HD2. injection HD2 as -> _. reflexivity. }
      rewrite F2, <- app_assoc. cbn [app]. change (m ++ [q2; first; second]) with (m ++ [q2; first; second]). rewrite windows_snoc. reflexivity.
    + cbn [shape negb flat_map app]. unfold corners. assert (F2 : firstn 2 (m ++ [q2; q1]) = [first; second]) by (rewrite SP; reflexivity). rewrite F2, <- app_assoc. cbn [app].
      change (m ++ [q2; q1; first; second]) with (m ++ [q2] ++ [q1; first; second]). rewrite app_assoc, windows_snoc, <- app_assoc. cbn [app]. rewrite windows_snoc, <- app_assoc. reflexivity.
Qed.
Lemma closed_corners pos base l ws e w : plan_closed pos base l = Some (ws, e) -> wrap base = base -> In w ws ->
  match w with Corner _ _ p1 p2 p3 => p1 <> p2 /\ p2 <> p3 | Lone _ _ => all_equal l end.
Proof.
  unfold plan_closed. destruct l as [|first l]; [discriminate|]. intros E W I. injection E as E. destruct (closed_from_cases pos base l first) as [(n & -> & R)|(n & second & l' & -> & N & R)].
  - rewrite R in E. injection E as <- _. destruct I as [<-|[]]. assert (A : forall p, In p (first :: repeat first n) -> p = first) by (intros p [<-|I]; [reflexivity|exact (repeat_spec _ _ _ I)]). intros p q P Q. rewrite (A p P), (A q Q). reflexivity.
  - rewrite R in E. clear R. destruct (closed_step pos base first second l' N W) as (ws0 & i & q2 & q1 & T & Q & R). rewrite R in E. injection E as <- _.
    destruct (tail_spec _ _ _ _ _ _ _ _ _ T W (fun e => N (eq_sym e))) as (_ & _ & _ & _ & _ & _ & H). apply in_app_or in I as [I|I].
    + destruct (H w I) as (k & i1 & i2 & p1 & p2 & p3 & -> & _ & _ & _ & _ & _ & D1 & D2). auto.
    + cbn [app] in I. destruct I as [<-|I].
      * split; [exact Q|]. destruct (point_eqb q1 first) eqn:F; [apply point_eqb_eq in F; subst; congruence|apply eqb_neq; exact F].
      * destruct (point_eqb q1 first) eqn:F; [destruct I|]. destruct I as [<-|[]]. split; [apply eqb_neq; exact F|congruence].
Qed.
Lemma closed_index pos base a b l ws e : plan_closed pos base (a :: b :: l) = Some (ws, e) -> a <> b -> 0 <= base -> base + Z.of_nat (length (a :: b :: l)) < 2 ^ 64 ->
  e = base + Z.of_nat (length (a :: b :: l)) /\
  forall w, In w ws -> exists i1 i2 p1 p2 p3, w = Corner i1 i2 p1 p2 p3 /\ index_of base (a :: b :: l) i2 p2 /\ (no_repeat (a :: b :: l) -> index_of base (a :: b :: l) i1 p1).
Proof.
  unfold plan_closed. intros E N B0 B1. assert (E' : closed_from pos base (b :: l) a = (ws, e)) by congruence. clear E. rename E' into E. assert (W : wrap base = base) by (apply wrap_small; lia). cbn [length] in B1.
  destruct (closed_step pos base a b l (fun e => N (eq_sym e)) W) as (ws0 & i & q2 & q1 & T & Q & R). rewrite R in E. clear R. injection E as <- <-.
  destruct (tail_spec _ _ _ _ _ _ _ _ _ T W N) as (A & _ & _ & _ & F & G & H). rewrite Z.mul_1_l, wrap_small in A by lia.
  assert (I1 : wrap (i + 1) = i + 1) by (apply wrap_small; lia). rewrite I1.
  split; [rewrite wrap_small by lia; cbn [length]; lia|]. intros w I. apply in_app_or in I as [I|I].
  - destruct (H w I) as (k & i1 & i2 & p1 & p2 & p3 & -> & K & J1 & J2 & P2 & P1 & _). exists i1, i2, p1, p2, p3. split; [reflexivity|]. split.
    + exists (S k). split; [rewrite J2, wrap_small by lia; lia|exact P2].
    + intros X. exists k. split; [rewrite J1, wrap_small by lia; lia|]. apply P1. intros j. exact (X (S j)).
  - cbn [app] in I. destruct I as [<-|I].
    + eexists _, _, _, _, _. split; [reflexivity|]. split; [exists (S (length l)); split; [lia|exact F]|]. intros X. exists (length l). split; [lia|]. apply G. intros j. exact (X (S j)).
    + destruct (point_eqb q1 a); [destruct I|]. destruct I as [<-|[]]. eexists _, _, _, _, _. split; [reflexivity|]. split; [exists O; split; [lia|reflexivity]|].
      intros X. exists (S (length l)). split; [lia|exact F].
Qed.

(** ** Open sequences *)
Lemma open_from_cases pos base input l : forall first,
  (exists n, l = repeat first n /\ open_from pos base input l first = ([Lone base first], lone_end pos base)) \/
  (exists n second l', l = repeat first n ++ second :: l' /\ second <> first /\ open_from pos base input l first = open_from pos base input (second :: l') first).
Proof.
  induction l as [|s l IH]; intros first; [left; exists O; auto|]. destruct (point_eqb s first) eqn:Q.
  - apply point_eqb_eq in Q. subst s. assert (E : open_from pos base input (first :: l) first = open_from pos base input l first) by (cbn [open_from]; assert (point_eqb first first = true) as -> by (apply point_eqb_eq; reflexivity); reflexivity).
    rewrite E. destruct (IH first) as [(n & -> & R)|(n & s & l' & -> & N & R)]; [left; exists (S n); auto|right; exists (S n), s, l'; auto].
  - right. exists O, s, l. apply eqb_neq in Q. auto.
Qed.
Lemma open_step pos base input first second l' : second <> first -> wrap base = base ->
  exists ws i q2 q1 ws' i' r2 r1, tail_open l' 1 base first second = (ws, (i, q2, q1)) /\ q2 <> q1 /\
    tail_open (skipn 2 (rev input)) (-1) (wrap (i + 1)) q1 q2 = (ws', (i', r2, r1)) /\ r2 <> r1 /\
    open_from pos base input (second :: l') first =
      ((ws ++ [Corner i (wrap (i + 1)) q2 q1 q2]) ++ (ws' ++ [Corner i' (wrap (i' + -1)) r2 r1 r2]), wrap (i + 1)).
Proof.
  intros N W. cbn [open_from]. assert (point_eqb second first = false) as -> by (apply eqb_neq; exact N). cbn [negb]. unfold add_tail_open.
  destruct (tail_open l' 1 base first second) as (ws, ((i, q2), q1)) eqn:T. unfold signed_add.
  destruct (tail_spec _ _ _ _ _ _ _ _ _ T W (fun e => N (eq_sym e))) as (_ & _ & _ & D & _).
  destruct (tail_open (skipn 2 (rev input)) (-1) (wrap (i + 1)) q1 q2) as (ws', ((i', r2), r1)) eqn:T'.
  assert (WW : wrap (wrap (i + 1)) = wrap (i + 1)) by (unfold wrap; apply Z.mod_mod; discriminate).
  destruct (tail_spec _ _ _ _ _ _ _ _ _ T' WW (fun e => D (eq_sym e))) as (_ & _ & _ & D' & _).
  exists ws, i, q2, q1, ws', i', r2, r1. rewrite T'. auto.
Qed.
Lemma open_corners pos base l ws e w : plan_open pos base l = Some (ws, e) -> wrap base = base -> In w ws ->
  match w with Corner _ _ p1 p2 p3 => p1 <> p2 /\ p2 <> p3 | Lone _ _ => all_equal l end.
Proof.
  unfold plan_open. destruct l as [|first l]; [discriminate|]. intros E W I. set (input := first :: l) in *. assert (E' : open_from pos base input l first = (ws, e)) by congruence. clear E.
  destruct (open_from_cases pos base input l first) as [(n & L & R)|(n & second & l' & L & N & R)].
  - rewrite R in E'. injection E' as <- _. destruct I as [<-|[]]. assert (A : forall p, In p input -> p = first) by (unfold input; rewrite L; intros p [<-|I]; [reflexivity|exact (repeat_spec _ _ _ I)]). intros p q P Q. rewrite (A p P), (A q Q). reflexivity.
  - rewrite R in E'. clear R. destruct (open_step pos base input first second l' N W) as (ws0 & i & q2 & q1 & ws' & i' & r2 & r1 & T & Q & T' & Q' & R). rewrite R in E'. injection E' as <- _.
    destruct (tail_spec _ _ _ _ _ _ _ _ _ T W (fun e => N (eq_sym e))) as (_ & _ & _ & _ & _ & _ & H).
    assert (WW : wrap (wrap (i + 1)) = wrap (i + 1)) by (unfold wrap; apply Z.mod_mod; discriminate).
    destruct (tail_spec _ _ _ _ _ _ _ _ _ T' WW (fun e => Q (eq_sym e))) as (_ & _ & _ & _ & _ & _ & H').
    apply in_app_or in I as [I|I]; apply in_app_or in I as [I|I].
    + destruct (H w I) as (k & i1 & i2 & p1 & p2 & p3 & -> & _ & _ & _ & _ & _ & D1 & D2). auto.
    + destruct I as [<-|[]]. split; [exact Q|congruence].
    + destruct (H' w I) as (k & i1 & i2 & p1 & p2 & p3 & -> & _ & _ & _ & _ & _ & D1 & D2). auto.
    + destruct I as [<-|[]]. split; [exact Q'|congruence].
Qed.
Lemma nth_error_rev {A} (l : list A) k x : nth_error (rev l) k = Some x -> nth_error l (length l - 1 - k) = Some x /\ (k < length l)%nat.
Proof.
  intros H. assert (K : (k < length l)%nat) by (rewrite <- (rev_length l); apply nth_error_Some; congruence). split; [|exact K].
  rewrite (nth_error_nth' _ x) by lia. rewrite (nth_error_nth' _ x) in H by (rewrite rev_length; exact K). injection H as H. rewrite rev_nth in H by exact K. rewrite <- H at 2. f_equal. f_equal. lia.
Qed.
Lemma no_repeat_rev l : no_repeat l -> no_repeat (rev l).
Proof.
  intros H k p q A B E. apply nth_error_rev in A as (A & KA). apply nth_error_rev in B as (B & KB). refine (H _ q p B _ (eq_sym E)). replace (S (length l - 1 - S k)) with (length l - 1 - k)%nat by lia. exact A.
Qed.
Lemma no_repeat_tl a l : no_repeat (a :: l) -> no_repeat l.
Proof. intros H k. exact (H (S k)). Qed.
Lemma open_index pos base l ws e : plan_open pos base l = Some (ws, e) -> (2 <= length l)%nat -> no_repeat l -> 0 <= base -> base + Z.of_nat (length l) < 2 ^ 64 ->
  e = base + Z.of_nat (length l) - 1 /\
  forall w, In w ws -> exists i1 i2 p1 p2 p3, w = Corner i1 i2 p1 p2 p3 /\ index_of base l i1 p1 /\ index_of base l i2 p2.
Proof.
  destruct l as [|a [|b l]]; cbn [length]; try lia. intros E _ NR B0 B1. unfold plan_open in E. set (input := a :: b :: l) in *.
  assert (E' : open_from pos base input (b :: l) a = (ws, e)) by congruence. clear E. assert (W : wrap base = base) by (apply wrap_small; lia).
  assert (N : b <> a) by (intros ->; exact (NR O a a eq_refl eq_refl eq_refl)).
  destruct (open_step pos base input a b l N W) as (ws0 & i & q2 & q1 & ws' & i' & r2 & r1 & T & Q & T' & Q' & R). rewrite R in E'. clear R. injection E' as <- <-.
  destruct (tail_spec _ _ _ _ _ _ _ _ _ T W (fun e => N (eq_sym e))) as (A & _ & _ & _ & F & G & H). specialize (G (no_repeat_tl _ _ NR)). rewrite Z.mul_1_l, wrap_small in A by lia.
  assert (I1 : wrap (i + 1) = i + 1) by (apply wrap_small; lia). rewrite I1 in *.
  assert (WW : wrap (i + 1) = i + 1) by exact I1.
  destruct (tail_spec _ _ _ _ _ _ _ _ _ T' WW (fun e => Q (eq_sym e))) as (A' & _ & _ & _ & F' & G' & H').
  assert (LI : length input = S (S (length l))) by reflexivity.
  assert (RV : q1 :: q2 :: skipn 2 (rev input) = rev input).
  { assert (L2 : length (rev input) = S (S (length l))) by (rewrite rev_length; reflexivity). destruct (rev input) as [|x [|y r]] eqn:RI; cbn in L2; try lia. cbn [skipn].
    assert (X : nth_error (rev input) 0 = Some x) by (rewrite RI; reflexivity). assert (Y : nth_error (rev input) 1 = Some y) by (rewrite RI; reflexivity).
    apply nth_error_rev in X as (X & _). apply nth_error_rev in Y as (Y & _). rewrite LI in X, Y. replace (S (S (length l)) - 1 - 0)%nat with (S (length l)) in X by lia. replace (S (S (length l)) - 1 - 1)%nat with (length l) in Y by lia.
    fold input in F, G. rewrite F in X. rewrite G in Y. congruence. }
  rewrite RV in *. assert (NRV : no_repeat (q2 :: skipn 2 (rev input))) by (apply (no_repeat_tl q1); rewrite RV; apply no_repeat_rev; exact NR). specialize (G' NRV).
  assert (LS : length (skipn 2 (rev input)) = length l) by (rewrite skipn_length, rev_length, LI; lia). rewrite LS in *.
  rewrite wrap_small in A' by lia. split; [lia|]. intros w I.
  assert (BACK : forall k p, nth_error (rev input) k = Some p -> index_of base input (base + Z.of_nat (S (length l)) - Z.of_nat k) p).
  { intros k p X. apply nth_error_rev in X as (X & K). exists (length input - 1 - k)%nat. split; [|exact X]. rewrite LI in *. lia. }
  apply in_app_or in I as [I|I]; apply in_app_or in I as [I|I].
  - destruct (H w I) as (k & i1 & i2 & p1 & p2 & p3 & -> & K & J1 & J2 & P2 & P1 & _). specialize (P1 (no_repeat_tl _ _ NR)). exists i1, i2, p1, p2, p3. split; [reflexivity|]. split.
    + exists k. split; [rewrite J1, wrap_small by lia; lia|exact P1].
    + exists (S k). split; [rewrite J2, wrap_small by lia; lia|exact P2].
  - destruct I as [<-|[]]. eexists _, _, _, _, _. split; [reflexivity|]. split; [exists (length l); split; [lia|exact G]|exists (S (length l)); split; [lia|exact F]].
  - destruct (H' w I) as (k & i1 & i2 & p1 & p2 & p3 & -> & K & J1 & J2 & P2 & P1 & _). specialize (P1 NRV). exists i1, i2, p1, p2, p3. split; [reflexivity|].
    rewrite wrap_small in J1, J2 by lia. apply BACK in P1. apply BACK in P2. split.
    + replace i1 with (base + Z.of_nat (S (length l)) - Z.of_nat k) by lia. exact P1.
    + replace i2 with (base + Z.of_nat (S (length l)) - Z.of_nat (S k)) by lia. exact P2.
  - destruct I as [<-|[]]. eexists _, _, _, _, _. split; [reflexivity|]. rewrite wrap_small by lia. apply BACK in G'. apply BACK in F'. split.
    + replace i' with (base + Z.of_nat (S (length l)) - Z.of_nat (length l)) by lia. exact G'.
    + replace (i' + -1) with (base + Z.of_nat (S (length l)) - Z.of_nat (S (length l))) by lia. exact F'.
Qed.

Lemma windows_split x a b y : windows (x ++ [a; b] ++ y) = windows (x ++ [a; b]) ++ windows (a :: b :: y).
Proof.
  induction x as [|p x IH]; [reflexivity|]. destruct x as [|q x]; [reflexivity|]. destruct x as [|r x]; [reflexivity|].
  change (windows ((p :: q :: r :: x) ++ [a; b] ++ y)) with ((p, q, r) :: windows ((q :: r :: x) ++ [a; b] ++ y)). rewrite IH. reflexivity.
Qed.
Lemma uniq_two a l : uniq (a :: a :: l) = uniq (a :: l).
Proof. rewrite uniq_cons. assert (point_eqb a a = true) as -> by (apply point_eqb_eq; reflexivity). reflexivity. Qed.
Lemma uniq_diff a b l : a <> b -> uniq (a :: b :: l) = a :: uniq (b :: l).
Proof. intros N. rewrite uniq_cons. assert (point_eqb a b = false) as -> by (apply eqb_neq; exact N). reflexivity. Qed.
Lemma uniq_rev l : uniq (rev l) = rev (uniq l).
Proof.
  induction l as [|a l IH]; [reflexivity|]. cbn [rev]. rewrite uniq_app. destruct l as [|b l]; [reflexivity|]. rewrite rev_involutive. rewrite IH.
  destruct (point_eqb a b) eqn:Q.
  - apply point_eqb_eq in Q. subst b. rewrite uniq_two. reflexivity.
  - apply eqb_neq in Q. rewrite (uniq_diff a b l Q). reflexivity.
Qed.
Lemma open_shape pos base l ws e : plan_open pos base l = Some (ws, e) -> wrap base = base -> ~ all_equal l -> ~ ends_thrice l -> shape ws = corners (there_and_back (uniq l)).
Proof.
  unfold plan_open. destruct l as [|first l]; [discriminate|]. intros E W NE NT. set (input := first :: l) in *. assert (E' : open_from pos base input l first = (ws, e)) by congruence. clear E.
  destruct (open_from_cases pos base input l first) as [(n & L & R)|(n & second & l' & L & N & R)].
  - exfalso. apply NE. assert (A : forall p, In p input -> p = first) by (unfold input; rewrite L; intros p [<-|I]; [reflexivity|exact (repeat_spec _ _ _ I)]). intros p q P Q. rewrite (A p P), (A q Q). reflexivity.
  - rewrite R in E'. clear R. destruct (open_step pos base input first second l' N W) as (ws0 & i & q2 & q1 & ws' & i' & r2 & r1 & T & Q & T' & Q' & R). rewrite R in E'. clear R. injection E' as <- _.
    destruct (tail_spec _ _ _ _ _ _ _ _ _ T W (fun e => N (eq_sym e))) as (_ & B & (m & C) & _).
    assert (WW : wrap (wrap (i + 1)) = wrap (i + 1)) by (unfold wrap; apply Z.mod_mod; discriminate).
    destruct (tail_spec _ _ _ _ _ _ _ _ _ T' WW (fun e => Q (eq_sym e))) as (_ & B' & (m' & C') & _).
    assert (U : uniq input = m ++ [q2; q1]). { unfold input. rewrite L, uniq_repeat, uniq_diff by congruence. exact C. }
    assert (RU : q1 :: uniq (q2 :: skipn 2 (rev input)) = rev (uniq input)).
    { rewrite <- uniq_rev. pose proof (uniq_rev input) as UR. rewrite U, rev_app_distr in UR. cbn [rev app] in UR.
      destruct (rev input) as [|x [|y r]] eqn:RI; [discriminate|cbn in UR; discriminate|]. cbn [skipn]. destruct (point_eqb x y) eqn:XY.
      - apply point_eqb_eq in XY. subst y. rewrite uniq_two in UR |- *. destruct r as [|z r]; [discriminate|].
        assert (XZ : x <> z). { intros <-. apply NT. exists (rev r), x. rewrite <- (rev_involutive input), RI. cbn [rev]. rewrite <- !app_assoc. reflexivity. }
        rewrite (uniq_diff x z r XZ) in UR |- *. destruct (uniq_hd z r) as (k & K). rewrite K in UR. injection UR as -> -> _. rewrite uniq_two. reflexivity.
      - apply eqb_neq in XY. rewrite (uniq_diff x y r XY) in UR |- *. destruct (uniq_hd y r) as (k & K). rewrite K in UR. injection UR as -> -> _. reflexivity. }
    rewrite !shape_app, B, B'. cbn [shape flat_map app]. fold (uniq (second :: l')) in *. rewrite RU in *. rewrite C.
    assert (U2 : first :: uniq (second :: l') = uniq input) by (rewrite U; exact C).
    destruct (uniq_hd second l') as (k & K). rewrite K in *. clear K.
    unfold corners, there_and_back. rewrite U. rewrite U, rev_app_distr in C'. cbn [rev app] in C'. 
    assert (RL : removelast (m ++ [q2; q1]) = m ++ [q2]) by (change [q2; q1] with ([q2] ++ [q1]); rewrite app_assoc, removelast_last; reflexivity). rewrite RL.
    assert (HD : exists v, m ++ [q2] = first :: v /\ v ++ [q1] = second :: k).
    { clear -C. destruct m as [|x m0]; cbn [app] in C.
      - injection C as -> -> ->. exists []. auto.
      - assert (C1 : first = x) by congruence. assert (C2 : second :: k = m0 ++ [q2; q1]) by congruence. subst x. exists (m0 ++ [q2]). split; [reflexivity|]. rewrite <- app_assoc. symmetry. exact C2. }
    destruct HD as (v & HD & HD2). rewrite HD. cbn [tl].
    assert (RM : q2 :: rev m = rev v ++ [first]). { assert (RV : rev (m ++ [q2]) = rev (first :: v)) by (rewrite HD; reflexivity). rewrite rev_app_distr in RV. cbn in RV. exact RV. }
    assert (F2 : firstn 2 ((m ++ [q2; q1]) ++ rev v) = [first; second]) by (rewrite <- C; reflexivity). rewrite F2.
    assert (BK : r2 = second /\ r1 = first).
    { assert (X : rev (q1 :: q2 :: rev m) = rev (m' ++ [r2; r1])) by (rewrite C'; reflexivity). rewrite rev_app_distr in X. cbn [rev app] in X. rewrite rev_involutive in X. rewrite <- !app_assoc in X. cbn [app] in X. rewrite <- C in X. injection X as -> -> _. auto. }
    destruct BK as (-> & ->).
    replace (((m ++ [q2; q1]) ++ rev v) ++ [first; second]) with (m ++ [q2; q1] ++ ((rev v ++ [first]) ++ [second])) by (rewrite <- !app_assoc; reflexivity).
    rewrite windows_split, <- RM. rewrite <- app_assoc. f_equal. cbn [app].
    change (windows (q2 :: q1 :: q2 :: rev m ++ [second])) with ((q2, q1, q2) :: windows (q1 :: q2 :: rev m ++ [second])). f_equal.
    rewrite rev_app_distr. cbn [rev app]. change (q1 :: q2 :: rev m ++ [second]) with ((q1 :: q2 :: rev m) ++ [second]). rewrite C', <- app_assoc. cbn [app]. symmetry. apply windows_snoc.
Qed.
