(** A sweep in which every two neighbours were checked: all lines only meet at ends. *)
From Coq Require Import ZArith QArith Qround List Bool Arith Permutation Sorted Lia Lqa.
From Verif Require Import GeomModel GeomSpec GeomProofs EventsModel EventsSpec EventsProofs ClipModel ClipProofs SegOrder SegPair.
Import ListNotations.
Local Open Scope Z_scope.

(** * Neighbours in a list *)
Fixpoint adj {A} (P : A -> A -> Prop) (l : list A) : Prop :=
  match l with a :: ((b :: _) as l') => P a b /\ adj P l' | _ => True end.
Definition last_of {A} (l : list A) : option A := hd_error (rev l).
Lemma adj_cons {A} (P : A -> A -> Prop) a l : adj P (a :: l) <-> (forall b, hd_error l = Some b -> P a b) /\ adj P l.
Proof. destruct l as [|b l]; cbn; [split; [intros _; split; [discriminate|exact I]|auto]|]. split; intros (X & Y); (split; [|exact Y]); [intros c Q; congruence|auto]. Qed.
Lemma last_of_cons {A} (a : A) l : last_of (a :: l) = match last_of l with Some x => Some x | None => Some a end.
Proof. unfold last_of. cbn. destruct (rev l); reflexivity. Qed.
Lemma adj_app {A} (P : A -> A -> Prop) l1 l2 : adj P (l1 ++ l2) <-> adj P l1 /\ adj P l2 /\ (forall a b, last_of l1 = Some a -> hd_error l2 = Some b -> P a b).
Proof.
  induction l1 as [|a l1 IH]; [cbn; split; [intros H; split; [exact I|split; [exact H|discriminate]]|tauto]|].
  cbn [app]. rewrite !adj_cons, IH. rewrite last_of_cons. split.
  - intros (X & Y & Z & W). split; [split; [|exact Y]|split; [exact Z|]].
    + intros b Q. apply X. destruct l1; [discriminate|exact Q].
    + intros c b Q R. destruct (last_of l1) eqn:E; [injection Q as <-; apply W; auto|]. injection Q as <-. apply X. destruct l1 as [|d l1]; [exact R|].
      unfold last_of in E. cbn in E. destruct (rev l1); discriminate.
  - intros ((X & Y) & Z & W). split; [|split; [exact Y|split; [exact Z|]]].
    + intros b Q. destruct l1 as [|d l1]; [apply W; [reflexivity|exact Q]|apply X; exact Q].
    + intros c b Q R. apply W; [|exact R]. rewrite Q. reflexivity.
Qed.
Lemma adj_impl {A} (P R : A -> A -> Prop) l : (forall a b, In a l -> In b l -> P a b -> R a b) -> adj P l -> adj R l.
Proof.
  induction l as [|a l IH]; [trivial|]. intros H. rewrite !adj_cons. intros (X & Y). split.
  - intros b Q. apply H; [left; reflexivity|right; destruct l; [discriminate|injection Q as ->; left; reflexivity]|auto].
  - apply IH; [|exact Y]. intros c d I J. apply H; right; assumption.
Qed.
Lemma last_of_in {A} (l : list A) a : last_of l = Some a -> In a l.
Proof. unfold last_of. intros H. apply in_rev. destruct (rev l); [discriminate|]. injection H as ->. left. reflexivity. Qed.
Lemma hd_error_in {A} (l : list A) a : hd_error l = Some a -> In a l.
Proof. destruct l; [discriminate|]. intros H. injection H as ->. left. reflexivity. Qed.
Lemma adj_trans {A} (P : A -> A -> Prop) (D : A -> Prop) l : (forall a b c, D a -> D b -> D c -> P a b -> P b c -> P a c) -> (forall a, In a l -> D a) -> adj P l ->
  forall l1 a l2 b l3, l = l1 ++ a :: l2 ++ b :: l3 -> P a b.
Proof.
  intros T DD AD l1 a l2 b l3 ->. apply adj_app in AD as (_ & AD & _). assert (DD' : forall c, In c (a :: l2 ++ b :: l3) -> D c) by (intros c I; apply DD, in_or_app; right; exact I).
  clear DD. revert a AD DD'. induction l2 as [|c l2 IH]; intros a AD DD.
  - cbn in AD. apply AD.
  - cbn [app] in *. apply adj_cons in AD as (X & Y). apply (T a c b); [apply DD; cbn; auto|apply DD; cbn; auto|apply DD; cbn; right; right; apply in_or_app; cbn; auto|apply X; reflexivity|].
    apply IH; [exact Y|]. intros d I. apply DD. right. exact I.
Qed.
Lemma two_in {A} (l : list A) a b : In a l -> In b l -> a <> b -> (exists l1 l2 l3, l = l1 ++ a :: l2 ++ b :: l3) \/ (exists l1 l2 l3, l = l1 ++ b :: l2 ++ a :: l3).
Proof.
  intros I J D. apply in_split in I as (l1 & l2 & ->). apply in_app_or in J as [J|[J|J]]; [|contradiction|].
  - right. apply in_split in J as (m1 & m2 & ->). exists m1, m2, l2. rewrite <- app_assoc. reflexivity.
  - left. apply in_split in J as (m1 & m2 & ->). exists l1, m1, m2. reflexivity.
Qed.

Section Trace.
Variable v : nat -> cseg.
Variable mk : nat -> nat -> Prop.
Hypothesis mk_trans : forall i j k, mk i j -> mk j k -> mk i k.
Hypothesis mk_refl : forall i, mk i i.
Hypothesis mk_sym : forall i j, mk i j -> mk j i.
Definition nb (X0 : Z) (n m : nat) : Prop := over mk X0 None (v n) (v m).

(** The events delivered, latest first, and the set they lead to. *)
Inductive trace : list ev -> list nat -> Prop :=
| tr_nil : trace [] []
| tr_in e s A B : trace s (A ++ B) -> is_f e = true -> (forall e', In e' s -> e_node e' <> e_node e) -> adj (nb (e_x e)) (A ++ e_node e :: B) -> trace (e :: s) (A ++ e_node e :: B)
| tr_out e s A B : trace s (A ++ e_node e :: B) -> is_f e = false -> adj (nb (e_x e)) (A ++ B) -> trace (e :: s) (A ++ B).

Lemma tr_mem s R : trace s R -> NoDup R /\ forall n, In n R <-> (exists e, In e s /\ is_f e = true /\ e_node e = n) /\ (forall e, In e s -> is_f e = false -> e_node e <> n).
Proof.
  induction 1 as [|e s A B T (ND & IH) F NEW AD|e s A B T (ND & IH) F AD].
  - split; [constructor|]. intros n. cbn. split; [intros []|]. intros ((e & [] & _) & _).
  - assert (NI : ~ In (e_node e) (A ++ B)). { intros I. apply IH in I as ((e' & I & _ & Q) & _). apply (NEW e' I Q). }
    split; [apply NoDup_Add with (a := e_node e) (l := A ++ B); [apply Add_app|split; assumption]|].
    intros n. split.
    + intros I. apply in_app_or in I. assert (I' : n = e_node e \/ In n (A ++ B)) by (destruct I as [I|[I|I]]; [right; apply in_or_app; auto|left; auto|right; apply in_or_app; auto]).
      destruct I' as [->|I'].
      * split; [exists e; cbn; auto|]. intros e' [<-|I2] F2; [congruence|apply NEW; exact I2].
      * apply IH in I' as ((e' & I2 & F2 & Q) & W). split; [exists e'; cbn; auto|]. intros e2 [<-|I3] F3; [congruence|apply W; assumption].
    + intros ((e' & [<-|I] & F2 & Q) & W); [subst n; apply in_or_app; cbn; auto|].
      assert (J : In n (A ++ B)) by (apply IH; split; [eauto|intros e2 I2; apply W; cbn; auto]). apply in_app_or in J. apply in_or_app. cbn. tauto.
  - pose proof ND as ND'. apply NoDup_remove in ND' as (ND1 & NI). split; [exact ND1|]. intros n. split.
    + intros I. assert (J : In n (A ++ e_node e :: B)) by (apply in_app_or in I; apply in_or_app; cbn; tauto). apply IH in J as ((e' & I2 & F2 & Q) & W).
      split; [exists e'; cbn; auto|]. intros e2 [<-|I3] F3; [|apply W; assumption]. intros Q2. apply NI. rewrite Q2. exact I.
    + intros ((e' & [<-|I] & F2 & Q) & W); [congruence|]. assert (J : In n (A ++ e_node e :: B)) by (apply IH; split; [eauto|intros e2 I2; apply W; cbn; auto]).
      apply in_app_or in J as [J|[J|J]]; [apply in_or_app; auto| |apply in_or_app; auto]. exfalso. apply (W e); cbn; auto.
Qed.
Lemma tr_suffix s2 t R : trace (s2 ++ t) R -> exists R', trace t R'.
Proof. revert R. induction s2 as [|e s2 IH]; intros R T; [eauto|]. cbn [app] in T. inversion T; subst; eapply IH; eassumption. Qed.
Lemma tr_adj e t R : trace (e :: t) R -> adj (nb (e_x e)) R.
Proof. inversion 1; subst; assumption. Qed.

(** * Moments of a sorted history *)
Lemma filter_suffix (P : ev -> bool) : (forall e e', P e = true -> event_lt e e' = false -> P e' = true) -> forall s, srt (rev s) -> s = filter (fun e => negb (P e)) s ++ filter P s.
Proof.
  intros D s. induction s as [|e s IH]; [reflexivity|]. intros S. cbn [rev] in S. apply srt_app in S as (S1 & _ & S2).
  assert (LE : forall e', In e' s -> event_lt e e' = false) by (intros e' I; apply (S2 e' e); [apply -> in_rev; exact I|left; reflexivity]).
  cbn [filter]. destruct (P e) eqn:Q; cbn [negb].
  - assert (ALL : filter P s = s) by (clear -LE D Q; induction s as [|x s IH]; [reflexivity|]; cbn; rewrite (D e x Q (LE x (or_introl eq_refl))); f_equal; apply IH; intros; apply LE; cbn; auto).
    assert (NONE : filter (fun e => negb (P e)) s = []) by (clear -LE D Q; induction s as [|x s IH]; [reflexivity|]; cbn; rewrite (D e x Q (LE x (or_introl eq_refl))); apply IH; intros; apply LE; cbn; auto).
    rewrite ALL, NONE. reflexivity.
  - cbn [app]. f_equal. apply IH. exact S1.
Qed.

Variable s : list ev.
(** At each moment there was a set of lines in order: those that have started and not ended. *)
Definition moments : Prop := forall P : ev -> bool, (forall e e', P e = true -> event_lt e e' = false -> P e' = true) -> (forall e e', e_x e = e_x e' -> e_type e = e_type e' -> P e = P e') ->
  exists R, NoDup R /\ (forall n, In n R <-> (exists e, In e (filter P s) /\ is_f e = true /\ e_node e = n) /\ (forall e, In e (filter P s) -> is_f e = false -> e_node e <> n)) /\
    forall y, (forall e, In e s -> P e = true -> e_x e <= y) -> (forall e, In e s -> P e = false -> y <= e_x e) -> adj (fun a b => cover (v a) y -> cover (v b) y -> rel mk y (v a) (v b)) R.
Lemma trace_moments R : srt (rev s) -> trace s R -> moments.
Proof.
  intros SO T P D _. rewrite (filter_suffix P D s SO) in T. destruct (tr_suffix _ _ _ T) as (R' & T'). exists R'. destruct (tr_mem _ _ T') as (ND & MEM). split; [exact ND|]. split; [exact MEM|].
  intros y Y _. destruct (filter P s) as [|e t] eqn:E; [inversion T'; exact I|]. apply tr_adj in T'. eapply adj_impl; [|exact T']. intros a b _ _ O Ca Cb. eapply over_rel; [exact O| |exact I|exact Ca|exact Cb].
  assert (J : In e (filter P s)) by (rewrite E; left; reflexivity). apply filter_In in J as (J1 & J2). apply Y; assumption.
Qed.
Hypothesis MO : moments.
Hypothesis SO : srt (rev s).
Hypothesis EV : forall e, In e s -> e = fev (v (e_node e)) (e_node e) (e_deleted e) \/ e = bev (v (e_node e)) (e_node e) (e_deleted e).
(** The lines in question: those whose events are both there. *)
Definition line_of (n : nat) : Prop := good (v n) /\ (exists d, In (fev (v n) n d) s) /\ (exists d, In (bev (v n) n d) s).
Hypothesis GOOD : forall e, In e s -> line_of (e_node e).

Lemma ev_f e : In e s -> is_f e = true -> e = fev (v (e_node e)) (e_node e) (e_deleted e).
Proof. intros I F. destruct (EV e I) as [Q|Q]; [exact Q|]. rewrite Q, is_f_bev in F. discriminate. Qed.
Lemma ev_b e : In e s -> is_f e = false -> e = bev (v (e_node e)) (e_node e) (e_deleted e).
Proof. intros I F. destruct (EV e I) as [Q|Q]; [|exact Q]. rewrite Q, is_f_fev in F. discriminate. Qed.

(** The set at the moment given by P: all lines that have started and not ended. *)
Lemma moment (P : ev -> bool) : (forall e e', P e = true -> event_lt e e' = false -> P e' = true) ->
  forall x, (forall e, P e = true -> e_x e <= x) ->
  (forall e e', e_x e = e_x e' -> e_type e = e_type e' -> P e = P e') ->
  forall n m, line_of n -> line_of m -> n <> m -> P (fev (v n) n false) = true -> P (bev (v n) n false) = false -> P (fev (v m) m false) = true -> P (bev (v m) m false) = false ->
  (forall y, x <= y -> (forall e, P e = false -> y <= e_x e) -> (forall k, line_of k -> P (fev (v k) k false) = true -> P (bev (v k) k false) = false -> cover (v k) y) -> rel mk y (v n) (v m)) \/
  (forall y, x <= y -> (forall e, P e = false -> y <= e_x e) -> (forall k, line_of k -> P (fev (v k) k false) = true -> P (bev (v k) k false) = false -> cover (v k) y) -> rel mk y (v m) (v n)).
Proof.
  intros D x BX PT n m Ln Lm NM Fn Bn Fm Bm. destruct (MO P D PT) as (R' & ND & MEM & T'). set (t := filter P s) in *.
  assert (PF : forall g n d d', P (fev g n d) = P (fev g n d')) by (intros; apply PT; reflexivity). assert (PB : forall g n d d', P (bev g n d) = P (bev g n d')) by (intros; apply PT; reflexivity).
  assert (INT : forall e, In e t <-> In e s /\ P e = true) by (intros e; unfold t; apply filter_In).
  assert (IN : forall k, In k R' <-> line_of k /\ P (fev (v k) k false) = true /\ P (bev (v k) k false) = false).
  { intros k. rewrite MEM. split.
    - intros ((e & I & F & Q) & W). apply INT in I as (I & PE). pose proof (GOOD e I) as L. pose proof (ev_f e I F) as E. rewrite Q in *. split; [exact L|]. split; [rewrite (PF _ _ false (e_deleted e)), <- E; exact PE|].
      destruct L as (_ & _ & d & IB). destruct (P (bev (v k) k false)) eqn:PB1; [|reflexivity]. exfalso. apply (W (bev (v k) k d)); [apply INT; split; [exact IB|rewrite (PB _ _ d false); exact PB1]|apply is_f_bev|reflexivity].
    - intros ((_ & (d & IF) & _) & P1 & P2). split; [exists (fev (v k) k d); split; [apply INT; split; [exact IF|rewrite (PF _ _ d false); exact P1]|split; [apply is_f_fev|reflexivity]]|].
      intros e I F Q. apply INT in I as (I & PE). pose proof (ev_b e I F) as E. rewrite Q in E. rewrite E, (PB _ _ _ false), P2 in PE. discriminate. }
  assert (AD : forall y, x <= y -> (forall e, P e = false -> y <= e_x e) -> (forall k, line_of k -> P (fev (v k) k false) = true -> P (bev (v k) k false) = false -> cover (v k) y) -> adj (fun a b => rel mk y (v a) (v b)) R').
  { intros y XY AF C. eapply adj_impl; [|apply (T' y); [intros e _ PE; apply BX in PE; lia|intros e _; apply AF]]. intros a b Ia Ib O.
    apply IN in Ia as (La & Fa & Ba). apply IN in Ib as (Lb & Fb & Bb). apply O; apply C; assumption. }
  assert (In n R') as In1 by (apply IN; auto). assert (In m R') as In2 by (apply IN; auto).
  destruct (two_in _ _ _ In1 In2 NM) as [(l1 & l2 & l3 & Q)|(l1 & l2 & l3 & Q)]; [left|right]; intros y XY AF C;
    (eapply (adj_trans (fun a b => rel mk y (v a) (v b)) (fun k => good (v k)) R' ); [| |apply AD; assumption|exact Q]).
  1,3: intros a b c Ga Gb Gc; apply (rel_trans mk mk_trans mk_sym y (v a) (v b) (v c) Ga Gb Gc).
  all: intros k I; apply IN in I as ((G & _) & _); exact G.
Qed.

(** Both lines at a moment, at one place: they are in order there. *)
Definition P1 (z : Z) (e : ev) : bool := e_x e <=? z.
Definition PA (x : Z) (e : ev) : bool := (e_x e <? x) || ((e_x e =? x) && match e_type e with VForward => true | _ => false end).
Definition PB (x : Z) (e : ev) : bool := (e_x e <? x) || ((e_x e =? x) && match e_type e with VBackward => false | _ => true end).
Lemma lt_false e e' : event_lt e e' = false -> e_x e' <= e_x e /\ (e_x e' = e_x e -> (type_rank (e_type e') <= type_rank (e_type e))%nat).
Proof.
  unfold event_lt, type_eqb. destruct (Z.eqb_spec (e_x e) (e_x e')); cbn [negb]; [|rewrite Z.ltb_ge; lia].
  destruct (Nat.eqb_spec (type_rank (e_type e)) (type_rank (e_type e'))); cbn [negb]; [lia|]. rewrite Nat.ltb_ge. lia.
Qed.
Lemma P1_down z e e' : P1 z e = true -> event_lt e e' = false -> P1 z e' = true.
Proof. unfold P1. rewrite !Z.leb_le. intros A L. apply lt_false in L. lia. Qed.
Lemma PA_down x e e' : PA x e = true -> event_lt e e' = false -> PA x e' = true.
Proof.
  unfold PA. rewrite !orb_true_iff, !andb_true_iff, !Z.ltb_lt, !Z.eqb_eq. intros A L. apply lt_false in L as (L1 & L2).
  destruct A as [A|(A & T)]; [left; lia|]. destruct (Z.eq_dec (e_x e') x) as [E|E]; [|left; lia]. right. split; [exact E|]. assert (L3 := L2 ltac:(lia)). destruct (e_type e); try discriminate. destruct (e_type e'); cbn in L3; try lia.
Qed.
Lemma PB_down x e e' : PB x e = true -> event_lt e e' = false -> PB x e' = true.
Proof.
  unfold PB. rewrite !orb_true_iff, !andb_true_iff, !Z.ltb_lt, !Z.eqb_eq. intros A L. apply lt_false in L as (L1 & L2).
  destruct A as [A|(A & T)]; [left; lia|]. destruct (Z.eq_dec (e_x e') x) as [E|E]; [|left; lia]. right. split; [exact E|]. assert (L3 := L2 ltac:(lia)). destruct (e_type e); try discriminate; destruct (e_type e'); cbn in L3; try lia; reflexivity.
Qed.
Lemma at_z n m z : line_of n -> line_of m -> n <> m -> px (sg_pa (v n)) <= z < px (sg_pb (v n)) -> px (sg_pa (v m)) <= z < px (sg_pb (v m)) ->
  (rel mk z (v n) (v m) /\ rel mk (z + 1) (v n) (v m)) \/ (rel mk z (v m) (v n) /\ rel mk (z + 1) (v m) (v n)).
Proof.
  intros Ln Lm NM Cn Cm.
  assert (CV : forall y, z <= y <= z + 1 -> forall k, line_of k -> P1 z (fev (v k) k false) = true -> P1 z (bev (v k) k false) = false -> cover (v k) y).
  { intros y Y k _ A B. unfold P1, fev, bev in *. cbn [e_x] in *. apply Z.leb_le in A. apply Z.leb_gt in B. split; lia. }
  destruct (moment (P1 z) (P1_down z) z) with (n := n) (m := m) as [H|H]; try assumption; try reflexivity; try (intros e e' E1 E2; unfold P1; rewrite E1, ?E2; reflexivity); try (unfold P1, fev, bev; cbn [e_x]; first [apply Z.leb_le; lia|apply Z.leb_gt; lia]).
  - unfold P1. intros e. apply Z.leb_le.
  - left. split; apply H; try lia; try (apply CV; lia); intros e; unfold P1; rewrite Z.leb_gt; lia.
  - right. split; apply H; try lia; try (apply CV; lia); intros e; unfold P1; rewrite Z.leb_gt; lia.
Qed.
(** On the left of x or vertical at x. *)
Definition left_at (x : Z) (g : cseg) : Prop := px (sg_pa g) < x <= px (sg_pb g) \/ (vt g = true /\ px (sg_pa g) = x).
Definition right_at (x : Z) (g : cseg) : Prop := px (sg_pa g) <= x < px (sg_pb g) \/ (vt g = true /\ px (sg_pa g) = x).
Lemma at_left n m x : line_of n -> line_of m -> n <> m -> left_at x (v n) -> left_at x (v m) -> rel mk x (v n) (v m) \/ rel mk x (v m) (v n).
Proof.
  assert (CV : forall k, line_of k -> PA x (fev (v k) k false) = true /\ PA x (bev (v k) k false) = false <-> line_of k /\ left_at x (v k)).
  { intros k L. pose proof L as ((G & _) & _). unfold PA, fev, bev, left_at, vert, vt in *. cbn [e_x e_type]. rewrite orb_true_iff, orb_false_iff, andb_true_iff, andb_false_iff, Z.ltb_lt, Z.ltb_ge, Z.eqb_eq, Z.eqb_neq.
    destruct (Z.eqb_spec (px (sg_pa (v k))) (px (sg_pb (v k)))) as [E|E]; split.
    - intros (H1 & H2 & H3). split; [exact L|]. right. split; [reflexivity|lia].
    - intros (_ & [H|(_ & H)]); [lia|]. split; [right; auto|]. split; [lia|right; reflexivity].
    - intros (H1 & H2 & H3). split; [exact L|]. left. destruct H1 as [H1|(_ & H1)]; [lia|discriminate].
    - intros (_ & [H|(H & _)]); [|discriminate]. split; [left; lia|]. split; [lia|right; reflexivity]. }
  assert (CC : forall k, line_of k -> PA x (fev (v k) k false) = true -> PA x (bev (v k) k false) = false -> cover (v k) x).
  { intros k L A B. destruct (proj1 (CV k L) (conj A B)) as (_ & [C|(C & D)]); [split; lia|]. apply vt_true in C. split; lia. }
  intros Ln Lm NM Cn Cm. destruct (proj2 (CV n Ln) (conj Ln Cn)) as (A1 & A2). destruct (proj2 (CV m Lm) (conj Lm Cm)) as (B1 & B2).
  destruct (moment (PA x) (PA_down x) x) with (n := n) (m := m) as [H|H]; try assumption; try reflexivity; try (intros e e' E1 E2; unfold PA; rewrite E1, ?E2; reflexivity).
  - unfold PA. intros e. rewrite orb_true_iff, andb_true_iff, Z.ltb_lt, Z.eqb_eq. lia.
  - left. apply H; [lia| |exact CC]. unfold PA. intros e. rewrite orb_false_iff, Z.ltb_ge. lia.
  - right. apply H; [lia| |exact CC]. unfold PA. intros e. rewrite orb_false_iff, Z.ltb_ge. lia.
Qed.
Lemma at_right n m x : line_of n -> line_of m -> n <> m -> right_at x (v n) -> right_at x (v m) -> rel mk x (v n) (v m) \/ rel mk x (v m) (v n).
Proof.
  assert (CV : forall k, line_of k -> PB x (fev (v k) k false) = true /\ PB x (bev (v k) k false) = false <-> line_of k /\ right_at x (v k)).
  { intros k L. pose proof L as ((G & _) & _). unfold PB, fev, bev, right_at, vert, vt in *. cbn [e_x e_type]. rewrite orb_true_iff, orb_false_iff, andb_true_iff, andb_false_iff, Z.ltb_lt, Z.ltb_ge, Z.eqb_eq, Z.eqb_neq.
    destruct (Z.eqb_spec (px (sg_pa (v k))) (px (sg_pb (v k)))) as [E|E]; split.
    - intros (H1 & H2 & H3). split; [exact L|]. right. split; [reflexivity|lia].
    - intros (_ & [H|(_ & H)]); [lia|]. split; [right; auto|]. split; [lia|right; reflexivity].
    - intros (H1 & H2 & H3). split; [exact L|]. left. destruct H3 as [H3|H3]; [lia|discriminate].
    - intros (_ & [H|(H & _)]); [|discriminate]. split; [|split; [lia|left; lia]]. destruct (Z.eq_dec (px (sg_pa (v k))) x); [right; auto|left; lia]. }
  assert (CC : forall k, line_of k -> PB x (fev (v k) k false) = true -> PB x (bev (v k) k false) = false -> cover (v k) x).
  { intros k L A B. destruct (proj1 (CV k L) (conj A B)) as (_ & [C|(C & D)]); [split; lia|]. apply vt_true in C. split; lia. }
  intros Ln Lm NM Cn Cm. destruct (proj2 (CV n Ln) (conj Ln Cn)) as (A1 & A2). destruct (proj2 (CV m Lm) (conj Lm Cm)) as (B1 & B2).
  destruct (moment (PB x) (PB_down x) x) with (n := n) (m := m) as [H|H]; try assumption; try reflexivity; try (intros e e' E1 E2; unfold PB; rewrite E1, ?E2; reflexivity).
  - unfold PB. intros e. rewrite orb_true_iff, andb_true_iff, Z.ltb_lt, Z.eqb_eq. lia.
  - left. apply H; [lia| |exact CC]. unfold PB. intros e. rewrite orb_false_iff, Z.ltb_ge. lia.
  - right. apply H; [lia| |exact CC]. unfold PB. intros e. rewrite orb_false_iff, Z.ltb_ge. lia.
Qed.

(** * Where two lines meet *)
Lemma pt_meet g h x Y : good g -> good h -> pt mk x g h -> on_seg (sg_pa g) (sg_pb g) (inj x) Y -> on_seg (sg_pa h) (sg_pb h) (inj x) Y -> tie mk g h (inj x) Y.
Proof.
  intros G H (A & B) Og Oh. apply on_range in Og as (_ & Lg & Rg); [|exact G]. apply on_range in Oh as (_ & Lh & Rh); [|exact H].
  eapply tie_comp; [reflexivity| |apply B]; lra.
Qed.
Lemma twin_tie g h X Y i j : good g -> good h -> twin mk g h -> at_end g i X Y -> at_end h j X Y -> tie mk g h X Y.
Proof.
  intros G H T A B. destruct (twin_end_l mk g h i X Y T A) as (j' & B' & M). rewrite (at_end_unique h j' j X Y H B' B) in M. exists i, j. auto.
Qed.
Lemma rel_meet g h x Y : good g -> good h -> rel mk x g h \/ rel mk x h g -> on_seg (sg_pa g) (sg_pb g) (inj x) Y -> on_seg (sg_pa h) (sg_pb h) (inj x) Y -> twin mk g h \/ tie mk g h (inj x) Y.
Proof.
  intros G H [[T|P]|[T|P]] A B; [left; exact T|right; apply pt_meet; assumption|left; apply twin_sym; assumption|right; apply tie_sym; [exact mk_sym|]; apply pt_meet; assumption].
Qed.
(** Lines on the same side of a common end: their points are marked there. *)
Lemma meet_side n m x Y : line_of n -> line_of m -> n <> m -> (left_at x (v n) /\ left_at x (v m)) \/ (right_at x (v n) /\ right_at x (v m)) ->
  on_seg (sg_pa (v n)) (sg_pb (v n)) (inj x) Y -> on_seg (sg_pa (v m)) (sg_pb (v m)) (inj x) Y -> twin mk (v n) (v m) \/ tie mk (v n) (v m) (inj x) Y.
Proof.
  intros Ln Lm NM S A B. apply rel_meet; [apply Ln|apply Lm| |exact A|exact B]. destruct S as [(S1 & S2)|(S1 & S2)]; [apply at_left|apply at_right]; assumption.
Qed.
Lemma tie_ends g h X Y : tie mk g h X Y -> (exists i, at_end g i X Y) /\ exists j, at_end h j X Y.
Proof. intros (i & j & A & B & _). eauto. Qed.
Lemma pt_nv g h z : vt g = false -> vt h = false -> pt mk z g h -> (yq h (inj z) <= yq g (inj z))%Q /\ ((yq h (inj z) == yq g (inj z))%Q -> tie mk g h (inj z) (yq g (inj z))).
Proof. intros V W (A & B). unfold lo, hi in *. rewrite V, W in *. auto. Qed.
Lemma between_meet g h z X : good g -> good h -> vt g = false -> vt h = false -> (inj z <= X <= inj (z + 1))%Q -> (yq g X == yq h X)%Q -> pt mk z g h -> pt mk (z + 1) g h ->
  twin mk g h \/ ((exists i, at_end g i X (yq g X)) /\ exists j, at_end h j X (yq g X)).
Proof.
  intros G H V W (L1 & L2) E Pz Pz1. apply (pt_nv g h) in Pz as (A & B); auto. apply (pt_nv g h) in Pz1 as (A' & B'); auto.
  destruct (Qlt_le_dec (inj z) X) as [M1|M1].
  - destruct (Qlt_le_dec X (inj (z + 1))) as [M2|M2].
    + left. destruct (between_aff g h _ _ X (conj M1 M2) A A') as (_ & EQ). destruct EQ as (E1 & E2); [symmetry; exact E|].
      destruct (B E1) as (i & j & Ai & Aj & MK). destruct (B' E2) as (i' & j' & Ai' & Aj' & MK').
      destruct MK as [MK|(MK & _)]; [|congruence]. destruct MK' as [MK'|(MK' & _)]; [|congruence].
      pose proof (vt_false g G V) as WG. pose proof (vt_false h H W) as WH.
      assert (GA : i = sg_a g /\ i' = sg_b g /\ px (sg_pa g) = z /\ px (sg_pb g) = z + 1 /\ (yq g (inj z) == injY (sg_pa g))%Q /\ (yq g (inj (z + 1)) == injY (sg_pb g))%Q).
      { destruct Ai as [(I1 & X1 & Y1)|(I1 & X1 & Y1)], Ai' as [(I2 & X2 & Y2)|(I2 & X2 & Y2)]; apply inj_eq1 in X1; apply inj_eq1 in X2; try lia. repeat split; auto; lia. }
      assert (HA : j = sg_a h /\ j' = sg_b h /\ px (sg_pa h) = z /\ px (sg_pb h) = z + 1 /\ (yq g (inj z) == injY (sg_pa h))%Q /\ (yq g (inj (z + 1)) == injY (sg_pb h))%Q).
      { destruct Aj as [(I1 & X1 & Y1)|(I1 & X1 & Y1)], Aj' as [(I2 & X2 & Y2)|(I2 & X2 & Y2)]; apply inj_eq1 in X1; apply inj_eq1 in X2; try lia. repeat split; auto; lia. }
      destruct GA as (-> & -> & G1 & G2 & G3 & G4). destruct HA as (-> & -> & H1 & H2 & H3 & H4).
      left. split; [apply pt_eq; [lia|]; apply inj_eq1; unfold injY in *; lra|]. split; [apply pt_eq; [lia|]; apply inj_eq1; unfold injY in *; lra|]. auto.
    + right. assert (XE : (X == inj (z + 1))%Q) by lra. apply (tie_ends g h). eapply tie_comp; [symmetry; exact XE|apply yq_comp; symmetry; exact XE|]. apply B'. rewrite <- (yq_comp g _ _ XE), <- (yq_comp h _ _ XE). symmetry. exact E.
  - right. assert (XE : (X == inj z)%Q) by lra. apply (tie_ends g h). eapply tie_comp; [symmetry; exact XE|apply yq_comp; symmetry; exact XE|]. apply B. rewrite <- (yq_comp g _ _ XE), <- (yq_comp h _ _ XE). symmetry. exact E.
Qed.
Definition ends (g : cseg) (X Y : Q) : Prop := exists i, at_end g i X Y.
Lemma ends_comp g X Y Y' : (Y == Y')%Q -> ends g X Y -> ends g X Y'.
Proof. intros E (i & A). exists i. eapply at_end_comp; [reflexivity|exact E|exact A]. Qed.
Lemma meet_nv n m X Y : line_of n -> line_of m -> n <> m -> vt (v n) = false -> vt (v m) = false ->
  on_seg (sg_pa (v n)) (sg_pb (v n)) X Y -> on_seg (sg_pa (v m)) (sg_pb (v m)) X Y -> twin mk (v n) (v m) \/ (ends (v n) X Y /\ ends (v m) X Y).
Proof.
  intros Ln Lm NM Vn Vm On Om. pose proof Ln as (Gn & _). pose proof Lm as (Gm & _). pose proof (vt_false _ Gn Vn) as Wn. pose proof (vt_false _ Gm Vm) as Wm.
  apply on_nv in On as ((A1 & A2) & A3); auto. apply on_nv in Om as ((B1 & B2) & B3); auto. unfold injX in *.
  set (lo1 := Z.max (px (sg_pa (v n))) (px (sg_pa (v m)))). set (hi1 := Z.min (px (sg_pb (v n))) (px (sg_pb (v m)))).
  assert (C1 : (inj lo1 <= X)%Q) by (unfold lo1; destruct (Z.max_spec (px (sg_pa (v n))) (px (sg_pa (v m)))) as [(_ & ->)|(_ & ->)]; assumption).
  assert (C2 : (X <= inj hi1)%Q) by (unfold hi1; destruct (Z.min_spec (px (sg_pb (v n))) (px (sg_pb (v m)))) as [(_ & ->)|(_ & ->)]; assumption).
  assert (LE : lo1 <= hi1) by (apply inj_le1; lra).
  destruct (Z.eq_dec lo1 hi1) as [EQ|NE].
  - right. assert (XE : (X == inj lo1)%Q) by (rewrite <- EQ in C2; lra).
    assert (CASE : (px (sg_pa (v n)) = lo1 /\ px (sg_pb (v m)) = lo1) \/ (px (sg_pa (v m)) = lo1 /\ px (sg_pb (v n)) = lo1)) by (unfold lo1, hi1 in *; lia).
    destruct CASE as [(E1 & E2)|(E1 & E2)].
    + split; [exists (sg_a (v n)); left|exists (sg_b (v m)); right]; (split; [reflexivity|]); unfold injX.
      * rewrite E1. split; [exact XE|]. rewrite A3, <- yq_pa. apply yq_comp. unfold injX. rewrite E1. exact XE.
      * rewrite E2. split; [exact XE|]. rewrite B3, <- (yq_pb _ Gm Vm). apply yq_comp. unfold injX. rewrite E2. exact XE.
    + split; [exists (sg_b (v n)); right|exists (sg_a (v m)); left]; (split; [reflexivity|]); unfold injX.
      * rewrite E2. split; [exact XE|]. rewrite A3, <- (yq_pb _ Gn Vn). apply yq_comp. unfold injX. rewrite E2. exact XE.
      * rewrite E1. split; [exact XE|]. rewrite B3, <- yq_pa. apply yq_comp. unfold injX. rewrite E1. exact XE.
  - assert (exists z, lo1 <= z < hi1 /\ (inj z <= X <= inj (z + 1))%Q) as (z & (Z1 & Z2) & Z3).
    { destruct (Qlt_le_dec X (inj hi1)) as [H|H].
      - exists (Qfloor X). pose proof (Qfloor_le X) as F1. pose proof (Qlt_floor X) as F2.
        assert (lo1 <= Qfloor X) by (assert (lo1 < Qfloor X + 1) by (apply inj_lt1; lra); lia).
        assert (Qfloor X < hi1) by (apply inj_lt1; lra). split; [lia|]. split; lra.
      - exists (hi1 - 1). split; [lia|]. replace (hi1 - 1 + 1) with hi1 by lia. split; [|lra]. apply Qle_trans with (inj hi1); [apply inj_le; lia|exact H]. }
    destruct (at_z n m z Ln Lm NM) as [(R1 & R2)|(R1 & R2)]; [unfold lo1, hi1 in *; lia|unfold lo1, hi1 in *; lia| |].
    + destruct R1 as [T|Q1]; [left; exact T|]. destruct R2 as [T|Q2]; [left; exact T|]. destruct (between_meet (v n) (v m) z X Gn Gm Vn Vm Z3) as [T|(E1 & E2)]; [rewrite <- A3; exact B3|exact Q1|exact Q2|left; exact T|].
      right. split; (eapply ends_comp; [symmetry; exact A3|]); assumption.
    + destruct R1 as [T|Q1]; [left; apply twin_sym; assumption|]. destruct R2 as [T|Q2]; [left; apply twin_sym; assumption|]. destruct (between_meet (v m) (v n) z X Gm Gn Vm Vn Z3) as [T|(E1 & E2)]; [rewrite <- B3; exact A3|exact Q1|exact Q2|left; apply twin_sym; assumption|].
      right. split; (eapply ends_comp; [symmetry; exact B3|]); assumption.
Qed.
(** Any two lines are twins or only meet at ends of both. *)
Lemma meet_any n m X Y : line_of n -> line_of m -> n <> m ->
  on_seg (sg_pa (v n)) (sg_pb (v n)) X Y -> on_seg (sg_pa (v m)) (sg_pb (v m)) X Y -> twin mk (v n) (v m) \/ (ends (v n) X Y /\ ends (v m) X Y).
Proof.
  intros Ln Lm NM On Om. pose proof Ln as (Gn & _). pose proof Lm as (Gm & _).
  assert (SIDE : forall x, (X == inj x)%Q -> (left_at x (v n) /\ left_at x (v m)) \/ (right_at x (v n) /\ right_at x (v m)) -> twin mk (v n) (v m) \/ (ends (v n) X Y /\ ends (v m) X Y)).
  { intros x XE S. assert (MOVE : forall g, on_seg (sg_pa g) (sg_pb g) X Y -> on_seg (sg_pa g) (sg_pb g) (inj x) Y) by (intros g (t & T1 & T2 & T3); exists t; rewrite <- XE; auto).
    destruct (meet_side n m x Y Ln Lm NM S (MOVE _ On) (MOVE _ Om)) as [T|T]; [left; exact T|right]. apply (tie_comp mk _ _ _ _ X Y) in T; [|symmetry; exact XE|reflexivity]. apply (tie_ends _ _ _ _ T). }
  destruct (vt (v n)) eqn:Vn, (vt (v m)) eqn:Vm.
  - pose proof (proj1 (on_v _ _ _ Gn Vn) On) as (E1 & _). pose proof (proj1 (on_v _ _ _ Gm Vm) Om) as (E2 & _). unfold injX in *. apply (SIDE (px (sg_pa (v n)))); [exact E1|]. left.
    split; right; [auto|]. split; [exact Vm|]. apply inj_eq1. lra.
  - pose proof (proj1 (on_v _ _ _ Gn Vn) On) as (E1 & _). pose proof (proj1 (on_nv _ _ _ Gm Vm) Om) as ((L & R') & _). unfold injX in *. rewrite E1 in L, R'. apply inj_le1 in L, R'.
    apply (SIDE (px (sg_pa (v n)))); [exact E1|]. pose proof (vt_false _ Gm Vm). destruct (Z.eq_dec (px (sg_pa (v m))) (px (sg_pa (v n)))); [right|left]; (split; [right; auto|left; lia]).
  - pose proof (proj1 (on_v _ _ _ Gm Vm) Om) as (E1 & _). pose proof (proj1 (on_nv _ _ _ Gn Vn) On) as ((L & R') & _). unfold injX in *. rewrite E1 in L, R'. apply inj_le1 in L, R'.
    apply (SIDE (px (sg_pa (v m)))); [exact E1|]. pose proof (vt_false _ Gn Vn). destruct (Z.eq_dec (px (sg_pa (v n))) (px (sg_pa (v m)))); [right|left]; (split; [left; lia|right; auto]).
  - apply meet_nv; assumption.
Qed.
End Trace.
