(** What a split does to the history of a sweep: going back to where the first part of the
    split line comes in, the history is that of lines without the split one. *)
From Coq Require Import ZArith QArith List Bool Arith Permutation Sorted Lia Lqa.
From Verif Require Import GeomModel GeomSpec GeomProofs EventsModel EventsSpec EventsProofs ClipModel ClipSpec ClipProofs SweepProofs TotalSplit SegOrder SegPair SegTrace DynOrder DynTrace DynShape.
Import ListNotations.
Local Open Scope nat_scope.

(** * The order of the events *)
Lemma lt_ge_lt a b c : event_lt a b = true -> event_lt c b = false -> event_lt a c = true.
Proof. intros A B. destruct (event_lt a c) eqn:C; [reflexivity|]. rewrite (swo_neg _ _ event_lt_swo _ _ _ C B) in A. discriminate. Qed.
Lemma ge_lt_lt a b c : event_lt b a = false -> event_lt b c = true -> event_lt a c = true.
Proof. intros A B. destruct (event_lt a c) eqn:C; [reflexivity|]. rewrite (swo_neg _ _ event_lt_swo _ _ _ A C) in B. discriminate. Qed.
Lemma ev_asym a b : event_lt a b = true -> event_lt b a = false.
Proof. apply (swo_asym _ _ event_lt_swo). Qed.
Lemma ev_trans a b c : event_lt a b = true -> event_lt b c = true -> event_lt a c = true.
Proof. intros A B. eapply lt_ge_lt; [exact A|apply ev_asym; exact B]. Qed.

(** * The events that count *)
Definition alive (l : list ev) : list ev := filter (fun e => negb (e_deleted e)) l.
Lemma alive_in l e : In e (alive l) <-> In e l /\ e_deleted e = false.
Proof. unfold alive. rewrite filter_In, negb_true_iff. reflexivity. Qed.
Lemma alive_app a b : alive (a ++ b) = alive a ++ alive b.
Proof. apply filter_app. Qed.
Lemma alive_delk k n l : (forall x, In x l -> e_deleted x = false -> e_node x = n <-> ekey x = k) -> alive (map (delk k) l) = rme n (alive l).
Proof.
  intros H. induction l as [|x l IH]; [reflexivity|]. cbn [map alive filter]. unfold alive in IH. rewrite IH by (intros y I; apply H; right; exact I). specialize (H x (or_introl eq_refl)). unfold delk. destruct (ekey_dec (ekey x) k) as [Q|Q].
  - cbn [del e_deleted negb]. destruct (e_deleted x) eqn:D; cbn [negb]; [reflexivity|]. unfold rme. cbn [filter]. rewrite (proj2 (H eq_refl) Q), Nat.eqb_refl. reflexivity.
  - destruct (e_deleted x) eqn:D; cbn [negb]; [reflexivity|]. unfold rme. cbn [filter]. destruct (Nat.eqb_spec (e_node x) n) as [X|X]; [exfalso; apply Q, (H eq_refl), X|reflexivity].
Qed.
Lemma rev_sorted l : srt (rev l) -> forall a x b y c, l = a ++ x :: b ++ y :: c -> event_lt x y = false.
Proof.
  intros S a x b y c ->. rewrite rev_app_distr in S. cbn [rev] in S. rewrite rev_app_distr in S. cbn [rev] in S. apply (srt_app ev event_lt) in S as (S & _). apply (srt_app ev event_lt) in S as (_ & _ & C). apply C; [|left; reflexivity]. apply in_or_app. left. apply in_or_app. right. left. reflexivity.
Qed.
Lemma filter_rev {A} (f : A -> bool) l : filter f (rev l) = rev (filter f l).
Proof. induction l as [|a l IH]; [reflexivity|]. cbn [rev filter]. rewrite filter_app, IH. cbn [filter]. destruct (f a); cbn [rev]; [reflexivity|apply app_nil_r]. Qed.
Lemma alive_sorted l : srt (rev l) -> srt (rev (alive l)).
Proof.
  unfold alive. rewrite <- filter_rev. generalize (rev l). intros q ST. induction q as [|a q IH]; [constructor|]. inversion ST as [|? ? S0 F]; subst. cbn [filter]. destruct (negb (e_deleted a)); [|apply IH; exact S0].
  constructor; [apply IH; exact S0|]. rewrite Forall_forall in *. intros b I. apply filter_In in I as (I & _). auto.
Qed.
(** The events from f on come off the front. *)
Lemma cut_desc f t : srt (rev t) -> exists ta tb, t = ta ++ tb /\ (forall y, In y ta -> event_lt y f = false) /\ (forall y, In y tb -> event_lt y f = true).
Proof.
  induction t as [|y t IH]; intros S; [exists [], []; cbn; tauto|]. destruct (event_lt y f) eqn:L.
  - exists [], (y :: t). split; [reflexivity|]. split; [intros z []|]. intros z [<-|I]; [exact L|]. apply in_split in I as (b & c & ->). eapply ge_lt_lt; [|exact L]. exact (rev_sorted _ S [] y b z c eq_refl).
  - cbn [rev] in S. apply (srt_app ev event_lt) in S as (S & _). destruct (IH S) as (ta & tb & -> & A & B). exists (y :: ta), tb. split; [reflexivity|]. split; [|exact B]. intros z [<-|I]; auto.
Qed.

Lemma NoDup_tail {A} (a b : list A) : NoDup (a ++ b) -> NoDup b.
Proof. induction a as [|x a IH]; [auto|]. cbn. intros H. inversion H; auto. Qed.
Lemma ev_dec (a b : ev) : {a = b} + {a <> b}.
Proof. repeat decide equality. Defined.
Section Cut.
Variable v : nat -> cseg.
Variable mk : nat -> nat -> Prop.
Notation dtr := (dtr v mk).
Notation path := (path v).
Notation debt := (debt v mk).
Notation ff k := (fev (v k) k false).

(** The first events t of the sweep have a history; s2 has been delivered since. *)
Definition owed (all t : list ev) (k1 : nat) : Prop := In (ff k1) all /\ ~ In (ff k1) t /\ forall x, In x all -> ~ In x t -> e_deleted x = false -> event_lt x (ff k1) = false.
Definition hist (all t : list ev) (Rt : list nat) : Prop := dtr (alive t) Rt \/ exists k1, debt (alive t) Rt k1 /\ owed all t k1.
Record WI (R : list nat) (s all t s2 : list ev) (Rt : list nat) : Prop := {
  w_eq : s = s2 ++ t;
  w_sep : forall y x, In y t -> In x all -> ~ In x t -> event_lt y x = true;
  w_path : path (alive t) Rt (alive s) R;
  w_hist : hist all t Rt }.

Lemma debt_start s R k1 : debt s R k1 -> exists x r, s = x :: r /\ is_f x = true /\ same_start x (ff k1).
Proof.
  intros (x & r & A & B & k0 & A' & B' & E & _ & _ & F & _ & _ & _ & _ & G & X & T & SA & SA' & SP & W). exists x, r. split; [exact E|]. split; [exact F|]. unfold same_start. cbn [fev e_x e_type e_a]. rewrite SP, SA'. split; [exact X|]. split; [|exact SA].
  rewrite T. destruct (within_x _ _ G W) as (WN & WV). unfold vert. rewrite SP. change (px (sg_pa (v k0)) =? px (sg_pb (v k0)))%Z with (vt (v k0)).
  destruct (vt (v k0)) eqn:V; [destruct (WV eq_refl) as (Q & _); rewrite Q, Z.eqb_refl; reflexivity|]. destruct (WN eq_refl) as (Q & _). destruct (Z.eqb_spec (px (sg_pa (v k0))) (px (sg_pb (v k1)))); [lia|reflexivity].
Qed.
Lemma within_trans g h c : sg_pa h = sg_pa g -> within g (sg_pb h) -> within h c -> within g c.
Proof.
  intros E W1 W2. destruct (within_t g _ W1) as (t & (T1 & T2) & TX & TY). destruct (within_t h _ W2) as (w & (W3 & W4) & WX & WY). rewrite E, TX, TY in *.
  assert (X : (injX c == injX (sg_pa g) + (w * t) * (injX (sg_pb g) - injX (sg_pa g)))%Q) by (rewrite WX; ring). assert (Y : (injY c == injY (sg_pa g) + (w * t) * (injY (sg_pb g) - injY (sg_pa g)))%Q) by (rewrite WY; ring).
  assert (P0 : (0 < w * t)%Q) by (apply Qmult_lt_0_compat; assumption). assert (P1 : (w * t < 1)%Q) by nra.
  split; [exists (w * t)%Q; split; [split; lra|]; unfold injX, injY in *; unfold Z.sub; rewrite ?inject_Z_plus, ?inject_Z_opp; rewrite X, Y; split; ring|]. destruct W2 as (_ & N1 & N2). split; [congruence|]. intros Q. apply N1. rewrite E. rewrite Q in X, Y.
  assert (SOLVE : forall a b, (b == a + w * t * (b - a))%Q -> (b == a)%Q). { intros a b H. assert (Z : ((1 - w * t) * (b - a) == 0)%Q) by lra. apply Qmult_integral in Z as [Z|Z]; lra. }
  apply SOLVE in X, Y. rewrite Q. apply pt_eq; apply inj_eq1; unfold injX, injY in *; assumption.
Qed.

(** * One split *)
Section Split.
Variables (R : list nat) (s all : list ev).
Hypothesis EVS : forall x, In x all -> e_deleted x = false -> is_f x = true -> x = ff (e_node x).
Hypothesis THREE : forall x y z, In x all -> In y all -> In z all -> e_deleted x = false -> e_deleted y = false -> e_deleted z = false -> is_f x = true -> same_start x y -> same_start x z -> x = y \/ x = z \/ y = z.
Hypothesis KEYS : NoDup (map ekey all).
Hypothesis SRT : srt (rev s).
Hypothesis INC : forall x, In x s -> In x all.
Variable n : nat.
Notation ek := (ff n).
Hypothesis EKS : In ek s.
Hypothesis ONLY : forall x, In x s -> e_deleted x = false -> e_node x = n -> x = ek.
Variables (k1 k2 mid : nat) (p : point).
Hypothesis G : good (v n).
Hypothesis W : within (v n) p.
Hypothesis V1 : v k1 = mk_cseg (sg_a (v n)) mid (sg_pa (v n)) p.
Hypothesis V2 : v k2 = mk_cseg mid (sg_b (v n)) p (sg_pb (v n)).
Hypothesis MID : forall x, In x all -> e_a x < mid /\ e_b x < mid.
Notation f1 := (ff k1).
Notation d := (delk (ekey ek)).
Variables (s' all' : list ev).
Hypothesis ES : s' = map d s.
Hypothesis EA : Permutation all' (bev (v k1) k1 false :: f1 :: bev (v k2) k2 false :: ff k2 :: map d all).

Lemma cut_vert : vert (v k1) = vert (v n) /\ vert (v k2) = vert (v n).
Proof.
  destruct (within_x _ _ G W) as (WN & WV). unfold vert. rewrite V1, V2. cbn [sg_pa sg_pb]. change (px (sg_pa (v n)) =? px (sg_pb (v n)))%Z with (vt (v n)).
  destruct (vt (v n)); [destruct (WV eq_refl) as (A & B); rewrite <- B, A, Z.eqb_refl; auto|]. destruct (WN eq_refl) as (A & B). split; apply Z.eqb_neq; lia.
Qed.
Lemma cut_start : same_start ek f1.
Proof. unfold same_start. cbn [fev e_x e_type e_a]. rewrite (proj1 cut_vert). rewrite V1. auto. Qed.
Lemma ek_all : In ek all.
Proof. apply INC, EKS. Qed.
Lemma ek_f1 : event_lt ek f1 = true.
Proof.
  destruct cut_start as (A & B & C). unfold event_lt, type_eqb. rewrite A, B, C, Z.eqb_refl, !Nat.eqb_refl. cbn [negb]. pose proof (proj2 (MID _ ek_all)) as M. cbn [fev e_b] in *. rewrite V1. cbn [sg_b]. apply Nat.ltb_lt. exact M.
Qed.
Lemma f1_f2 : event_lt f1 (ff k2) = true.
Proof.
  destruct (within_x _ _ G W) as (WN & WV). destruct cut_vert as (C1 & C2). pose proof (proj1 (MID _ ek_all)) as M. cbn [fev e_a] in M. unfold event_lt, type_eqb. cbn [fev e_x e_type e_a e_b]. rewrite C1, C2. rewrite V1, V2. cbn [sg_pa sg_a].
  rewrite Nat.eqb_refl. cbn [negb]. change (vert (v n)) with (vt (v n)). destruct (vt (v n)).
  - destruct (WV eq_refl) as (-> & _). rewrite Z.eqb_refl. cbn [negb]. destruct (Nat.eqb_spec (sg_a (v n)) mid); [lia|]. cbn [negb]. apply Nat.ltb_lt. exact M.
  - destruct (WN eq_refl) as (A & _). destruct (Z.eqb_spec (px (sg_pa (v n))) (px p)); [lia|]. cbn [negb]. apply Z.ltb_lt. exact A.
Qed.
Lemma cut_good : (px (sg_pa (v k1)) <= px (sg_pb (v k1)))%Z /\ (px (sg_pa (v k2)) <= px (sg_pb (v k2)))%Z.
Proof. destruct (within_x _ _ G W) as (WN & WV). rewrite V1, V2. cbn [sg_pa sg_pb]. destruct (vt (v n)); [destruct (WV eq_refl)|destruct (WN eq_refl)]; lia. Qed.
(** The new events are not before [f1], and are new. *)
Lemma new_cases x : In x all' -> (In x (map d all)) \/ (event_lt x f1 = false /\ mid <= Nat.max (e_a x) (e_b x)).
Proof.
  intros I. apply (Permutation_in _ EA) in I. pose proof (fev_bev (v k1) k1 false k1 false (proj1 cut_good)) as B1. pose proof (fev_bev (v k2) k2 false k2 false (proj2 cut_good)) as B2. pose proof f1_f2 as F.
  destruct I as [<-|[<-|[<-|[<-|I]]]]; [right|right|right|right|left; exact I].
  - split; [apply ev_asym; exact B1|cbn [bev e_a e_b]; rewrite V1; cbn [sg_b]; lia].
  - split; [apply event_lt_irrefl|cbn [fev e_a e_b]; rewrite V1; cbn [sg_b]; lia].
  - split; [apply ev_asym; eapply ev_trans; eassumption|cbn [bev e_a e_b]; rewrite V2; cbn [sg_a]; lia].
  - split; [apply ev_asym; exact F|cbn [fev e_a e_b]; rewrite V2; cbn [sg_a]; lia].
Qed.
Lemma f1_in : In f1 all'.
Proof. eapply Permutation_in; [symmetry; exact EA|]. right. left. reflexivity. Qed.
Lemma old_in x : In x all -> In (d x) all'.
Proof. intros I. eapply Permutation_in; [symmetry; exact EA|]. do 4 right. apply in_map. exact I. Qed.
Lemma d_lt x y : event_lt (d x) y = event_lt x y.
Proof. apply event_lt_key; [apply ekey_delk|reflexivity]. Qed.
Lemma lt_d x y : event_lt x (d y) = event_lt x y.
Proof. apply event_lt_key; [reflexivity|apply ekey_delk]. Qed.
Lemma one_key x y : In x all -> In y all -> ekey x = ekey y -> x = y.
Proof. intros A B C. apply (NoDup_ekey all); assumption. Qed.
Lemma dk_in x l : (forall y, In y l -> In y all) -> In x all -> In (d x) (map d l) -> In x l.
Proof. intros S I J. apply in_map_iff in J as (y & Q & J). assert (y = x); [|congruence]. apply one_key; auto. rewrite <- (ekey_delk (ekey ek) y), Q. apply ekey_delk. Qed.
Lemma d_other x : x <> ek -> In x all -> d x = x.
Proof. intros D I. unfold delk. destruct (ekey_dec (ekey x) (ekey ek)) as [Q|]; [|reflexivity]. exfalso. apply D. apply one_key; [exact I|apply ek_all|exact Q]. Qed.
Lemma f1_old l : (forall y, In y l -> In y all) -> ~ In f1 (map d l).
Proof. intros S I. apply in_delk in I as (e & I & _ & K & _). destruct (MID e (S e I)) as (_ & M). assert (E : e_b f1 = e_b e) by (unfold ekey in K; congruence). cbn [fev e_b] in E. rewrite V1 in E. cbn [sg_b] in E. lia. Qed.
Lemma not_f1 x : In x all -> event_lt x f1 = false -> event_lt f1 x = true.
Proof.
  intros I L. destruct (event_lt f1 x) eqn:E; [reflexivity|exfalso]. pose proof (event_lt_total _ _ L E) as K. destruct (MID x I) as (_ & M). assert (Q : e_b f1 = e_b x) by (unfold ekey in K; congruence). cbn [fev e_b] in Q. rewrite V1 in Q. cbn [sg_b] in Q. lia.
Qed.
Lemma alive_d l : (forall y, In y l -> In y s) -> alive (map d l) = rme n (alive l).
Proof.
  intros S. apply alive_delk. intros x I D. split; intros Q.
  - rewrite (ONLY x (S x I) D Q). reflexivity.
  - assert (x = ek) by (apply one_key; [apply INC, S; exact I|apply ek_all|exact Q]). subst x. reflexivity.
Qed.
Lemma fine_f x : In x all -> e_deleted x = false -> is_f x = true -> e_node x = n -> x = ek.
Proof. intros I D F Q. rewrite (EVS x I D F), Q. reflexivity. Qed.

(** A history with [t] cut down to the events before [f1]. *)
Lemma cut_dtr l t R0 : (forall y, In y t -> In y s) -> (forall y, In y l -> In y (alive s)) -> srt (rev t) -> NoDup t -> dtr (l ++ alive t) R0 -> (forall y, In y l -> event_lt y f1 = false) -> (forall y, In y t -> event_lt y f1 = true) ->
  (forall y x, In y t -> In x all -> ~ In x t -> event_lt y x = true) ->
  exists R1, path (alive t) R1 (l ++ alive t) R0 /\ hist all' (map d t) (remove Nat.eq_dec n R1).
Proof.
  intros TS LS ST NDT D LF TF SEP. pose proof ek_f1 as KF. pose proof cut_start as KS.
  assert (AD : alive (map d t) = rme n (alive t)) by (apply alive_d; exact TS). unfold hist. rewrite AD.
  assert (TA : forall y, In y (alive t) -> In y all /\ e_deleted y = false /\ event_lt y f1 = true /\ In y s) by (intros y I; apply alive_in in I as (I & E); auto).
  destruct (dtr_suffix v mk _ _ _ D) as [(R1 & DT & P)|(l3 & e2 & e1 & c & A & B & -> & EC & DC & F1 & F2 & SS & N1 & N2 & P)].
  - exists R1. split; [exact P|]. destruct (in_dec ev_dec ek (alive t)) as [IK|NK].
    + pose proof IK as IK'. apply in_split in IK as (Pr & r & E).
      assert (SP : forall z, In z Pr -> same_start ek z).
      { intros z I. assert (Z : In z (alive t)) by (rewrite E; apply in_or_app; auto). destruct (TA z Z) as (ZA & ZD & ZF & _). apply (between_start ek z f1 KS); [|exact ZF]. apply in_split in I as (P1 & P2 & ->).
        pose proof (alive_sorted _ ST) as SA.
        apply (rev_sorted _ SA P1 z P2 ek r). rewrite E, <- app_assoc. reflexivity. }
      assert (NDA : NoDup (alive t)) by (apply NoDup_filter; exact NDT).
      assert (NR : forall y, In y r -> e_node y <> n).
      { intros y I Q. assert (Z : In y (alive t)) by (rewrite E; apply in_or_app; right; right; exact I). destruct (TA y Z) as (ZA & ZD & _ & ZS). rewrite (ONLY y ZS ZD Q) in I. rewrite E in NDA. apply NoDup_remove_2 in NDA. apply NDA, in_or_app. right. exact I. }
      assert (CASE : alive t = ek :: r \/ exists x, alive t = x :: ek :: r /\ is_f x = true /\ same_start ek x /\ (forall y, In y r -> same_start ek y -> False)).
      { destruct Pr as [|x Pr]; [left; exact E|]. right. pose proof (SP x (or_introl eq_refl)) as SX. assert (XI : In x (alive t)) by (rewrite E; left; reflexivity). destruct (TA x XI) as (XA & XD & _).
        assert (FX : is_f x = true) by (destruct SX as (_ & T & _); unfold is_f; rewrite <- T; exact (is_f_fev (v n) n false)).
        assert (NX : x <> ek) by (intros ->; rewrite E in NDA; inversion NDA as [|? ? Z _]; apply Z, in_or_app; right; left; reflexivity).
        assert (OTHER : forall y, In y (alive t) -> same_start ek y -> y = ek \/ y = x). { intros y I SY. destruct (TA y I) as (YA & YD & _). destruct (THREE ek x y ek_all XA YA eq_refl XD YD (is_f_fev _ _ _) SX SY) as [Q|[Q|Q]]; [congruence|auto|auto]. }
        destruct Pr as [|x2 Pr].
        - exists x. split; [exact E|]. split; [exact FX|]. split; [exact SX|]. intros y I SY. destruct (OTHER y) as [->| ->]; [rewrite E; right; right; exact I|exact SY| |].
          + rewrite E in NDA. apply (NoDup_remove_2 [x] r) in NDA. apply NDA. right. exact I.
          + rewrite E in NDA. inversion NDA as [|? ? Z _]; apply Z. right. exact I.
        - exfalso. destruct (OTHER x2) as [->| ->]; [rewrite E; right; left; reflexivity|apply SP; right; left; reflexivity| |].
          + rewrite E in NDA. inversion NDA as [|? ? _ Z]; subst. inversion Z as [|? ? Z' _]; subst. apply Z', in_or_app. right. left. reflexivity.
          + rewrite E in NDA. inversion NDA as [|? ? Z _]; apply Z. left. reflexivity. }
      destruct (take_away v mk (alive t) R1 ek r k1 DT (is_f_fev _ _ _) CASE NR G eq_refl eq_refl eq_refl) as [H|H]; try (rewrite V1; reflexivity); [rewrite V1; exact W|left; exact H|].
      right. exists k1. split; [exact H|]. split; [exact f1_in|]. split; [apply f1_old; auto|]. intros x IX NX DX.
      destruct (new_cases x IX) as [I|(I & _)]; [|exact I]. apply in_delk in I as (x0 & I & EX & _ & _ & _ & XD). destruct (XD DX) as (<- & NK). clear EX XD.
      destruct (event_lt x f1) eqn:L; [exfalso|reflexivity]. assert (XNK : x <> ek) by congruence. assert (NX' : ~ In x t) by (intros J; apply NX; rewrite <- (d_other x XNK I); apply in_map; exact J).
      assert (SX : same_start ek x). { apply (between_start ek x f1 KS); [|exact L]. apply ev_asym. apply SEP; [apply alive_in in IK'; apply IK'|exact I|exact NX']. }
      change (e_node ek) with n in H. destruct (debt_start _ _ _ H) as (y & r0 & EY & FY & SY). assert (IY : In y (rme n (alive t))) by (rewrite EY; left; reflexivity). apply rme_in in IY as (IY & NY). destruct (TA y IY) as (YA & YD & _).
      assert (SY' : same_start ek y) by (eapply same_start_trans; [exact KS|apply same_start_sym; exact SY]).
      destruct (THREE ek x y ek_all I YA eq_refl DX YD (is_f_fev _ _ _) SX SY') as [Q|[Q|Q]]; [congruence|subst y; apply NY; reflexivity|]. subst y. apply NX'. apply alive_in in IY. apply IY.
    + left. assert (NN : forall y, In y (alive t) -> e_node y <> n). { intros y I Q. destruct (TA y I) as (YA & YD & _ & YS). rewrite (ONLY y YS YD Q) in I. contradiction. }
      rewrite rme_id by exact NN. rewrite notin_remove; [exact DT|]. intros I. apply (proj2 (d_mem v mk _ _ DT)) in I as ((y & I & _ & Q) & _). exact (NN y I Q).
  - exists (A ++ e_node e1 :: B). split; [exact P|]. left.
    assert (I1 : In e1 (alive t)) by (rewrite EC; left; reflexivity). destruct (TA e1 I1) as (A1 & D1 & L1 & S1).
    assert (I2 : In e2 (l3 ++ [e2])) by (apply in_or_app; right; left; reflexivity). pose proof (LF e2 I2) as L2. apply LS, alive_in in I2 as (S2 & D2). pose proof (INC e2 S2) as A2.
    assert (S1f : same_start e1 f1) by (apply (between_start e1 f1 e2 SS); [apply ev_asym; exact L1|apply not_f1; assumption]).
    assert (EQ : e1 = ek).
    { destruct (THREE e1 e2 ek A1 A2 ek_all D1 D2 eq_refl F1 SS) as [Q|[Q|Q]]; [eapply same_start_trans; [exact S1f|apply same_start_sym; exact KS]|subst e2; congruence|exact Q|]. subst e2. congruence. }
    assert (EN : e_node e1 = n) by (rewrite EQ; reflexivity). rewrite EC, EN. unfold rme. cbn [filter]. rewrite EN, Nat.eqb_refl. cbn [negb]. fold (rme n c). rewrite rme_id by (intros y I; rewrite <- EN; apply N1; exact I).
    rewrite remove_mid; [exact DC|]. rewrite <- EN. exact (proj1 (mem_in v e1 c A B F1 N1 (d_mem v mk _ _ DC))).
Qed.
Lemma WI_split t s2 Rt : WI R s all t s2 Rt -> NoDup s -> exists t' s2' Rt', WI (remove Nat.eq_dec n R) s' all' t' s2' Rt' /\ ((s2' = map d s2 /\ t' = map d t) \/ (forall y, In y s2' -> event_lt y f1 = false)).
Proof.
  intros [WE WS WP WH] ND. pose proof ek_f1 as KF. pose proof cut_start as KS.
  assert (ST : srt (rev t)) by (rewrite WE, rev_app_distr in SRT; apply (srt_app ev event_lt) in SRT; apply SRT).
  destruct (cut_desc f1 t ST) as (ta & tb & ET & LA & LB).
  assert (TS : forall y, In y t -> In y s) by (intros y I; rewrite WE; apply in_or_app; auto). assert (TBS : forall y, In y tb -> In y s) by (intros y I; apply TS; rewrite ET; apply in_or_app; auto).
  assert (TAS : forall y, In y ta -> In y s) by (intros y I; apply TS; rewrite ET; apply in_or_app; auto).
  assert (STB : srt (rev tb)) by (rewrite ET, rev_app_distr in ST; apply (srt_app ev event_lt) in ST; apply ST).
  assert (NDT : NoDup t). { rewrite WE in ND. apply NoDup_tail in ND. exact ND. } assert (NDB : NoDup tb). { rewrite ET in NDT. apply NoDup_tail in NDT. exact NDT. }
  assert (SEPB : forall y x, In y tb -> In x all -> ~ In x tb -> event_lt y x = true).
  { intros y x IY IX NX. destruct (in_dec ev_dec x ta) as [I|NI]; [eapply lt_ge_lt; [apply LB; exact IY|apply LA; exact I]|]. apply WS; [rewrite ET; apply in_or_app; auto|exact IX|]. rewrite ET. intros I. apply in_app_or in I. tauto. }
  assert (CORE : exists R1, path (alive tb) R1 (alive t) Rt /\ hist all' (map d tb) (remove Nat.eq_dec n R1)).
  { destruct WH as [WH|(kd & WH & OI & ON & OM)].
    - rewrite ET, alive_app in WH. rewrite ET, alive_app. apply (cut_dtr (alive ta) tb Rt); try assumption.
      + intros y I. apply alive_in in I as (I & E). apply alive_in. auto.
      + intros y I. apply alive_in in I. apply LA, I.
    - destruct (alive ta) as [|x l] eqn:EL.
      + assert (E : alive t = alive tb) by (rewrite ET, alive_app, EL; reflexivity). rewrite E in WH |- *. exists Rt. split; [constructor|]. unfold hist. rewrite alive_d by exact TBS.
        destruct (debt_start _ _ _ WH) as (xd & r & EX & FX & SX). pose proof (debt_mem v mk _ _ _ WH) as (NDR & MEM).
        assert (XI : In xd (alive tb)) by (rewrite EX; left; reflexivity). pose proof XI as XI'. apply alive_in in XI' as (XT & XD). assert (XA : In xd all) by (apply INC, TBS; exact XT). assert (XT' : In xd t) by (rewrite ET; apply in_or_app; auto).
        assert (KD : e_deleted (ff kd) = false) by reflexivity.
        assert (SF : forall y, In y all -> e_deleted y = false -> same_start xd y -> y = xd \/ y = ff kd).
        { intros y I D S. destruct (THREE xd y (ff kd) XA I OI XD D KD FX S SX) as [Q|[Q|Q]]; auto. exfalso. apply ON. rewrite <- Q. exact XT'. }
        destruct (in_dec ev_dec ek (alive tb)) as [IK|NK].
        * assert (Q : ek = xd).
          { destruct (SF ek ek_all eq_refl) as [Q|Q]; [|exact Q|].
            - rewrite EX in IK. destruct IK as [->|IK]; [repeat split|]. apply same_start_sym. apply (between_start ek xd f1 KS); [|apply LB; exact XT]. apply in_split in IK as (b & c & ->). pose proof (alive_sorted _ STB) as SA. exact (rev_sorted _ SA [] xd b ek c EX).
            - exfalso. apply ON. rewrite <- Q, ET. apply alive_in in IK as (IK & _). apply in_or_app. auto. }
          left. destruct WH as (x & r' & A & B & k0 & A' & B' & EX' & ER & DR & FX' & NW & _). assert (x = xd) by congruence. assert (r' = r) by congruence. subst x r'. rewrite EX. unfold rme. cbn [filter].
          assert (EN : e_node xd = n) by (rewrite <- Q; reflexivity). rewrite EN in *. rewrite Nat.eqb_refl. cbn [negb]. fold (rme n r). rewrite rme_id by exact NW. rewrite ER in NDR |- *. rewrite remove_mid by exact NDR. exact DR.
        * assert (NN : forall y, In y (alive tb) -> e_node y <> n). { intros y I Q. pose proof I as I'. apply alive_in in I' as (IT & D). rewrite (ONLY y (TBS y IT) D Q) in I. contradiction. }
          rewrite rme_id by exact NN. rewrite notin_remove by (intros I; apply MEM in I as ((y & I & _ & Q) & _); exact (NN y I Q)). right.
          assert (NKT : ~ In ek t). { intros I. apply NK. rewrite <- E. apply alive_in. split; [exact I|reflexivity]. }
          assert (NTB : forall x, In x all -> x <> ek -> ~ In x (map d tb) -> e_deleted x = false -> ~ In x t).
          { intros x IX NX NI DX J. apply NI. rewrite <- (d_other x NX IX). apply in_map. assert (J' : In x (alive t)) by (apply alive_in; auto). rewrite E in J'. apply alive_in in J'. apply J'. }
          destruct (ev_dec (ff kd) ek) as [Q|Q].
          -- assert (kd = n) by (change kd with (e_node (ff kd)); rewrite Q; reflexivity). subst kd. exists k1. split.
             ++ destruct WH as (x & r' & A & B & k0 & A' & B' & H1 & H2 & H3 & H4 & H5 & H6 & H7 & H8 & H9 & H10 & H11 & H12 & H13 & H14 & H15). exists x, r', A, B, k0, A', B'. repeat (split; [assumption|]). rewrite V1. cbn [sg_a sg_pa sg_pb]. split; [exact H13|]. split; [exact H14|].
                eapply within_trans; [exact H14|exact H15|exact W].
             ++ split; [exact f1_in|]. split; [apply f1_old; intros y I; apply INC, TBS; exact I|]. intros x IX NX DX. destruct (new_cases x IX) as [I|(I & _)]; [|exact I]. apply in_delk in I as (x0 & I & EX0 & _ & _ & _ & XD0). destruct (XD0 DX) as (<- & NKX).
                destruct (event_lt x f1) eqn:L; [exfalso|reflexivity]. assert (XNK : x <> ek) by congruence. pose proof (NTB x I XNK NX DX) as NXT. pose proof (OM x I NXT DX) as GE.
                assert (SX' : same_start ek x) by (apply (between_start ek x f1 KS); assumption). destruct (SF x I DX) as [Z|Z]; [eapply same_start_trans; [exact SX|exact SX']| |contradiction]. subst x. contradiction.
          -- exists kd. split; [exact WH|]. split; [rewrite <- (d_other _ Q OI); apply old_in; exact OI|]. split.
             ++ intros I. apply ON. rewrite ET. apply in_or_app. right. apply (dk_in (ff kd) tb); [intros y J; apply INC, TBS; exact J|exact OI|]. rewrite (d_other _ Q OI). exact I.
             ++ intros x IX NX DX. destruct (new_cases x IX) as [I|(I & _)].
                ** apply in_delk in I as (x0 & I & EX0 & _ & _ & _ & XD0). destruct (XD0 DX) as (<- & NKX). assert (XNK : x <> ek) by congruence. apply OM; auto.
                ** pose proof (OM ek ek_all NKT eq_refl) as GE. apply ev_asym. eapply lt_ge_lt; [|exact I]. eapply ge_lt_lt; [exact GE|exact KF].
      + assert (E : alive t = x :: l ++ alive tb) by (rewrite ET, alive_app, EL; reflexivity). destruct WH as (x' & r & A & B & k0 & A' & B' & EX & ER & DR & FX & _). rewrite E in EX. injection EX as <- <-.
        assert (IL : forall y, In y l -> In y ta /\ e_deleted y = false) by (intros y I; apply alive_in; rewrite EL; right; exact I).
        destruct (cut_dtr l tb (A ++ B) TBS) as (R1 & P1 & H1); try assumption.
        * intros y I. destruct (IL y I) as (J & D). apply alive_in. auto.
        * intros y I. apply LA, IL, I.
        * exists R1. split; [|exact H1]. rewrite E, ER. apply p_in; assumption. }
  destruct CORE as (R1 & P1 & H1). exists (map d tb), (map d (s2 ++ ta)), (remove Nat.eq_dec n R1). split; [constructor|].
  - rewrite ES, WE, ET, <- map_app, app_assoc. reflexivity.
  - intros y x IY IX NX. apply in_map_iff in IY as (y0 & <- & IY). rewrite d_lt. destruct (new_cases x IX) as [I|(I & _)].
    + apply in_map_iff in I as (x0 & <- & I). rewrite lt_d. apply SEPB; [exact IY|exact I|]. intros J. apply NX, in_map, J.
    + eapply lt_ge_lt; [apply LB; exact IY|exact I].
  - rewrite (alive_d tb TBS). assert (E : alive s' = rme n (alive s)) by (rewrite ES; apply alive_d; auto). rewrite E. apply path_rm. eapply path_trans; eassumption.
  - exact H1.
  - destruct ta as [|z ta].
    + left. rewrite app_nil_r. split; [reflexivity|]. rewrite ET. reflexivity.
    + right. intros y I. apply in_map_iff in I as (y0 & <- & I). rewrite d_lt. apply in_app_or in I as [I|I]; [|apply LA; exact I].
      assert (NT : ~ In y0 t). { intros J. rewrite WE in ND. clear -ND I J. induction s2 as [|a q IH]; [destruct I|]. cbn in ND. inversion ND as [|? ? N1 N2]; subst. destruct I as [->|I]; [apply N1, in_or_app; auto|auto]. }
      destruct (event_lt y0 f1) eqn:L; [exfalso|reflexivity].
      assert (Z : event_lt z y0 = true) by (apply WS; [rewrite ET; left; reflexivity|apply INC; rewrite WE; apply in_or_app; auto|exact NT]).
      pose proof (LA z (or_introl eq_refl)) as LZ. rewrite (ev_trans _ _ _ Z L) in LZ. discriminate.
Qed.
End Split.
End Cut.
