(** Proofs about the sweep of the rasteriser. *)
From Coq Require Import List Bool Arith ZArith QArith Permutation Sorted Lia Lqa.
From Verif Require Import GeomModel RasterModel RasterSpec RasterArith RasterOrder.
From Verif Require EventsModel EventsSpec EventsProofs.
Import ListNotations.
Local Open Scope Z_scope.

Definition sorts_valid {B} (ok : B -> Prop) (lt : B -> B -> bool) (f : list B -> list B) : Prop :=
  forall l, Forall ok l -> Permutation l (f l) /\ StronglySorted (fun x y => lt y x = false) (f l).

Lemma sorted_ext {B} (ok : B -> Prop) (R S : B -> B -> Prop) l : Forall ok l -> (forall x y, ok x -> ok y -> R x y -> S x y) -> StronglySorted R l -> StronglySorted S l.
Proof.
  intros F H. induction 1 as [|x l Hs IH Hf]; constructor; inversion F; subst; auto.
  rewrite Forall_forall in *. intros y Y. apply H; auto.
Qed.
Lemma sorted_map {A B} (g : A -> B) (R : B -> B -> Prop) l : StronglySorted (fun x y => R (g x) (g y)) l -> StronglySorted R (map g l).
Proof. induction 1 as [|x l Hs IH Hf]; constructor; auto. rewrite Forall_forall in *. intros y Y. apply in_map_iff in Y as (z & <- & Y). auto. Qed.

Notation in_order := (EventsSpec.in_order rkey lt_k).
Notation le_k := (EventsSpec.not_after rkey lt_k).
Notation nonswap := (fun e => negb (is_swap e)).
Notation lower_bound := (EventsModel.lower_bound revent).
Notation lt_key := (EventsSpec.lt_ev revent rkey key lt_k).

Lemma filter_perm {A} (f : A -> bool) l l' : Permutation l l' -> Permutation (filter f l) (filter f l').
Proof.
  induction 1 as [|x l l' P IH|x y l|l l' l'' P IH P' IH']; cbn; [constructor|destruct (f x); auto|destruct (f x), (f y); try reflexivity; constructor|etransitivity; eassumption].
Qed.
Lemma lower_bound_valid L e : Forall valid L -> valid e -> lower_bound revent_lt L e = lower_bound lt_key L e.
Proof.
  intros F V. induction F as [|x L Vx F IH]; cbn; [reflexivity|]. rewrite revent_lt_key by assumption. rewrite IH. reflexivity.
Qed.
Lemma nth_firstn {A} n : forall (l : list A) i, (i < n)%nat -> nth_error (firstn n l) i = nth_error l i.
Proof. induction n as [|n IH]; intros l i H; [lia|]. destruct l, i; cbn; try reflexivity. apply IH. lia. Qed.
Lemma nth_skipn {A} n : forall (l : list A) i, nth_error (skipn n l) i = nth_error l (n + i).
Proof. induction n as [|n IH]; intros l i; [reflexivity|]. destruct l; cbn; [destruct i; reflexivity|apply IH]. Qed.
Lemma firstn_S_nth {A} (l : list A) n x : nth_error l n = Some x -> firstn (S n) l = firstn n l ++ [x].
Proof. revert l. induction n as [|n IH]; intros [|y l] H; try discriminate; cbn in *; [injection H as ->; reflexivity|]. rewrite <- IH by exact H. reflexivity. Qed.
Lemma skipn_S_nth {A} (l : list A) n x : nth_error l n = Some x -> skipn n l = x :: skipn (S n) l.
Proof. revert l. induction n as [|n IH]; intros [|y l] H; try discriminate; cbn in *; [injection H as ->; reflexivity|]. apply IH. exact H. Qed.

Section Run.
Variable sort_events : list revent -> list revent.
Variable sort_new : list (revent * nat) -> list (revent * nat).
Hypothesis SE : sorts_valid valid revent_lt sort_events.
Hypothesis SN : sorts_valid (fun en => valid (fst en)) new_lt sort_new.
Variable pts : list rpoint.
Variable wbits width height : Z.
Variable es : list cseg.
Hypothesis ES : Forall (fun s => py (sg_pa s) < py (sg_pb s)) es.
Definition base : list revent := all_events 1 es.

Notation rnext := (rnext sort_events sort_new).

(** ** The queue *)
Definition ahead (st : rstate) (e : revent) : Prop :=
  exists c, current st = Some c /\ lt_k (key c) (key e) = true.
(** Events L in order, new ones J behind them, c the number of finished events. *)
Record queue_ok (st : rstate) (L J : list revent) (c : nat) : Prop := {
  qo_events : rs_events st = L ++ J;
  qo_last : rs_last st = length L;
  qo_cur : rs_cur st = Z.of_nat c;
  qo_len : (c <= length L)%nat;
  qo_sorted : in_order (map key L);
  qo_valid : Forall valid (L ++ J);
  qo_new : Forall (fun e => is_swap e = true) J;
  qo_ahead : Forall (fun e => exists x, nth_error L c = Some x /\ lt_k (key x) (key e) = true) J }.

Lemma current_at st L J c x : queue_ok st L J c -> nth_error L c = Some x -> current st = Some x.
Proof.
  intros Q H. unfold current. rewrite (qo_cur _ _ _ _ Q), (qo_events _ _ _ _ Q). destruct (Z.ltb_spec (Z.of_nat c) 0); [lia|]. rewrite Nat2Z.id.
  rewrite nth_error_app1; [exact H|]. apply nth_error_Some. congruence.
Qed.

Lemma new_ahead L e c x : in_order (map key L) -> nth_error L c = Some x -> lt_k (key x) (key e) = true -> (S c <= lower_bound lt_key L e)%nat.
Proof.
  intros SRT N H. destruct (EventsProofs.lower_bound_spec revent rkey key lt_k key_swo L e SRT) as (_ & _ & U).
  destruct (le_lt_dec (S c) (lower_bound lt_key L e)) as [?|G]; [assumption|exfalso].
  assert (I : In x (skipn (lower_bound lt_key L e) L)).
  { apply nth_error_In with (n := (c - lower_bound lt_key L e)%nat). rewrite nth_skipn. replace (lower_bound lt_key L e + (c - lower_bound lt_key L e))%nat with c by lia. exact N. }
  apply U in I. unfold EventsSpec.not_after in I. congruence.
Qed.

Lemma rnext_ok st L J c x : queue_ok st L J c -> nth_error L c = Some x ->
  exists st' L', rnext st = Some st' /\ queue_ok st' L' [] (S c) /\ firstn (S c) L' = firstn (S c) L /\ Permutation L' (L ++ J) /\
    rs_sweep st' = rs_sweep st /\ rs_nodes st' = rs_nodes st /\ (rs_ok st' = true -> rs_ok st = true).
Proof.
  intros Q N. assert (CL : (c < length L)%nat) by (apply nth_error_Some; congruence).
  unfold RasterModel.rnext. cbv zeta. unfold check, with_events. cbn [rs_events rs_last rs_cur rs_sweep rs_nodes rs_ok]. rewrite (qo_events _ _ _ _ Q), (qo_last _ _ _ _ Q).
  pose proof (qo_valid _ _ _ _ Q) as V. pose proof (qo_sorted _ _ _ _ Q) as SRT.
  destruct J as [|j J'] eqn:EJ.
  - rewrite app_nil_r. destruct (Nat.ltb_spec (length L) (length L)); [lia|]. eexists. exists L. split; [reflexivity|].
    split; [|split; [reflexivity|split; [reflexivity|split; [reflexivity|split; [reflexivity|cbn; rewrite andb_true_iff; tauto]]]]].
    unfold check, with_events; cbn [rs_events rs_last rs_cur rs_sweep rs_nodes rs_ok]. destruct Q. constructor; cbn; rewrite ?app_nil_r in *; try assumption; try reflexivity; try lia.
    constructor.
  - rewrite <- EJ in *. assert (JN : J <> []) by (rewrite EJ; discriminate). assert (JL : (0 < length J)%nat) by (rewrite EJ; cbn; lia). clear EJ j J'.
    rewrite app_length. destruct (Nat.ltb_spec (length L) (length L + length J)); [|lia]. destruct (Nat.eqb_spec (length L) 0); [lia|].
    rewrite firstn_app, firstn_all, Nat.sub_diag, firstn_O, app_nil_r. rewrite skipn_app, skipn_all, Nat.sub_diag. cbn [app skipn].
    set (found := map (fun e => (e, lower_bound revent_lt L e)) J).
    apply Forall_app in V as (VL & VJ).
    assert (VF : Forall (fun en => valid (fst en)) found).
    { unfold found. rewrite Forall_forall in *. intros y Y. apply in_map_iff in Y as (e & <- & Y). cbn. auto. }
    destruct (SN found VF) as (PN & SNs). set (l := sort_new found) in *.
    assert (Vl : Forall (fun en => valid (fst en)) l) by (eapply Permutation_Forall; eassumption).
    assert (FL : Forall (fun en => snd en = lower_bound lt_key L (fst en) /\ In (fst en) J) l).
    { eapply Permutation_Forall; [exact PN|]. unfold found. rewrite Forall_forall in *. intros y Y. apply in_map_iff in Y as (e & <- & Y). cbn. split; [apply lower_bound_valid; [apply Forall_forall; exact VL|auto]|exact Y]. }
    assert (G : EventsProofs.good_new revent rkey key lt_k L l).
    { split; [eapply Forall_impl; [|exact FL]; intros ? (? & _); assumption|].
      revert SNs. apply (sorted_ext _ _ _ _ Vl). intros a b Va Vb. unfold new_lt, EventsSpec.lt_new, EventsSpec.lt_ev. rewrite revent_lt_key by assumption. auto. }
    assert (LJ : length J = length l) by (rewrite <- (Permutation_length PN); unfold found; rewrite map_length; reflexivity).
    assert (LN : l <> []) by (intros E0; rewrite E0 in LJ; cbn in LJ; lia).
    assert (PF : Permutation (map fst l) J).
    { rewrite <- PN. unfold found. rewrite map_map. cbn. rewrite map_id. reflexivity. }
    destruct (EventsProofs.incorporate_ok revent rkey key lt_k key_swo L J l (rs_cur st) SRT G LJ LN) as (ev & IN & SV & PV & FV).
    unfold check, with_events; cbn [rs_events rs_last rs_cur rs_sweep rs_nodes rs_ok].
    rewrite IN. eexists. exists ev. split; [reflexivity|].
    cbn [rs_events rs_last rs_cur rs_sweep rs_nodes rs_ok EventsModel.q_events EventsModel.q_last].
    assert (PV' : Permutation ev (L ++ J)) by (rewrite PV, PF; reflexivity).
    split; [|split; [|split; [exact PV'|split; [reflexivity|split; [reflexivity|rewrite !andb_true_iff; tauto]]]]].
    + constructor; cbn; rewrite ?app_nil_r; try reflexivity; try assumption; try (constructor; fail).
      * rewrite (qo_cur _ _ _ _ Q). lia.
      * rewrite (Permutation_length PV'), app_length. lia.
      * eapply Permutation_Forall; [symmetry; exact PV'|]. apply Forall_app. split; assumption.
    + apply FV; [lia|]. intros (e, r) Y. rewrite Forall_forall in FL. destruct (FL _ Y) as (-> & YJ). cbn [fst].
      pose proof (qo_ahead _ _ _ _ Q) as AH. rewrite Forall_forall in AH. destruct (AH e YJ) as (x' & N' & LT). apply (new_ahead L e c x'); assumption.
Qed.

(** Adding a crossing. *)
Lemma push_ok st L J c x e : queue_ok st L J c -> nth_error L c = Some x -> is_swap e = true -> valid e -> lt_k (key x) (key e) = true ->
  queue_ok (push_event st e) L (J ++ [e]) c /\ rs_sweep (push_event st e) = rs_sweep st /\ rs_nodes (push_event st e) = rs_nodes st /\ (rs_ok (push_event st e) = true -> rs_ok st = true).
Proof.
  intros Q N SW V LT. unfold push_event, check, with_events. cbn. split; [|split; [reflexivity|split; [reflexivity|rewrite andb_true_iff; tauto]]].
  destruct Q. constructor; cbn; try assumption.
  - rewrite qo_events0, app_assoc. reflexivity.
  - rewrite app_assoc. apply Forall_app. split; [assumption|constructor; [exact V|constructor]].
  - apply Forall_app. split; [assumption|constructor; [exact SW|constructor]].
  - apply Forall_app. split; [assumption|constructor; [|constructor]]. eauto.
Qed.

(** What a handler may do. *)
Definition moved (st st' : rstate) (L J : list revent) (c : nat) : Prop :=
  exists J', queue_ok st' L (J ++ J') c /\ rs_nodes st' = rs_nodes st /\ (rs_ok st' = true -> rs_ok st = true).
Lemma check_int_ok st L J c x s1 s2 y st' : queue_ok st L J c -> nth_error L c = Some x -> is_swap x = false -> re_y x = y ->
  check_intersection st s1 s2 y = Some st' -> moved st st' L J c /\ rs_sweep st' = rs_sweep st.
Proof.
  intros Q N SW Y. unfold check_intersection. destruct (nth_error (rs_nodes st) s1) as [e1|]; [|discriminate]. destruct (nth_error (rs_nodes st) s2) as [e2|]; [|discriminate].
  assert (SAME : moved st st L J c) by (exists []; rewrite app_nil_r; auto).
  destruct (rintersects e1 e2) as [w|] eqn:R; [|intros E; injection E as <-; auto].
  destruct (rintersects_shape _ _ _ R) as (D & B).
  destruct (not_before w (wf_cmp_int w y)) eqn:NB; [|intros E; injection E as <-; auto].
  intros E. injection E as <-.
  destruct (push_ok st L J c x (swap_event s1 s2 w) Q N) as (P1 & P2 & P3 & P4); [reflexivity|intros _; exact D| |].
  - unfold lt_k, cmp_k, lex at 1. cbn [key fst snd ev_h]. unfold ev_h. rewrite SW. cbn [is_swap swap_event re_type re_intr].
    rewrite wf_cmp_int_h in NB by exact D. rewrite Y. rewrite (gc_sym _ cmp_h_good (wf_h w)). destruct (cmp_h (wf_h w) (y, 0%Q)); cbn in *; try discriminate; try reflexivity.
    unfold lex at 1. cbn [fst snd]. destruct x as [t a b yy n i]. destruct t; cbn in SW; try discriminate; reflexivity.
  - split; [exists [swap_event s1 s2 w]; auto|exact P2].
Qed.
Lemma moved_trans st st1 st2 L J c : moved st st1 L J c -> (forall J1, queue_ok st1 L J1 c -> moved st1 st2 L J1 c) -> moved st st2 L J c.
Proof.
  intros (J1 & Q & N & O) H. destruct (H _ Q) as (J2 & Q2 & N2 & O2). exists (J1 ++ J2). rewrite app_assoc. split; [exact Q2|]. split; [congruence|auto].
Qed.

(** Sequences. *)
Lemma existsb_in x l : existsb (Nat.eqb x) l = true <-> In x l.
Proof. rewrite existsb_exists. split; [intros (y & I & E); apply Nat.eqb_eq in E; subst; exact I|intros I; exists x; split; [exact I|apply Nat.eqb_refl]]. Qed.
Lemma put_before_perm pos x l : Permutation (put_before pos x l) (x :: l).
Proof. induction l as [|y l IH]; cbn; [reflexivity|]. destruct (Nat.eqb y pos); [reflexivity|]. rewrite IH. constructor. Qed.
Lemma erase_perm x l : NoDup l -> In x l -> Permutation (x :: erase_node x l) l.
Proof.
  induction l as [|y l IH]; [intros _ []|]. intros ND I. inversion ND; subst. unfold erase_node in *. cbn. destruct (Nat.eqb_spec y x) as [->|NE].
  - cbn. constructor. assert (E : filter (fun i => negb (Nat.eqb i x)) l = l).
    { clear -H1. induction l as [|z l IH]; [reflexivity|]. cbn. destruct (Nat.eqb_spec z x) as [->|]; [exfalso; apply H1; left; reflexivity|]. cbn. f_equal. apply IH. intros A. apply H1. right. exact A. }
    rewrite E. reflexivity.
  - cbn. destruct I as [<-|I]; [congruence|]. rewrite perm_swap. constructor. apply IH; assumption.
Qed.
Lemma perm_nodup {A} (l l' : list A) : Permutation l l' -> NoDup l -> NoDup l'.
Proof. intros P. apply Permutation_NoDup. exact P. Qed.

Lemma swap_ok f : forall st s1 s2 y st' L J c x, queue_ok st L J c -> NoDup (rs_sweep st) -> nth_error L c = Some x -> is_swap x = true -> re_intr x = y ->
  swap_and_check f st s1 s2 y = Some st' -> moved st st' L J c /\ Permutation (rs_sweep st') (rs_sweep st).
Proof.
  induction f as [|f IH]; intros st s1 s2 y st' L J c x Q ND N SW Y; [discriminate|].
  assert (Vx : valid x). { pose proof (qo_valid _ _ _ _ Q) as V. rewrite Forall_forall in V. apply V. apply in_or_app. left. eapply nth_error_In. exact N. }
  set (after := fun (st : rstate) (s1 s2 : nat) =>
    match nth_error (rs_nodes st) s1 with
    | Some e1 => match nth_error (rs_nodes st) s2 with
        | Some e2 => match rintersects e1 e2 with
            | Some w => if not_before w (wf_cmp w y) then if wf_eqb w y then swap_and_check f st s1 s2 y else Some (push_event st (swap_event s1 s2 w)) else Some st
            | None => Some st end
        | None => None end
    | None => None end).
  assert (EQ : swap_and_check (S f) st s1 s2 y =
    if negb (existsb (Nat.eqb s1) (rs_sweep st) && existsb (Nat.eqb s2) (rs_sweep st)) then None
    else if negb (opt_nat_eqb (next_of s1 (rs_sweep st)) (Some s2)) then Some st
    else
      let st := with_sweep st (put_before s1 s2 (erase_node s2 (rs_sweep st))) in
      match (match prev_of s2 (rs_sweep st) with Some p => after st p s2 | None => Some st end) with
      | None => None
      | Some st => match next_of s1 (rs_sweep st) with Some n => after st s1 n | None => Some st end
      end) by reflexivity.
  rewrite EQ. clear EQ.
  assert (AF : forall st J s1 s2 st', queue_ok st L J c -> NoDup (rs_sweep st) -> after st s1 s2 = Some st' -> moved st st' L J c /\ Permutation (rs_sweep st') (rs_sweep st)).
  { clear st J s1 s2 st' Q ND. intros st J s1 s2 st' Q ND. unfold after. destruct (nth_error (rs_nodes st) s1) as [e1|]; [|discriminate]. destruct (nth_error (rs_nodes st) s2) as [e2|]; [|discriminate].
    assert (SAME : moved st st L J c) by (exists []; rewrite app_nil_r; auto).
    destruct (rintersects e1 e2) as [w|] eqn:R; [|intros E; injection E as <-; auto].
    destruct (rintersects_shape _ _ _ R) as (D & B).
    destruct (not_before w (wf_cmp w y)) eqn:NB; [|intros E; injection E as <-; auto].
    destruct (wf_eqb w y) eqn:EQ; [intros E; eapply IH; eassumption|]. intros E. injection E as <-.
    assert (VY : frac_valid (wf_frac y)) by (rewrite <- Y; apply Vx; exact SW).
    destruct (push_ok st L J c x (swap_event s1 s2 w) Q N) as (P1 & P2 & P3 & P4); [reflexivity|intros _; exact D| |].
    - unfold lt_k, cmp_k, lex at 1. cbn [key fst snd]. unfold ev_h. rewrite SW. cbn [is_swap swap_event re_type re_intr].
      rewrite wf_cmp_h in NB by assumption. rewrite Y. rewrite (gc_sym _ cmp_h_good (wf_h w)). destruct (cmp_h (wf_h w) (wf_h y)) eqn:C; cbn in *; try discriminate; try reflexivity.
      exfalso. unfold cmp_h, lex, wf_h in C. cbn in C. unfold wf_eqb in EQ. destruct (Z.compare_spec (wf_whole w) (wf_whole y)) as [E0|E0|E0]; try discriminate.
      rewrite E0, Z.eqb_refl in EQ. cbn in EQ. apply Qeq_alt in C. apply (proj2 (frac_eqb_val _ _ D VY)) in C. congruence.
    - split; [exists [swap_event s1 s2 w]; auto|rewrite P2; reflexivity]. }
  destruct (existsb (Nat.eqb s1) (rs_sweep st) && existsb (Nat.eqb s2) (rs_sweep st)) eqn:EX; [|discriminate]. cbn [negb].
  destruct (negb (opt_nat_eqb (next_of s1 (rs_sweep st)) (Some s2))); [intros E; injection E as <-; split; [exists []; rewrite app_nil_r; auto|reflexivity]|].
  rewrite andb_true_iff, !existsb_in in EX. destruct EX as (_ & I2).
  cbv zeta. set (st1 := with_sweep st (put_before s1 s2 (erase_node s2 (rs_sweep st)))).
  assert (P1 : Permutation (rs_sweep st1) (rs_sweep st)) by (unfold st1; cbn; rewrite put_before_perm; apply erase_perm; assumption).
  assert (Q1 : queue_ok st1 L J c) by (destruct Q; constructor; assumption).
  assert (ND1 : NoDup (rs_sweep st1)) by (eapply perm_nodup; [symmetry; exact P1|exact ND]).
  assert (M1 : moved st st1 L J c) by (exists []; rewrite app_nil_r; auto).
  destruct (match prev_of s2 (rs_sweep st1) with Some p => after st1 p s2 | None => Some st1 end) as [st2|] eqn:E2; [|discriminate].
  assert (M2 : moved st1 st2 L J c /\ Permutation (rs_sweep st2) (rs_sweep st1)).
  { destruct (prev_of s2 (rs_sweep st1)); [eapply AF; eassumption|]. injection E2 as <-. split; [exists []; rewrite app_nil_r; auto|reflexivity]. }
  destruct M2 as (M2 & P2). destruct M2 as (J2 & Q2 & N2 & O2).
  assert (ND2 : NoDup (rs_sweep st2)) by (eapply perm_nodup; [symmetry; exact P2|exact ND1]).
  intros E3. assert (M3 : moved st2 st' L (J ++ J2) c /\ Permutation (rs_sweep st') (rs_sweep st2)).
  { destruct (next_of s1 (rs_sweep st2)); [eapply AF; eassumption|]. injection E3 as <-. split; [exists []; rewrite app_nil_r; auto|reflexivity]. }
  destruct M3 as ((J3 & Q3 & N3 & O3) & P3). split; [|rewrite P3, P2, P1; reflexivity].
  exists (J2 ++ J3). rewrite app_assoc. split; [exact Q3|]. split; [rewrite N3, N2; reflexivity|auto].
Qed.

(** ** Edges and events *)
Definition fwd (n : nat) (s : cseg) : revent := mk_revent RForward (sg_a s) (sg_b s) (py (sg_pa s)) n (wf_of_int 0).
Definition bwd (n : nat) (s : cseg) : revent := mk_revent RBackward (sg_b s) (sg_a s) (py (sg_pb s)) n (wf_of_int 0).
Lemma base_in l e : forall k, In e (all_events k l) <-> exists i s, nth_error l i = Some s /\ (e = fwd (k + i) s \/ e = bwd (k + i) s).
Proof.
  induction l as [|s l IH]; intros k; cbn [all_events fb_events app].
  - split; [intros []|intros (i & s & H & _); destruct i; discriminate].
  - cbn [In]. rewrite IH. split.
    + intros [<-|[<-|(i & s' & H & E)]]; [exists O, s; rewrite Nat.add_0_r; auto|exists O, s; rewrite Nat.add_0_r; auto|].
      exists (S i), s'. replace (k + S i)%nat with (S k + i)%nat by lia. auto.
    + intros (i & s' & H & E). destruct i as [|i]; cbn in H; [injection H as ->; rewrite Nat.add_0_r in E; destruct E as [->| ->]; auto|].
      right. right. exists i, s'. replace (S k + i)%nat with (k + S i)%nat by lia. auto.
Qed.
Lemma base_nodup l : forall k, NoDup (all_events k l).
Proof.
  induction l as [|s l IH]; intros k; cbn [all_events fb_events app]; [constructor|].
  constructor; [|constructor; [|apply IH]].
  - intros [E|I]; [discriminate|]. apply base_in in I as (i & s' & _ & [E|E]); [|discriminate]. unfold fwd in E. injection E. lia.
  - intros I. apply base_in in I as (i & s' & _ & [E|E]); [discriminate|]. unfold bwd in E. injection E. lia.
Qed.
Lemma base_nonswap e : In e base -> is_swap e = false.
Proof. intros I. apply base_in in I as (i & s & _ & [->| ->]); reflexivity. Qed.

Definition edge_at (n : nat) : option cseg := match n with O => None | S i => nth_error es i end.

(** The state between two events. *)
Record settled (st : rstate) (L : list revent) (c : nat) : Prop := {
  se_queue : queue_ok st L [] c;
  se_base : Permutation (filter nonswap L) base;
  se_nodes : rs_nodes st = dummy_node :: es;
  se_nodup : NoDup (rs_sweep st);
  se_in : forall n, In n (rs_sweep st) <-> exists s, edge_at n = Some s /\ In (fwd n s) (firstn c L) /\ ~ In (bwd n s) (firstn c L) }.

Lemma in_base_nonswap L e : Permutation (filter nonswap L) base -> In e L -> is_swap e = false -> In e base.
Proof. intros P I SRT. eapply Permutation_in; [exact P|]. apply filter_In. rewrite SRT. auto. Qed.
Lemma nodup_split L c : Permutation (filter nonswap L) base -> forall e, is_swap e = false -> In e (firstn c L) -> In e (skipn c L) -> False.
Proof.
  intros P e SRT I1 I2. assert (ND : NoDup (filter nonswap L)) by (eapply perm_nodup; [symmetry; exact P|apply base_nodup]).
  rewrite <- (firstn_skipn c L), filter_app in ND. 
  assert (forall (A : Type) (x : A) l1 l2, NoDup (l1 ++ l2) -> In x l1 -> In x l2 -> False) as D.
  { intros A x l1. induction l1 as [|a l1 IH]; intros l2 H [] H2; cbn in H; inversion H; subst; [apply H4; apply in_or_app; auto|eapply IH; eassumption]. }
  eapply D; [exact ND|apply filter_In; rewrite SRT; auto|apply filter_In; rewrite SRT; auto].
Qed.
Lemma edge_fwd n s : edge_at n = Some s -> In (fwd n s) base /\ In (bwd n s) base.
Proof. destruct n; [discriminate|]. cbn. intros H. split; apply base_in; exists n, s; auto. Qed.
Lemma base_edge e : In e base -> exists s, edge_at (re_node e) = Some s /\ (e = fwd (re_node e) s \/ e = bwd (re_node e) s).
Proof. intros I. apply base_in in I as (i & s & H & [->| ->]); exists s; cbn [re_node fwd bwd Nat.add edge_at]; auto. Qed.
Lemma edge_y n s : edge_at n = Some s -> py (sg_pa s) < py (sg_pb s).
Proof. destruct n; [discriminate|]. cbn. intros H. rewrite Forall_forall in ES. apply ES. eapply nth_error_In. exact H. Qed.
Lemma sorted_nth L i j x y : in_order (map key L) -> (i <= j)%nat -> nth_error L i = Some x -> nth_error L j = Some y -> le_k (key x) (key y).
Proof.
  intros SRT IJ X Y. destruct (Nat.eq_dec i j) as [->|NE]. { rewrite X in Y. injection Y as <-. unfold EventsSpec.not_after. unfold lt_k. assert (cmp_k (key x) (key x) = Eq) as ->; [|reflexivity].
    pose proof (gc_sym _ cmp_k_good (key x) (key x)) as G. destruct (cmp_k (key x) (key x)); cbn in G; congruence. }
  rewrite <- (firstn_skipn j L), map_app in SRT. apply (EventsProofs.srt_app rkey lt_k) in SRT as (_ & _ & SRT). apply SRT; apply in_map.
  - apply nth_error_In with (n := i). rewrite nth_firstn by lia. exact X.
  - apply nth_error_In with (n := O). rewrite nth_skipn, Nat.add_0_r. exact Y.
Qed.

(** One event is finished. *)
Lemma finish st st1 L J c x : settled st L c -> nth_error L c = Some x ->
  queue_ok st1 L J c -> rs_nodes st1 = rs_nodes st -> NoDup (rs_sweep st1) ->
  (forall n, In n (rs_sweep st1) <-> exists s, edge_at n = Some s /\ In (fwd n s) (firstn (S c) L) /\ ~ In (bwd n s) (firstn (S c) L)) ->
  forall st2, rnext st1 = Some st2 -> exists L', settled st2 L' (S c) /\ firstn (S c) L' = firstn (S c) L /\ (rs_ok st2 = true -> rs_ok st1 = true) /\ rs_sweep st2 = rs_sweep st1.
Proof.
  intros ST N Q NO ND IN st2 R. destruct (rnext_ok st1 L J c x Q N) as (st' & L' & R' & Q' & F & P & SW & NO' & OK). rewrite R in R'. injection R' as <-.
  exists L'. split; [|auto]. constructor; try assumption.
  - rewrite (filter_perm _ _ _ P), filter_app. assert (E : filter nonswap J = []).
    { pose proof (qo_new _ _ _ _ Q) as FJ. clear -FJ. induction FJ as [|e J S F IH]; [reflexivity|]. cbn. rewrite S. exact IH. }
    rewrite E, app_nil_r. apply (se_base _ _ _ ST).
  - rewrite NO', NO. apply (se_nodes _ _ _ ST).
  - rewrite SW. exact ND.
  - intros n. rewrite SW, IN, F. reflexivity.
Qed.
Lemma cur_valid st L c x : settled st L c -> nth_error L c = Some x -> valid x.
Proof.
  intros ST N. pose proof (qo_valid _ _ _ _ (se_queue _ _ _ ST)) as V. rewrite Forall_forall in V. apply V. apply in_or_app. left. eapply nth_error_In. exact N.
Qed.
Lemma cur_in_skip L c (x : revent) : nth_error L c = Some x -> In x (skipn c L).
Proof. intros N. apply nth_error_In with (n := O). rewrite nth_skipn, Nat.add_0_r. exact N. Qed.

Definition handler_ok (t : rtype) (h : rstate -> revent -> option rstate) : Prop :=
  forall st L c x st1, settled st L c -> nth_error L c = Some x -> re_type x = t -> h st x = Some st1 ->
  exists J, queue_ok st1 L J c /\ rs_nodes st1 = rs_nodes st /\ NoDup (rs_sweep st1) /\ (rs_ok st1 = true -> rs_ok st = true) /\
  (forall n, In n (rs_sweep st1) <-> exists s, edge_at n = Some s /\ In (fwd n s) (firstn (S c) L) /\ ~ In (bwd n s) (firstn (S c) L)).

Lemma swap_handler f : handler_ok RSwap (on_swap f).
Proof.
  intros st L c x st1 ST N T H. assert (SW : is_swap x = true) by (unfold is_swap; rewrite T; reflexivity).
  destruct (swap_ok f st _ _ _ st1 L [] c x (se_queue _ _ _ ST) (se_nodup _ _ _ ST) N SW eq_refl H) as ((J & Q & NO & OK) & P).
  exists J. split; [exact Q|]. split; [exact NO|]. split; [eapply perm_nodup; [symmetry; exact P|apply ST]|]. split; [exact OK|].
  intros n. rewrite (firstn_S_nth L c x N). assert (E : In n (rs_sweep st1) <-> In n (rs_sweep st)) by (split; apply Permutation_in; [exact P|symmetry; exact P]).
  rewrite E, (se_in _ _ _ ST). assert (X1 : forall s, ~ In (fwd n s) [x]) by (intros s [X|[]]; rewrite X in T; discriminate). assert (X2 : forall s, ~ In (bwd n s) [x]) by (intros s [X|[]]; rewrite X in T; discriminate).
  split; intros (s & A & B & C); exists s; rewrite !in_app_iff in *; split; try assumption; specialize (X1 s); specialize (X2 s); tauto.
Qed.
Lemma back_handler : handler_ok RBackward on_backward.
Proof.
  intros st L c x st1 ST N T H. assert (SW : is_swap x = false) by (unfold is_swap; rewrite T; reflexivity).
  assert (IB : In x base) by (apply (in_base_nonswap L); [apply ST|eapply nth_error_In; exact N|exact SW]).
  apply base_edge in IB as (s & E & [X|X]); [exfalso; rewrite X in T; discriminate|].
  set (n := re_node x) in *. unfold on_backward in H. fold n in H. destruct (existsb (Nat.eqb n) (rs_sweep st)) eqn:EX; [|discriminate]. cbn [negb] in H. apply existsb_in in EX.
  set (st0 := with_sweep st (erase_node n (rs_sweep st))) in *.
  assert (Q0 : queue_ok st0 L [] c) by (destruct (se_queue _ _ _ ST); constructor; assumption).
  assert (M : moved st0 st1 L [] c /\ rs_sweep st1 = rs_sweep st0).
  { destruct (prev_of n (rs_sweep st)) as [p|], (next_of n (rs_sweep st)) as [q|]; try (injection H as <-; split; [exists []; auto|reflexivity]).
    eapply check_int_ok; [exact Q0|exact N|exact SW|reflexivity|exact H]. }
  destruct M as ((J & Q & NO & OK) & SWP). exists J. split; [exact Q|]. split; [exact NO|].
  pose proof (erase_perm n (rs_sweep st) (se_nodup _ _ _ ST) EX) as P.
  assert (ND : NoDup (n :: erase_node n (rs_sweep st))) by (eapply perm_nodup; [symmetry; exact P|apply ST]). apply NoDup_cons_iff in ND as (ND1 & ND2).
  rewrite SWP. split; [exact ND2|]. split; [exact OK|]. intros m. rewrite (firstn_S_nth L c x N). cbn [st0 rs_sweep with_sweep].
  destruct (Nat.eq_dec m n) as [->|NE].
  - split; [tauto|]. intros (s' & E' & _ & C). rewrite E in E'. injection E' as <-. exfalso. apply C. apply in_or_app. right. left. exact X.
  - assert (IFF : In m (erase_node n (rs_sweep st)) <-> In m (rs_sweep st)).
    { split; [intros I; eapply Permutation_in; [exact P|right; exact I]|]. intros I. apply (Permutation_in _ (Permutation_sym P)) in I as [I|I]; [congruence|exact I]. }
    rewrite IFF, (se_in _ _ _ ST). rewrite X. split; intros (s' & A & B & C); exists s'; rewrite !in_app_iff in *; split; try assumption; split.
    + tauto.
    + intros [?|[E0|[]]]; [tauto|]. injection E0. intros. congruence.
    + destruct B as [?|[E0|[]]]; [assumption|discriminate].
    + tauto.
Qed.
Lemma insert_sorted_perm nodes cur n e l : forall l', insert_sorted nodes cur n e l = Some l' -> Permutation l' (n :: l).
Proof.
  induction l as [|x l IH]; intros l'; cbn [insert_sorted]; [intros E; injection E as <-; reflexivity|].
  destruct (nth_error nodes x) as [ex|]; [|discriminate]. destruct (rsweep_cmp cur e ex); [intros E; injection E as <-; reflexivity|].
  destruct (insert_sorted nodes cur n e l) as [l0|]; [|discriminate]. cbn. intros E. injection E as <-. rewrite (IH l0 eq_refl). constructor.
Qed.
Lemma fwd_handler y : handler_ok RForward (on_forward y).
Proof.
  intros st L c x st1 ST N T H. assert (SW : is_swap x = false) by (unfold is_swap; rewrite T; reflexivity).
  assert (IB : In x base) by (apply (in_base_nonswap L); [apply ST|eapply nth_error_In; exact N|exact SW]).
  pose proof IB as IB'. apply base_edge in IB as (s & E & [X|X]); [|exfalso; rewrite X in T; discriminate].
  set (n := re_node x) in *. unfold on_forward in H. fold n in H.
  destruct (nth_error (rs_nodes st) n) as [se|]; [|discriminate]. destruct (insert_sorted (rs_nodes st) y n se (rs_sweep st)) as [sw|] eqn:IS; [|discriminate].
  set (st0 := with_sweep st sw) in *. assert (Q0 : queue_ok st0 L [] c) by (destruct (se_queue _ _ _ ST); constructor; assumption).
  assert (M : moved st0 st1 L [] c /\ rs_sweep st1 = sw).
  { destruct (match prev_of n sw with Some p => check_intersection st0 p n (re_y x) | None => Some st0 end) as [st2|] eqn:E2; [|discriminate].
    assert (M2 : moved st0 st2 L [] c /\ rs_sweep st2 = sw).
    { destruct (prev_of n sw); [eapply (check_int_ok st0 L [] c x); try eassumption; reflexivity|]. injection E2 as <-. split; [exists []; auto|reflexivity]. }
    destruct M2 as (M2 & S2). pose proof M2 as (J2 & Q2 & N2 & O2).
    assert (M3 : moved st2 st1 L ([] ++ J2) c /\ rs_sweep st1 = rs_sweep st2).
    { destruct (next_of n sw); [eapply (check_int_ok st2 L _ c x); try eassumption; reflexivity|]. injection H as <-. split; [exists []; rewrite app_nil_r; auto|reflexivity]. }
    destruct M3 as ((J3 & Q3 & N3 & O3) & S3). split; [|congruence]. exists (J2 ++ J3). rewrite app_assoc. split; [exact Q3|]. split; [congruence|auto]. }
  destruct M as ((J & Q & NO & OK) & SWP). exists J. split; [exact Q|]. split; [exact NO|].
  pose proof (insert_sorted_perm _ _ _ _ _ _ IS) as P.
  assert (NI : ~ In n (rs_sweep st)).
  { rewrite (se_in _ _ _ ST). intros (s' & E' & B & _). rewrite E in E'. injection E' as <-. rewrite <- X in B.
    apply (nodup_split L c (se_base _ _ _ ST) x SW B). apply cur_in_skip. exact N. }
  rewrite SWP. split; [eapply perm_nodup; [symmetry; exact P|constructor; [exact NI|apply ST]]|]. split; [exact OK|]. intros m. rewrite (firstn_S_nth L c x N).
  assert (IFF : In m sw <-> n = m \/ In m (rs_sweep st)).
  { split; [intros I; apply (Permutation_in _ P) in I; exact I|intros I; apply (Permutation_in _ (Permutation_sym P)); exact I]. }
  rewrite IFF, (se_in _ _ _ ST). split.
  - intros [<-|(s' & A & B & C)].
    + exists s. split; [exact E|]. split; [apply in_or_app; right; left; exact X|]. rewrite in_app_iff. intros [I|[I|[]]].
      * apply In_nth_error in I as (i & I). assert (i < c)%nat. { assert (i < length (firstn c L))%nat by (apply nth_error_Some; congruence). rewrite firstn_length in *. lia. }
        rewrite nth_firstn in I by assumption. pose proof (sorted_nth L i c _ _ (qo_sorted _ _ _ _ (se_queue _ _ _ ST)) ltac:(lia) I N) as LE.
        unfold EventsSpec.not_after, lt_k in LE. rewrite X in LE. unfold cmp_k, lex at 1, key in LE. cbn [fst snd ev_h] in LE. unfold ev_h, cmp_h, lex at 1 in LE. cbn [is_swap fwd bwd re_type re_y fst snd] in LE.
        pose proof (edge_y _ _ E) as Y. destruct (Z.compare_spec (py (sg_pa s)) (py (sg_pb s))); lia || discriminate.
      * rewrite I in T. discriminate.
    + exists s'. split; [exact A|]. split; [apply in_or_app; auto|]. rewrite in_app_iff. intros [?|[I|[]]]; [tauto|]. rewrite I in T. discriminate.
  - intros (s' & A & B & C). destruct (Nat.eq_dec n m) as [EQ|NE]; [left; exact EQ|right]. exists s'. split; [exact A|]. rewrite in_app_iff in B, C.
    split; [|tauto]. destruct B as [?|[I|[]]]; [assumption|]. exfalso. apply NE. unfold n. rewrite I. reflexivity.
Qed.

(** ** The loops of a row *)
Definition rest (L : list revent) (c : nat) : list revent := skipn c L.
(** Nothing at or before row y is left, apart from swaps. *)
Definition fin (y : Z) (L : list revent) (c : nat) : Prop := forall e, In e (skipn c L) -> is_swap e = false -> y < re_y e.
Definition from (y : Z) (L : list revent) (c : nat) : Prop := forall e, In e (skipn c L) -> is_swap e = false -> y <= re_y e.
(** Everything left is at least at (y, k). *)
Definition above (y : Z) (k : nat) (L : list revent) (c : nat) : Prop :=
  forall e, In e (skipn c L) -> lex cmp_h Nat.compare ((y, 0%Q), k) (ev_h e, rrank (re_type e)) <> Gt.
Definition upto (y : Z) (L : list revent) (c : nat) : Prop := forall e, In e (firstn c L) -> is_swap e = false -> re_y e <= y.

Lemma nonswap_rest L L' c : Permutation (filter nonswap L) base -> Permutation (filter nonswap L') base -> firstn c L' = firstn c L ->
  forall e, is_swap e = false -> In e (skipn c L') -> In e (skipn c L).
Proof.
  intros P P' F e SRT I. assert (IB : In e (filter nonswap L)). { eapply Permutation_in; [symmetry; exact P|]. eapply Permutation_in; [exact P'|]. apply filter_In. rewrite SRT. split; [|reflexivity]. rewrite <- (firstn_skipn c L'). apply in_or_app. auto. }
  apply filter_In in IB as (IL & _). rewrite <- (firstn_skipn c L) in IL. apply in_app_or in IL as [IL|IL]; [|exact IL].
  exfalso. rewrite <- F in IL. eapply nodup_split; eassumption.
Qed.
Lemma skipn_S_in {A} c (l : list A) x : In x (skipn (S c) l) -> In x (skipn c l).
Proof. revert l. induction c as [|c IH]; intros [|y l] I; cbn in *; auto. Qed.
Lemma le_k_lex x y : le_k (key x) (key y) -> lex cmp_h Nat.compare (ev_h x, rrank (re_type x)) (ev_h y, rrank (re_type y)) <> Gt.
Proof.
  unfold EventsSpec.not_after, lt_k. intros H. assert (G : cmp_k (key x) (key y) <> Gt).
  { rewrite (gc_sym _ cmp_k_good (key y)). destruct (cmp_k (key y) (key x)); cbn; congruence. }
  clear H. unfold cmp_k, lex at 1, key in G. cbn [fst snd] in G. unfold lex at 1. cbn [fst snd]. destruct (cmp_h (ev_h x) (ev_h y)); try exact G.
  unfold lex at 1 in G. cbn [fst snd] in G. destruct (Nat.compare (rrank (re_type x)) (rrank (re_type y))); try exact G; discriminate.
Qed.
Lemma hr_good : good_cmp (lex cmp_h Nat.compare).
Proof. apply lex_good; [apply cmp_h_good|apply nat_good]. Qed.
Lemma above_next y k L c x : in_order (map key L) -> nth_error L c = Some x -> lex cmp_h Nat.compare ((y, 0%Q), k) (ev_h x, rrank (re_type x)) <> Gt ->
  above y k L c.
Proof.
  intros SRT N H e I. apply In_nth_error in I as (i & I). rewrite nth_skipn in I.
  eapply (gc_trans _ hr_good); [exact H|]. apply le_k_lex. eapply sorted_nth; [exact SRT| |exact N|exact I]. lia.
Qed.
Lemma above_mono y k L c : in_order (map key L) -> forall L', in_order (map key L') -> firstn (S c) L' = firstn (S c) L -> (c < length L)%nat -> above y k L c -> above y k L' (S c).
Proof.
  intros SRT L' S' F LC A e I. destruct (nth_error L c) as [x|] eqn:N; [|apply nth_error_None in N; lia].
  assert (N' : nth_error L' c = Some x) by (rewrite <- (nth_firstn (Datatypes.S c)) by lia; rewrite F, nth_firstn by lia; exact N).
  assert (AX := A x (cur_in_skip _ _ _ N)). exact (above_next y k L' c x S' N' AX e (skipn_S_in _ _ _ I)).
Qed.

Lemma loop_ok t h y : handler_ok t h -> forall f st L c st', settled st L c -> event_loop sort_events sort_new t h y f st = Some st' ->
  exists L' c', settled st' L' c' /\ (c <= c')%nat /\
    (at_end st' = true \/ exists e, nth_error L' c' = Some e /\ (at_or_before e y = false \/ re_type e <> t)) /\
    (fin y L c -> fin y L' c') /\ (from y L c -> from y L' c') /\ (forall k, above y k L c -> above y k L' c') /\ (upto y L c -> upto y L' c') /\
    (rs_ok st' = true -> rs_ok st = true).
Proof.
  intros H. induction f as [|f IH]; intros st L c st' ST E.
  all: cbn [event_loop] in E; destruct (at_end st) eqn:AE; [injection E as <-; exists L, c; split; [exact ST|]; split; [lia|]; split; [auto|]; tauto|].
  all: pose proof (se_queue _ _ _ ST) as Q; unfold at_end in AE; rewrite (qo_events _ _ _ _ Q), (qo_cur _ _ _ _ Q), app_nil_r in AE; apply Z.leb_gt in AE.
  all: destruct (nth_error L c) as [x|] eqn:N; [|apply nth_error_None in N; lia]; rewrite (current_at st L [] c x Q N) in E.
  all: destruct (at_or_before x y && is_type t x) eqn:C; [|injection E as <-; exists L, c; split; [exact ST|]; split; [lia|]; split; [|tauto]; right; exists x; split; [exact N|];
    apply andb_false_iff in C as [C|C]; [left; exact C|right; intros T; unfold is_type, rtype_eqb in C; rewrite T, Nat.eqb_refl in C; discriminate]].
  all: apply andb_true_iff in C as (C1 & C2).
  - discriminate.
  - destruct (h st x) as [st1|] eqn:E1; [|discriminate]. destruct (rnext st1) as [st2|] eqn:E2; [|discriminate].
    assert (T : re_type x = t) by (unfold is_type, rtype_eqb in C2; apply Nat.eqb_eq in C2; destruct (re_type x), t; cbn in C2; congruence).
    destruct (H st L c x st1 ST N T E1) as (J & Q1 & NO & ND & OK & IN).
    destruct (finish st st1 L J c x ST N Q1 NO ND IN st2 E2) as (L1 & ST1 & F1 & OK1 & _).
    destruct (IH st2 L1 (S c) st' ST1 E) as (L' & c' & A1 & A2 & A3 & A4 & A5 & A6 & A7 & A8). exists L', c'.
    split; [exact A1|]. split; [lia|]. split; [exact A3|].
    assert (NR : forall e, is_swap e = false -> In e (skipn (S c) L1) -> In e (skipn c L)).
    { intros e SW I. apply skipn_S_in. eapply nonswap_rest; [apply ST|apply ST1|exact F1|exact SW|exact I]. }
    split; [intros G; apply A4; intros e I SW; apply G; auto|]. split; [intros G; apply A5; intros e I SW; apply G; auto|].
    split; [intros k G; apply A6; eapply above_mono; [apply Q|apply (se_queue _ _ _ ST1)|exact F1|lia|exact G]|].
    split; [|auto]. intros G. apply A7. intros e I SW. rewrite F1, (firstn_S_nth L c x N) in I. apply in_app_or in I as [I|[<-|[]]]; [apply G; assumption|].
    unfold at_or_before in C1. rewrite SW in C1. apply Z.leb_le. exact C1.
Qed.

Lemma lex_ns y k e : is_swap e = false -> lex cmp_h Nat.compare ((y, 0%Q), k) (ev_h e, rrank (re_type e)) <> Gt -> y < re_y e \/ (y = re_y e /\ (k <= rrank (re_type e))%nat).
Proof.
  intros SRT. unfold lex at 1. cbn [fst snd]. unfold ev_h. rewrite SRT. unfold cmp_h, lex. cbn [fst snd].
  destruct (Z.compare_spec y (re_y e)) as [E|E|E]; cbn; try congruence; [|lia].
  intros G. right. split; [exact E|]. destruct (Nat.compare_spec k (rrank (re_type e))); try lia. congruence.
Qed.
Lemma not_before_fin y L c e : in_order (map key L) -> nth_error L c = Some e -> valid e -> at_or_before e y = false -> fin y L c.
Proof.
  intros SRT N V A x I SX. assert (G : cmp_h (ev_h e) (y, 0%Q) = Gt).
  { destruct (cmp_h (ev_h e) (y, 0%Q)) eqn:C; [exfalso|exfalso|reflexivity]; (assert (cmp_h (ev_h e) (y, 0%Q) <> Gt) as X by congruence); apply (proj2 (at_or_before_h e y V)) in X; congruence. }
  apply In_nth_error in I as (i & I). rewrite nth_skipn in I. pose proof (sorted_nth L c (c + i) e x SRT ltac:(lia) N I) as LE. apply le_k_lex in LE.
  assert (LT : cmp_h (y, 0%Q) (ev_h e) = Lt) by (rewrite (gc_sym _ cmp_h_good (ev_h e)), G; reflexivity).
  assert (cmp_h (ev_h e) (ev_h x) <> Gt) as LE' by (unfold lex in LE at 1; cbn [fst snd] in LE; destruct (cmp_h (ev_h e) (ev_h x)); congruence).
  pose proof (gc_mixed _ _ _ _ cmp_h_good LT LE') as R. unfold ev_h in R. rewrite SX in R. unfold cmp_h, lex in R. cbn in R. destruct (Z.compare_spec y (re_y x)); try discriminate. assumption.
Qed.
Lemma at_end_rest st L c : settled st L c -> at_end st = true -> skipn c L = [].
Proof.
  intros ST A. pose proof (se_queue _ _ _ ST) as Q. unfold at_end in A. rewrite (qo_events _ _ _ _ Q), (qo_cur _ _ _ _ Q), app_nil_r in A. apply Z.leb_le in A.
  apply skipn_all2. lia.
Qed.

Definition row_state (y : Z) (st : rstate) (L : list revent) (c : nat) : Prop := settled st L c /\ from y L c /\ upto (y - 1) L c.
Definition row_done (y : Z) (st : rstate) (L : list revent) (c : nat) : Prop := settled st L c /\ fin y L c /\ upto y L c.

Lemma row_ok y f st L c s1 s2 s3 : row_state y st L c ->
  event_loop sort_events sort_new RSwap (on_swap f) y f st = Some s1 ->
  event_loop sort_events sort_new RBackward on_backward y f s1 = Some s2 ->
  event_loop sort_events sort_new RForward (on_forward y) y f s2 = Some s3 ->
  exists L3 c3, row_done y s3 L3 c3 /\ (rs_ok s3 = true -> rs_ok st = true).
Proof.
  intros (ST & FR & UP) E1 E2 E3.
  destruct (loop_ok RSwap (on_swap f) y (swap_handler f) f st L c s1 ST E1) as (L1 & c1 & ST1 & _ & END1 & F1 & FR1 & A1 & U1 & O1).
  destruct (loop_ok RBackward on_backward y back_handler f s1 L1 c1 s2 ST1 E2) as (L2 & c2 & ST2 & _ & END2 & F2 & FR2 & A2 & U2 & O2).
  destruct (loop_ok RForward (on_forward y) y (fwd_handler y) f s2 L2 c2 s3 ST2 E3) as (L3 & c3 & ST3 & _ & END3 & F3 & FR3 & A3 & U3 & O3).
  assert (UP' : upto y L c) by (intros e I SW; specialize (UP e I SW); lia).
  specialize (FR1 FR). exists L3, c3. split; [|auto]. split; [exact ST3|]. split; [|auto].
  pose proof (qo_sorted _ _ _ _ (se_queue _ _ _ ST1)) as S1. pose proof (qo_sorted _ _ _ _ (se_queue _ _ _ ST2)) as S2. pose proof (qo_sorted _ _ _ _ (se_queue _ _ _ ST3)) as S3.
  assert (C1 : fin y L1 c1 \/ above y 0 L1 c1).
  { destruct END1 as [AE|(e & N & [B|B])].
    - left. intros e I. rewrite (at_end_rest _ _ _ ST1 AE) in I. destruct I.
    - left. exact (not_before_fin y L1 c1 e S1 N (cur_valid s1 L1 c1 e ST1 N) B).
    - right. apply (above_next y 0 L1 c1 e S1 N). assert (SW : is_swap e = false) by (unfold is_swap; destruct (re_type e); congruence).
      pose proof (FR1 e (cur_in_skip _ _ _ N) SW) as Y. unfold lex at 1. cbn [fst snd]. unfold ev_h. rewrite SW. unfold cmp_h, lex. cbn [fst snd].
      destruct (Z.compare_spec y (re_y e)) as [E0|E0|E0]; [|discriminate|lia]. cbn. destruct (rrank (re_type e)); discriminate. }
  destruct C1 as [C1|C1]; [auto|]. specialize (A2 0%nat C1).
  assert (C2 : fin y L2 c2 \/ above y 1 L2 c2).
  { destruct END2 as [AE|(e & N & [B|B])].
    - left. intros e I. rewrite (at_end_rest _ _ _ ST2 AE) in I. destruct I.
    - left. exact (not_before_fin y L2 c2 e S2 N (cur_valid s2 L2 c2 e ST2 N) B).
    - right. apply (above_next y 1 L2 c2 e S2 N). pose proof (A2 e (cur_in_skip _ _ _ N)) as G. unfold lex at 1 in G. unfold lex at 1. cbn [fst snd] in *.
      destruct (cmp_h (y, 0%Q) (ev_h e)); try congruence. destruct (re_type e); [congruence|cbn; discriminate|cbn; discriminate]. }
  destruct C2 as [C2|C2]; [auto|]. specialize (A3 1%nat C2).
  destruct END3 as [AE|(e & N & [B|B])].
  - intros e I. rewrite (at_end_rest _ _ _ ST3 AE) in I. destruct I.
  - exact (not_before_fin y L3 c3 e S3 N (cur_valid s3 L3 c3 e ST3 N) B).
  - assert (G : above y 2 L3 c3).
    { apply (above_next y 2 L3 c3 e S3 N). pose proof (A3 e (cur_in_skip _ _ _ N)) as G. unfold lex at 1 in G. unfold lex at 1. cbn [fst snd] in *.
      destruct (cmp_h (y, 0%Q) (ev_h e)); try congruence. destruct (re_type e); cbn in *; congruence. }
    intros x I SX. specialize (G x I). apply (lex_ns y 2 x SX) in G as [G|(_ & G)]; [exact G|]. unfold is_swap in SX. destruct (re_type x); cbn in *; try discriminate; lia.
Qed.

(** The sweep of a finished row: the active edges. *)
Definition on_row (y : Z) : list nat := filter (fun n => match edge_at n with Some s => active y s | None => false end) (seq 1 (length es)).
Lemma row_sweep y st L c : row_done y st L c -> Permutation (rs_sweep st) (on_row y).
Proof.
  intros (ST & FIN & UP). apply NoDup_Permutation; [apply ST|apply NoDup_filter, seq_NoDup|]. intros n. rewrite (se_in _ _ _ ST). unfold on_row. rewrite filter_In, in_seq.
  assert (WH : forall e, In e base -> is_swap e = false -> (In e (firstn c L) <-> re_y e <= y)).
  { intros e IB SW. split; [intros I; apply UP; assumption|]. intros Y. assert (I : In e L). { apply (Permutation_in _ (Permutation_sym (se_base _ _ _ ST))) in IB. apply filter_In in IB. tauto. }
    rewrite <- (firstn_skipn c L) in I. apply in_app_or in I as [I|I]; [exact I|]. specialize (FIN e I SW). lia. }
  split.
  - intros (s & E & A & B). rewrite E. destruct (edge_fwd n s E) as (IF & IB).
    split; [destruct n; [discriminate|]; cbn in E; assert (n < length es)%nat by (apply nth_error_Some; congruence); lia|].
    apply (WH _ IF eq_refl) in A. cbn in A. assert (B' : ~ re_y (bwd n s) <= y) by (intros X; apply B, (WH _ IB eq_refl), X). cbn in B'.
    unfold active. apply andb_true_iff. split; [apply Z.leb_le; exact A|apply Z.ltb_lt; lia].
  - intros (_ & A). destruct (edge_at n) as [s|] eqn:E; [|discriminate]. exists s. split; [reflexivity|]. destruct (edge_fwd n s E) as (IF & IB).
    unfold active in A. apply andb_true_iff in A as (A1 & A2). apply Z.leb_le in A1. apply Z.ltb_lt in A2.
    split; [apply (WH _ IF eq_refl); exact A1|]. intros X. apply (WH _ IB eq_refl) in X. cbn in X. lia.
Qed.
Lemma row_done_next y st L c : row_done y st L c -> row_state (y + 1) st L c.
Proof. intros (ST & FIN & UP). split; [exact ST|]. split; [intros e I SW; specialize (FIN e I SW); lia|intros e I SW; specialize (UP e I SW); lia]. Qed.
Lemma at_end_none y st L c : row_state y st L c -> at_end st = true -> forall z n s, y <= z -> edge_at n = Some s -> active z s = false.
Proof.
  intros (ST & FR & UP) AE z n s YZ E. destruct (edge_fwd n s E) as (_ & IB). apply (Permutation_in _ (Permutation_sym (se_base _ _ _ ST))) in IB. apply filter_In in IB as (I & _).
  rewrite <- (firstn_skipn c L), (at_end_rest _ _ _ ST AE), app_nil_r in I. specialize (UP _ I eq_refl). cbn in UP. unfold active. destruct (Z.ltb_spec z (py (sg_pb s))); [lia|]. apply andb_false_r.
Qed.

Lemma check_state b st L c y : row_done y st L c -> row_done y (check b st) L c.
Proof. intros (ST & A & B). split; [|auto]. destruct ST as [Q P N ND I]. constructor; try assumption. destruct Q; constructor; assumption. Qed.

Lemma rows_ok f n : forall y st L c out st', row_state y st L c -> rows sort_events sort_new pts wbits width f n y st = Some (out, st') ->
  (forall i z sw spans, nth_error out i = Some (z, sw, spans) ->
     z = y + Z.of_nat i /\ (i < n)%nat /\ Permutation sw (on_row z) /\ (rs_ok st' = true -> consistent (dummy_node :: es) z sw = true) /\
     (if 0 <=? z then row_spans pts wbits width (dummy_node :: es) z sw 0 0 else Some []) = Some spans) /\
  (forall z, y + Z.of_nat (length out) <= z < y + Z.of_nat n -> forall k s, edge_at k = Some s -> active z s = false) /\
  (rs_ok st' = true -> rs_ok st = true).
Proof.
  induction n as [|n IH]; intros y st L c out st' RS; cbn [rows].
  - intros E. injection E as <- <-. split; [intros [|i] z sw spans E; discriminate|]. split; [intros z; cbn; lia|auto].
  - destruct (at_end st) eqn:AE.
    + intros E. injection E as <- <-. split; [intros [|i] z sw spans E; discriminate|]. split; [|auto]. intros z Z k s E. eapply at_end_none; try eassumption. cbn in Z. lia.
    + destruct (event_loop sort_events sort_new RSwap (on_swap f) y f st) as [s1|] eqn:E1; [|discriminate].
      destruct (event_loop sort_events sort_new RBackward on_backward y f s1) as [s2|] eqn:E2; [|discriminate].
      destruct (event_loop sort_events sort_new RForward (on_forward y) y f s2) as [s3|] eqn:E3; [|discriminate].
      destruct (row_ok y f st L c s1 s2 s3 RS E1 E2 E3) as (L3 & c3 & RD & OK).
      set (b := _ && consistent (rs_nodes s3) y (rs_sweep s3)). pose proof (check_state b s3 L3 c3 y RD) as RD'.
      set (s4 := check b s3) in *. assert (NO : rs_nodes s4 = dummy_node :: es) by apply RD'. rewrite NO.
      destruct (if 0 <=? y then row_spans pts wbits width (dummy_node :: es) y (rs_sweep s4) 0 0 else Some []) as [spans|] eqn:ES'; [|discriminate].
      destruct (rows sort_events sort_new pts wbits width f n (y + 1) s4) as [(out', st0)|] eqn:ER; [|discriminate]. intros E. injection E as <- <-.
      destruct (IH (y + 1) s4 L3 c3 out' st0 (row_done_next _ _ _ _ RD') ER) as (B1 & B2 & B3).
      assert (OK4 : rs_ok st0 = true -> rs_ok s3 = true /\ b = true). { intros O. specialize (B3 O). unfold s4 in B3. cbn in B3. apply andb_true_iff in B3. exact B3. }
      split; [|split].
      * intros [|i] z sw spans' E.
        -- cbn in E. injection E as <- <- <-. split; [lia|]. split; [lia|]. split; [apply (row_sweep y s3 L3 c3); exact RD|]. split; [|exact ES'].
           intros O. destruct (OK4 O) as (_ & B). unfold b in B. apply andb_true_iff in B as (_ & B). replace (rs_nodes s3) with (dummy_node :: es) in B by (rewrite <- NO; reflexivity). exact B.
        -- cbn [nth_error] in E. destruct (B1 i z sw spans' E) as (-> & ? & ? & ? & ?). split; [lia|]. split; [lia|]. auto.
      * intros z Z. apply B2. cbn [length] in Z. lia.
      * intros O. apply OK, OK4, O.
Qed.

(** The start. *)
Hypothesis EP : edges_from pts 0 pts = Some es.
Lemma base_valid : Forall valid base.
Proof. apply Forall_forall. intros e I S. apply base_nonswap in I. congruence. Qed.
Lemma base_filter : filter nonswap base = base.
Proof.
  assert (G : forall l, (forall e, In e l -> is_swap e = false) -> filter nonswap l = l).
  { induction l as [|x l IH]; intros H; [reflexivity|]. cbn. rewrite (H x) by (left; reflexivity). cbn. f_equal. apply IH. intros; apply H; right; assumption. }
  apply G. intros; apply base_nonswap; assumption.
Qed.
Lemma start_ok y st : scan_start sort_events sort_new pts = Some (y, st) -> (es = [] /\ at_end st = true) \/ 
  (exists L, row_state y st L 0 /\ (forall z s, z < y -> In s es -> active z s = false)).
Proof.
  unfold scan_start. rewrite EP. fold base. unfold RasterModel.rnext. cbv zeta. unfold check, with_events. cbn [rs_events rs_last rs_cur rs_sweep rs_nodes rs_ok].
  destruct (Nat.ltb_spec 0 (length base)) as [LB|LB].
  - cbn [Nat.eqb]. unfold check. cbn [with_events rs_events rs_last rs_cur rs_sweep rs_nodes rs_ok].
    destruct (SE base base_valid) as (P & S). set (L := sort_events base) in *. change (-1 + 1) with 0. match goal with |- context [at_end ?a] => set (st0 := a) end.
    assert (VL : Forall valid L) by (eapply Permutation_Forall; [exact P|apply base_valid]).
    assert (SL : in_order (map key L)).
    { apply sorted_map. revert S. apply (sorted_ext _ _ _ _ VL). intros a b Va Vb. unfold EventsSpec.not_after. rewrite revent_lt_key by assumption. auto. }
    assert (LL : length L = length base) by (symmetry; apply Permutation_length; exact P).
    assert (ST : settled st0 L 0).
    { constructor; cbn.
      - constructor; cbn; rewrite ?app_nil_r; try reflexivity; try assumption; try lia; constructor.
      - rewrite <- (filter_perm nonswap _ _ P), base_filter. reflexivity.
      - reflexivity.
      - constructor.
      - intros n. split; [intros []|intros (s & _ & [] & _)]. }
    destruct L as [|x L'] eqn:EL; [cbn in LL; rewrite <- LL in LB; inversion LB|]. rewrite <- EL in *.
    assert (N : nth_error L 0 = Some x) by (rewrite EL; reflexivity).
    assert (AE : at_end st0 = false) by reflexivity. rewrite AE. rewrite (current_at st0 L [] 0 x (se_queue _ _ _ ST) N).
    intros E. injection E as <- <-. right. exists L.
    assert (NSW : forall e, In e L -> is_swap e = false) by (intros e I; apply base_nonswap; eapply Permutation_in; [symmetry; exact P|exact I]).
    assert (MIN : forall e, In e L -> re_y x <= re_y e).
    { intros e I. pose proof I as I'. apply In_nth_error in I' as (i & I'). pose proof (sorted_nth L 0 i x e SL ltac:(lia) N I') as LE.
      apply le_k_lex in LE. unfold ev_h at 1 in LE. rewrite (NSW x) in LE by (rewrite EL; left; reflexivity). apply lex_ns in LE; [lia|]. apply NSW; assumption. }
    split.
    + split; [exact ST|]. split; [|intros e []]. intros e I _. cbn [skipn] in I. apply MIN. exact I.
    + intros z s Z I. apply In_nth_error in I as (i & I). destruct (edge_fwd (Datatypes.S i) s I) as (IF & _). apply (Permutation_in _ P) in IF. apply MIN in IF. cbn in IF.
      unfold active. destruct (Z.leb_spec (py (sg_pa s)) z); [lia|reflexivity].
  - intros E. left. assert (EN : es = []).
    { unfold base in LB. destruct es; [reflexivity|]. cbn in LB. lia. }
    split; [exact EN|]. match type of E with context [at_end ?a] => destruct (at_end a) eqn:AE end; [injection E as <- <-; exact AE|]. exfalso. unfold at_end in AE. cbn in AE. assert (LB0 : length base = O) by lia. rewrite LB0 in AE. discriminate.
Qed.

Lemma scan_rows_ok f out st' : scan_rows sort_events sort_new pts wbits width height f = Some (out, st') ->
  (forall z sw spans, In (z, sw, spans) out ->
     z < height /\ Permutation sw (on_row z) /\ (rs_ok st' = true -> consistent (dummy_node :: es) z sw = true) /\
     (if 0 <=? z then row_spans pts wbits width (dummy_node :: es) z sw 0 0 else Some []) = Some spans) /\
  (forall z, z < height -> In z (map (fun r => fst (fst r)) out) \/ forall s, In s es -> active z s = false) /\
  StronglySorted Z.lt (map (fun r => fst (fst r)) out).
Proof.
  unfold scan_rows. destruct (scan_start sort_events sort_new pts) as [(y, st)|] eqn:S; [|discriminate]. intros R.
  destruct (start_ok y st S) as [(EN & AE)|(L & RS & LOW)].
  - assert (out = []) as ->. { destruct (Z.to_nat (height - y)); cbn [rows] in R; [|rewrite AE in R]; injection R as <- <-; reflexivity. }
    split; [intros ? ? ? []|]. split; [|constructor]. intros z Z. right. rewrite EN. intros ? [].
  - destruct (rows_ok f _ y st L 0%nat out st' RS R) as (A & B & _).
    split; [|split].
    + intros z sw spans I. apply In_nth_error in I as (i & I). destruct (A i z sw spans I) as (Z & IN & P & C & D). split; [|auto]. lia.
    + intros z Z. destruct (Z_lt_le_dec z y); [right; intros; apply LOW; assumption|].
      destruct (Z_lt_le_dec z (y + Z.of_nat (length out))) as [LT|GE].
      * left. destruct (nth_error out (Z.to_nat (z - y))) as [((z', sw), spans)|] eqn:E; [|apply nth_error_None in E; lia].
        apply in_map_iff. exists (z', sw, spans). destruct (A _ _ _ _ E) as (-> & _). cbn. split; [lia|]. eapply nth_error_In. exact E.
      * right. intros s I. apply In_nth_error in I as (i & I). apply (B z ltac:(lia) (Datatypes.S i) s). exact I.
    + clear -A. assert (G : forall (l : list (Z * list nat * list scan_line)) k, (forall i z sw spans, nth_error l i = Some (z, sw, spans) -> z = k + Z.of_nat i) -> StronglySorted Z.lt (map (fun r => fst (fst r)) l)).
      { induction l as [|((z, sw), sp) l IH]; intros k H; cbn; constructor.
        - apply (IH (k + 1)). intros i z' sw' sp' E. rewrite (H (Datatypes.S i) z' sw' sp') by exact E. lia.
        - apply Forall_forall. intros w I. apply in_map_iff in I as (((z', sw'), sp') & <- & I). apply In_nth_error in I as (i & I). cbn.
          rewrite (H O z sw sp) by reflexivity. rewrite (H (Datatypes.S i) z' sw' sp') by exact I. lia. }
      apply (G out y). intros i z sw spans E. apply (A i z sw spans E).
Qed.
End Run.
