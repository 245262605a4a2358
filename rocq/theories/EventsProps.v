(** The event queue: property C36. *)
From Coq Require Import List Bool Arith ZArith Permutation Sorted Lia ZifyBool ZifyNat.
From Verif Require Import EventsModel EventsSpec EventsProofs.
Import ListNotations.

(** C36: whatever was called before, next succeeds as long as there is more. Going
    forward, the events delivered and not undone become a prefix of the sorted sequence of
    all events that were added. An undo is of the latest event that was delivered and not
    undone, and is only made while an added, undelivered event belongs at or before it. *)
Theorem C36_next : forall (A K : Type) (key : A -> K) (ltk : K -> K -> bool) sort_events sort_new,
  strict_weak_order K ltk ->
  sorts (lt_ev A K key ltk) sort_events -> sorts (lt_new A K key ltk) sort_new ->
  forall q done all undoing, history A K key ltk sort_events sort_new q done all undoing -> more A q = true ->
  exists e fwd q', next A (lt_ev A K key ltk) sort_events sort_new q = Some (e, fwd, q') /\
    if (fwd : bool) then exists rest, in_order K ltk (rev (key e :: done) ++ rest) /\ Permutation (rev (key e :: done) ++ rest) all
    else (exists done', done = key e :: done') /\
         exists k rest, Permutation (k :: done ++ rest) all /\ not_after K ltk k (key e).
Proof.
  intros A K key ltk se sn SWO SE SN q s all u H M. pose proof (history_inv A K key ltk SWO se sn SE SN _ _ _ _ H) as I.
  destruct (next_inv A K key ltk SWO se sn SE SN q s all u I M) as (e & fwd & q' & N & R). exists e, fwd, q'. split; [exact N|].
  destruct fwd; [apply R|]. destruct R as (R1 & _ & R2). split; [eexists; exact R1|exact R2].
Qed.
Print Assumptions C36_next.

(** C36: when there is no more, every event that was added was delivered and not undone,
    once each, in order. *)
Theorem C36_complete : forall (A K : Type) (key : A -> K) (ltk : K -> K -> bool) sort_events sort_new,
  strict_weak_order K ltk ->
  sorts (lt_ev A K key ltk) sort_events -> sorts (lt_new A K key ltk) sort_new ->
  forall q done all undoing, history A K key ltk sort_events sort_new q done all undoing -> more A q = false ->
  undoing = false /\ Permutation (rev done) all /\ in_order K ltk (rev done).
Proof.
  intros A K key ltk se sn SWO SE SN q s all u H M. destruct (done_all A K key ltk SWO se sn SE SN _ _ _ _ H M) as (X & Y & Z).
  split; [exact X|]. split; [rewrite <- Permutation_rev; exact Y|exact Z].
Qed.
Print Assumptions C36_complete.

(** C36: if nothing is added any more, the queue gets to the end. *)
Theorem C36_drains : forall (A K : Type) (key : A -> K) (ltk : K -> K -> bool) sort_events sort_new,
  strict_weak_order K ltk ->
  sorts (lt_ev A K key ltk) sort_events -> sorts (lt_new A K key ltk) sort_new ->
  forall q done all undoing, history A K key ltk sort_events sort_new q done all undoing ->
  exists q', drain A K key ltk sort_events sort_new (2 * length all + 1) q = Some q' /\ more A q' = false.
Proof.
  intros A K key ltk se sn SWO SE SN q s all u H. pose proof (history_inv A K key ltk SWO se sn SE SN _ _ _ _ H) as I.
  destruct (drain_ok A K key ltk SWO se sn SE SN (2 * length all + 1) q s all u I) as (q' & s' & D & M & _).
  - pose proof (inv_length A K key ltk _ _ _ _ I). unfold measure. destruct (flushed A q); lia.
  - exists q'. auto.
Qed.
Print Assumptions C36_drains.

(** C36: looking an event up finds one with the same key, if the sorted part has one. *)
Theorem C36_find : forall (A K : Type) (key : A -> K) (ltk : K -> K -> bool) sort_events sort_new same,
  strict_weak_order K ltk ->
  sorts (lt_ev A K key ltk) sort_events -> sorts (lt_new A K key ltk) sort_new ->
  (forall x y, ltk x y = false -> ltk y x = false -> x = y) -> (forall x y, key x = key y -> same x y = true) ->
  forall q done all undoing x i y, history A K key ltk sort_events sort_new q done all undoing ->
  i < q_last A q -> nth_error (q_events A q) i = Some y -> key y = key x ->
  exists j z, find_event A (lt_ev A K key ltk) same q x (q_last A q) = Some j /\ j <= i /\
    nth_error (q_events A q) j = Some z /\ key z = key x.
Proof.
  intros A K key ltk se sn same SWO SE SN TOT SM q s all u x i y H IL N KY.
  pose proof (history_inv A K key ltk SWO se sn SE SN _ _ _ _ H) as I.
  assert (LJ : exists L J, q_events A q = L ++ J /\ q_last A q = length L /\ in_order K ltk (map key L))
    by (inversion I as [L J c E1 E2 S|L J e p l c E1 E2 S]; exists L, J; auto).
  destruct LJ as (L & J & E1 & E2 & S). unfold find_event. rewrite E2, E1 in *.
  rewrite firstn_app, Nat.sub_diag, firstn_all. cbn [firstn]. rewrite app_nil_r. rewrite nth_error_app1 in N by lia.
  destruct (lower_bound_spec A K key ltk SWO L x S) as (B & C & D). set (r := lower_bound A _ L x) in *.
  assert (RI : r <= i).
  { destruct (Nat.le_gt_cases r i); [assumption|]. exfalso. assert (ltk (key y) (key x) = true).
    { apply C. apply (nth_error_In _ i). rewrite <- (firstn_skipn r L) in N. rewrite nth_error_app1 in N; [exact N|rewrite firstn_length_le; lia]. }
    pose proof (swo_asym K ltk SWO _ _ H1) as H2. rewrite KY in *. congruence. }
  destruct (nth_error L r) as [z|] eqn:NR; [|apply nth_error_None in NR; lia].
  assert (KZ : key z = key x).
  { assert (Z1 : ltk (key z) (key x) = false) by (apply D; apply nth_error_split in NR as (l1 & l2 & -> & <-); rewrite skipn_app, skipn_all, Nat.sub_diag; left; reflexivity).
    apply TOT; [exact Z1|].
    assert (In x (skipn r L) \/ True) by auto.
    destruct (Nat.eq_dec r i) as [Q|Q]; [subst i; rewrite NR in N; injection N as ->; rewrite KY; destruct (ltk (key x) (key x)) eqn:W; [pose proof (swo_asym K ltk SWO _ _ W); congruence|reflexivity]|].
    rewrite <- KY. apply nth_error_split in NR as (l1 & l2 & QL & LR). rewrite QL, map_app in S. apply (srt_app K ltk) in S as (_ & S & _). cbn in S. inversion S as [|? ? _ F]; subst.
    rewrite Forall_forall in F. apply F. apply in_map. rewrite nth_error_app2 in N by lia. destruct (i - length l1) as [|k] eqn:W; [lia|]. cbn in N. eapply nth_error_In; exact N. }
  exists r, z. rewrite (SM _ _ KZ). split; [reflexivity|]. split; [exact RI|]. split; [rewrite nth_error_app1 by lia; exact NR|exact KZ].
Qed.
Print Assumptions C36_find.

(** The comparison of the code is such an order, and tells all keys apart. *)
Definition event_key (e : event) : Z * event_type * nat * nat := (e_x e, e_type e, e_a e, e_b e).
Definition key_lt (k1 k2 : Z * event_type * nat * nat) : bool :=
  let '(x1, t1, a1, b1) := k1 in let '(x2, t2, a2, b2) := k2 in
  event_lt (mk_event x1 a1 b1 0 t1 false) (mk_event x2 a2 b2 0 t2 false).
Theorem C36_event_order :
  (forall e1 e2, event_lt e1 e2 = lt_ev event _ event_key key_lt e1 e2) /\
  strict_weak_order _ key_lt /\
  (forall k1 k2, key_lt k1 k2 = false -> key_lt k2 k1 = false -> k1 = k2) /\
  (forall e1 e2, e_x e1 < e_x e2 -> event_lt e1 e2 = true)%Z.
Proof.
  assert (T : forall t u, type_rank t = type_rank u -> t = u) by (intros [] []; cbn; congruence).
  split; [reflexivity|]. split; [|split].
  - split.
    + intros [[[x1 t1] a1] b1] [[[x2 t2] a2] b2]. unfold key_lt, event_lt, type_eqb. cbn [e_x e_a e_b e_type].
      repeat match goal with |- context [if negb (?a =? ?b) then _ else _] => destruct (Nat.eqb_spec a b); cbn [negb] | |- context [if negb (?a =? ?b)%Z then _ else _] => destruct (Z.eqb_spec a b); cbn [negb] end; intros; lia.
    + intros [[[x1 t1] a1] b1] [[[x2 t2] a2] b2] [[[x3 t3] a3] b3]. unfold key_lt, event_lt, type_eqb. cbn [e_x e_a e_b e_type].
      repeat match goal with |- context [if negb (?a =? ?b) then _ else _] => destruct (Nat.eqb_spec a b); cbn [negb] | |- context [if negb (?a =? ?b)%Z then _ else _] => destruct (Z.eqb_spec a b); cbn [negb] end; intros; lia.
  - intros [[[x1 t1] a1] b1] [[[x2 t2] a2] b2]. unfold key_lt, event_lt, type_eqb. cbn [e_x e_a e_b e_type].
    repeat match goal with |- context [if negb (?a =? ?b) then _ else _] => destruct (Nat.eqb_spec a b); cbn [negb] | |- context [if negb (?a =? ?b)%Z then _ else _] => destruct (Z.eqb_spec a b); cbn [negb] end; rewrite ?Z.ltb_ge, ?Nat.ltb_ge; intros; try lia.
    rewrite (T t1 t2) by assumption. repeat f_equal; lia.
  - intros e1 e2 H. unfold event_lt. destruct (Z.eqb_spec (e_x e1) (e_x e2)); [lia|]. cbn. apply Z.ltb_lt. exact H.
Qed.
Print Assumptions C36_event_order.

(** * A concrete case *)
Fixpoint ins {B} (lt : B -> B -> bool) (x : B) (l : list B) : list B :=
  match l with [] => [x] | y :: l' => if lt y x then y :: ins lt x l' else x :: l end.
Definition isort {B} (lt : B -> B -> bool) (l : list B) : list B := fold_right (ins lt) [] l.
Definition zkey (z : Z * nat) : Z := fst z.
Notation znext := (next (Z * nat) (lt_ev _ _ zkey Z.ltb) (isort (lt_ev _ _ zkey Z.ltb)) (isort (lt_new _ _ zkey Z.ltb))).
Fixpoint steps (n : nat) (q : queue (Z * nat)) : list (Z * bool) * queue (Z * nat) :=
  match n with
  | O => ([], q)
  | S n' => match znext q with Some (e, f, q') => let (l, q'') := steps n' q' in ((fst e, f) :: l, q'') | None => ([], q) end
  end.
Definition zq1 : queue (Z * nat) := add_event _ (5%Z, 0) (add_event _ (1%Z, 1) (add_event _ (3%Z, 2) (add_event _ (9%Z, 3) (q_empty _)))).
Example ex_first : fst (steps 3 zq1) = [(1%Z, true); (3%Z, true); (5%Z, true)].
Proof. vm_compute. reflexivity. Qed.
(** Two events are added behind, one of them before 3, and one ahead. *)
Definition zq2 := add_event _ (7%Z, 4) (add_event _ (4%Z, 5) (add_event _ (2%Z, 6) (snd (steps 3 zq1)))).
Example ex_undo : fst (steps 8 zq2) =
  [(5%Z, false); (3%Z, false); (2%Z, true); (3%Z, true); (4%Z, true); (5%Z, true); (7%Z, true); (9%Z, true)].
Proof. vm_compute. reflexivity. Qed.
Example ex_end : more _ (snd (steps 8 zq2)) = false.
Proof. vm_compute. reflexivity. Qed.
Example ex_history : exists q, history _ _ zkey Z.ltb (isort (lt_ev _ _ zkey Z.ltb)) (isort (lt_new _ _ zkey Z.ltb)) q [1%Z] [1%Z; 3%Z] false.
Proof.
  set (se := isort (lt_ev _ _ zkey Z.ltb)). set (sn := isort (lt_new _ _ zkey Z.ltb)).
  eexists. change [1%Z] with (zkey (1%Z, 1) :: []).
  eapply (h_forward (Z * nat) Z zkey Z.ltb se sn) with (q := add_event _ (1%Z, 1) (add_event _ (3%Z, 2) (q_empty _))).
  - apply (h_add (Z * nat) Z zkey Z.ltb se sn _ _ [3%Z] (1%Z, 1)), (h_add (Z * nat) Z zkey Z.ltb se sn _ _ [] (3%Z, 2)), h_new.
  - reflexivity.
  - vm_compute. reflexivity.
Qed.
Lemma ins_sorts {B} (lt : B -> B -> bool) : strict_weak_order B lt -> sorts lt (isort lt).
Proof.
  intros W l. induction l as [|x l (P & S)]; [split; constructor|]. cbn [isort fold_right]. fold (isort lt l).
  assert (PI : forall m, Permutation (x :: m) (ins lt x m)).
  { induction m as [|y m IH]; cbn; [reflexivity|]. destruct (lt y x); [|reflexivity]. rewrite perm_swap. constructor. exact IH. }
  split; [etransitivity; [apply perm_skip; exact P|apply PI]|]. clear P. induction (isort lt l) as [|y m IH]; cbn; [constructor; constructor|].
  inversion S as [|? ? S1 F]; subst. destruct (lt y x) eqn:Q.
  - constructor; [apply IH; exact S1|]. apply (Permutation_Forall (PI m)). constructor; [apply (swo_asym _ _ W); exact Q|exact F].
  - constructor; [exact S|]. constructor; [exact Q|]. eapply Forall_impl; [|exact F]. cbn. intros z Hz. eapply (swo_neg _ _ W); eassumption.
Qed.
Example ex_sorts : strict_weak_order Z Z.ltb /\ sorts (lt_ev _ _ zkey Z.ltb) (isort (lt_ev _ _ zkey Z.ltb)) /\ sorts (lt_new _ _ zkey Z.ltb) (isort (lt_new _ _ zkey Z.ltb)).
Proof.
  split; [|split].
  - split; intros; rewrite ?Z.ltb_lt, ?Z.ltb_ge in *; lia.
  - apply ins_sorts. unfold lt_ev. split; intros; rewrite ?Z.ltb_lt, ?Z.ltb_ge in *; lia.
  - apply ins_sorts. unfold lt_new, lt_ev. split; intros x y; [|intros z];
      repeat match goal with |- context [if negb (?a =? ?b) then _ else _] => destruct (Nat.eqb_spec a b); cbn [negb] end; intros; lia.
Qed.
