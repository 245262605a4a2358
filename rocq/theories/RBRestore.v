(** Rebalancing after an erasure. *)
From Coq Require Import List Bool Arith Lia.
From Verif Require Import RBModel RBSpec RBHeap RBInsert RBNav.
Import ListNotations.

Section Restore.
Context {V : Type}.
Notation heap := (heap V).
Implicit Types h : heap.

Lemma turn2 {h k t m k' t'} L : turns_into h k t m k' t' -> inorder (plug k t) = L ->
  exists h', m h = Some (tt, h') /\ hz h' k' t' /\ @keeps V L h h'.
Proof. intros T <-. apply turn. exact T. Qed.

Definition isb (u : tree) : bool := match u with T true _ _ _ => false | _ => true end.
Lemma isb_spec u : isb u = true <-> black_root u.
Proof. destruct u as [|[] ? ? ?]; cbn; split; auto; try discriminate; tauto. Qed.
Lemma bon_read {h k u} : hz h k u -> black_or_nil V (root u) h = Some (isb u, h).
Proof.
  intros Z. destruct u as [|c l i r]; [reflexivity|]. unfold black_or_nil. cbn [root is_nil].
  rewrite (bind_eq (rd_red Z)). destruct c; reflexivity.
Qed.

(** The focus lacks one black node; a red focus (possibly with a red child) will be
    painted black. *)
Definition lacking (t : tree) (n : nat) : Prop :=
  match t with T true a _ b => rb a n /\ rb b n | _ => rb t n end.

Lemma paint_ok L h k t n : hz h k t -> lacking t n -> ctx_rb k (S n) -> isb t = false -> inorder (plug k t) = L ->
  exists h' t', (if is_nil (root t) then ret V tt else set_red V (root t) false) h = Some (tt, h') /\
    hz h' [] t' /\ inorder t' = L /\ red_black t' /\ keeps L h h'.
Proof.
  intros Z LK C B Q. destruct t as [|[] a p b]; try discriminate. cbn [root is_nil].
  destruct (turn2 L (set_red_focus _ _ _ _ _ _ false Z) Q) as (h' & R & Z' & K).
  exists h', (plug k (T false a p b)). split; [exact R|]. split; [apply (proj1 (hz_plug _ _ _)); exact Z'|].
  split; [rewrite <- Q, !inorder_plug; reflexivity|]. split; [|exact K].
  split.
  - destruct k as [|f k]; [exact I|]. apply plug_black; [discriminate|eauto].
  - apply (plug_rb _ _ (S n)); [exact LK|exact C|]. destruct k; cbn; auto.
Qed.
(** At the top, or after the last rotation, the focus is black already. *)
Lemma paint_black L h k t n : hz h k t -> rb t n -> ctx_rb k n -> black_root t -> inorder (plug k t) = L ->
  exists h' t', (if is_nil (root t) then ret V tt else set_red V (root t) false) h = Some (tt, h') /\
    hz h' [] t' /\ inorder t' = L /\ red_black t' /\ keeps L h h'.
Proof.
  intros Z LK C B Q.
  assert (RBp : red_black (plug k t)).
  { split; [destruct k as [|f k]; [exact B|apply plug_black; [discriminate|eauto]]|].
    apply (plug_rb _ _ n); [exact LK|exact C|]. destruct k; cbn; auto. }
  destruct t as [|c a p b]; cbn [root is_nil].
  - exists h, (plug k E). split; [reflexivity|]. split; [apply (proj1 (hz_plug _ _ _)); exact Z|]. split; [exact Q|]. split; [exact RBp|apply keeps_refl].
  - assert (c = false) by (destruct c; [contradiction|reflexivity]). subst c.
    destruct (turn2 L (set_red_focus _ _ _ _ _ _ false Z) Q) as (h' & R & Z' & K).
    exists h', (plug k (T false a p b)). split; [exact R|]. split; [apply (proj1 (hz_plug _ _ _)); exact Z'|].
    split; [exact Q|]. split; [exact RBp|exact K].
Qed.

Ltac io := match goal with |- inorder _ = ?L => subst L end; cbn [plug fplug]; rewrite !inorder_plug; cbn [inorder]; repeat (rewrite <- ?app_assoc; cbn [app]); reflexivity.
Ltac kchain := repeat (eapply keeps_trans; [eassumption|]); apply keeps_refl.
Ltac step X h' :=
  let R := fresh "R" in let Z := fresh "Z" in let K := fresh "K" in
  match goal with L := _ : list nat |- _ => destruct (turn2 L X ltac:(io)) as (h' & R & Z & K); rewrite (bind_eq R); clear R end.

Definition fin (L : list nat) h (m : M V ptr) : Prop :=
  exists h' t', bind V m (fun x => if is_nil x then ret V tt else set_red V x false) h = Some (tt, h') /\
    hz h' [] t' /\ inorder t' = L /\ red_black t' /\ keeps L h h'.
Lemma fin_keeps L h h1 m : keeps L h h1 -> fin L h1 m -> forall m', bind V m' (fun x => if is_nil x then ret V tt else set_red V x false) h = bind V m (fun x => if is_nil x then ret V tt else set_red V x false) h1 -> fin L h m'.
Proof.
  intros K (h' & t' & A & B & C & D & F) m' Q. exists h', t'. rewrite Q. split; [exact A|]. split; [exact B|]. split; [exact C|]. split; [exact D|]. eapply keeps_trans; eassumption.
Qed.
Lemma bind_assoc {A B C} (m : M V A) (f : A -> M V B) (g : B -> M V C) h :
  bind V (bind V m f) g h = bind V m (fun a => bind V (f a) g) h.
Proof. unfold bind. destruct (m h) as [[a h1]|]; reflexivity. Qed.

Definition IHloop (fuel : nat) : Prop := forall h k t n,
  hz h k t -> lacking t n -> ctx_rb k (S n) -> 0 < fuel -> (isb t = true -> length k < fuel) ->
  fin (inorder (plug k t)) h (restore_loop V fuel (root t) (parent_of (Some 0) k)).

(** The right sibling is black. *)
Definition left_tail (f : nat) (x x_parent w : ptr) : M V ptr :=
  bind V (assert V (negb (is_nil w))) (fun _ =>
  bind V (get_left V w) (fun w_left =>
  bind V (get_right V w) (fun w_right =>
  bind V (black_or_nil V w_left) (fun bl =>
  bind V (black_or_nil V w_right) (fun br =>
  if bl && br then
    bind V (set_red V w true) (fun _ => bind V (get_parent V x_parent) (fun pp => restore_loop V f x_parent pp))
  else
    bind V (if br then
            bind V (set_red V w_left false) (fun _ => bind V (set_red V w true) (fun _ =>
            bind V (get_parent V w) (fun wp =>
            bind V (rotate_right V w w_left wp) (fun _ =>
            bind V (get_right V x_parent) (fun w' =>
            bind V (assert V (negb (is_nil w'))) (fun _ => ret V w'))))))
          else ret V w) (fun w =>
    bind V (get_red V x_parent) (fun c =>
    bind V (set_red V w c) (fun _ =>
    bind V (set_red V x_parent false) (fun _ =>
    bind V (get_right V w) (fun new_wright =>
    bind V (if is_nil new_wright then ret V tt else set_red V new_wright false) (fun _ =>
    bind V (get_right V x_parent) (fun pr =>
    bind V (get_parent V x_parent) (fun pp =>
    bind V (rotate_left V x_parent pr pp) (fun _ =>
    ret V x)))))))))))))).

Lemma left_last L h k cp p x wl wi c wrl wri wrr n :
  hz h k (T cp x p (T false wl wi (T c wrl wri wrr))) -> black_root x -> rb x n -> rb wl n -> c = true -> rb wrl n -> rb wrr n ->
  black_root wrl -> black_root wrr -> ctx_rb k (if cp then S n else S (S n)) ->
  (cp = true -> match k with [] => False | f' :: _ => fred f' = false end) ->
  inorder (plug k (T cp x p (T false wl wi (T c wrl wri wrr)))) = L ->
  fin L h (bind V (get_red V (Some p)) (fun c =>
    bind V (set_red V (Some wi) c) (fun _ =>
    bind V (set_red V (Some p) false) (fun _ =>
    bind V (get_right V (Some wi)) (fun new_wright =>
    bind V (if is_nil new_wright then ret V tt else set_red V new_wright false) (fun _ =>
    bind V (get_right V (Some p)) (fun pr =>
    bind V (get_parent V (Some p)) (fun pp =>
    bind V (rotate_left V (Some p) pr pp) (fun _ =>
    ret V (root x)))))))))).
Proof.
  intros Z BX RX RL -> RWL RWR BWL BWR C G Q0.
  pose (L0 := inorder (plug k (T cp x p (T false wl wi (T true wrl wri wrr))))). replace L with L0 by exact Q0. clear Q0 L.
  unfold fin. rewrite bind_assoc, (bind_eq (rd_red Z)).
  assert (Z1 : hz h (FR cp x p :: k) (T false wl wi (T true wrl wri wrr))) by (apply (hz_move _ _ Z); reflexivity).
  rewrite bind_assoc. step (set_red_focus _ _ _ _ _ _ cp Z1) h1.
  assert (Z2 : hz h1 k (T cp x p (T cp wl wi (T true wrl wri wrr)))) by (apply (hz_move _ _ Z0); reflexivity).
  rewrite bind_assoc. step (set_red_focus _ _ _ _ _ _ false Z2) h2.
  assert (Z4 : hz h2 (FR false x p :: k) (T cp wl wi (T true wrl wri wrr))) by (apply (hz_move _ _ Z3); reflexivity).
  rewrite bind_assoc, (bind_eq (rd_right Z4)). cbn [root is_nil].
  assert (Z5 : hz h2 (FR cp wl wi :: FR false x p :: k) (T true wrl wri wrr)) by (apply (hz_move _ _ Z4); reflexivity).
  rewrite bind_assoc. step (set_red_focus _ _ _ _ _ _ false Z5) h3.
  assert (Z7 : hz h3 k (T false x p (T cp wl wi (T false wrl wri wrr)))) by (apply (hz_move _ _ Z6); reflexivity).
  rewrite bind_assoc, (bind_eq (rd_right Z7)). cbn [root].
  rewrite bind_assoc, (bind_eq (rd_par Z7)).
  rewrite bind_assoc. step (rotate_left_focus _ _ _ _ _ _ _ _ _ Z7) h4.
  unfold ret at 1. unfold bind at 1.
  assert (Z9 : hz h4 (FL false p wl :: FL cp wi (T false wrl wri wrr) :: k) x) by (apply (hz_move _ _ Z8); reflexivity).
  destruct (paint_black L0 h4 _ x n Z9 RX) as (h' & t' & A1 & A2 & A3 & A4 & A5).
  - destruct cp; cbn; [specialize (G eq_refl)|]; tauto.
  - exact BX.
  - io.
  - exists h', t'. split; [exact A1|]. split; [exact A2|]. split; [exact A3|]. split; [exact A4|]. kchain.
Qed.
Arguments fin : simpl never.

Lemma left_tail_ok f h k cp p x wl wi wr n : IHloop f ->
  hz h k (T cp x p (T false wl wi wr)) -> black_root x -> rb x n -> rb wl n -> rb wr n ->
  ctx_rb k (if cp then S n else S (S n)) ->
  (cp = true -> match k with [] => False | f' :: _ => fred f' = false end) ->
  0 < f -> (cp = false -> length k < f) ->
  fin (inorder (plug k (T cp x p (T false wl wi wr)))) h (left_tail f (root x) (Some p) (Some wi)).
Proof.
  intros IH Z BX RX RL RR C G F0 F1. unfold left_tail.
  pose (L0 := inorder (plug k (T cp x p (T false wl wi wr)))). change (inorder (plug k (T cp x p (T false wl wi wr)))) with L0.
  assert (Z1 : hz h (FR cp x p :: k) (T false wl wi wr)) by (apply (hz_move _ _ Z); reflexivity).
  assert (ZL : hz h (FL false wi wr :: FR cp x p :: k) wl) by (apply (hz_move _ _ Z); reflexivity).
  assert (ZR : hz h (FR false wl wi :: FR cp x p :: k) wr) by (apply (hz_move _ _ Z); reflexivity).
  eapply fin_keeps; [apply keeps_refl| |].
  2:{ cbn [is_nil negb assert]. rewrite bind_assoc. unfold ret at 1. rewrite (bind_eq eq_refl).
      rewrite bind_assoc, (bind_eq (rd_left Z1)), bind_assoc, (bind_eq (rd_right Z1)), bind_assoc, (bind_eq (bon_read ZL)), bind_assoc, (bind_eq (bon_read ZR)). reflexivity. }
  destruct (isb wr) eqn:BR.
  - destruct (isb wl) eqn:BL; cbn [andb].
    + (* both black: recolour and move up *)
      destruct (turn2 L0 (set_red_focus _ _ _ _ _ _ true Z1) ltac:(io)) as (h1 & R1 & Z2 & K1).
      assert (Z3 : hz h1 k (T cp x p (T true wl wi wr))) by (apply (hz_move _ _ Z2); reflexivity).
      eapply fin_keeps; [exact K1| |rewrite bind_assoc, (bind_eq R1), bind_assoc, (bind_eq (rd_par Z3)); reflexivity].
      replace L0 with (inorder (plug k (T cp x p (T true wl wi wr)))) by io.
      change (Some p) with (root (T cp x p (T true wl wi wr))).
      apply isb_spec in BL, BR.
      apply (IH h1 k _ (if cp then n else S n) Z3); [destruct cp; cbn; tauto|destruct cp; exact C|exact F0|].
      destruct cp; [discriminate|]. intros _. apply F1. reflexivity.
    + (* the far child is black: rotate the sibling first *)
      destruct wl as [|[] wll wli wlr]; try discriminate. cbn [root].
      destruct RL as (RLL & RLR & BLL & BLR). apply isb_spec in BR.
      assert (Zl : hz h (FL false wi wr :: FR cp x p :: k) (T true wll wli wlr)) by (apply (hz_move _ _ Z); reflexivity).
      destruct (turn2 L0 (set_red_focus _ _ _ _ _ _ false Zl) ltac:(io)) as (h1 & R1 & Z2 & K1).
      assert (Z3 : hz h1 (FR cp x p :: k) (T false (T false wll wli wlr) wi wr)) by (apply (hz_move _ _ Z2); reflexivity).
      destruct (turn2 L0 (set_red_focus _ _ _ _ _ _ true Z3) ltac:(io)) as (h2 & R2 & Z4 & K2).
      destruct (turn2 L0 (rotate_right_focus _ _ _ _ _ _ _ _ _ Z4) ltac:(io)) as (h3 & R3 & Z5 & K3).
      assert (Z6 : hz h3 k (T cp x p (T false wll wli (T true wlr wi wr)))) by (apply (hz_move _ _ Z5); reflexivity).
      eapply fin_keeps with (h1 := h3); [kchain| |].
      2:{ rewrite !bind_assoc, (bind_eq R1), !bind_assoc, (bind_eq R2), !bind_assoc, (bind_eq (rd_par Z4)), !bind_assoc, (bind_eq R3), !bind_assoc, (bind_eq (rd_right Z6)).
          cbn [root is_nil negb assert]. rewrite bind_assoc. unfold ret at 1. rewrite (bind_eq eq_refl). unfold ret at 1. rewrite (bind_eq eq_refl). reflexivity. }
      apply (left_last _ _ _ _ _ _ _ _ _ _ _ _ n Z6); auto. io.
  - (* the far child is red *)
    rewrite andb_false_r. eapply fin_keeps; [apply keeps_refl| |].
    2:{ rewrite bind_assoc. unfold ret at 1. rewrite (bind_eq eq_refl). reflexivity. }
    destruct wr as [|[] wrl wri wrr]; try discriminate. destruct RR as (RRL & RRR & BRL & BRR).
    apply (left_last _ _ _ _ _ _ _ _ _ _ _ _ n Z); auto.
Qed.
(** The left sibling is black. *)
Definition right_tail (f : nat) (x x_parent w : ptr) : M V ptr :=
  bind V (get_left V w) (fun w_left =>
  bind V (get_right V w) (fun w_right =>
  bind V (black_or_nil V w_right) (fun br =>
  bind V (black_or_nil V w_left) (fun bl =>
  if br && bl then
    bind V (set_red V w true) (fun _ => bind V (get_parent V x_parent) (fun pp => restore_loop V f x_parent pp))
  else
    bind V (if bl then
            bind V (set_red V w_right false) (fun _ => bind V (set_red V w true) (fun _ =>
            bind V (get_parent V w) (fun wp =>
            bind V (rotate_left V w w_right wp) (fun _ =>
            bind V (get_left V x_parent) (fun w' =>
            bind V (assert V (negb (is_nil w'))) (fun _ => ret V w'))))))
          else ret V w) (fun w =>
    bind V (get_red V x_parent) (fun c =>
    bind V (set_red V w c) (fun _ =>
    bind V (set_red V x_parent false) (fun _ =>
    bind V (get_left V w) (fun new_wleft =>
    bind V (if is_nil new_wleft then ret V tt else set_red V new_wleft false) (fun _ =>
    bind V (get_left V x_parent) (fun pl =>
    bind V (get_parent V x_parent) (fun pp =>
    bind V (rotate_right V x_parent pl pp) (fun _ =>
    ret V x))))))))))))).

Lemma right_last L h k cp p x wr wi c wll wli wlr n :
  hz h k (T cp (T false (T c wll wli wlr) wi wr) p x) -> black_root x -> rb x n -> rb wr n -> c = true -> rb wll n -> rb wlr n ->
  black_root wll -> black_root wlr -> ctx_rb k (if cp then S n else S (S n)) ->
  (cp = true -> match k with [] => False | f' :: _ => fred f' = false end) ->
  inorder (plug k (T cp (T false (T c wll wli wlr) wi wr) p x)) = L ->
  fin L h (bind V (get_red V (Some p)) (fun c =>
    bind V (set_red V (Some wi) c) (fun _ =>
    bind V (set_red V (Some p) false) (fun _ =>
    bind V (get_left V (Some wi)) (fun new_wleft =>
    bind V (if is_nil new_wleft then ret V tt else set_red V new_wleft false) (fun _ =>
    bind V (get_left V (Some p)) (fun pl =>
    bind V (get_parent V (Some p)) (fun pp =>
    bind V (rotate_right V (Some p) pl pp) (fun _ =>
    ret V (root x)))))))))).
Proof.
  intros Z BX RX RL -> RWL RWR BWL BWR C G Q0.
  pose (L0 := inorder (plug k (T cp (T false (T true wll wli wlr) wi wr) p x))). replace L with L0 by exact Q0. clear Q0 L.
  unfold fin. rewrite bind_assoc, (bind_eq (rd_red Z)).
  assert (Z1 : hz h (FL cp p x :: k) (T false (T true wll wli wlr) wi wr)) by (apply (hz_move _ _ Z); reflexivity).
  rewrite bind_assoc. step (set_red_focus _ _ _ _ _ _ cp Z1) h1.
  assert (Z2 : hz h1 k (T cp (T cp (T true wll wli wlr) wi wr) p x)) by (apply (hz_move _ _ Z0); reflexivity).
  rewrite bind_assoc. step (set_red_focus _ _ _ _ _ _ false Z2) h2.
  assert (Z4 : hz h2 (FL false p x :: k) (T cp (T true wll wli wlr) wi wr)) by (apply (hz_move _ _ Z3); reflexivity).
  rewrite bind_assoc, (bind_eq (rd_left Z4)). cbn [root is_nil].
  assert (Z5 : hz h2 (FL cp wi wr :: FL false p x :: k) (T true wll wli wlr)) by (apply (hz_move _ _ Z4); reflexivity).
  rewrite bind_assoc. step (set_red_focus _ _ _ _ _ _ false Z5) h3.
  assert (Z7 : hz h3 k (T false (T cp (T false wll wli wlr) wi wr) p x)) by (apply (hz_move _ _ Z6); reflexivity).
  rewrite bind_assoc, (bind_eq (rd_left Z7)). cbn [root].
  rewrite bind_assoc, (bind_eq (rd_par Z7)).
  rewrite bind_assoc. step (rotate_right_focus _ _ _ _ _ _ _ _ _ Z7) h4.
  unfold ret at 1. unfold bind at 1.
  assert (Z9 : hz h4 (FR false wr p :: FR cp (T false wll wli wlr) wi :: k) x) by (apply (hz_move _ _ Z8); reflexivity).
  destruct (paint_black L0 h4 _ x n Z9 RX) as (h' & t' & A1 & A2 & A3 & A4 & A5).
  - destruct cp; cbn; [specialize (G eq_refl)|]; tauto.
  - exact BX.
  - io.
  - exists h', t'. split; [exact A1|]. split; [exact A2|]. split; [exact A3|]. split; [exact A4|]. kchain.
Qed.

Lemma right_tail_ok f h k cp p x wl wi wr n : IHloop f ->
  hz h k (T cp (T false wl wi wr) p x) -> black_root x -> rb x n -> rb wl n -> rb wr n ->
  ctx_rb k (if cp then S n else S (S n)) ->
  (cp = true -> match k with [] => False | f' :: _ => fred f' = false end) ->
  0 < f -> (cp = false -> length k < f) ->
  fin (inorder (plug k (T cp (T false wl wi wr) p x))) h (right_tail f (root x) (Some p) (Some wi)).
Proof.
  intros IH Z BX RX RL RR C G F0 F1. unfold right_tail.
  pose (L0 := inorder (plug k (T cp (T false wl wi wr) p x))). change (inorder (plug k (T cp (T false wl wi wr) p x))) with L0.
  assert (Z1 : hz h (FL cp p x :: k) (T false wl wi wr)) by (apply (hz_move _ _ Z); reflexivity).
  assert (ZL : hz h (FL false wi wr :: FL cp p x :: k) wl) by (apply (hz_move _ _ Z); reflexivity).
  assert (ZR : hz h (FR false wl wi :: FL cp p x :: k) wr) by (apply (hz_move _ _ Z); reflexivity).
  eapply fin_keeps; [apply keeps_refl| |].
  2:{ rewrite bind_assoc, (bind_eq (rd_left Z1)), bind_assoc, (bind_eq (rd_right Z1)), bind_assoc, (bind_eq (bon_read ZR)), bind_assoc, (bind_eq (bon_read ZL)). reflexivity. }
  destruct (isb wl) eqn:BL.
  - destruct (isb wr) eqn:BR; cbn [andb].
    + (* both black: recolour and move up *)
      destruct (turn2 L0 (set_red_focus _ _ _ _ _ _ true Z1) ltac:(io)) as (h1 & R1 & Z2 & K1).
      assert (Z3 : hz h1 k (T cp (T true wl wi wr) p x)) by (apply (hz_move _ _ Z2); reflexivity).
      eapply fin_keeps; [exact K1| |rewrite bind_assoc, (bind_eq R1), bind_assoc, (bind_eq (rd_par Z3)); reflexivity].
      replace L0 with (inorder (plug k (T cp (T true wl wi wr) p x))) by io.
      change (Some p) with (root (T cp (T true wl wi wr) p x)).
      apply isb_spec in BL, BR.
      apply (IH h1 k _ (if cp then n else S n) Z3); [destruct cp; cbn; tauto|destruct cp; exact C|exact F0|].
      destruct cp; [discriminate|]. intros _. apply F1. reflexivity.
    + (* the far child is black: rotate the sibling first *)
      destruct wr as [|[] wrl wri wrr]; try discriminate. cbn [root].
      destruct RR as (RRL & RRR & BRL & BRR). apply isb_spec in BL.
      assert (Zl : hz h (FR false wl wi :: FL cp p x :: k) (T true wrl wri wrr)) by (apply (hz_move _ _ Z); reflexivity).
      destruct (turn2 L0 (set_red_focus _ _ _ _ _ _ false Zl) ltac:(io)) as (h1 & R1 & Z2 & K1).
      assert (Z3 : hz h1 (FL cp p x :: k) (T false wl wi (T false wrl wri wrr))) by (apply (hz_move _ _ Z2); reflexivity).
      destruct (turn2 L0 (set_red_focus _ _ _ _ _ _ true Z3) ltac:(io)) as (h2 & R2 & Z4 & K2).
      destruct (turn2 L0 (rotate_left_focus _ _ _ _ _ _ _ _ _ Z4) ltac:(io)) as (h3 & R3 & Z5 & K3).
      assert (Z6 : hz h3 k (T cp (T false (T true wl wi wrl) wri wrr) p x)) by (apply (hz_move _ _ Z5); reflexivity).
      eapply fin_keeps with (h1 := h3); [kchain| |].
      2:{ rewrite !bind_assoc, (bind_eq R1), !bind_assoc, (bind_eq R2), !bind_assoc, (bind_eq (rd_par Z4)), !bind_assoc, (bind_eq R3), !bind_assoc, (bind_eq (rd_left Z6)).
          cbn [root is_nil negb assert]. rewrite bind_assoc. unfold ret at 1. rewrite (bind_eq eq_refl). unfold ret at 1. rewrite (bind_eq eq_refl). reflexivity. }
      apply (right_last _ _ _ _ _ _ _ _ _ _ _ _ n Z6); auto. io.
  - (* the far child is red *)
    rewrite ?andb_false_r. eapply fin_keeps; [apply keeps_refl| |].
    2:{ rewrite bind_assoc. unfold ret at 1. rewrite (bind_eq eq_refl). reflexivity. }
    destruct wl as [|[] wll wli wlr]; try discriminate. destruct RL as (RLL & RLR & BLL & BLR).
    apply (right_last _ _ _ _ _ _ _ _ _ _ _ _ n Z); auto.
Qed.

Lemma restore_loop_ok fuel : IHloop fuel.
Proof.
  induction fuel as [|fuel IH]; intros h k t n Z LK C F0 F1; [lia|].
  pose (L0 := inorder (plug k t)). change (inorder (plug k t)) with L0.
  cbn [restore_loop].
  eapply fin_keeps; [apply keeps_refl| |rewrite bind_assoc, (bind_eq (bon_read Z)); reflexivity].
  destruct (isb t) eqn:BT.
  2:{ rewrite orb_true_r. unfold fin, ret at 1. rewrite (bind_eq eq_refl). eapply paint_ok; eauto. }
  assert (RT : rb t n) by (destruct t as [|[] ? ? ?]; [exact LK|discriminate|exact LK]).
  pose proof BT as BTb. apply isb_spec in BTb.
  cbn [negb]. rewrite orb_false_r. unfold header.
  destruct k as [|f k].
  { cbn [parent_of]. rewrite ptr_eqb_refl. unfold fin, ret at 1. rewrite (bind_eq eq_refl). eapply paint_black; eauto; exact I. }
  cbn [parent_of]. specialize (F1 eq_refl). cbn [length] in F1.
  cbn [ctx_rb] in C. destruct C as (RS & C).
  destruct f as [cp p w|cp w p]; cbn [fidx fsib fred] in *.
  - assert (Zp : hz h k (T cp t p w)) by (apply (hz_move _ _ Z); reflexivity).
    rewrite (rd_nh Zp).
    destruct w as [|cw wl wi wr]; [discriminate|].
    eapply fin_keeps; [apply keeps_refl| |].
    2:{ rewrite bind_assoc, (bind_eq (rd_left Zp)), ptr_eqb_refl, bind_assoc, (bind_eq (rd_right Zp)). cbn [root is_nil negb assert].
        rewrite bind_assoc. unfold ret at 1. rewrite (bind_eq eq_refl).
        rewrite bind_assoc, (bind_eq (rd_red (proj1 (hz_right _ _ _ _ _ _) Zp))). reflexivity. }
    destruct cw.
    + (* a red sibling *)
      assert (cp = false) by (destruct cp; [destruct C as (B & _); contradiction|reflexivity]). subst cp.
      destruct RS as (RL & RR & BL & BR).
      destruct wl as [|cwl wll wli wlr]; [discriminate|]. destruct cwl; [contradiction|]. destruct RL as (RLL & RLR).
      assert (Z1 : hz h (FR false t p :: k) (T true (T false wll wli wlr) wi wr)) by (apply (hz_move _ _ Z); reflexivity).
      destruct (turn2 L0 (set_red_focus _ _ _ _ _ _ false Z1) ltac:(io)) as (h1 & R1 & Z2 & K1).
      assert (Z3 : hz h1 k (T false t p (T false (T false wll wli wlr) wi wr))) by (apply (hz_move _ _ Z2); reflexivity).
      destruct (turn2 L0 (set_red_focus _ _ _ _ _ _ true Z3) ltac:(io)) as (h2 & R2 & Z4 & K2).
      destruct (turn2 L0 (rotate_left_focus _ _ _ _ _ _ _ _ _ Z4) ltac:(io)) as (h3 & R3 & Z5 & K3).
      assert (Z6 : hz h3 (FL false wi wr :: k) (T true t p (T false wll wli wlr))) by (apply (hz_move _ _ Z5); reflexivity).
      eapply fin_keeps with (h1 := h3) (m := left_tail fuel (root t) (Some p) (Some wli)); [kchain| |].
      2:{ rewrite !bind_assoc, (bind_eq R1), !bind_assoc, (bind_eq R2), !bind_assoc, (bind_eq (rd_par Z4)), !bind_assoc, (bind_eq R3), (bind_eq (rd_right Z6)). reflexivity. }
      replace L0 with (inorder (plug (FL false wi wr :: k) (T true t p (T false wll wli wlr)))) by io.
      apply left_tail_ok with (n := n); try assumption; try discriminate; try lia; try reflexivity; cbn; tauto.
    + destruct RS as (RL & RR). eapply fin_keeps with (m := left_tail fuel (root t) (Some p) (Some wi)); [apply keeps_refl| |].
      2:{ rewrite bind_assoc. unfold ret at 1. rewrite (bind_eq eq_refl). reflexivity. }
      apply left_tail_ok with (n := n); try assumption; try lia; destruct cp; try tauto; discriminate.
  - assert (Zp : hz h k (T cp w p t)) by (apply (hz_move _ _ Z); reflexivity).
    rewrite (rd_nh Zp).
    destruct w as [|cw wl wi wr]; [discriminate|].
    assert (NE : ptr_eqb (root t) (Some wi) = false).
    { destruct t as [|ct tl ti tr]; [reflexivity|]. apply (hz_sib Zp). discriminate. }
    eapply fin_keeps; [apply keeps_refl| |].
    2:{ rewrite bind_assoc, (bind_eq (rd_left Zp)). cbn [root]. rewrite NE.
        rewrite bind_assoc, (bind_eq (rd_red (proj1 (hz_left _ _ _ _ _ _) Zp))). reflexivity. }
    destruct cw.
    + assert (cp = false) by (destruct cp; [destruct C as (B & _); contradiction|reflexivity]). subst cp.
      destruct RS as (RL & RR & BL & BR).
      destruct wr as [|cwr wrl wri wrr]; [discriminate|]. destruct cwr; [contradiction|]. destruct RR as (RRL & RRR).
      assert (Z1 : hz h (FL false p t :: k) (T true wl wi (T false wrl wri wrr))) by (apply (hz_move _ _ Z); reflexivity).
      destruct (turn2 L0 (set_red_focus _ _ _ _ _ _ false Z1) ltac:(io)) as (h1 & R1 & Z2 & K1).
      assert (Z3 : hz h1 k (T false (T false wl wi (T false wrl wri wrr)) p t)) by (apply (hz_move _ _ Z2); reflexivity).
      destruct (turn2 L0 (set_red_focus _ _ _ _ _ _ true Z3) ltac:(io)) as (h2 & R2 & Z4 & K2).
      destruct (turn2 L0 (rotate_right_focus _ _ _ _ _ _ _ _ _ Z4) ltac:(io)) as (h3 & R3 & Z5 & K3).
      assert (Z6 : hz h3 (FR false wl wi :: k) (T true (T false wrl wri wrr) p t)) by (apply (hz_move _ _ Z5); reflexivity).
      eapply fin_keeps with (h1 := h3) (m := right_tail fuel (root t) (Some p) (Some wri)); [kchain| |].
      2:{ rewrite !bind_assoc, (bind_eq R1), !bind_assoc, (bind_eq R2), !bind_assoc, (bind_eq (rd_par Z4)), !bind_assoc, (bind_eq R3), !bind_assoc, (bind_eq (rd_left Z6)).
          cbn [root is_nil negb assert]. rewrite bind_assoc. unfold ret at 1. rewrite (bind_eq eq_refl). unfold ret at 1. rewrite (bind_eq eq_refl). reflexivity. }
      replace L0 with (inorder (plug (FR false wl wi :: k) (T true (T false wrl wri wrr) p t))) by io.
      apply right_tail_ok with (n := n); try assumption; try discriminate; try lia; try reflexivity; cbn; tauto.
    + destruct RS as (RL & RR). eapply fin_keeps with (m := right_tail fuel (root t) (Some p) (Some wi)); [apply keeps_refl| |].
      2:{ rewrite bind_assoc. unfold ret at 1. rewrite (bind_eq eq_refl). reflexivity. }
      apply right_tail_ok with (n := n); try assumption; try lia; destruct cp; try tauto; discriminate.
Qed.

Lemma restore_ok fuel h k t n : hz h k t -> lacking t n -> ctx_rb k (S n) -> length k < fuel ->
  exists h' t', restore_invariants V fuel (root t) (parent_of (Some 0) k) h = Some (tt, h') /\
    hz h' [] t' /\ inorder t' = inorder (plug k t) /\ red_black t' /\ keeps (inorder (plug k t)) h h'.
Proof. intros Z LK C F. apply (restore_loop_ok fuel h k t n Z LK C); [lia|auto]. Qed.
End Restore.
