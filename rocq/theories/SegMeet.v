(** Two lines that only meet at their ends are not split by a check. *)
From Coq Require Import ZArith QArith List Bool Arith Lia.
From Verif Require Import GeomModel GeomSpec GeomProofs IsectProofs GeomFinal SegOrder SegPair SegCheck ClipModel ArrangeSpec.
Import ListNotations.
Local Open Scope Z_scope.

(** The lines have the same ends or meet only where both end. *)
Definition meet_ends (g h : cseg) : Prop :=
  same_ends (sg_pa g, sg_pb g) (sg_pa h, sg_pb h) \/
  forall X Y, on_seg (sg_pa g) (sg_pb g) X Y -> on_seg (sg_pa h) (sg_pb h) X Y -> end_of (sg_pa g, sg_pb g) X Y /\ end_of (sg_pa h, sg_pb h) X Y.

Lemma pt_eq (p q : point) : px p = px q -> py p = py q -> p = q.
Proof. destruct p, q. cbn. congruence. Qed.
Lemma end_pt a b p : end_of (a, b) (injX p) (injY p) -> p = a \/ p = b.
Proof. unfold end_of, injX, injY. cbn [fst snd]. intros [(A & B)|(A & B)]; apply inj_eq1 in A, B; [left|right]; apply pt_eq; assumption. Qed.
Lemma end_ok e a b p : p = a \/ p = b -> edge_ok e a b p -> is_end e.
Proof. unfold is_end. intros E K. destruct e; cbn in K; auto; [|contradiction]. destruct K, E; contradiction. Qed.

Lemma isect_ends rx ry g h c e1 e2 : good g -> good h -> meet_ends g h -> intersects rx ry g h = Some (c, e1, e2) ->
  (e1 = AEboth /\ e2 = AEboth) \/ (is_end e1 /\ is_end e2).
Proof.
  intros G H M E. destruct (Z.eq_dec (dir_cross (sg_pa g) (sg_pb g) (sg_pa h) (sg_pb h)) 0) as [D|D].
  - destruct (parallel_final rx ry g h (proj2 G) (proj2 H) D) as (_ & PT & NO). destruct c as [p|]; [right|left; destruct (NO _ _ E) as (A & B & _); auto].
    destruct (PT _ _ _ E) as (O1 & O2 & K1 & K2 & N). destruct M as [M|M].
    + assert (X : (p = sg_pa g \/ p = sg_pb g) <-> (p = sg_pa h \/ p = sg_pb h)) by (clear -M; destruct M as [M|M]; cbn [fst snd] in M; injection M as -> ->; tauto).
      assert (Y : p = sg_pa g \/ p = sg_pb g).
      { destruct N as [N|N]; [|apply X]; [destruct e1|destruct e2]; cbn in K1, K2; auto; contradiction. }
      split; [exact (end_ok _ _ _ _ Y K1)|exact (end_ok _ _ _ _ (proj1 X Y) K2)].
    + destruct (M _ _ O1 O2) as (A & B). apply end_pt in A, B. split; [exact (end_ok _ _ _ _ A K1)|exact (end_ok _ _ _ _ B K2)].
  - assert (NS : no_shared g h).
    { unfold no_shared. unfold intersects in E. replace ((px (sg_pa g) - px (sg_pb g)) * (py (sg_pa h) - py (sg_pb h)) - (py (sg_pa g) - py (sg_pb g)) * (px (sg_pa h) - px (sg_pb h))) with (dir_cross (sg_pa g) (sg_pb g) (sg_pa h) (sg_pb h)) in E by (unfold dir_cross; ring).
      apply Z.eqb_neq in D. rewrite D in E. destruct (_ || _) eqn:S in E; [discriminate|]. rewrite ?orb_false_iff, ?Nat.eqb_neq in S. tauto. }
    destruct (intersects_point _ _ _ _ _ NS D E) as (p & e1' & e2' & X & Y & Q & O1 & O2 & _ & _ & IX & IY & _ & _ & K1 & K2). injection Q as -> <- <-. right.
    destruct M as [M|M].
    + exfalso. apply D. clear -M. unfold dir_cross. destruct M as [M|M]; cbn [fst snd] in M; injection M as -> ->; ring.
    + destruct (M _ _ O1 O2) as (A & B). assert (F : forall a b, end_of (a, b) X Y -> p = a \/ p = b).
      { intros a b [(A1 & A2)|(A1 & A2)]; cbn [fst snd] in A1, A2; [left|right]; apply pt_eq; [apply IX|apply IY|apply IX|apply IY]; assumption. }
      split; [exact (end_ok _ _ _ _ (F _ _ A) K1)|exact (end_ok _ _ _ _ (F _ _ B) K2)].
Qed.
