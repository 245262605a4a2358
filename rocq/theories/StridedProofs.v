From Coq Require Import ZArith List Bool Lia ZifyBool ZifyNat.
From Verif Require Import StridedModel.
Import ListNotations.
Local Open Scope Z_scope.

Definition positions (start stride : Z) (n : nat) : list Z :=
  map (fun i => start + Z.of_nat i * stride) (seq 0 n).

Lemma positions_S start stride n : positions start stride (S n) = start :: positions (start + stride) stride n.
Proof.
  unfold positions. rewrite <- cons_seq, <- seq_shift, map_cons, map_map. f_equal; [lia|].
  apply map_ext. intros i. lia.
Qed.

Lemma visit_all stride : stride <> 0 -> forall n start fuel, (n <= fuel)%nat ->
  visit fuel (range_begin start stride) (range_end start stride n) = Some (positions start stride n).
Proof.
  intros H. induction n as [|n IH]; intros start fuel L.
  - replace (range_end start stride 0) with (range_begin start stride) by (unfold range_end, it_add, range_begin; f_equal; cbn; lia).
    destruct fuel; cbn [visit]; unfold it_eqb; rewrite Z.eqb_refl; reflexivity.
  - destruct fuel as [|fuel]; [lia|]. cbn [visit].
    replace (it_eqb (range_begin start stride) (range_end start stride (S n))) with false.
    2:{ symmetry. unfold it_eqb, range_begin, range_end, it_add. cbn [it_ptr it_stride]. apply Z.eqb_neq. nia. }
    replace (it_next (range_begin start stride)) with (range_begin (start + stride) stride) by reflexivity.
    replace (range_end start stride (S n)) with (range_end (start + stride) stride n).
    2:{ unfold range_end, it_add. cbn [it_ptr it_stride]. f_equal. lia. }
    rewrite IH by lia. rewrite positions_S. reflexivity.
Qed.
