(** Sums over lists, and sums along a stack of lines. *)
From Coq Require Import ZArith List Bool Arith Lia Permutation.
From Verif Require Import GeomModel GeomSpec ArrangeCore.
Import ListNotations.
Local Open Scope Z_scope.

Section Tot.
Context {X : Type}.
Definition tot (f : X -> Z) (l : list X) : Z := sumZ (map f l).
Lemma tot_cons f x l : tot f (x :: l) = f x + tot f l. Proof. reflexivity. Qed.
Lemma tot_nil f : tot f [] = 0. Proof. reflexivity. Qed.
Lemma tot_ext f g l : (forall x, In x l -> f x = g x) -> tot f l = tot g l.
Proof. induction l as [|x l IH]; intros H; [reflexivity|]. rewrite !tot_cons, IH by (intros; apply H; right; assumption). rewrite H by (left; reflexivity). reflexivity. Qed.
Lemma tot_add f g l : tot (fun x => f x + g x) l = tot f l + tot g l.
Proof. induction l as [|x l IH]; [reflexivity|]. rewrite !tot_cons, IH. lia. Qed.
Lemma tot_sub f g l : tot (fun x => f x - g x) l = tot f l - tot g l.
Proof. induction l as [|x l IH]; [reflexivity|]. rewrite !tot_cons, IH. lia. Qed.
Lemma tot_zero l : tot (fun _ => 0) l = 0.
Proof. induction l as [|x l IH]; [reflexivity|]. rewrite tot_cons, IH. reflexivity. Qed.
Lemma tot_perm f l l' : Permutation l l' -> tot f l = tot f l'.
Proof. induction 1; rewrite ?tot_cons in *; lia. Qed.
Lemma tot_filter p f l : tot f (filter p l) = tot (fun x => if p x then f x else 0) l.
Proof. induction l as [|x l IH]; [reflexivity|]. cbn [filter]. rewrite tot_cons. destruct (p x); rewrite ?tot_cons, IH; lia. Qed.
Lemma tot_app f a b : tot f (a ++ b) = tot f a + tot f b.
Proof. induction a as [|x a IH]; [reflexivity|]. cbn [app]. rewrite !tot_cons, IH. lia. Qed.
End Tot.
Lemma tot_map {X Y} (g : X -> Y) f l : tot f (map g l) = tot (fun x => f (g x)) l.
Proof. unfold tot. rewrite map_map. reflexivity. Qed.
Lemma tot_flat {X Y} (g : X -> list Y) f l : tot f (flat_map g l) = tot (fun x => tot f (g x)) l.
Proof. induction l as [|x l IH]; [reflexivity|]. cbn [flat_map]. rewrite tot_app, tot_cons, IH. reflexivity. Qed.

(** ** Stacks *)
Section Stack.
Context {X : Type}.
Variables (key : X -> nat) (gt : X -> X -> bool) (w1 w2 : X -> Z).
Definition ranked (R : list X) : Prop :=
  (forall x y, In x R -> In y R -> key x <> key y -> gt x y = negb (gt y x)) /\
  (forall x y z, In x R -> In y R -> In z R -> gt x y = true -> gt y z = true -> gt x z = true).
Definition higher (w : X -> Z) (R : list X) (x : X) : Z := tot (fun y => if Nat.eqb (key y) (key x) then 0 else if gt y x then w y else 0) R.
Lemma ranked_perm R R' : Permutation R R' -> ranked R -> ranked R'.
Proof.
  intros P (T & S). split.
  - intros x y I J. apply T; apply (Permutation_in _ (Permutation_sym P)); assumption.
  - intros x y z I J K. apply S; apply (Permutation_in _ (Permutation_sym P)); assumption.
Qed.
Lemma ranked_cons x R : ranked (x :: R) -> ranked R.
Proof.
  intros (T & S). split.
  - intros y z I J. apply T; right; assumption.
  - intros y z u I J K. apply S; right; assumption.
Qed.
Lemma lowest R : ranked R -> NoDup (map key R) -> R <> [] -> exists x R', Permutation R (x :: R') /\ forall y, In y R' -> gt y x = true.
Proof.
  induction R as [|x R IH]; intros RK ND NE; [congruence|]. destruct R as [|x' R0]; [exists x, []; split; [reflexivity|intros y []]|].
  destruct IH as (m & R' & P & H); [apply (ranked_cons x), RK|inversion ND; assumption|discriminate|]. set (R := x' :: R0) in *. clearbody R. clear NE R0 x'.
  assert (IM : In m R) by (apply (Permutation_in _ (Permutation_sym P)); left; reflexivity).
  assert (NK : key m <> key x) by (inversion ND as [|? ? N _]; subst; intros E; apply N; rewrite <- E; apply in_map, IM).
  destruct RK as (T & S). destruct (gt m x) eqn:E.
  - exists x, R. split; [reflexivity|]. intros y I. apply (Permutation_in _ P) in I. destruct I as [<-|I]; [exact E|]. apply (S y m x); try assumption; [right; apply (Permutation_in _ (Permutation_sym P)); right; exact I|right; exact IM|left; reflexivity|apply H; exact I].
  - exists m, (x :: R'). split; [rewrite P; apply perm_swap|]. intros y [<-|I]; [|apply H, I]. rewrite T; [rewrite E; reflexivity|left; reflexivity|right; exact IM|congruence].
Qed.
Lemma higher_perm w R R' x : Permutation R R' -> higher w R x = higher w R' x.
Proof. apply tot_perm. Qed.
Theorem stack (G : Z -> Z -> Z) (u1 u2 : Z) R : ranked R -> NoDup (map key R) ->
  tot (fun x => G (u1 + higher w1 R x + w1 x) (u2 + higher w2 R x + w2 x) - G (u1 + higher w1 R x) (u2 + higher w2 R x)) R = G (u1 + tot w1 R) (u2 + tot w2 R) - G u1 u2.
Proof.
  remember (length R) as n eqn:EN. revert R EN. induction n as [|n IH]; intros R EN RK ND.
  - destruct R; [|discriminate]. rewrite !tot_nil. rewrite !Z.add_0_r. lia.
  - destruct (lowest R RK ND) as (x & R' & P & H); [intros ->; discriminate|].
    assert (LN : n = length R') by (apply Permutation_length in P; cbn in P; lia). pose proof (ranked_perm _ _ P RK) as RK'. assert (ND' : NoDup (map key (x :: R'))) by (apply (Permutation_NoDup (Permutation_map key P)), ND).
    rewrite (tot_perm _ _ _ P), !(tot_perm _ _ _ P). inversion ND' as [|? ? NI ND'']; subst.
    rewrite !(tot_cons _ x). pose proof (IH R' eq_refl (ranked_cons _ _ RK') ND'') as IH'.
    assert (HX : forall w, higher w R x = tot w R').
    { intros w. rewrite (higher_perm w R _ x P). unfold higher. rewrite tot_cons, Nat.eqb_refl. cbn [Z.add]. apply tot_ext. intros y I. rewrite (H y I). destruct (Nat.eqb_spec (key y) (key x)) as [E|E]; [|reflexivity]. exfalso. apply NI. rewrite <- E. apply in_map, I. }
    assert (HY : forall w y, In y R' -> higher w R y = higher w R' y).
    { intros w y I. rewrite (higher_perm w R _ y P). unfold higher at 1. rewrite tot_cons. destruct RK' as (T & _). destruct (Nat.eqb_spec (key x) (key y)) as [E|E]; [reflexivity|]. rewrite T by (try (left; reflexivity); try (right; exact I); exact E). rewrite (H y I). reflexivity. }
    rewrite !HX. match goal with |- _ + tot ?f R' = _ => assert (E : tot f R' = G (u1 + tot w1 R') (u2 + tot w2 R') - G u1 u2) end.
    { rewrite <- IH'. apply tot_ext. intros y I. cbn beta. rewrite !HY by exact I. reflexivity. }
    rewrite E. clear E. replace (u1 + tot w1 R' + w1 x) with (u1 + (w1 x + tot w1 R')) by lia. replace (u2 + tot w2 R' + w2 x) with (u2 + (w2 x + tot w2 R')) by lia. lia.
Qed.
End Stack.
