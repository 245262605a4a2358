From Coq Require Import ZArith List Bool Arith Lia ZifyBool ZifyNat Sorted.
From Verif Require Import GeomModel PointSinkModel PointSinkSpec IsectProofs.
Import ListNotations.

Notation ip := (point * nat)%type (only parsing).

(** ** Exact behaviour *)
Lemma point_eqb_eq a b : point_eqb a b = true <-> a = b.
Proof. destruct (point_eqb_spec a b); split; congruence. Qed.
Lemma point_eqb_sym a b : point_eqb a b = point_eqb b a.
Proof. destruct (point_eqb_spec a b), (point_eqb_spec b a); congruence. Qed.

Fixpoint uniq_from (b : option point) (l : list ip) : list ip :=
  match l with
  | [] => []
  | (p, o) :: l' =>
      if match b with Some q => point_eqb p q | None => false end then uniq_from b l'
      else (p, o) :: uniq_from (Some p) l'
  end.

Definition lastp (b : option point) (l : list ip) : option point :=
  match rev l with [] => b | (p, _) :: _ => Some p end.

Lemma lastp_app b l x : lastp b (l ++ [x]) = Some (fst x).
Proof. unfold lastp. rewrite rev_app_distr. cbn. destruct x. reflexivity. Qed.

Lemma lastp_cons b x l : lastp b (x :: l) = lastp (Some (fst x)) l.
Proof.
  unfold lastp. cbn [rev]. destruct (rev l) as [|[p o] r]; [destruct x; reflexivity|reflexivity].
Qed.

Definition dup (b : option point) (p : point) : bool :=
  match b with Some q => point_eqb p q | None => false end.

Lemma uniq_from_app l : forall b x,
  uniq_from b (l ++ [x]) =
  if dup (lastp b (uniq_from b l)) (fst x) then uniq_from b l else uniq_from b l ++ [x].
Proof.
  induction l as [|[p o] l IH]; intros b [q i]; cbn [app uniq_from fst].
  - unfold lastp. cbn [rev]. unfold dup. destruct (match b with Some _ => _ | None => _ end); reflexivity.
  - destruct (match b with Some q0 => point_eqb p q0 | None => false end).
    + apply IH.
    + rewrite lastp_cons. cbn [fst]. rewrite IH. cbn [fst]. destruct (dup _ q); reflexivity.
Qed.

Fixpoint chain (base : nat) (cat : bool_set) (s : list ip) : list lpoint :=
  match s with
  | [] => []
  | (p, _) :: s' => mk_lpoint p (S base) cat false :: chain (S base) cat s'
  end.

Lemma chain_app base cat s x : chain base cat (s ++ [x]) = chain base cat s ++ [mk_lpoint (fst x) (S (base + length s)) cat false].
Proof.
  revert base. induction s as [|[p o] s IH]; intros base; cbn [app chain length].
  - destruct x. cbn. rewrite Nat.add_0_r. reflexivity.
  - rewrite IH. cbn [app]. do 3 f_equal. f_equal. lia.
Qed.

Lemma chain_length base cat s : length (chain base cat s) = length s.
Proof. revert base. induction s as [|[p o] s IH]; intros; cbn; [reflexivity|]. rewrite IH. reflexivity. Qed.

Definition bdata (l : list lpoint) : option point := option_map lp_data (back l).

Lemma back_app l x : back (l ++ [x]) = Some x.
Proof.
  unfold back. rewrite app_length. cbn [length]. rewrite nth_error_app2 by lia.
  replace (length l + 1 - 1 - length l)%nat with 0%nat by lia. reflexivity.
Qed.

Lemma bdata_chain pts base cat s : bdata (pts ++ chain base cat s) = lastp (bdata pts) s.
Proof.
  destruct s as [|x s] using rev_ind.
  - cbn. rewrite app_nil_r. reflexivity.
  - rewrite chain_app, app_assoc. unfold bdata. rewrite back_app, lastp_app. reflexivity.
Qed.

(** log produced for the stored list s *)
Definition notif (pt : bool) (s : list ip) : list tcall :=
  if pt then (if Nat.ltb (length s) 3 then [] else map (fun x => TAdded (snd x)) s) else [].

(* sink values o1, o2 after storing s *)
Definition o_ok (sk : sink) (s : list ip) : Prop :=
  sk_pt sk = true ->
  match s with
  | [] => True
  | [a] => sk_o1 sk = snd a
  | a :: b :: _ => sk_o1 sk = snd a /\ sk_o2 sk = snd b
  end.

Record inv (c0 : clip_state) (log0 : list tcall) (cat : bool_set) (pt : bool) (s : list ip) (st : sink_state) : Prop := {
  iv_pts : cs_points (ss_clip st) = cs_points c0 ++ chain (length (cs_points c0)) cat s;
  iv_ran : cs_ran (ss_clip st) = cs_ran c0;
  iv_rand : cs_rand (ss_clip st) = cs_rand c0;
  iv_log : ss_log st = log0 ++ notif pt s;
  iv_first : sk_first (ss_sink st) = length (cs_points c0);
  iv_cat : sk_cat (ss_sink st) = cat;
  iv_pt : sk_pt (ss_sink st) = pt;
  iv_o : o_ok (ss_sink st) s }.

Lemma finalize_inv c0 log0 cat pt s st p o :
  inv c0 log0 cat pt s st ->
  inv c0 log0 cat pt (if dup (lastp (bdata (cs_points c0)) s) p then s else s ++ [(p, o)]) (finalize_prev st p o) /\
  cs_next_orig (ss_clip (finalize_prev st p o)) = cs_next_orig (ss_clip st) /\
  sk_prev (ss_sink (finalize_prev st p o)) = sk_prev (ss_sink st).
Proof.
  intros I. pose proof I as [Ip Ir Id Il If Ic It Io].
  assert (D : match back (cs_points (ss_clip st)) with Some b => point_eqb p (lp_data b) | None => false end
     = dup (lastp (bdata (cs_points c0)) s) p).
  { rewrite Ip, <- bdata_chain with (base := length (cs_points c0)) (cat := cat). unfold bdata, dup.
    destruct (back _); reflexivity. }
  unfold finalize_prev. rewrite D. destruct (dup _ p) eqn:ED; [split; [assumption|split; reflexivity]|].
  assert (N : (length (cs_points (ss_clip st)) - sk_first (ss_sink st))%nat = length s).
  { rewrite Ip, If, app_length, chain_length. lia. }
  rewrite N. cbn [ss_clip ss_log ss_sink set_points cs_next_orig].
  split; [|split; [reflexivity|]].
  2:{ destruct (sk_pt (ss_sink st)); [|reflexivity]. destruct (length s) as [|[|n]]; reflexivity. }
  constructor; cbn [ss_clip ss_log ss_sink cs_points cs_ran cs_rand set_points].
  - rewrite Ip, Ic, chain_app, !app_assoc. do 3 f_equal. rewrite app_length, chain_length. reflexivity.
  - assumption.
  - assumption.
  - rewrite It. destruct pt; [|rewrite Il; reflexivity].
    unfold o_ok in Io. rewrite It in Io. specialize (Io eq_refl). rewrite Il. unfold notif. rewrite app_length. cbn [length].
    destruct s as [|a [|b [|d s]]]; cbn [length] in *.
    + reflexivity.
    + reflexivity.
    + destruct Io as [-> ->]. cbn. rewrite app_nil_r. reflexivity.
    + cbn [Nat.ltb Nat.leb]. replace (Nat.leb (length s + 1) 0) with false.
      2:{ symmetry. apply Nat.leb_gt. lia. }
      rewrite !map_app, <- app_assoc. cbn. reflexivity.
  - destruct (sk_pt (ss_sink st)); [|assumption]. destruct (length s) as [|[|n]]; assumption.
  - destruct (sk_pt (ss_sink st)); [|assumption]. destruct (length s) as [|[|n]]; assumption.
  - rewrite It. destruct pt; [|assumption]. destruct (length s) as [|[|n]]; cbn [sk_pt]; first [reflexivity|assumption].
  - intros HT. destruct (sk_pt (ss_sink st)) eqn:EP; [|rewrite EP in HT; discriminate].
    unfold o_ok in Io. rewrite EP in Io. specialize (Io eq_refl).
    destruct s as [|a [|b s]]; cbn [length app sk_o1 sk_o2] in *; auto.
Qed.

Fixpoint enum (n : nat) (l : list point) : list ip :=
  match l with [] => [] | p :: l' => (p, n) :: enum (S n) l' end.

Lemma enum_app n l p : enum n (l ++ [p]) = enum n l ++ [(p, n + length l)].
Proof.
  revert n. induction l as [|q l IH]; intros n; cbn [app enum length].
  - rewrite Nat.add_0_r. reflexivity.
  - rewrite IH. replace (n + S (length l)) with (S n + length l) by lia. reflexivity.
Qed.
Lemma enum_length n l : length (enum n l) = length l.
Proof. revert n. induction l as [|p l IH]; intros; cbn; [reflexivity|]. rewrite IH. reflexivity. Qed.

Definition opened (c : clip_state) : clip_state := if cs_ran c then clip_reset c else c.
Definition opened_log (c : clip_state) (log : list tcall) (pt : bool) : list tcall :=
  if cs_ran c && pt then log ++ [TReset] else log.

Lemma open_inv c log cat pt : inv (opened c) (opened_log c log pt) cat pt [] (sink_open c log cat pt).
Proof.
  unfold sink_open, opened, opened_log, notif.
  constructor; cbn [ss_clip ss_log ss_sink sk_first sk_cat sk_pt chain].
  - rewrite app_nil_r. reflexivity.
  - reflexivity.
  - reflexivity.
  - destruct pt; rewrite app_nil_r; reflexivity.
  - reflexivity.
  - reflexivity.
  - reflexivity.
  - intros _. exact I.
Qed.

Lemma puts_inv c log cat pt l z :
  let st := fold_left sink_put_next (l ++ [z]) (sink_open c log cat pt) in
  let b := bdata (cs_points (opened c)) in
  let n := cs_next_orig (opened c) in
  inv (opened c) (opened_log c log pt) cat pt (uniq_from b (enum n l)) st /\
  sk_prev (ss_sink st) = Some (z, n + length l) /\
  cs_next_orig (ss_clip st) = n + length l + 1.
Proof.
  revert z. induction l as [|y l IH] using rev_ind; intros z st b n.
  - cbn [app fold_left enum uniq_from length] in *. subst st. unfold sink_put_next, sink_put.
    change (sk_prev (ss_sink (sink_open c log cat pt))) with (@None (point * nat)). cbn [ss_clip ss_log ss_sink sk_prev set_orig cs_next_orig].
    change (ss_clip (sink_open c log cat pt)) with (opened c).
    pose proof (open_inv c log cat pt) as [Ip Ir Id Il If Ic It Io].
    split; [|split; [f_equal; f_equal; unfold n; lia|unfold n; lia]].
    constructor; cbn [ss_clip ss_log ss_sink sk_first sk_cat sk_pt set_orig cs_points cs_ran cs_rand]; try assumption.
  - subst st. rewrite fold_left_app. cbn [fold_left].
    destruct (IH y) as (I0 & P0 & N0). fold b n in I0, P0, N0.
    set (st := fold_left sink_put_next (l ++ [y]) (sink_open c log cat pt)) in *.
    unfold sink_put_next, sink_put. rewrite P0. rewrite N0.
    destruct (finalize_inv _ _ _ _ _ _ y (n + length l) I0) as (I1 & N1 & P1).
    fold b in I1.
    assert (E : uniq_from b (enum n (l ++ [y]))
       = if dup (lastp b (uniq_from b (enum n l))) y then uniq_from b (enum n l) else uniq_from b (enum n l) ++ [(y, n + length l)]).
    { rewrite enum_app, uniq_from_app. reflexivity. }
    rewrite <- E in I1. pose proof I1 as [Ip Ir Id Il If Ic It Io].
    cbn [ss_clip ss_log ss_sink sk_prev set_orig cs_next_orig].
    rewrite app_length. cbn [length].
    split; [|split; [f_equal; f_equal; lia|lia]].
    constructor; cbn [ss_clip ss_log ss_sink sk_first sk_cat sk_pt set_orig cs_points cs_ran cs_rand]; try assumption.
Qed.

(** closed ring of the stored list *)
Definition stored (b : option point) (n : nat) (l : list point) (z : point) : list ip :=
  let s := uniq_from b (enum n l) in
  match s with
  | [] => []
  | f :: _ =>
      if point_eqb z (fst f) then s
      else if dup (lastp b s) z then s else s ++ [(z, n + length l)]
  end.

Lemma set_last_app l x f : set_last (l ++ [x]) f = l ++ [f x].
Proof. unfold set_last. rewrite rev_app_distr. cbn. rewrite rev_involutive. reflexivity. Qed.

Definition closed_chain (base : nat) (cat : bool_set) (s : list ip) : list lpoint :=
  set_last (chain base cat s) (fun l => mk_lpoint (lp_data l) base (lp_set l) true).

Lemma add_loop_exact c log cat pt l z :
  let b := bdata (cs_points (opened c)) in
  let n := cs_next_orig (opened c) in
  let s := stored b n l z in
  match uniq_from b (enum n l) with
  | [] => add_loop c log cat pt (l ++ [z]) = OutOfBounds
  | _ =>
      exists c', add_loop c log cat pt (l ++ [z]) = Done (c', opened_log c log pt ++ notif pt s) /\
        cs_points c' = cs_points (opened c) ++
          (if Nat.ltb (length s) 3 then [] else closed_chain (length (cs_points (opened c))) cat s) /\
        cs_next_orig c' = n + length l + 1 /\ cs_ran c' = false /\ cs_rand c' = cs_rand c
  end.
Proof.
  intros b n s. unfold add_loop.
  destruct (puts_inv c log cat pt l z) as (I0 & P0 & N0).
  fold b n in I0, P0, N0.
  set (st := fold_left sink_put_next (l ++ [z]) (sink_open c log cat pt)) in *. clearbody st.
  unfold sink_close. rewrite P0.
  pose proof I0 as [Ip Ir Id Il If Ic It Io]. rewrite Ip, If.
  subst s. unfold stored.
  set (u := uniq_from b (enum n l)) in *. 
  assert (RN : cs_ran (opened c) = false) by (unfold opened; destruct (cs_ran c) eqn:E; [reflexivity|assumption]).
  assert (RD : cs_rand (opened c) = cs_rand c) by (unfold opened; destruct (cs_ran c); reflexivity).
  destruct u as [|[fp fo] u0] eqn:EU.
  - cbn [chain]. rewrite app_nil_r.
    replace (nth_error (cs_points (opened c)) (length (cs_points (opened c)))) with (@None lpoint)
      by (symmetry; apply nth_error_None; lia).
    reflexivity.
  - rewrite nth_error_app2 by lia. rewrite Nat.sub_diag. cbn [chain nth_error lp_data fst].
    set (s' := if point_eqb z fp then (fp, fo) :: u0
       else if dup (lastp b ((fp, fo) :: u0)) z then (fp, fo) :: u0 else ((fp, fo) :: u0) ++ [(z, n + length l)]).
    set (st1 := if negb (point_eqb z fp) then finalize_prev st z (n + length l) else st).
    assert (I1 : inv (opened c) (opened_log c log pt) cat pt s' st1 /\ cs_next_orig (ss_clip st1) = n + length l + 1).
    { subst s' st1. destruct (point_eqb z fp); cbn [negb]; [split; assumption|].
      destruct (finalize_inv _ _ _ _ _ _ z (n + length l) I0) as (I1 & N1 & _).
      fold b in I1. split; [exact I1|]. rewrite N1. assumption. }
    destruct I1 as [I1 N1]. clearbody st1. clear I0 Ip Ir Id Il If Ic It Io.
    destruct I1 as [Ip Ir Id Il If Ic It Io]. rewrite Ip, If, Il, app_length, chain_length.
    replace (length (cs_points (opened c)) + length s' - length (cs_points (opened c))) with (length s') by lia.
    assert (SN : s' <> []).
    { subst s'. destruct (point_eqb z fp); [discriminate|]. destruct (dup _ z); [discriminate|]. discriminate. }
    destruct (Nat.ltb (length s') 3) eqn:EL.
    + eexists. split; [reflexivity|]. cbn [cs_points cs_next_orig cs_ran cs_rand set_points].
      rewrite Ir, Id, N1. rewrite app_nil_r.
      replace (length (cs_points (opened c)) + length s' - length s') with (length (cs_points (opened c))) by lia.
      rewrite firstn_app, Nat.sub_diag, firstn_all. cbn [firstn]. rewrite app_nil_r. auto.
    + eexists. split; [reflexivity|]. cbn [cs_points cs_next_orig cs_ran cs_rand set_points].
      rewrite Ir, Id, N1. split; [|auto].
      unfold closed_chain. destruct (exists_last SN) as (m & x & ->).
      rewrite chain_app, app_assoc, !set_last_app, <- app_assoc. reflexivity.
Qed.

Lemma add_loop_nil c log cat pt :
  add_loop c log cat pt [] = Done (opened c, opened_log c log pt).
Proof. reflexivity. Qed.

(** ** The stored list in terms of the specification *)
Lemma uniq_cons p l : uniq (p :: l) =
  match l with q :: _ => if point_eqb p q then uniq l else p :: uniq l | [] => [p] end.
Proof. destruct l; reflexivity. Qed.

Lemma uniq_hd p l : exists m, uniq (p :: l) = p :: m.
Proof.
  revert p. induction l as [|q l IH]; intros p; rewrite uniq_cons; [eexists; reflexivity|].
  destruct (point_eqb p q) eqn:E; [|eexists; reflexivity].
  apply point_eqb_eq in E. subst q. apply IH.
Qed.

Lemma uniq_from_Some l : forall n p,
  p :: map fst (uniq_from (Some p) (enum n l)) = uniq (p :: l).
Proof.
  induction l as [|q l IH]; intros n p; rewrite uniq_cons; cbn [enum uniq_from map]; [reflexivity|].
  rewrite (point_eqb_sym q p). destruct (point_eqb p q) eqn:E.
  - apply point_eqb_eq in E. subst q. apply IH.
  - cbn [map fst]. rewrite IH. reflexivity.
Qed.

Lemma uniq_from_spec b n l :
  (forall p, hd_error l = Some p -> b <> Some p) ->
  map fst (uniq_from b (enum n l)) = uniq l.
Proof.
  intros H. destruct l as [|p l]; [reflexivity|]. cbn [enum uniq_from].
  assert (E : match b with Some q => point_eqb p q | None => false end = false).
  { destruct b as [q|]; [|reflexivity]. specialize (H p eq_refl).
    destruct (point_eqb p q) eqn:E; [|reflexivity]. apply point_eqb_eq in E. subst. congruence. }
  rewrite E. cbn [map fst]. apply uniq_from_Some.
Qed.

Lemma uniq_app l z : uniq (l ++ [z]) =
  match rev l with [] => [z] | y :: _ => if point_eqb z y then uniq l else uniq l ++ [z] end.
Proof.
  induction l as [|p l IH]; [reflexivity|].
  cbn [app]. rewrite !uniq_cons. cbn [rev].
  destruct l as [|q l].
  - cbn [app rev]. rewrite (point_eqb_sym z p). destruct (point_eqb p z) eqn:E; [|reflexivity].
    apply point_eqb_eq in E. subst. reflexivity.
  - cbn [app] in *. rewrite IH. cbn [rev]. 
    destruct (rev l ++ [q]) as [|y r] eqn:ER; [destruct (rev l); discriminate|]. cbn [app].
    destruct (point_eqb p q), (point_eqb z y); reflexivity.
Qed.

Lemma last_uniq p l d : last (uniq (p :: l)) d = last (p :: l) d.
Proof.
  revert p. induction l as [|q l IH]; intros p; [reflexivity|].
  rewrite uniq_cons. change (last (p :: q :: l) d) with (last (q :: l) d).
  destruct (point_eqb p q); [apply IH|].
  destruct (uniq_hd q l) as [m E]. rewrite <- IH, E. reflexivity.
Qed.

Lemma lastp_map b s : s <> [] -> lastp b s = Some (last (map fst s) (0, 0)%Z).
Proof.
  intros H. destruct (exists_last H) as (m & [p o] & ->). rewrite lastp_app, map_app. cbn [map]. rewrite last_last. reflexivity.
Qed.

Lemma last_default {A} (l : list A) d d' : l <> [] -> last l d = last l d'.
Proof. intros H. destruct (exists_last H) as (m & x & ->). rewrite !last_last. reflexivity. Qed.

Lemma stored_spec b n p l z :
  b <> Some p ->
  (* not: the last two points both equal to the first although another point differs *)
  ~ (z = p /\ last (p :: l) p = p /\ exists q, In q l /\ q <> p) ->
  map fst (stored b n (p :: l) z) = open_end (uniq (p :: l ++ [z])).
Proof.
  intros Hb Hn. unfold stored.
  assert (E : map fst (uniq_from b (enum n (p :: l))) = uniq (p :: l)).
  { apply uniq_from_spec. intros q Hq. cbn in Hq. congruence. }
  set (s := uniq_from b (enum n (p :: l))) in *.
  destruct (uniq_hd p l) as [m Em].
  assert (SN : s <> []) by (intros ->; rewrite Em in E; discriminate).
  assert (LS : lastp b s = Some (last (p :: l) p)).
  { rewrite lastp_map by assumption. rewrite E, last_uniq. f_equal. apply last_default. discriminate. }
  rewrite LS. cbn [dup].
  assert (F : exists o s0, s = (p, o) :: s0).
  { destruct s as [|[f o] s0]; [congruence|]. rewrite Em in E. cbn in E. injection E as -> E. eauto. }
  destruct F as (o & s0 & Es). rewrite Es at 1. cbn [fst].
  change (p :: l ++ [z]) with ((p :: l) ++ [z]). rewrite uniq_app.
  assert (RL : exists r, rev (p :: l) = last (p :: l) p :: r).
  { destruct (exists_last (l := p :: l)) as (k & x & Ek); [discriminate|]. rewrite Ek. rewrite rev_app_distr, last_last. cbn. eauto. }
  destruct RL as [r ->].
  destruct (point_eqb_spec z p) as [Ez|Ez].
  - subst z. destruct (point_eqb_spec p (last (p :: l) p)) as [El|El].
    + (* every point of l equals p *)
      assert (A : forall q, In q l -> q = p).
      { intros q Hq. destruct (point_eqb_spec q p) as [|D]; [assumption|]. exfalso. apply Hn. split; [reflexivity|]. split; [congruence|]. eauto. }
      rewrite E. replace (uniq (p :: l)) with [p]; [reflexivity|].
      clear -A. induction l as [|q l IH]; [reflexivity|]. rewrite uniq_cons.
      rewrite (A q (or_introl eq_refl)), (proj2 (point_eqb_eq p p) eq_refl). apply IH. intros; apply A; right; assumption.
    + rewrite E. unfold open_end.
      destruct (uniq (p :: l) ++ [p]) as [|f [|g t]] eqn:Eu.
      * destruct (uniq (p :: l)); discriminate.
      * rewrite Em in Eu. destruct m; discriminate.
      * assert (f = p) by (rewrite Em in Eu; cbn in Eu; congruence). subst f.
        rewrite <- Eu, last_last, (proj2 (point_eqb_eq p p) eq_refl), removelast_last. reflexivity.
  - destruct (point_eqb_spec z (last (p :: l) p)) as [El|El].
    + rewrite E. unfold open_end. destruct (uniq (p :: l)) as [|f [|g t]] eqn:Eu; try reflexivity.
      assert (f = p) by congruence. subst f.
      rewrite <- Eu. rewrite last_uniq, <- El. destruct (point_eqb_spec z p); [contradiction|reflexivity].
    + rewrite map_app, E. cbn [map fst]. unfold open_end.
      destruct (uniq (p :: l) ++ [z]) as [|f [|g t]] eqn:Eu; try reflexivity.
      assert (f = p) by (rewrite Em in Eu; cbn in Eu; congruence). subst f.
      rewrite <- Eu, last_last. destruct (point_eqb_spec z p); [contradiction|reflexivity].
Qed.

Lemma chain_nth s : forall base cat k x,
  nth_error s k = Some x -> nth_error (chain base cat s) k = Some (mk_lpoint (fst x) (S (base + k)) cat false).
Proof.
  induction s as [|[p o] s IH]; intros base cat [|k] x H; cbn in *; try discriminate.
  - injection H as <-. rewrite Nat.add_0_r. reflexivity.
  - rewrite (IH _ _ _ _ H). do 2 f_equal. lia.
Qed.

Lemma nth_error_ext {A} : forall (l l' : list A), (forall i, nth_error l i = nth_error l' i) -> l = l'.
Proof.
  induction l as [|a l IH]; intros [|a' l'] H; [reflexivity| | |].
  - specialize (H 0). discriminate.
  - specialize (H 0). discriminate.
  - f_equal; [specialize (H 0); cbn in H; congruence|]. apply IH. intros i. apply (H (S i)).
Qed.

Lemma combine_seq_app {A} (m : list A) x : forall k,
  combine (seq k (length (m ++ [x]))) (m ++ [x]) = combine (seq k (length m)) m ++ [(k + length m, x)].
Proof.
  induction m as [|a m IH]; intros k; cbn [app length seq combine].
  - rewrite Nat.add_0_r. reflexivity.
  - rewrite IH. replace (k + S (length m)) with (S k + length m) by lia. reflexivity.
Qed.

Lemma ring_app base cat m p :
  ring base cat (m ++ [p]) =
  map (fun ip => mk_lpoint (snd ip) (base + S (fst ip)) cat false) (combine (seq 0 (length m)) m) ++ [mk_lpoint p base cat true].
Proof.
  unfold ring. rewrite combine_seq_app, map_app. cbn [map Nat.add]. rewrite app_length. cbn [length].
  replace (Nat.eqb (S (length m)) (length m + 1)) with true by (symmetry; apply Nat.eqb_eq; lia).
  f_equal. apply map_ext_in. intros [i q] H. apply in_combine_l, in_seq in H. cbn [fst snd].
  replace (Nat.eqb (S i) (length m + 1)) with false by (symmetry; apply Nat.eqb_neq; lia). reflexivity.
Qed.

Lemma chain_map base cat s : forall k,
  chain (base + k) cat s = map (fun ip => mk_lpoint (snd ip) (base + S (fst ip)) cat false) (combine (seq k (length s)) (map fst s)).
Proof.
  induction s as [|[p o] s IH]; intros k; cbn [chain length seq map combine fst snd]; [reflexivity|].
  rewrite <- IH. replace (base + S k) with (S (base + k)) by lia. reflexivity.
Qed.

Lemma closed_chain_ring base cat s : closed_chain base cat s = ring base cat (map fst s).
Proof.
  unfold closed_chain. destruct s as [|[p o] s _] using rev_ind; [reflexivity|].
  rewrite chain_app, set_last_app, map_app. cbn [map fst snd lp_data lp_set]. rewrite ring_app. f_equal.
  pose proof (chain_map base cat s 0) as H. rewrite Nat.add_0_r in H. rewrite map_length. exact H.
Qed.

(** The exact effect of adding a polygon, in terms of [stored]. *)
Lemma add_loop_done c log cat pt l r :
  add_loop c log cat pt l = Done r ->
  exists s, r = (mk_clip (cs_points (opened c) ++ ring (length (cs_points (opened c))) cat (if Nat.ltb (length s) 3 then [] else map fst s))
                   (cs_next_orig (opened c) + length l) false (cs_rand c),
                 opened_log c log pt ++ notif pt s) /\
    (s = match rev l with [] => [] | z :: _ => stored (bdata (cs_points (opened c))) (cs_next_orig (opened c)) (removelast l) z end).
Proof.
  intros H. destruct l as [|z l _] using rev_ind.
  - rewrite add_loop_nil in H. injection H as <-. exists []. split; [|reflexivity].
    unfold notif. cbn [length Nat.ltb Nat.leb map ring seq combine]. rewrite Nat.add_0_r.
    replace (opened_log c log pt ++ (if pt then [] else [])) with (opened_log c log pt) by (destruct pt; rewrite app_nil_r; reflexivity).
    f_equal. unfold ring. cbn. rewrite app_nil_r. unfold opened. destruct c as [a b d e]. cbn. destruct d; reflexivity.
  - pose proof (add_loop_exact c log cat pt l z) as X. cbv zeta in X.
    rewrite rev_app_distr. cbn [rev app]. rewrite removelast_last.
    destruct (uniq_from _ _) as [|u0 u]; [rewrite X in H; discriminate|].
    destruct X as (c' & X & P & N & R & D). rewrite X in H. injection H as <-.
    eexists. split; [|reflexivity]. rewrite app_length. cbn [length]. f_equal.
    destruct c' as [a b d e]. cbn [cs_points cs_next_orig cs_ran cs_rand] in P, N, R, D. subst. f_equal; [|lia].
    destruct (Nat.ltb _ 3); [reflexivity|]. rewrite closed_chain_ring. reflexivity.
Qed.

(** ** Without undefined behaviour *)
Lemma uniq_from_nil b l : forall n, uniq_from b (enum n l) = [] <-> (forall p, In p l -> b = Some p).
Proof.
  induction l as [|q l IH]; intros n; cbn [enum uniq_from]; [split; [intros _ p []|reflexivity]|].
  destruct b as [x|].
  - destruct (point_eqb_spec q x) as [->|D].
    + rewrite IH. split; [intros H p [<-|Hp]; auto|intros H p Hp; apply H; right; assumption].
    + split; [discriminate|]. intros H. specialize (H q (or_introl eq_refl)). congruence.
  - split; [discriminate|]. intros H. specialize (H q (or_introl eq_refl)). discriminate.
Qed.

Lemma add_loop_oob c log cat pt l :
  add_loop c log cat pt l = OutOfBounds <->
  exists m z, l = m ++ [z] /\ (forall p, In p m -> bdata (cs_points (opened c)) = Some p).
Proof.
  destruct l as [|z l _] using rev_ind.
  - rewrite add_loop_nil. split; [discriminate|]. intros (m & z & E & _). destruct m; discriminate.
  - pose proof (add_loop_exact c log cat pt l z) as X. cbv zeta in X.
    destruct (uniq_from _ _) as [|u0 u] eqn:E.
    + split; [|intros _; exact X]. intros _. exists l, z. split; [reflexivity|]. eapply uniq_from_nil. exact E.
    + destruct X as (c' & X & _). rewrite X. split; [discriminate|]. intros (m & z' & E' & H).
      apply app_inj_tail in E'. destruct E' as [-> _]. apply (uniq_from_nil _ _ (cs_next_orig (opened c))) in H. congruence.
Qed.

(** stored points come from the input at the recorded positions, in order *)
Lemma uniq_from_incl b l : forall x, In x (uniq_from b l) -> In x l.
Proof.
  revert b. induction l as [|[p o] l IH]; intros b x H; cbn in *; [contradiction|].
  destruct (match b with Some _ => _ | None => _ end); [right; eauto|].
  destruct H as [H|H]; [left; assumption|right; eauto].
Qed.

Lemma enum_in l : forall n p o, In (p, o) (enum n l) <-> exists i, o = n + i /\ nth_error l i = Some p.
Proof.
  induction l as [|q l IH]; intros n p o; cbn [enum In].
  - split; [contradiction|]. intros (i & _ & H). destruct i; discriminate.
  - rewrite IH. split.
    + intros [E|(i & -> & H)]; [injection E as -> ->; exists 0; split; [lia|reflexivity]|]. exists (S i). split; [lia|assumption].
    + intros ([|i] & -> & H); cbn in H; [left; f_equal; [congruence|lia]|right]. exists i. split; [lia|assumption].
Qed.

Lemma enum_sorted l : forall n, StronglySorted lt (map snd (enum n l)).
Proof.
  induction l as [|q l IH]; intros n; cbn; constructor; [apply IH|].
  apply Forall_forall. intros o H. apply in_map_iff in H. destruct H as ([p o'] & <- & H).
  apply enum_in in H. destruct H as (i & -> & _). cbn. lia.
Qed.

Lemma uniq_from_sorted b l : StronglySorted lt (map snd l) -> StronglySorted lt (map snd (uniq_from b l)).
Proof.
  revert b. induction l as [|[p o] l IH]; intros b H; cbn in *; [constructor|].
  inversion H; subst. destruct (match b with Some _ => _ | None => _ end); [auto|].
  cbn. constructor; [auto|]. rewrite Forall_forall in *. intros x Hx. apply in_map_iff in Hx.
  destruct Hx as (y & <- & Hy). apply uniq_from_incl in Hy. apply H3. apply in_map. assumption.
Qed.

Lemma sorted_app_last l x : StronglySorted lt l -> (forall y, In y l -> y < x) -> StronglySorted lt (l ++ [x]).
Proof.
  induction 1 as [|a l S IH F]; intros H; cbn; [repeat constructor|].
  constructor; [apply IH; intros; apply H; right; assumption|].
  rewrite Forall_forall in *. intros y Hy. apply in_app_iff in Hy. destruct Hy as [Hy|[<-|[]]]; [auto|]. apply H. left. reflexivity.
Qed.

Lemma stored_in b n l z x : In x (stored b n l z) -> In x (enum n (l ++ [z])).
Proof.
  unfold stored. rewrite enum_app, in_app_iff. intros H.
  destruct (uniq_from b (enum n l)) as [|f s] eqn:E; [contradiction|].
  assert (G : In x (uniq_from b (enum n l)) -> In x (enum n l)) by apply uniq_from_incl. rewrite E in G.
  destruct (point_eqb z (fst f)); [auto|]. destruct (dup _ z); [auto|].
  apply in_app_iff in H. destruct H; auto.
Qed.

Lemma stored_sorted b n l z : StronglySorted lt (map snd (stored b n l z)).
Proof.
  unfold stored.
  assert (G : StronglySorted lt (map snd (uniq_from b (enum n l)))) by (apply uniq_from_sorted, enum_sorted).
  assert (G2 : forall x, In x (uniq_from b (enum n l)) -> In x (enum n l)) by apply uniq_from_incl.
  destruct (uniq_from b (enum n l)) as [|f s] eqn:E; [constructor|].
  destruct (point_eqb z (fst f)); [exact G|]. destruct (dup _ z); [exact G|].
  rewrite map_app. apply sorted_app_last; [exact G|]. intros y Hy. apply in_map_iff in Hy.
  destruct Hy as ([p o] & <- & Hy). apply G2, enum_in in Hy. destruct Hy as (i & -> & Hi). cbn.
  assert (i < length l) by (apply nth_error_Some; congruence). lia.
Qed.

(** tracker calls for one polygon *)
Lemma add_loop_calls c log cat pt l c' log' :
  cs_ran c = false ->
  add_loop c log cat pt l = Done (c', log') ->
  exists idx pts,
    cs_points c' = cs_points c ++ ring (length (cs_points c)) cat pts /\
    length idx = length pts /\
    StronglySorted lt idx /\
    (forall k i p, nth_error idx k = Some i -> nth_error pts k = Some p ->
       cs_next_orig c <= i /\ nth_error l (i - cs_next_orig c) = Some p) /\
    log' = log ++ (if pt then map TAdded idx else []) /\
    cs_next_orig c' = cs_next_orig c + length l /\ cs_ran c' = false /\ cs_rand c' = cs_rand c.
Proof.
  intros R H. apply add_loop_done in H. destruct H as (s & E & Es). injection E as -> ->.
  unfold opened, opened_log. unfold opened in Es. rewrite R in *. cbn [andb cs_points cs_next_orig cs_ran cs_rand].
  exists (if Nat.ltb (length s) 3 then [] else map snd s), (if Nat.ltb (length s) 3 then [] else map fst s).
  split; [reflexivity|].
  assert (SS : StronglySorted lt (map snd s) /\ (forall x, In x s -> In x (enum (cs_next_orig c) l))).
  { destruct l as [|z l _] using rev_ind.
    - cbn in Es. subst. split; [constructor|intros x []].
    - rewrite rev_app_distr in Es. cbn [rev app] in Es. rewrite removelast_last in Es. subst s. split; [apply stored_sorted|]. intros x. apply stored_in. }
  destruct SS as [S1 S2].
  destruct (Nat.ltb (length s) 3) eqn:EL.
  - split; [reflexivity|]. split; [constructor|]. split; [intros [|k] i p Hi; discriminate|].
    split; [unfold notif; rewrite EL; reflexivity|auto].
  - split; [rewrite !map_length; reflexivity|]. split; [exact S1|]. split.
    + intros k i p Hi Hp. rewrite nth_error_map in Hi, Hp. destruct (nth_error s k) as [[q o]|] eqn:Ek; [|discriminate].
      cbn in Hi, Hp. injection Hi as <-. injection Hp as <-.
      apply nth_error_In, S2, enum_in in Ek. destruct Ek as (j & -> & Hj). split; [lia|].
      replace (cs_next_orig c + j - cs_next_orig c) with j by lia. assumption.
    + split; [|auto]. unfold notif. rewrite EL, map_map. reflexivity.
Qed.

(** several polygons *)
Lemma ring_data base cat l : map lp_data (ring base cat l) = l.
Proof.
  unfold ring. rewrite map_map.
  assert (G : forall n k, map (fun x => lp_data (let '(i, p) := x in
     if Nat.eqb (S i) n then mk_lpoint p base cat true else mk_lpoint p (base + S i) cat false)) (combine (seq k (length l)) l) = l).
  { intros n. induction l as [|p l IH]; intros k; cbn [length seq combine map]; [reflexivity|].
    rewrite IH. f_equal. destruct (Nat.eqb (S k) n); reflexivity. }
  apply G.
Qed.

Lemma sorted_app l l' : StronglySorted lt l -> StronglySorted lt l' -> (forall x y, In x l -> In y l' -> x < y) -> StronglySorted lt (l ++ l').
Proof.
  induction 1 as [|a l S IH F]; intros H L; cbn; [assumption|].
  constructor; [apply IH; [assumption|intros; apply L; [right|]; assumption]|].
  rewrite Forall_forall in *. intros y Hy. apply in_app_iff in Hy. destruct Hy; [auto|]. apply L; [left; reflexivity|assumption].
Qed.

Lemma calls_ok_bound pts idx input i : calls_ok pts idx input -> In i idx -> i < length input.
Proof.
  intros (L & _ & H) Hi. apply In_nth_error in Hi. destruct Hi as [k Hk].
  destruct (nth_error pts k) as [p|] eqn:Ep.
  - apply nth_error_Some. rewrite (H _ _ _ Hk Ep). discriminate.
  - apply nth_error_None in Ep. assert (k < length idx) by (apply nth_error_Some; congruence). lia.
Qed.

Lemma ring_length base cat l : length (ring base cat l) = length l.
Proof. rewrite <- (map_length lp_data), ring_data. reflexivity. Qed.

Lemma add_loops_calls ls : forall c log cat pt input idx c' log',
  cs_ran c = false -> calls_ok (cs_points c) idx input -> cs_next_orig c = length input ->
  add_loops c log cat pt ls = Done (c', log') ->
  exists idx',
    calls_ok (cs_points c') (idx ++ idx') (input ++ concat ls) /\
    log' = log ++ (if pt then map TAdded idx' else []) /\
    cs_next_orig c' = length (input ++ concat ls) /\ cs_ran c' = false.
Proof.
  induction ls as [|l ls IH]; intros c log cat pt input idx c' log' R K N H; cbn [add_loops concat] in *.
  - injection H as <- <-. exists []. rewrite !app_nil_r. split; [assumption|]. split; [destruct pt; cbn; rewrite app_nil_r; reflexivity|auto].
  - destruct (add_loop c log cat pt l) as [[c1 log1]|] eqn:E; [|discriminate].
    destruct (add_loop_calls _ _ _ _ _ _ _ R E) as (i1 & pts & P1 & L1 & S1 & A1 & G1 & N1 & R1 & _).
    assert (K1 : calls_ok (cs_points c1) (idx ++ i1) (input ++ l)).
    { pose proof (fun i => calls_ok_bound _ _ _ i K) as B. destruct K as (KL & KS & KH). split; [|split].
      - rewrite P1, !app_length, ring_length. lia.
      - apply sorted_app; [assumption|assumption|]. intros x y Hx Hy. apply B in Hx.
        apply In_nth_error in Hy. destruct Hy as [k Hk].
        destruct (nth_error pts k) as [q|] eqn:Eq.
        + destruct (A1 _ _ _ Hk Eq). lia.
        + apply nth_error_None in Eq. assert (k < length i1) by (apply nth_error_Some; congruence). lia.
      - intros k i p Hi Hp. rewrite P1 in Hp.
        destruct (Nat.lt_ge_cases k (length idx)) as [Lt|Ge].
        + rewrite nth_error_app1 in Hi by lia. rewrite nth_error_app1 in Hp by lia.
          rewrite nth_error_app1; [eauto|]. apply nth_error_In in Hi. auto.
        + rewrite nth_error_app2 in Hi by lia. rewrite nth_error_app2 in Hp by lia.
          replace (k - length (cs_points c)) with (k - length idx) in Hp by lia.
          assert (Hp' : nth_error pts (k - length idx) = Some (lp_data p)).
          { rewrite <- (ring_data (length (cs_points c)) cat pts) , nth_error_map, Hp. reflexivity. }
          destruct (A1 _ _ _ Hi Hp') as [B1 B2]. rewrite nth_error_app2 by lia. rewrite <- N. assumption. }
    destruct (IH _ _ _ _ (input ++ l) _ _ _ R1 K1 ltac:(rewrite N1, N, app_length; lia) H) as (i2 & K2 & G2 & N2 & R2).
    exists (i1 ++ i2). rewrite !app_assoc. split; [rewrite <- !app_assoc in *; assumption|]. rewrite <- !app_assoc in *. split; [|auto].
    rewrite G2, G1. destruct pt; rewrite ?app_nil_r, ?map_app, <- ?app_assoc; reflexivity.
Qed.

(** no repeated neighbours in [norm] *)
Lemma uniq_adj l : forall i p q, nth_error (uniq l) i = Some p -> nth_error (uniq l) (S i) = Some q -> p <> q.
Proof.
  induction l as [|a l IH]; intros i p q Hp Hq; [destruct i; discriminate|].
  rewrite uniq_cons in Hp, Hq. destruct l as [|b l]; [destruct i; [discriminate|destruct i; discriminate]|].
  destruct (point_eqb_spec a b) as [E|E]; [eauto|].
  destruct i as [|i]; cbn [nth_error] in Hp, Hq; [|eauto].
  destruct (uniq_hd b l) as [m Em]. rewrite Em in Hq. cbn in Hq. congruence.
Qed.

Lemma open_end_neighbours l :
  (forall i p q, nth_error l i = Some p -> nth_error l (S i) = Some q -> p <> q) ->
  3 <= length (open_end l) -> no_equal_neighbours (open_end l).
Proof.
  intros A L. unfold no_equal_neighbours. intros i p q Hp Hq.
  assert (Li : i < length (open_end l)) by (apply nth_error_Some; congruence).
  unfold open_end in *. destruct l as [|f [|g l]]; [cbn in L; lia|cbn in L; lia|].
  set (u := f :: g :: l) in *.
  destruct (point_eqb_spec (last u f) f) as [E|E].
  - assert (U : u = removelast u ++ [f]) by (rewrite (app_removelast_last f (l := u)) at 1 by discriminate; rewrite E; reflexivity).
    set (m := removelast u) in *. clearbody m.
    destruct (Nat.eq_dec (S i) (length m)) as [El|El].
    + rewrite El, Nat.mod_same in Hq by lia.
      assert (q = f). { rewrite U in *. destruct m as [|x m]; [discriminate|]. subst u. cbn in U. cbn in Hq. congruence. }
      subst q. apply (A i p f); [rewrite U, nth_error_app1 by lia; assumption|].
      rewrite U, nth_error_app2 by lia. rewrite El, Nat.sub_diag. reflexivity.
    + rewrite Nat.mod_small in Hq by lia. apply (A i p q); rewrite U, nth_error_app1 by lia; assumption.
  - destruct (Nat.eq_dec (S i) (length u)) as [El|El].
    + rewrite El, Nat.mod_same in Hq by lia. cbn in Hq. injection Hq as <-.
      intros ->. apply E. assert (U : u = removelast u ++ [last u f]) by (apply app_removelast_last; discriminate).
      assert (LU : length u = length (removelast u) + 1) by (rewrite U at 1; rewrite app_length; reflexivity).
      rewrite U in Hp. rewrite nth_error_app2 in Hp by lia.
      replace (i - length (removelast u)) with 0 in Hp by lia. cbn [nth_error] in Hp. congruence.
    + rewrite Nat.mod_small in Hq by lia. eauto.
Qed.

Lemma norm_neighbours l : no_equal_neighbours (norm l).
Proof.
  unfold norm. destruct (Nat.ltb (length (open_end (uniq l))) 3) eqn:E.
  - intros i p q H. destruct i; discriminate.
  - apply open_end_neighbours; [apply uniq_adj|]. apply Nat.ltb_ge in E. assumption.
Qed.

(** ** Final statements *)
Lemma bdata_last_stored c p : bdata (cs_points c) = Some p <-> last_stored c p.
Proof.
  unfold last_stored, bdata. destruct (cs_points c) as [|b l _] using rev_ind.
  - split; [discriminate|]. intros (m & b & E & _). destruct m; discriminate.
  - rewrite back_app. cbn. split.
    + intros E. exists l, b. split; congruence.
    + intros (m & b' & E & D). apply app_inj_tail in E. destruct E as [_ ->]. congruence.
Qed.

Lemma add_loop_norm c log cat pt l :
  cs_ran c = false -> length l <> 1 ->
  (forall p, first_is l p -> ~ last_stored c p) ->
  ~ trailing_repeat l ->
  exists c' log', add_loop c log cat pt l = Done (c', log') /\
    cs_points c' = cs_points c ++ ring (length (cs_points c)) cat (norm l).
Proof.
  intros R L1 F T.
  assert (O : opened c = c) by (unfold opened; rewrite R; reflexivity).
  destruct (add_loop c log cat pt l) as [r|] eqn:E.
  - pose proof E as D. apply add_loop_done in D. destruct D as (s & -> & Es). rewrite O in Es |- *. do 2 eexists. split; [reflexivity|].
    cbn [cs_points]. do 2 f_equal.
    destruct l as [|p l]; [cbn in Es; subst; reflexivity|].
    destruct l as [|z l _] using rev_ind; [cbn in L1; lia|].
    change (p :: l ++ [z]) with ((p :: l) ++ [z]) in Es. rewrite rev_app_distr in Es.
    change (rev [z] ++ rev (p :: l)) with (z :: rev (p :: l)) in Es. cbv iota beta in Es. rewrite removelast_last in Es.
    unfold norm. change (p :: l ++ [z]) with ((p :: l) ++ [z]).
    assert (Q : map fst s = open_end (uniq ((p :: l) ++ [z]))).
    { subst s. apply stored_spec.
      - intros B. apply bdata_last_stored in B. apply (F p); [reflexivity|assumption].
      - intros (-> & LL & q & Hq & Dq). apply T. 
        destruct l as [|y l _] using rev_ind; [destruct Hq|].
        change (p :: l ++ [y]) with ((p :: l) ++ [y]) in LL. rewrite last_last in LL. subst y.
        exists p, (p :: l). split; [cbn; rewrite <- app_assoc; reflexivity|]. split; [reflexivity|].
        exists q. split; [|assumption]. right. apply in_app_iff. left. assumption. }
    rewrite <- Q, map_length. destruct (Nat.ltb (length s) 3); reflexivity.
  - exfalso. apply add_loop_oob in E. destruct E as (m & z & -> & H). rewrite O in H.
    destruct m as [|p m]; [cbn in L1; lia|]. apply (F p); [reflexivity|]. apply bdata_last_stored, H. left. reflexivity.
Qed.

Lemma add_loops_reset ls : forall c log cat pt r s,
  cs_ran c = false ->
  add_loops c log cat pt ls = Done r ->
  add_loops (mk_clip (cs_points c) (cs_next_orig c) false s) log cat pt ls =
  Done (mk_clip (cs_points (fst r)) (cs_next_orig (fst r)) false s, snd r) /\ cs_ran (fst r) = false /\ cs_rand (fst r) = cs_rand c.
Proof.
  induction ls as [|l ls IH]; intros c log cat pt r s R H; cbn [add_loops] in *.
  - injection H as <-. cbn. auto.
  - destruct (add_loop c log cat pt l) as [[c1 log1]|] eqn:E; [|discriminate].
    pose proof E as D. apply add_loop_done in D. destruct D as (t & D & Et). injection D as D1 D2.
    set (c2 := mk_clip (cs_points c) (cs_next_orig c) false s).
    destruct (add_loop c2 log cat pt l) as [[c3 log3]|] eqn:E2.
    + apply add_loop_done in E2. destruct E2 as (t' & E2 & Et'). injection E2 as E3 E4.
      assert (O : opened c = c) by (unfold opened; rewrite R; reflexivity).
      assert (O2 : opened c2 = c2) by reflexivity.
      assert (OL : opened_log c log pt = opened_log c2 log pt) by (unfold opened_log; rewrite R; reflexivity).
      rewrite O in *. rewrite O2 in *. subst c2. cbn [cs_points cs_next_orig cs_rand] in *.
      assert (T : t' = t) by congruence.
      assert (TL : log3 = log1) by congruence.
      rewrite T in E3. rewrite TL. clear Et Et' T TL E4 D2 OL.
      destruct (IH c1 log1 cat pt r s) as (I1 & I2 & I3); [rewrite D1; reflexivity|assumption|].
      rewrite D1 in I1, I3. cbn [cs_points cs_next_orig cs_rand] in I1, I3. rewrite E3. rewrite I1.
      split; [reflexivity|]. split; assumption.
    + exfalso. apply add_loop_oob in E2. destruct E2 as (m & z & El & Hm). 
      assert (add_loop c log cat pt l = OutOfBounds); [|congruence].
      apply add_loop_oob. exists m, z. split; [assumption|]. unfold opened. rewrite R. exact Hm.
Qed.

Lemma ran_head c log cat pt l ls :
  cs_ran c = true ->
  add_loops c log cat pt (l :: ls) = add_loops (clip_reset c) (if pt then log ++ [TReset] else log) cat pt (l :: ls).
Proof. intros R. cbn [add_loops]. unfold add_loop, sink_open. rewrite R. cbn. reflexivity. Qed.
