From Coq Require Import ZArith List Bool Arith Permutation Lia.
From Verif Require Import GeomModel OutModel OutSpec JoinSpec CycleProofs JoinProofs LinkProofs.
Import ListNotations.
(** * Orphans *)
Lemma linv_prepend pts K E T x o p r : linv pts K E (x :: T) -> ~ In o K -> nth_error pts o = Some p -> o_state p = Res r -> keeps r = true -> o_anchor p = false -> o_next p = x ->
  (oan pts x = true -> pos pts x = pos pts o) -> linv pts (o :: K) E (o :: T).
Proof.
  intros [A B C D I F G] NO EO SO KO AO NX AX. destruct G as (G1 & G2). apply NoDup_cons_iff in G1 as (GX & G1). assert (XK : In x K) by (apply G2; left; reflexivity).
  assert (OX : onx pts o = x) by (unfold onx; rewrite EO; exact NX). assert (OO : oan pts o = false) by (unfold oan; rewrite EO; exact AO).
  constructor.
  - constructor; assumption.
  - intros i [<-|X]; [exists p, r; auto|auto].
  - intros i [<-|X]; [|auto]. rewrite OX. split; [destruct (B x XK) as (q & r' & Q & S & _); exists q, r'; auto|]. auto.
  - intros i [<-|X] Y.
    + rewrite OX. split; [right; exact XK|]. intros [Z|Z]; [subst; contradiction|contradiction].
    + destruct (D i X Y) as (D1 & D2). split; [right; exact D1|]. intros [Z|Z]; [rewrite <- Z in D1; contradiction|apply D2; right; exact Z].
  - intros i j [<-|X] [<-|Y] NI NJ EQ; auto.
    + exfalso. rewrite OX in EQ. apply (proj2 (D j Y NJ)). left. exact EQ.
    + exfalso. rewrite OX in EQ. apply (proj2 (D i X NI)). left. symmetry. exact EQ.
  - destruct F as (F1 & F2 & F3). split; [exact F1|]. split; [intros i X; right; auto|exact F3].
  - split; [constructor; [intros X; apply NO, G2; right; exact X|exact G1]|]. intros i [<-|X]; [left; reflexivity|right; apply G2; right; exact X].
Qed.
Lemma put_res pts o p p' : nth_error pts o = Some p -> o_data p' = o_data p -> o_anchor p' = o_anchor p -> (exists r, o_state p' = Res r) ->
  forall j, isres pts j -> isres (put pts o p') j /\ pos (put pts o p') j = pos pts j /\ oan (put pts o p') j = oan pts j.
Proof.
  intros E D A (r & S) j R. destruct (Nat.eq_dec o j) as [<-|N].
  - unfold isres, pos, oan. rewrite (put_same' _ _ _ _ E), E. split; [exists p', r; auto|auto].
  - unfold isres, pos, oan. rewrite put_other by congruence. auto.
Qed.

(** ** Maps with each key once *)
Definition pm_ok {A} (m : pmap A) : Prop := NoDup (map fst m).
Lemma pm_set_keys {A} (m : pmap A) k v : map fst (pm_set m k v) = if existsb (point_eqb k) (map fst m) then map fst m else map fst m ++ [k].
Proof.
  induction m as [|(k', v') m IH]; [reflexivity|]. cbn [pm_set map fst existsb]. destruct (point_eqb k k') eqn:E; [reflexivity|]. cbn [map fst orb]. rewrite IH. destruct (existsb (point_eqb k) (map fst m)); reflexivity.
Qed.
Lemma pm_set_ok {A} (m : pmap A) k v : pm_ok m -> pm_ok (pm_set m k v).
Proof.
  unfold pm_ok. rewrite pm_set_keys. intros N. destruct (existsb (point_eqb k) (map fst m)) eqn:E; [exact N|]. apply (Permutation_NoDup (Permutation_cons_append (map fst m) k)). constructor; [|exact N].
  intros X. assert (existsb (point_eqb k) (map fst m) = true); [|congruence]. apply existsb_exists. exists k. split; [exact X|apply peq_refl].
Qed.
Lemma pm_get_none {A} (m : pmap A) k : pm_ok m -> pm_get m k = [] -> ~ In k (map fst (pm_all m)).
Proof.
  induction m as [|(k', l) m IH]; intros N G X; [destruct X|]. cbn [map fst] in N. apply NoDup_cons_iff in N as (N1 & N2). cbn [pm_get] in G.
  assert (SUB : forall j, In j (map fst (pm_all m)) -> In j (map fst m)).
  { clear. induction m as [|(k', l) m IH]; intros j X; [destruct X|]. unfold pm_all in X. cbn [flat_map fst snd] in X. rewrite map_app in X. apply in_app_or in X as [X|X]; [|right; apply IH; exact X].
    rewrite map_map in X. apply in_map_iff in X as (w & W & _). left. exact W. }
  unfold pm_all in X. cbn [flat_map fst snd] in X. rewrite map_app in X. apply in_app_or in X as [X|X].
  - rewrite map_map in X. apply in_map_iff in X as (w & W & X). cbn in W. subst k'. rewrite peq_refl in G. subst l. destruct X.
  - fold (pm_all m) in X. destruct (peq_spec k k') as [<-|D].
    + apply N1. apply SUB. exact X.
    + apply IH; auto.
Qed.

Definition kept_in (pts : list opoint) (K O : list nat) : Prop := forall j p r, nth_error pts j = Some p -> o_state p = Res r -> keeps r = true -> In j K \/ In j O.
Lemma match_ok : forall O pts starts ends virts K, finv pts K ends (pm_all starts) (pm_all virts) O -> kept_in pts K O ->
  (pm_ok virts -> Permutation (map (pos pts) O) (map fst (pm_all virts)) -> match_orphans pts starts ends virts O <> None) /\
  (forall pts' starts' ends', match_orphans pts starts ends virts O = Some (pts', starts', ends') ->
    exists K', linv pts' K' ends' (map snd (pm_all starts')) /\ (forall k s, In (k, s) (pm_all starts') -> pos pts' s = k /\ oan pts' s = false) /\ kept_in pts' K' [] /\ (pm_ok starts -> pm_ok starts') /\
      Permutation (edges pts' K') (edges pts K ++ vedges pts (pm_all virts)) /\
      Permutation (map fst (pm_all starts')) (all_starts (pm_all starts) (pm_all virts)) /\
      Permutation (map (fun i => pos pts' (onx pts' i)) ends') (all_ends pts ends (pm_all virts)) /\
      (enz pts K (pm_all virts) -> enz pts' K' [])).
Proof.
  induction O as [|o O IH]; intros pts starts ends virts K FI KI.
  - cbn [match_orphans]. split; [discriminate|]. intros pts' starts' ends' E. injection E as <- <- <-. destruct FI as (L & B). pose proof (b_count _ _ _ _ _ B) as C.
    destruct (pm_all virts) as [|] eqn:EV; [|discriminate]. exists K. cbn [heads flat_map] in L. rewrite app_nil_r in L. split; [exact L|]. split; [apply B|]. split; [exact KI|]. split; [auto|].
    unfold all_starts, all_ends. cbn [vedges flat_map]. rewrite !app_nil_r. auto.
  - cbn [match_orphans]. destruct FI as (L & B). destruct (b_orph _ _ _ _ _ B o (or_introl eq_refl)) as ((p & r0 & EO & SO) & AO). unfold oan in AO. rewrite EO in AO. rewrite EO.
    assert (PO : pos pts o = o_data p) by (unfold pos; rewrite EO; reflexivity).
    destruct (pm_split virts (o_data p)) as (rest & P1 & P2). destruct (rev (pm_get virts (o_data p))) as [|vp vrest] eqn:ER.
    { split; [|discriminate]. intros OK PM _. assert (EN : pm_get virts (o_data p) = []) by (rewrite <- (rev_involutive (pm_get virts (o_data p))), ER; reflexivity).
      apply (pm_get_none _ _ OK EN). eapply Permutation_in; [exact PM|]. left. exact PO. }
    set (k := o_data p) in *. set (virts1 := pm_set virts k (rev vrest)) in *.
    assert (EG : pm_get virts k = rev vrest ++ [vp]) by (rewrite <- (rev_involutive (pm_get virts k)), ER; reflexivity).
    assert (PV : Permutation (pm_all virts) ((k, vp) :: pm_all virts1)). { unfold virts1. rewrite P2, P1, EG, map_app. cbn [map]. rewrite <- app_assoc. cbn [app]. symmetry. apply Permutation_middle. }
    assert (IV : In (k, vp) (pm_all virts)) by (eapply Permutation_in; [symmetry; exact PV|left; reflexivity]).
    destruct (v_end vp && negb (v_keep vp)) eqn:BAD. { apply andb_prop in BAD as (B1 & B2). rewrite (b_vend _ _ _ _ _ B _ _ IV B1) in B2. discriminate. }
    set (p' := mk_op k (v_next vp) (Res (if v_keep vp then LSkeep else LSdiscard)) false). set (pts1 := put pts o p').
    set (starts1 := if v_keep vp then pm_push starts k o else starts). set (ends1 := if v_end vp then ends ++ [o] else ends).
    assert (EO1 : nth_error pts1 o = Some p') by (apply (put_same' _ _ _ _ EO)). assert (OTH : forall j, j <> o -> nth_error pts1 j = nth_error pts j) by (intros j N; apply put_other; congruence).
    assert (RF : forall j, isres pts j -> isres pts1 j /\ pos pts1 j = pos pts j /\ oan pts1 j = oan pts j). { apply (put_res pts o p p' EO); [reflexivity|symmetry; exact AO|]. eexists. reflexivity. }
    destruct (b_apart _ _ _ _ _ B) as (NDO & AP). apply NoDup_cons_iff in NDO as (NO & NDO). assert (OK : ~ In o K) by (apply AP; left; reflexivity).
    assert (FK : forall j, In j K -> nth_error pts1 j = nth_error pts j) by (intros j X; apply OTH; intros ->; contradiction).
    assert (FI : finv pts K ends (pm_all starts) (pm_all virts) (o :: O)) by (split; assumption).
    destruct (finv_frame _ _ _ _ _ _ _ FK RF FI) as ((L1 & B1) & EE & VE). destruct (tally_frame _ _ _ _ _ _ _ FK RF FI) as (TE & TO). pose proof (enz_frame _ _ _ _ _ _ _ FK RF FI) as ENZ.
    assert (PO1 : pos pts1 o = k) by (unfold pos; rewrite EO1; reflexivity). assert (AO1 : oan pts1 o = false) by (unfold oan; rewrite EO1; reflexivity). assert (NX1 : onx pts1 o = v_next vp) by (unfold onx; rewrite EO1; reflexivity).
    set (K1 := if v_keep vp then o :: K else K).
    assert (PS : Permutation (pm_all starts1) (if v_keep vp then (k, o) :: pm_all starts else pm_all starts)) by (unfold starts1; destruct (v_keep vp); [apply pm_push_all|reflexivity]).
    assert (LNEW : linv pts1 K1 ends1 (map snd (pm_all starts1) ++ heads (pm_all virts1))).
    { unfold K1, ends1. destruct (v_keep vp) eqn:KV.
      - destruct (b_virtual _ _ _ _ _ B1 k vp IV KV) as (V1 & V2 & V3). destruct (v_end vp) eqn:EV.
        + apply linv_perm with (K := [o] ++ K) (E := o :: ends) (T := o :: map snd (pm_all starts) ++ heads (pm_all virts)); [reflexivity|apply Permutation_cons_append| |].
          * rewrite (Permutation_map snd PS), (heads_perm _ _ PV). cbn [map snd app heads flat_map]. rewrite KV, EV. cbn [andb negb app]. fold (heads (pm_all virts1)). reflexivity.
          * apply (linv_path pts1 K ends _ o [] (v_next vp)); auto.
            -- repeat constructor. intros [].
            -- intros i [<-|[]]. exact OK.
            -- intros i [<-|[]]. exists p', LSkeep. split; [exact EO1|]. auto.
            -- cbn. auto.
            -- cbn [app anch]. split; [intros W; rewrite (V3 eq_refl) in W; discriminate|auto].
        + apply linv_perm with (K := o :: K) (E := ends) (T := o :: map snd (pm_all starts) ++ heads (pm_all virts1)); [reflexivity|reflexivity| |].
          * rewrite (Permutation_map snd PS). reflexivity.
          * apply (linv_prepend pts1 K ends _ (v_next vp) o p' LSkeep); auto; [|rewrite PO1; exact V2].
            eapply linv_perm; [reflexivity|reflexivity| |exact L1]. rewrite (heads_perm _ _ PV). cbn [heads flat_map snd]. rewrite KV, EV. cbn [andb negb app]. fold (heads (pm_all virts1)). symmetry. apply Permutation_middle.
      - assert (EV : v_end vp = false) by (destruct (v_end vp); [discriminate|reflexivity]). rewrite EV. eapply linv_perm; [reflexivity|reflexivity| |exact L1].
        rewrite (Permutation_map snd PS), (heads_perm _ _ PV). cbn [heads flat_map snd]. rewrite KV. reflexivity. }
    assert (IV1 : forall x, In x (pm_all virts1) -> In x (pm_all virts)) by (intros x X; eapply Permutation_in; [symmetry; exact PV|right; exact X]).
    assert (BNEW : binv pts1 K1 (pm_all starts1) (pm_all virts1) O).
    { destruct B1 as [C1 C2 C3 C4 C5 C6]. constructor.
      - intros i X. apply C1. right. exact X.
      - split; [exact NDO|]. intros i X Y. unfold K1 in Y. destruct (v_keep vp); [destruct Y as [<-|Y]; [contradiction|]|]; apply (proj2 C2 i); auto; right; exact X.
      - intros k' s X. apply (Permutation_in _ PS) in X. destruct (v_keep vp); [|auto]. destruct X as [X|X]; [injection X as <- <-; auto|auto].
      - intros k' v X. apply C4. auto.
      - intros k' v X. apply (C5 k'). auto.
      - rewrite (Permutation_length PV) in C6. cbn [length] in C6. lia. }
    assert (KNEW : kept_in pts1 K1 O).
    { intros j q r Q S KR. destruct (Nat.eq_dec j o) as [->|N].
      - rewrite EO1 in Q. injection Q as <-. cbn in S. injection S as <-. left. unfold K1. destruct (v_keep vp); [left; reflexivity|discriminate].
      - rewrite OTH in Q by exact N. destruct (KI j q r Q S KR) as [X|[X|X]]; [left|congruence|right; exact X]. unfold K1. destruct (v_keep vp); [right|]; exact X. }
    destruct (IH pts1 starts1 ends1 virts1 K1 (conj LNEW BNEW) KNEW) as (I1 & I2). split.
    + intros OKV PM. apply I1; [apply pm_set_ok; exact OKV|]. cbn [map] in PM, TO. rewrite (Permutation_map fst PV) in PM. cbn [map fst] in PM. rewrite PO in PM. apply Permutation_cons_inv in PM.
      injection TO as _ TO. rewrite TO. exact PM.
    + intros pts' starts' ends' E. destruct (I2 _ _ _ E) as (K' & A1 & A2 & A3 & A4 & A5 & A6 & A7 & A8). exists K'. split; [exact A1|]. split; [exact A2|]. split; [exact A3|]. split; [|split; [|split; [|split]]].
      * intros W. apply A4. unfold starts1. destruct (v_keep vp); [apply pm_set_ok|]; exact W.
      * rewrite A5, <- EE, <- VE, (vedges_perm pts1 _ _ PV). unfold K1. cbn [vedges flat_map snd fst]. fold (vedges pts1 (pm_all virts1)). destruct (v_keep vp); [|reflexivity].
        cbn [edges map app]. fold (edges pts1 K). rewrite PO1, NX1. apply Permutation_middle.
      * rewrite A6. unfold all_starts. rewrite (Permutation_map fst PS), (perm_flat _ _ _ PV). cbn [flat_map snd fst]. destruct (v_keep vp); [|reflexivity]. cbn [map fst app]. apply Permutation_middle.
      * rewrite A7, <- TE. unfold all_ends, ends1. rewrite (perm_flat _ _ _ PV). cbn [flat_map snd fst]. destruct (v_end vp); [|reflexivity]. rewrite map_app. cbn [map app]. rewrite NX1, <- app_assoc. reflexivity.
      * intros EZ. apply A8. destruct (ENZ EZ) as (Z1 & Z2). split; [|intros k' v X; apply Z2; auto]. intros i X. unfold K1 in X. destruct (v_keep vp) eqn:KV; [|auto]. destruct X as [<-|X]; [|auto]. rewrite PO1, NX1. apply Z2; auto.
Qed.

(** * Ends *)
Lemma linv_join pts K e E s T p : linv pts K (e :: E) (s :: T) -> nth_error pts e = Some p -> oan pts s = false -> linv (put pts e (set_next p s)) K E T.
Proof.
  intros [A B C D I F G] EE AS. set (pts1 := put pts e (set_next p s)). destruct F as (F1 & F2 & F3). apply NoDup_cons_iff in F1 as (NE & F1). destruct G as (G1 & G2). apply NoDup_cons_iff in G1 as (NS & G1).
  assert (EE1 : nth_error pts1 e = Some (set_next p s)) by (apply (put_same' _ _ _ _ EE)). assert (OTH : forall j, j <> e -> nth_error pts1 j = nth_error pts j) by (intros j N; apply put_other; congruence).
  assert (PA : forall j, pos pts1 j = pos pts j /\ oan pts1 j = oan pts j /\ (isres pts j -> isres pts1 j)).
  { intros j. unfold pos, oan, isres. destruct (Nat.eq_dec j e) as [->|N]; [rewrite EE1, EE; cbn; repeat split; intros (q & r & Q & S); injection Q as <-; exists (set_next p s), r; auto|rewrite OTH by exact N; auto]. }
  assert (NXE : onx pts1 e = s) by (unfold onx; rewrite EE1; reflexivity). assert (NXO : forall j, j <> e -> onx pts1 j = onx pts j) by (intros j N; unfold onx; rewrite OTH by exact N; reflexivity).
  assert (SK : In s K) by (apply G2; left; reflexivity).
  assert (NEI : forall i, i <> e -> ~ In i E -> ~ In i (e :: E)) by (intros i N X [Y|Y]; [congruence|contradiction]).
  constructor.
  - exact A.
  - intros i X. destruct (B i X) as (q & r & Q & S & KR). destruct (Nat.eq_dec i e) as [->|N]; [rewrite EE in Q; injection Q as <-; exists (set_next p s), r; auto|exists q, r; rewrite OTH by exact N; auto].
  - intros i X. destruct (PA i) as (P1 & P2 & _). rewrite P1, P2. destruct (Nat.eq_dec i e) as [->|N].
    + rewrite NXE. destruct (PA s) as (P3 & P4 & P5). rewrite P4. split; [|congruence]. apply P5. destruct (B s SK) as (q & r & Q & S & _). exists q, r. auto.
    + rewrite NXO by exact N. destruct (PA (onx pts i)) as (P3 & P4 & P5). rewrite P3, P4. destruct (C i X) as (C1 & C2). auto.
  - intros i X Y. destruct (Nat.eq_dec i e) as [->|N]; [rewrite NXE; auto|]. rewrite NXO by exact N. destruct (D i X (NEI i N Y)) as (D1 & D2). split; [exact D1|]. intros Z. apply D2. right. exact Z.
  - intros i j X Y NI NJ EQ. destruct (Nat.eq_dec i e) as [->|N1]; destruct (Nat.eq_dec j e) as [->|N2]; auto.
    + exfalso. rewrite NXE, NXO in EQ by exact N2. apply (proj2 (D j Y (NEI j N2 NJ))). left. exact EQ.
    + exfalso. rewrite NXE, NXO in EQ by exact N1. apply (proj2 (D i X (NEI i N1 NI))). left. symmetry. exact EQ.
    + rewrite !NXO in EQ by assumption. apply I; auto.
  - split; [exact F1|]. split; [intros i X; apply F2; right; exact X|]. intros i X. rewrite NXO by (intros ->; contradiction). destruct (PA (onx pts i)) as (_ & -> & _). apply F3. right. exact X.
  - split; [exact G1|]. intros i X. apply G2. right. exact X.
Qed.
Lemma pick_range pts a p : forall cands cur pc l i b, pick_start pts a p cur pc l i cands = Some b -> b = cur \/ i <= b < i + length cands.
Proof.
  induction cands as [|c cands IH]; intros cur pc l i b H; cbn [pick_start] in H; [injection H as <-; auto|]. destruct (non_anchor_end_point pts c) as [p3|]; [|discriminate]. cbn [length].
  destruct (negb _) in H; apply IH in H as [->|H]; lia.
Qed.
Lemma pick_total pts a p : forall cands cur pc l i, (forall c, In c cands -> non_anchor_end_point pts c <> None) -> pick_start pts a p cur pc l i cands <> None.
Proof.
  induction cands as [|c cands IH]; intros cur pc l i H; cbn [pick_start]; [discriminate|]. specialize (H c (or_introl eq_refl)) as H0. destruct (non_anchor_end_point pts c) as [p3|]; [|congruence].
  destruct (negb _); apply IH; intros c' X; apply H; right; exact X.
Qed.
Lemma choose_range pts a p cands b : choose_start pts a p cands = Some b -> b < length cands.
Proof.
  destruct cands as [|c cands]; [discriminate|]. cbn [choose_start length]. destruct cands as [|c' cands]; [intros H; injection H as <-; cbn; lia|]. destruct (non_anchor_end_point pts c) as [p0|]; [|discriminate]. intros H. apply pick_range in H. lia.
Qed.
Lemma choose_total pts a p cands : cands <> [] -> (forall c, In c cands -> non_anchor_end_point pts c <> None) -> choose_start pts a p cands <> None.
Proof.
  destruct cands as [|c cands]; [congruence|]. intros _ H. cbn [choose_start]. destruct cands as [|c' cands]; [discriminate|]. specialize (H c (or_introl eq_refl)) as H0. destruct (non_anchor_end_point pts c) as [p0|]; [|congruence].
  apply pick_total. intros x X. apply H. right. exact X.
Qed.
Lemma swap_perm l b s : nth_error l b = Some s -> Permutation l (s :: swap_remove l b).
Proof.
  intros E. unfold swap_remove. destruct (rev l) as [|z zs] eqn:R; [apply (f_equal (@rev nat)) in R; rewrite rev_involutive in R; subst; destruct b; discriminate|].
  assert (EL : l = rev zs ++ [z]) by (rewrite <- (rev_involutive l), R; reflexivity). assert (LL : length l = S (length zs)) by (rewrite EL, app_length, rev_length; cbn; lia). rewrite LL. cbn [Nat.sub]. rewrite Nat.sub_0_r.
  destruct (Nat.eqb_spec b (length zs)) as [->|N].
  - rewrite EL in E. rewrite nth_error_app2 in E by (rewrite rev_length; lia). rewrite rev_length, Nat.sub_diag in E. injection E as <-. rewrite EL. symmetry. apply Permutation_cons_append.
  - assert (LB : b < length zs) by (apply nth_lt in E; lia). rewrite EL in E |- *. rewrite nth_error_app1 in E by (rewrite rev_length; exact LB). clear - E.
    revert b E. induction (rev zs) as [|x l IH]; intros b E; [destruct b; discriminate|]. destruct b as [|b]; cbn [nth_error put app] in *.
    + injection E as <-. constructor. symmetry. apply Permutation_cons_append.
    + rewrite (IH b E). apply perm_swap.
Qed.
Lemma end_point_eq pts i p : nth_error pts i = Some p -> isres pts (onx pts i) -> end_point pts i = Some (pos pts (onx pts i)).
Proof. intros E (q & r & Q & _). unfold end_point, pos, onx in *. rewrite E in *. rewrite Q. reflexivity. Qed.
Lemma nonanchor_end pts K E T s : linv pts K E T -> In s K -> non_anchor_end_point pts s <> None.
Proof.
  intros [A B C D I F G] SK. destruct (B s SK) as (p & r & EP & _). destruct (C s SK) as ((q & rq & Q & _) & _). unfold non_anchor_end_point. rewrite EP. assert (NX : onx pts s = o_next p) by (unfold onx; rewrite EP; reflexivity). rewrite <- NX, Q.
  destruct (o_anchor q) eqn:AQ; [|discriminate]. assert (OQ : oan pts (onx pts s) = true) by (unfold oan; rewrite Q; exact AQ).
  assert (NE : ~ In s E) by (intros X; destruct F as (_ & _ & F3); rewrite (F3 s X) in OQ; discriminate).
  destruct (D s SK NE) as (NK & _). destruct (C _ NK) as ((q' & r' & Q' & _) & C2). assert (NX2 : onx pts (onx pts s) = o_next q) by (unfold onx at 1; rewrite Q; reflexivity). rewrite NX2 in *. rewrite Q'.
  destruct (o_anchor q') eqn:AQ'; [|discriminate]. destruct C2 as (C2 & _); [unfold oan; rewrite Q'; exact AQ'|]. congruence.
Qed.
Lemma join_ok : forall ends pts starts K, linv pts K ends (map snd (pm_all starts)) -> (forall k s, In (k, s) (pm_all starts) -> pos pts s = k /\ oan pts s = false) ->
  (pm_ok starts -> enz pts K [] -> Permutation (map fst (pm_all starts)) (map (fun i => pos pts (onx pts i)) ends) -> join_ends pts starts ends <> None) /\
  (forall pts' starts', join_ends pts starts ends = Some (pts', starts') ->
    linv pts' K [] (map snd (pm_all starts')) /\ edges pts' K = edges pts K /\ length pts' = length pts /\
    (forall j p, nth_error pts j = Some p -> exists n, nth_error pts' j = Some (set_next p n)) /\
    length (pm_all starts) = length (pm_all starts') + length ends /\ (enz pts K [] -> enz pts' K [])).
Proof.
  induction ends as [|e ends IH]; intros pts starts K L ST.
  - cbn [join_ends]. split; [discriminate|]. intros pts' starts' E. injection E as <- <-. split; [exact L|]. split; [reflexivity|]. split; [reflexivity|]. split; [|split; [cbn; lia|auto]]. intros j p E. exists (o_next p). rewrite E. destruct p; reflexivity.
  - assert (EK : In e K) by (apply (l_ends _ _ _ _ L); left; reflexivity). destruct (l_keep _ _ _ _ L e EK) as (pe & re & EE & _). destruct (l_next _ _ _ _ L e EK) as (RN & _).
    cbn [join_ends]. rewrite EE, (end_point_eq _ _ _ EE RN). set (k := pos pts (onx pts e)). assert (PE : o_data pe = pos pts e) by (unfold pos; rewrite EE; reflexivity).
    destruct (pm_split starts k) as (rest & P1 & P2). set (cands := pm_get starts k) in *.
    assert (CK : forall c, In c cands -> In c K /\ pos pts c = k /\ oan pts c = false).
    { intros c X. assert (Y : In (k, c) (pm_all starts)) by (eapply Permutation_in; [symmetry; exact P1|]; apply in_or_app; left; apply in_map; exact X). split; [|apply ST; exact Y].
      apply (l_targets _ _ _ _ L). apply in_map_iff. exists (k, c). auto. }
    assert (STEP : forall b s, nth_error cands b = Some s -> let pts1 := put pts e (set_next pe s) in let starts1 := pm_set starts k (swap_remove cands b) in
       linv pts1 K ends (map snd (pm_all starts1)) /\ (forall k s, In (k, s) (pm_all starts1) -> pos pts1 s = k /\ oan pts1 s = false) /\ Permutation (pm_all starts) ((k, s) :: pm_all starts1) /\ edges pts1 K = edges pts K /\ (forall j, j <> e -> onx pts1 j = onx pts j) /\ (forall j, pos pts1 j = pos pts j) /\ (enz pts K [] -> enz pts1 K [])).
    { intros b s ES pts1 starts1. assert (PS : Permutation (pm_all starts) ((k, s) :: pm_all starts1)). { unfold starts1. rewrite P2, P1. rewrite (Permutation_map (pair k) (swap_perm _ _ _ ES)). reflexivity. }
      destruct (CK s (nth_error_In _ _ ES)) as (SK & SP & SA).
      assert (EE1 : nth_error pts1 e = Some (set_next pe s)) by (apply (put_same' _ _ _ _ EE)). assert (OTH : forall j, j <> e -> nth_error pts1 j = nth_error pts j) by (intros j N; apply put_other; congruence).
      assert (PA : forall j, pos pts1 j = pos pts j /\ oan pts1 j = oan pts j). { intros j. unfold pos, oan. destruct (Nat.eq_dec j e) as [->|N]; [rewrite EE1, EE; auto|rewrite OTH by exact N; auto]. }
      split; [|split; [|split; [exact PS|split; [|split; [|split]]]]].
      - apply linv_join with (e := e); auto. eapply linv_perm; [reflexivity|reflexivity| |exact L]. rewrite (Permutation_map snd PS). reflexivity.
      - intros k' s' X. destruct (PA s') as (-> & ->). apply ST. eapply Permutation_in; [symmetry; exact PS|right; exact X].
      - unfold edges. apply map_ext. intros j. destruct (PA j) as (-> & _). f_equal. destruct (PA (onx pts1 j)) as (-> & _). unfold onx at 1. destruct (Nat.eq_dec j e) as [->|N]; [rewrite EE1; exact SP|rewrite OTH by exact N; reflexivity].
      - intros j N. unfold onx. rewrite OTH by exact N. reflexivity.
      - intros j. apply PA.
      - intros (EZ & _). split; [|intros ? ? []]. intros j X. destruct (PA j) as (-> & _). destruct (PA (onx pts1 j)) as (-> & ->). unfold onx. destruct (Nat.eq_dec j e) as [->|N].
        + rewrite EE1. cbn [set_next o_next]. intros _. rewrite SP. apply EZ; [exact X|]. apply (l_ends _ _ _ _ L). left. reflexivity.
        + rewrite OTH by exact N. apply EZ. exact X. }
    split.
    + intros OK EZ PM. destruct (peq_spec (o_data pe) k) as [W|W]; [exfalso; apply (proj1 EZ e EK); [apply (l_ends _ _ _ _ L); left; reflexivity|rewrite <- PE; exact W]|].
      assert (NN : cands <> []). { intros W'. apply (pm_get_none _ _ OK W'). eapply Permutation_in; [symmetry; exact PM|]. left. reflexivity. }
      pose proof (choose_total pts (o_data pe) k cands NN) as CT. specialize (CT (fun c X => nonanchor_end _ _ _ _ _ L (proj1 (CK c X)))).
      destruct (choose_start pts (o_data pe) k cands) as [b|] eqn:CB; [|congruence]. apply choose_range in CB. destruct (nth_error cands b) as [s|] eqn:ES; [|apply nth_error_None in ES; lia].
      destruct (STEP b s ES) as (L1 & ST1 & PS & EE1 & NX & PX & EZ1). apply (IH _ _ _ L1 ST1).
      * apply pm_set_ok. exact OK.
      * apply EZ1. exact EZ.
      * assert (NE : ~ In e ends) by (destruct (l_ends _ _ _ _ L) as (ND & _); apply NoDup_cons_iff in ND; apply ND). rewrite (Permutation_map fst PS) in PM. cbn [map fst] in PM. apply Permutation_cons_inv in PM. rewrite PM.
        erewrite map_ext_in; [reflexivity|]. intros i X. cbn. rewrite PX, NX by (intros ->; contradiction). reflexivity.
    + intros pts' starts' E. destruct (point_eqb (o_data pe) k); [discriminate|]. destruct (choose_start pts (o_data pe) k cands) as [b|]; [|discriminate]. destruct (nth_error cands b) as [s|] eqn:ES; [|discriminate].
      destruct (STEP b s ES) as (L1 & ST1 & PS & EE1 & NX & PX & EZ1). destruct (IH _ _ _ L1 ST1) as (_ & I2). destruct (I2 _ _ E) as (A1 & A2 & A3 & A4 & A5 & A6). split; [exact A1|]. split; [congruence|]. split; [rewrite A3, put_length; reflexivity|]. split; [|split; [|auto]].
      * intros j q Q. destruct (Nat.eq_dec j e) as [->|N].
        -- rewrite EE in Q. injection Q as <-. destruct (A4 e (set_next pe s)) as (n & A); [apply (put_same' _ _ _ _ EE)|]. exists n. rewrite A. reflexivity.
        -- apply A4. rewrite put_other by congruence. exact Q.
      * rewrite (Permutation_length PS). cbn [length]. lia.
Qed.
