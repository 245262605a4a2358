(** From judged points to loops: the whole of the last stage, and the lines of its loops. *)
From Coq Require Import ZArith List Bool Arith Permutation Lia.
From Verif Require Import GeomModel OutModel OutSpec JoinSpec CycleProofs JoinProofs LinkProofs MatchProofs.
Import ListNotations.

(** * The links form a permutation *)
Section Closed.
Variables (pts : list opoint) (K T : list nat).
Hypothesis (L : linv pts K [] T) (KI : kept_in pts K []).
Lemma kept_use i p : nth_error pts i = Some p -> in_use (index_point p) -> In i K.
Proof.
  intros E U. destruct (o_state p) as [| |r] eqn:S; cbn in U; unfold in_use, index_point in U; cbn [f_index] in U; rewrite S in U; try (destruct U; discriminate).
  destruct (keeps r) eqn:KR; [|destruct U; discriminate]. destruct (KI i p r E S KR) as [X|[]]. exact X.
Qed.
Lemma use_kept i : In i K -> exists p, nth_error pts i = Some p /\ f_index (index_point p) = if o_anchor p then (-3)%Z else (-1)%Z.
Proof. intros X. destruct (l_keep _ _ _ _ L i X) as (p & r & E & S & KR). exists p. split; [exact E|]. unfold index_point. cbn [f_index]. rewrite S, KR. reflexivity. Qed.
Lemma links_closed : links_ok (map index_point pts).
Proof.
  split.
  - intros i q Q U. rewrite nth_error_map in Q. destruct (nth_error pts i) as [p|] eqn:E; [|discriminate]. injection Q as <-. pose proof (kept_use i p E U) as X. destruct (l_inner _ _ _ _ L i X) as (Y & _); [intros []|].
    assert (NX : onx pts i = o_next p) by (unfold onx; rewrite E; reflexivity). rewrite NX in Y. destruct (use_kept _ Y) as (q & Q & IX). exists (index_point q). cbn [index_point f_next]. rewrite nth_error_map, Q. split; [reflexivity|].
    unfold in_use. rewrite IX. destruct (o_anchor q); auto.
  - intros i j p q P Q UP UQ EQ. rewrite nth_error_map in P, Q. destruct (nth_error pts i) as [p'|] eqn:E; [|discriminate]. destruct (nth_error pts j) as [q'|] eqn:E'; [|discriminate]. injection P as <-. injection Q as <-.
    apply (l_inj _ _ _ _ L); try (intros []); [eapply kept_use; eauto|eapply kept_use; eauto|]. unfold onx. rewrite E, E'. exact EQ.
Qed.
(** The next ordinary point. *)
Definition osucc (a : nat) : nat := if oan pts (onx pts a) then onx pts (onx pts a) else onx pts a.
Lemma anchor_next i : In i K -> oan pts i = true -> oan pts (onx pts i) = false.
Proof. intros X O. destruct (oan pts (onx pts i)) eqn:E; [|reflexivity]. destruct (l_next _ _ _ _ L i X) as (_ & H). destruct (H E). congruence. Qed.
Lemma next_kept i : In i K -> In (onx pts i) K.
Proof. intros X. apply (l_inner _ _ _ _ L i X). intros []. Qed.
Lemma leads_osucc a b : In a K -> leads_to (map index_point pts) a b -> b = osucc a.
Proof.
  intros X H. assert (IX : forall i p q, In i K -> nth_error (map index_point pts) i = Some p -> nth_error (map index_point pts) (f_next p) = Some q -> f_next p = onx pts i /\ f_index q = if oan pts (onx pts i) then (-3)%Z else (-1)%Z).
  { intros i p q Y P Q. rewrite nth_error_map in P. destruct (nth_error pts i) as [p'|] eqn:E; [|discriminate]. injection P as <-. cbn [index_point f_next] in *. assert (NX : onx pts i = o_next p') by (unfold onx; rewrite E; reflexivity).
    split; [symmetry; exact NX|]. rewrite nth_error_map in Q. rewrite NX. pose proof (next_kept i Y) as Z. rewrite NX in Z. destruct (use_kept _ Z) as (q' & Q' & W). rewrite Q' in Q. injection Q as <-. rewrite W. unfold oan. rewrite Q'. reflexivity. }
  unfold osucc. inversion H as [i p q P Q I1 I2 I3|i p q j P Q I1 H' I2 I3]; subst.
  - destruct (IX _ _ _ X P Q) as (-> & IQ). destruct (oan pts (onx pts a)); [congruence|reflexivity].
  - destruct (IX _ _ _ X P Q) as (NX & IQ). rewrite NX in H'. destruct (oan pts (onx pts a)) eqn:OA; [|congruence]. pose proof (next_kept a X) as Y. pose proof (anchor_next _ Y OA) as N2.
    inversion H' as [i2 p2 q2 P2 Q2 J1 J2 J3|i2 p2 q2 j2 P2 Q2 J1 H2 J2 J3]; subst.
    + apply (IX _ _ _ Y P2 Q2).
    + destruct (IX _ _ _ Y P2 Q2) as (_ & IQ2). rewrite N2 in IQ2. congruence.
Qed.
Lemma ordinary_in a : In a (ordinary (map index_point pts)) <-> In a K /\ oan pts a = false.
Proof.
  unfold ordinary. rewrite filter_In, nth_error_map. split.
  - intros (_ & H). destruct (nth_error pts a) as [p|] eqn:E; [|discriminate]. cbn [option_map] in H. apply Z.eqb_eq in H. assert (X : In a K) by (eapply kept_use; [exact E|left; exact H]). split; [exact X|].
    destruct (use_kept a X) as (p' & E' & IX). rewrite E in E'. injection E' as <-. unfold oan. rewrite E. destruct (o_anchor p); [congruence|reflexivity].
  - intros (X & O). destruct (use_kept a X) as (p & E & IX). split; [apply in_seq; rewrite map_length; apply nth_lt in E; lia|]. rewrite E. cbn [option_map]. rewrite IX. unfold oan in O. rewrite E in O. rewrite O. reflexivity.
Qed.
Definition hop (a : nat) : list nat := if oan pts (onx pts a) then [a; onx pts a] else [a].
Lemma kept_hops : Permutation K (flat_map hop (ordinary (map index_point pts))).
Proof.
  assert (NDO : NoDup (ordinary (map index_point pts))) by (apply NoDup_filter, seq_NoDup). apply NoDup_Permutation; [apply L| |].
  - assert (OIN : forall a, In a (ordinary (map index_point pts)) -> In a K /\ oan pts a = false) by (intros a X; apply ordinary_in; exact X). revert OIN NDO. generalize (ordinary (map index_point pts)). induction l as [|a l IH]; intros OIN ND; [constructor|].
    apply NoDup_cons_iff in ND as (NA & ND). cbn [flat_map]. destruct (OIN a (or_introl eq_refl)) as (AK & AO). apply NoDup_app_iff. split; [|split].
    + unfold hop. destruct (oan pts (onx pts a)) eqn:E; repeat constructor; intros X; cbn in X; intuition congruence.
    + apply IH; [intros b X; apply OIN; right; exact X|exact ND].
    + intros x X Y. apply in_flat_map in Y as (b & B & Y). destruct (OIN b (or_intror B)) as (BK & BO). assert (NAB : a <> b) by (intros ->; contradiction).
      unfold hop in X, Y. destruct (oan pts (onx pts a)) eqn:EA; destruct (oan pts (onx pts b)) eqn:EB; cbn in X, Y.
      * destruct X as [X|[X|[]]]; destruct Y as [Y|[Y|[]]]; try congruence. apply NAB. apply (l_inj _ _ _ _ L); auto. congruence.
      * destruct X as [X|[X|[]]]; destruct Y as [Y|[]]; congruence.
      * destruct X as [X|[]]; destruct Y as [Y|[Y|[]]]; congruence.
      * destruct X as [X|[]]; destruct Y as [Y|[]]; congruence.
  - intros x. split.
    + intros X. apply in_flat_map. destruct (oan pts x) eqn:O.
      * destruct (some_return (onx pts) K next_kept (fun i j A B => l_inj _ _ _ _ L i j A B (fun f => f) (fun f => f)) x X) as (m & MP & ME).
        destruct m as [|m]; [lia|]. cbn in ME. set (a := iter (onx pts) m x) in *. change (onx pts a = x) in ME. assert (AK : In a K) by (apply iter_in; [exact next_kept|exact X]).
        exists a. split; [apply ordinary_in; split; [exact AK|]|].
        -- destruct (l_next _ _ _ _ L a AK) as (_ & H). rewrite ME in H. apply H. exact O.
        -- unfold hop. rewrite ME, O. right. left. reflexivity.
      * exists x. split; [apply ordinary_in; auto|]. unfold hop. destruct (oan pts (onx pts x)); left; reflexivity.
    + intros X. apply in_flat_map in X as (a & A & X). apply ordinary_in in A as (AK & _). unfold hop in X. destruct (oan pts (onx pts a)); cbn in X; [destruct X as [<-|[<-|[]]]; [exact AK|apply next_kept; exact AK]|destruct X as [<-|[]]; exact AK].
Qed.
Lemma hop_lines l : (forall a, In a l -> In a K) -> nonzero (edges pts (flat_map hop l)) = nonzero (map (fun a => (pos pts a, pos pts (osucc a))) l).
Proof.
  induction l as [|a l IH]; intros IN; [reflexivity|]. cbn [flat_map map]. unfold edges. rewrite map_app. fold (edges pts (flat_map hop l)). rewrite nonzero_app, IH by (intros b X; apply IN; right; exact X).
  change (?a :: ?b) with ([a] ++ b). rewrite nonzero_app. f_equal. unfold hop, osucc. destruct (oan pts (onx pts a)) eqn:O; [|reflexivity].
  destruct (l_next _ _ _ _ L a (IN a (or_introl eq_refl))) as (_ & H). destruct (H O) as (_ & P). cbn [map]. rewrite P. unfold nonzero. cbn [filter fst snd]. rewrite peq_refl. reflexivity.
Qed.
End Closed.

Lemma segs_succ (g h : nat -> point) : forall l x e, (forall k a b, nth_error (x :: l) k = Some a -> nth_error (x :: l ++ [e]) (S k) = Some b -> g b = h a) ->
  segs (map g (x :: l ++ [e])) = map (fun a => (g a, h a)) (x :: l).
Proof.
  induction l as [|y l IH]; intros x e H.
  - cbn. rewrite (H 0 x e eq_refl eq_refl). reflexivity.
  - change (segs (g x :: map g (y :: l ++ [e])) = (g x, h x) :: map (fun a => (g a, h a)) (y :: l)). rewrite <- (IH y e). 2:{ intros k a b A B. apply (H (S k) a b A B). } cbn [map]. rewrite segs_cons. rewrite (H 0 x y eq_refl eq_refl) at 1. reflexivity.
Qed.
Lemma nth_snoc {A} (l : list A) e : nth_error (l ++ [e]) (length l) = Some e.
Proof. rewrite nth_error_app2 by lia. rewrite Nat.sub_diag. reflexivity. Qed.
Lemma loop_lines_succ pts fps h L : (forall i, fpos fps i = pos pts i) -> L <> [] -> (forall a b, cyclic_next L a b -> pos pts b = h a) -> loop_lines fps L = map (fun a => (pos pts a, h a)) L.
Proof.
  intros P NE H. destruct L as [|x l]; [congruence|]. unfold loop_lines. cbn [firstn app].
  rewrite (map_ext _ _ P). apply segs_succ. intros k a b A B. apply H. exists k. split; [exact A|]. pose proof (nth_lt _ _ _ A) as LK. cbn [length] in *. destruct (Nat.eq_dec k (length l)) as [->|N].
  - rewrite Nat.mod_same by lia. cbn [nth_error] in *. rewrite nth_snoc in B. exact B.
  - rewrite Nat.mod_small by lia. cbn [nth_error] in *. rewrite nth_error_app1 in B by lia. exact B.
Qed.
Lemma loops_of pts K T : linv pts K [] T -> kept_in pts K [] ->
  exists fps loops Ls, find_loops (map index_point pts) = Some (fps, loops) /\ Forall2 (fun loc L => L <> [] /\ iterate_loop fps (fst loc) (snd loc) = Some L) loops Ls /\
    Permutation (nonzero (flat_map (loop_lines fps) Ls)) (nonzero (edges pts K)) /\ (enz pts K [] -> nonzero (flat_map (loop_lines fps) Ls) = flat_map (loop_lines fps) Ls).
Proof.
  intros L KI. destruct (find_loops_ok (map index_point pts) (links_closed _ _ _ L KI)) as (fps & loops & Ls & F & FL & PC & CN & DT & _). exists fps, loops, Ls. split; [exact F|]. split; [|].
  { clear - FL. induction FL as [|loc L0 locs Ls (A & B & C) FL IH]; constructor; auto. }
  assert (FP : forall i, fpos fps i = pos pts i).
  { intros i. rewrite map_map in DT. assert (Q : option_map f_data (nth_error fps i) = option_map o_data (nth_error pts i)) by (rewrite <- !nth_error_map, DT; reflexivity). unfold fpos, pos. destruct (nth_error fps i), (nth_error pts i); cbn in Q; congruence. }
  assert (OK : forall a, In a (concat Ls) -> In a K /\ oan pts a = false). { intros a X. apply (ordinary_in _ _ _ L KI). eapply Permutation_in; [exact PC|exact X]. }
  assert (LL : flat_map (loop_lines fps) Ls = map (fun a => (pos pts a, pos pts (osucc pts a))) (concat Ls)).
  { assert (NE : forall L0, In L0 Ls -> L0 <> []). { clear - FL. induction FL as [|loc L0 locs Ls (A & B & C) FL IH]; intros L1 X; [destruct X|]. destruct X as [<-|X]; auto. }
    assert (ST : forall L0 a b, In L0 Ls -> cyclic_next L0 a b -> pos pts b = pos pts (osucc pts a)).
    { intros L0 a b X Y. f_equal. apply (leads_osucc _ _ _ L); [|apply (CN L0); auto]. apply OK. apply in_concat'. exists L0. split; [exact X|]. destruct Y as (k & A & _). eapply nth_error_In; eauto. }
    clear - FP NE ST. induction Ls as [|L0 Ls IH]; [reflexivity|]. cbn [flat_map concat]. rewrite map_app, IH; [|intros; apply NE; right; auto|intros; eapply ST; eauto; right; auto].
    rewrite (loop_lines_succ pts fps (fun a => pos pts (osucc pts a)) L0); [reflexivity|exact FP|apply NE; left; reflexivity|]. intros a b Y. apply (ST L0); [left; reflexivity|exact Y]. }
  split.
  - rewrite LL. etransitivity; [apply nonzero_perm, (Permutation_map _ PC)|]. rewrite <- (hop_lines _ _ _ L) by (intros a X; apply (ordinary_in _ _ _ L KI); exact X). apply nonzero_perm. unfold edges. apply Permutation_map. symmetry. apply (kept_hops _ _ _ L KI).
  - intros (EZ & _). rewrite LL. clear - OK EZ L. induction (concat Ls) as [|a l IH]; [reflexivity|]. cbn [map nonzero filter fst snd]. destruct (OK a (or_introl eq_refl)) as (AK & AO).
    destruct (peq_spec (pos pts a) (pos pts (osucc pts a))) as [W|W]; [exfalso|cbn [negb]; f_equal; apply IH; intros b X; apply OK; right; exact X].
    unfold osucc in W. destruct (oan pts (onx pts a)) eqn:O; [|apply (EZ a AK O W)]. destruct (l_next _ _ _ _ L a AK) as (_ & H). destruct (H O) as (_ & P). pose proof (next_kept _ _ _ L a AK) as NK. apply (EZ _ NK (anchor_next _ _ _ L _ NK O)). congruence.
Qed.

(** * The whole stage *)
Lemma follow_keys fuel pts br merged i pts' br' m' : follow_balance fuel pts br merged i = Some (pts', br', m') -> pm_ok (b_starts br) -> pm_ok (b_virt br) -> pm_ok (b_starts br') /\ pm_ok (b_virt br').
Proof.
  unfold follow_balance. intros H A B. destruct (nth_error pts i) as [p|]; [|discriminate]. destruct (o_state p) as [| |r]; try discriminate. destruct (o_anchor p); [discriminate|]. destruct (follow_loop fuel r pts merged i (o_next p)) as [(((pts1, m1), prev), next)|]; [|discriminate].
  destruct r.
  - injection H as <- <- <-. auto.
  - injection H as <- <- <-. cbn [b_starts b_virt]. split; [apply pm_set_ok; exact A|exact B].
  - destruct (nth_error pts1 next); [|discriminate]. injection H as <- <- <-. cbn [b_starts b_virt]. split; [exact A|apply pm_set_ok; exact B].
  - destruct (nth_error pts1 i); [|discriminate]. destruct (nth_error pts1 next); [|discriminate]. injection H as <- <- <-. cbn [b_starts b_virt]. split; [exact A|apply pm_set_ok; exact B].
Qed.
Lemma follow_all_keys fuel tree : forall ss pts br merged pts' br' m' ss', follow_all fuel tree pts br merged ss = Some (pts', br', m', ss') -> pm_ok (b_starts br) -> pm_ok (b_virt br) -> pm_ok (b_starts br') /\ pm_ok (b_virt br').
Proof.
  induction ss as [|(i, hits) ss IH]; intros pts br merged pts' br' m' ss' H A B; cbn [follow_all] in H; [injection H as <- <- <- <-; auto|].
  destruct (if tree then insert_anchor pts i else Some (pts, i)) as [(pts1, a)|]; [|discriminate]. destruct (follow_balance fuel pts1 br merged i) as [((pts2, br2), m2)|] eqn:F; [|discriminate].
  destruct (follow_all fuel tree pts2 br2 m2 ss) as [(((pts3, br3), m3), ss3)|] eqn:G; [|discriminate]. injection H as <- <- <- <-. destruct (follow_keys _ _ _ _ _ _ _ _ F A B). eapply IH; eauto.
Qed.
Lemma all_plain_anch pts l : (forall i, oan pts i = false) -> anch pts l.
Proof. intros H. induction l as [|x l IH]; cbn; auto. split; [|exact IH]. destruct l; auto. intros W. rewrite H in W. discriminate. Qed.
Lemma trail_clear pts : no_zero_lines pts -> forall c n e i, trail pts n c e -> onx pts i = n -> i < length pts -> clear pts (i :: c ++ [e]).
Proof.
  intros NZ. induction c as [|x c IH]; intros n e i T N LI; (destruct (nth_error pts i) as [p|] eqn:E; [|apply nth_error_None in E; lia]);
    assert (W : pos pts i <> pos pts n) by (intros W; apply (NZ i p E); unfold onx in N; rewrite E in N; rewrite N, <- W; unfold pos; rewrite E; reflexivity).
  - cbn in T. destruct T as (-> & _). cbn. auto.
  - cbn in T. destruct T as (-> & q & Q & U & T). cbn [app clear]. split; [auto|]. apply (IH (o_next q)); [exact T|unfold onx; rewrite Q; reflexivity|eapply nth_lt; eauto].
Qed.
Lemma start_state pts ss RS : judged_points pts ss -> Forall (is_run pts) RS -> map head RS = map fst ss ->
  nexts_ok pts /\ (forall s i, In s ss -> In i (snd s) -> i < length pts /\ oan pts i = false) /\ Forall (rok pts) RS /\ NoDup (flat_map nodes RS) /\ (no_zero_lines pts -> Forall (fun R => clear pts (whole_run R)) RS).
Proof.
  intros (PERM & ST & ND & JD & HITS) RUN HD.
  assert (OA : forall i, oan pts i = false) by (intros i; unfold oan; destruct (nth_error pts i) as [p|] eqn:E; [apply ST; eapply nth_error_In; eauto|reflexivity]).
  split; [|split; [|split; [|split]]].
  - intros j p E. assert (X : In (o_next p) (seq 0 (length pts))) by (eapply Permutation_in; [exact PERM|]; apply in_map; eapply nth_error_In; eauto). apply in_seq in X. lia.
  - intros s i X Y. split; [eapply HITS; eauto|apply OA].
  - apply Forall_forall. intros R X. split; [eapply Forall_forall; eauto|]. split; [apply OA|]. split; [apply OA|]. apply all_plain_anch. exact OA.
  - apply (runs_nodup pts); auto. rewrite HD. exact ND.
  - intros NZ. apply Forall_forall. intros R X. rewrite Forall_forall in RUN. specialize (RUN R X). destruct R as ((i, c), e). destruct RUN as (p & r & E & S & T). cbn [whole_run]. eapply trail_clear; eauto; [unfold onx; rewrite E; reflexivity|eapply nth_lt; eauto].
Qed.
Lemma fstate_init pts RC : Forall (rok pts) RC -> NoDup (flat_map nodes RC) -> (forall j p r, nth_error pts j = Some p -> o_state p = Res r -> In j (map head RC)) -> fstate pts no_breaks [] RC.
Proof.
  intros RK ND HD. split; [|split; [exact RK|split; [exact ND|split; [intros x _; split; intros []|intros j p r E S _; right; right; eapply HD; eauto]]]].
  split.
  - constructor; cbn.
    + constructor.
    + intros i [].
    + intros i [].
    + intros i [].
    + intros i j [].
    + split; [constructor|]. split; [intros i []|intros i []].
    + split; [constructor|intros i []].
  - constructor; cbn.
    + intros i [].
    + split; [constructor|intros i []].
    + intros k s [].
    + intros k v [].
    + intros k v [].
    + reflexivity.
Qed.
Lemma finish_ok fuel tree pts ss RS : judged_points pts ss -> Forall (is_run pts) RS -> map head RS = map fst ss ->
  (no_zero_lines pts -> Permutation (flat_map (w_start pts) RS) (flat_map (w_end pts) RS) -> Permutation (flat_map (r_start pts) RS) (flat_map (r_end pts) RS) ->
     length pts + length ss + length (flat_map snd ss) <= fuel -> finish fuel tree pts ss <> None) /\
  (forall fps loops ss' merged, finish fuel tree pts ss = Some (fps, loops, ss', merged) ->
     exists Ls, Forall2 (fun loc L => L <> [] /\ iterate_loop fps (fst loc) (snd loc) = Some L) loops Ls /\
       Permutation (nonzero (flat_map (loop_lines fps) Ls)) (nonzero (flat_map (wanted pts) RS)) /\ (no_zero_lines pts -> nonzero (flat_map (loop_lines fps) Ls) = flat_map (loop_lines fps) Ls)).
Proof.
  intros JP RUN HD. destruct (start_state _ _ _ JP RUN HD) as (NX & HT & RK & ND & CL). destruct JP as (PERM & ST & NDS & JD & HITS).
  assert (PRE : exists pts1 ss1 RC1, (if tree then anchor_hits pts ss else Some (pts, ss)) = Some (pts1, ss1) /\ map fst ss1 = map fst ss /\ length pts1 <= length pts + length (flat_map snd ss) /\ Forall2 (same_run pts pts1) RS RC1 /\ NoDup (flat_map nodes RC1) /\
     (forall j p r, nth_error pts1 j = Some p -> o_state p = Res r -> isres pts j)).
  { destruct tree.
    - destruct (anchor_hits_ok ss pts RS NX HT RK ND) as (pts1 & ss1 & RC1 & E & HF & G & LN & SM & ND1). exists pts1, ss1, RC1. split; [exact E|]. split; [exact HF|]. split; [exact LN|]. split; [exact SM|]. split; [exact ND1|].
      intros j p r Q S. destruct (Nat.lt_ge_cases j (length pts)) as [LJ|LJ]; [|destruct (n_new _ _ G j p LJ Q) as (U & _); congruence]. destruct (nth_error pts j) as [q|] eqn:E0; [|apply nth_error_None in E0; lia].
      destruct (n_same _ _ G j q E0) as (n & E1). rewrite Q in E1. injection E1 as ->. exists q, r. auto.
    - exists pts, ss, RS. split; [reflexivity|]. split; [reflexivity|]. split; [lia|]. split; [apply sames_refl; exact RK|]. split; [exact ND|]. intros j p r Q S. exists p, r. auto. }
  destruct PRE as (pts1 & ss1 & RC1 & E1 & HF & LN & SM & ND1 & RES1). destruct (sames_sums _ _ _ _ SM) as (S1 & S2 & S3 & S4 & S5 & S6 & S7).
  assert (F1 : fstate pts1 no_breaks [] RC1).
  { apply fstate_init; [eapply sames_rok; eauto|exact ND1|]. intros j p r Q S. rewrite S6, HD. apply JD. apply (RES1 j p r Q S). }
  assert (LSS : length ss1 = length ss) by (pose proof (f_equal (@length nat) HF) as W; rewrite !map_length in W; exact W).
  destruct (follow_all_ok tree ss1 fuel pts1 no_breaks [] [] RC1 F1) as (FT & FS); [congruence|]. unfold finish. rewrite E1. destruct (follow_all fuel tree pts1 no_breaks [] ss1) as [(((pts2, br), m2), ss2)|] eqn:E2.
  2:{ split; [|discriminate]. intros _ _ _ FL _. apply FT; [unfold sample in *; lia|reflexivity]. }
  destruct (FS _ _ _ _ eq_refl) as (K & (FI & _ & _ & _ & KA) & (A1 & A2 & A3 & A4 & A5 & A6)). destruct (follow_all_keys _ _ _ _ _ _ _ _ _ _ E2) as (OK1 & OK2); [constructor|constructor|].
  unfold no_breaks in A1, A2, A3, A4, A5, A6. cbn [b_starts b_ends b_virt b_orphans pm_all flat_map edges vedges map app nonzero filter all_starts all_ends] in A1, A2, A3, A4, A5, A6. rewrite ?app_nil_r in A1, A2, A3, A4, A5. cbn [all_starts all_ends map flat_map app] in A2, A3. rewrite ?app_nil_r in A2, A3.
  rewrite S1 in A1. rewrite S2 in A2. rewrite S3 in A3. rewrite S4 in A4. rewrite S5 in A5.
  assert (EZ : no_zero_lines pts -> enz pts2 K (pm_all (b_virt br))). { intros NZ. apply A6; [apply S7, CL, NZ|]. split; [intros i []|intros k v []]. }
  assert (KI : kept_in pts2 K (b_orphans br)). { intros j p r Q S KR. destruct (KA j p r Q S KR) as [X|[X|[]]]; auto. }
  destruct (match_ok (b_orphans br) pts2 (b_starts br) (b_ends br) (b_virt br) K FI KI) as (MT & MS).
  destruct (match_orphans pts2 (b_starts br) (b_ends br) (b_virt br) (b_orphans br)) as [((pts3, starts), ends)|] eqn:E3.
  2:{ split; [|discriminate]. intros _ _ BR _ _. apply MT; [exact OK2| |reflexivity]. rewrite A4, A5. exact BR. }
  destruct (MS _ _ _ eq_refl) as (K3 & L3 & ST3 & KI3 & OK3 & B1 & B2 & B3 & B4). destruct (join_ok ends pts3 starts K3 L3 ST3) as (JT & JS).
  destruct (join_ends pts3 starts ends) as [(pts4, starts4)|] eqn:E4.
  2:{ split; [|discriminate]. intros NZ BW _ _ _. apply JT; [apply OK3; exact OK1|apply B4, EZ, NZ| |reflexivity]. rewrite B2, B3, A2, A3. exact BW. }
  destruct (JS _ _ eq_refl) as (L4 & EE4 & LN4 & SAME4 & CNT & EZ4).
  assert (KI4 : kept_in pts4 K3 []).
  { intros j p r Q S KR. destruct (nth_error pts3 j) as [q|] eqn:E0; [|apply nth_error_None in E0; apply nth_lt in Q; lia]. destruct (SAME4 j q E0) as (n & E5). rewrite Q in E5. injection E5 as ->. apply (KI3 j q r); auto. }
  destruct (loops_of pts4 K3 _ L4 KI4) as (fps & loops & Ls & FL & IT & PL & ZL). rewrite FL. split.
  - intros NZ BW BR FU. assert (Z : pm_all starts4 = []).
    { assert (W : length (pm_all starts) = length ends). { rewrite <- (map_length fst (pm_all starts)), <- (map_length (fun i => pos pts3 (onx pts3 i)) ends). apply Permutation_length. rewrite B2, B3, A2, A3. exact BW. }
      destruct (pm_all starts4); [reflexivity|cbn in CNT; lia]. }
    assert (FA : forallb (fun kv : point * list nat => match snd kv with [] => true | _ => false end) starts4 = true).
    { clear - Z. induction starts4 as [|(k, l) m IH]; [reflexivity|]. unfold pm_all in Z. cbn [flat_map fst snd] in Z. apply app_eq_nil in Z as (Z1 & Z2). destruct l; [|discriminate]. cbn. apply IH. exact Z2. }
    rewrite FA. discriminate.
  - intros fps' loops' ss' m' H. destruct (forallb _ starts4); [|discriminate]. injection H as <- <- <- <-. exists Ls. split; [exact IT|]. split.
    + rewrite PL, EE4. etransitivity; [apply nonzero_perm; exact B1|exact A1].
    + intros NZ. apply ZL, EZ4, B4, EZ, NZ.
Qed.
