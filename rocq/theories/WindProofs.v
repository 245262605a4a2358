(** Ray counting computes the winding number. *)
From Coq Require Import ZArith QArith Lqa List Bool Lia ZifyBool ZifyNat.
From Verif Require Import GeomModel GeomSpec WindSpec BalanceModel GeomProofs IsectProofs.
Import ListNotations.
Local Open Scope Z_scope.

Definition ray_count (p : point) (hs : Z) (dp : point) (tie : bool) (e : point * point) : Z :=
  if up_ray (edge_lo e) (edge_hi e) p hs dp tie then edge_sign e else 0.

(** x range of the edge contains the query point (only such edges are in the sweep) *)
Definition in_xrange (p : point) (e : point * point) : bool :=
  (px (edge_lo e) <=? px p) && (px p <=? px (edge_hi e)).

Definition ray_sum (p : point) (hs : Z) (dp : point) (tie : bool) (l : list (point * point)) : Z :=
  sumZ (map (ray_count p hs dp tie) (filter (in_xrange p) l)).

(** angle label with the branch cut on the upward ray *)
Definition label (o q : point) : Z := (quadrant o q + 1) mod 4.
Definition on_up (o q : point) : Z := if (px q =? px o) && (py q <? py o) then 1 else 0.
Definition pot (o : point) (hs : Z) (q : point) : Z :=
  label o q - (if 0 <? hs then - (4 * on_up o q) else 0).

(** Geometry of one edge.  [xa], [ya], [xb], [yb] are relative to the query point. *)
Definition quad0 (dx dy : Z) : Z :=
  if (0 <? dx) && (0 <=? dy) then 0 else if (dx <=? 0) && (0 <? dy) then 1
  else if (dx <? 0) && (dy <=? 0) then 2 else 3.

(** not on the edge: the origin is not on the segment *)
Lemma not_on_cross o a b : ~ on_edge (a, b) o ->
  px a <= px o <= px b -> px a < px b ->
  (px b - px a) * (py o - py a) - (px o - px a) * (py b - py a) <> 0.
Proof.
  intros HN Hr Hab E. apply HN. unfold on_edge. cbn [fst snd].
  assert (Hq : ~ (inject_Z (px b - px a) == 0)%Q) by (apply inj_nz; lia).
  exists (inject_Z (px o - px a) / inject_Z (px b - px a))%Q. split; [|split].
  - apply (in_unit_q (px o - px a) (px b - px a)); [lia|field; assumption|]. unfold in_unit. lia.
  - unfold injX. rewrite (injm (px o)). field. assumption.
  - unfold injY. apply (Qmult_inj_r _ _ (inject_Z (px b - px a))); [assumption|].
    transitivity (inject_Z (py a) * inject_Z (px b - px a) + inject_Z (px o - px a) * inject_Z (py b - py a))%Q.
    + rewrite <- !inject_Z_mult, <- inject_Z_plus. apply inj_eq. lia.
    + field. assumption.
Qed.

Lemma not_on_swap o a b : ~ on_edge (a, b) o -> ~ on_edge (b, a) o.
Proof.
  intros HN (t & Ht & HX & HY). apply HN. exists (1 - t)%Q. cbn [fst snd] in *.
  split; [lra|]. split; [rewrite HX|rewrite HY]; rewrite !injm; ring.
Qed.

Lemma not_on_vert o a b : ~ on_edge (a, b) o -> px a = px o -> px b = px o ->
  (py a < py o /\ py b < py o) \/ (py o < py a /\ py o < py b).
Proof.
  intros HN Ea Eb. destruct (Z_lt_ge_dec (py a) (py o)), (Z_lt_ge_dec (py b) (py o)); auto.
  - exfalso. apply HN. exists (inject_Z (py o - py a) / inject_Z (py b - py a))%Q.
    assert (Hq : ~ (inject_Z (py b - py a) == 0)%Q) by (apply inj_nz; lia).
    cbn [fst snd]. split; [|split].
    + apply (in_unit_q (py o - py a) (py b - py a)); [lia|field; assumption|]. unfold in_unit. lia.
    + unfold injX. rewrite Ea, Eb, Z.sub_diag. change (inject_Z 0) with 0%Q. ring.
    + unfold injY. rewrite (injm (py o)). field. assumption.
  - exfalso. apply HN. exists (inject_Z (py o - py a) / inject_Z (py b - py a))%Q.
    assert (Hq : ~ (inject_Z (py b - py a) == 0)%Q) by (apply inj_nz; lia).
    cbn [fst snd]. split; [|split].
    + apply (in_unit_q (py o - py a) (py b - py a)); [lia|field; assumption|]. unfold in_unit. lia.
    + unfold injX. rewrite Ea, Eb, Z.sub_diag. change (inject_Z 0) with 0%Q. ring.
    + unfold injY. rewrite (injm (py o)). field. assumption.
  - destruct (Z.eq_dec (py a) (py o)) as [E|E]; [|destruct (Z.eq_dec (py b) (py o)) as [E'|E']; [|lia]].
    + exfalso. apply HN. exists 0%Q. cbn [fst snd]. split; [lra|]. unfold injX, injY. rewrite Ea, E. split; ring.
    + exfalso. apply HN. exists 1%Q. cbn [fst snd]. split; [lra|]. unfold injX, injY. rewrite !injm, Eb, E'. split; ring.
Qed.

(** One edge: four times the signed ray hit is the number of quarter turns corrected
    by the change of a potential. *)
Definition hit (hs xa ya xb yb : Z) : Z :=
  (* relative coordinates, edge from a to b *)
  if (if 0 <? hs then (xa <=? 0) && (0 <? xb) else (xa <? 0) && (0 <=? xb)) && (0 <? xa * yb - xb * ya) then 1
  else if (if 0 <? hs then (xb <=? 0) && (0 <? xa) else (xb <? 0) && (0 <=? xa)) && (xa * yb - xb * ya <? 0) then -1
  else 0.

Definition qt0 (xa ya xb yb : Z) : Z :=
  let d := (quad0 xb yb - quad0 xa ya) mod 4 in
  if d =? 0 then 0 else if d =? 1 then 1 else if d =? 3 then -1
  else if 0 <? xa * yb - xb * ya then 2 else -2.

Definition up0 (x y : Z) : Z := if (x =? 0) && (y <? 0) then 1 else 0.
Definition pot0 (hs x y : Z) : Z := (quad0 x y + 1) mod 4 + (if 0 <? hs then 4 * up0 x y else 0).

(** The same functions on signs. *)
Definition cpos (c : comparison) : bool := match c with Gt => true | _ => false end.
Definition cneg (c : comparison) : bool := match c with Lt => true | _ => false end.
Definition cnn (c : comparison) : bool := match c with Lt => false | _ => true end.
Definition cnp (c : comparison) : bool := match c with Gt => false | _ => true end.
Definition cz (c : comparison) : bool := match c with Eq => true | _ => false end.

Lemma cpos_ok x : (0 <? x) = cpos (x ?= 0).
Proof. destruct (Z.compare_spec x 0); cbn [cpos]; lia. Qed.
Lemma cneg_ok x : (x <? 0) = cneg (x ?= 0).
Proof. destruct (Z.compare_spec x 0); cbn [cneg]; lia. Qed.
Lemma cnn_ok x : (0 <=? x) = cnn (x ?= 0).
Proof. destruct (Z.compare_spec x 0); cbn [cnn]; lia. Qed.
Lemma cnp_ok x : (x <=? 0) = cnp (x ?= 0).
Proof. destruct (Z.compare_spec x 0); cbn [cnp]; lia. Qed.
Lemma cz_ok x : (x =? 0) = cz (x ?= 0).
Proof. destruct (Z.compare_spec x 0); cbn [cz]; lia. Qed.

Definition cmul (a b : comparison) : comparison :=
  match a, b with Eq, _ | _, Eq => Eq | Gt, Gt | Lt, Lt => Gt | _, _ => Lt end.
Lemma cmul_ok x y : (x * y ?= 0) = cmul (x ?= 0) (y ?= 0).
Proof.
  destruct (Z.compare_spec x 0), (Z.compare_spec y 0), (Z.compare_spec (x * y) 0); cbn [cmul];
    try reflexivity; nia.
Qed.

(** sign of P - R from the signs of P and R, where it is determined *)
Definition csub_ok (p r c : comparison) : bool :=
  match p, r with
  | Eq, Eq => cz c
  | Gt, (Eq | Lt) | Eq, Lt => cpos c
  | Lt, (Eq | Gt) | Eq, Gt => cneg c
  | _, _ => true
  end.
Lemma csub_spec x y : csub_ok (x ?= 0) (y ?= 0) (x - y ?= 0) = true.
Proof. destruct (Z.compare_spec x 0), (Z.compare_spec y 0), (Z.compare_spec (x - y) 0); cbn; try reflexivity; lia. Qed.

Definition off_seg (sxa sya sxb syb sc : comparison) : bool :=
  match sxa, sxb with
  | Eq, Eq => match sya, syb with Lt, Lt | Gt, Gt => true | _, _ => false end
  | Lt, Lt | Gt, Gt => true
  | _, _ => negb (cz sc)
  end.

Lemma edge_potential hs xa ya xb yb :
  (* the origin is not on the segment *)
  (xa <> 0 \/ xb <> 0 -> Z.min xa xb <= 0 <= Z.max xa xb -> xa * yb - xb * ya <> 0) ->
  (xa = 0 -> xb = 0 -> ya < 0 /\ yb < 0 \/ 0 < ya /\ 0 < yb) ->
  4 * hit hs xa ya xb yb = qt0 xa ya xb yb + pot0 hs xa ya - pot0 hs xb yb.
Proof.
  intros H1 H2. unfold qt0, pot0, hit, up0, quad0.
  assert (O : off_seg (xa ?= 0) (ya ?= 0) (xb ?= 0) (yb ?= 0) (xa * yb - xb * ya ?= 0) = true).
  { revert H1. generalize (xa * yb - xb * ya). intros c H1.
    destruct (Z.compare_spec xa 0), (Z.compare_spec xb 0); cbn [off_seg]; try reflexivity;
      try (destruct (Z.compare_spec c 0); [exfalso; lia|reflexivity|reflexivity]).
    destruct (Z.compare_spec ya 0), (Z.compare_spec yb 0); lia. }
  pose proof (csub_spec (xa * yb) (xb * ya)) as C. rewrite !cmul_ok in C.
  rewrite !cpos_ok, !cneg_ok, !cnn_ok, !cnp_ok, !cz_ok.
  revert O C. generalize (xa ?= 0) (ya ?= 0) (xb ?= 0) (yb ?= 0) (xa * yb - xb * ya ?= 0) (hs ?= 0).
  clear. intros [] [] [] [] [] []; cbn; intros O C; try discriminate; reflexivity.
Qed.

Lemma up_ray_off sa sb p hs dp tie : hs <> 0 -> px sa < px sb -> ~ on_edge (sa, sb) p ->
  up_ray sa sb p hs dp tie =
  (if 0 <? hs then (px sa - px p <=? 0) && (0 <? px sb - px p) else (px sa - px p <? 0) && (0 <=? px sb - px p))
  && (0 <? (px sa - px p) * (py sb - py p) - (px sb - px p) * (py sa - py p)).
Proof.
  intros Hh Hab HN. pose proof (not_on_cross p sa sb HN) as NC. unfold up_ray.
  change (px (psub sb sa)) with (px sb - px sa). change (py (psub sb sa)) with (py sb - py sa).
  generalize (lower_angle (psub sb sa) dp tie). intros la. clear HN.
  destruct (Z.eqb_spec (px sb - px sa) 0); [lia|].
  assert (E : (px sa - px p) * (py sb - py p) - (px sb - px p) * (py sa - py p)
     = (px sb - px sa) * (py p - py sa) - (px p - px sa) * (py sb - py sa)) by ring.
  rewrite E. clear E.
  replace ((py p - py sa) * (px sb - px sa)) with ((px sb - px sa) * (py p - py sa)) by ring.
  revert NC. generalize ((px sb - px sa) * (py p - py sa)) ((px p - px sa) * (py sb - py sa)). intros u t NC.
  destruct (Z.ltb_spec 0 hs), (Z.ltb_spec hs 0); try lia;
  destruct (Z.ltb_spec (px p) (px sa)), (Z.ltb_spec (px sb) (px p)), (Z.eqb_spec (px p) (px sa)),
    (Z.eqb_spec (px p) (px sb)), (Z.ltb_spec t u), (Z.eqb_spec t u); cbn [andb orb]; try lia.
Qed.

Ltac dcmp := repeat match goal with
  | |- context [?u <=? ?v] => destruct (Z.leb_spec u v)
  | |- context [?u <? ?v] => destruct (Z.ltb_spec u v) end; cbn [andb]; try lia.

Lemma edge_hit e p hs dp tie : hs <> 0 -> ~ on_edge e p ->
  (if in_xrange p e then ray_count p hs dp tie e else 0)
  = hit hs (px (fst e) - px p) (py (fst e) - py p) (px (snd e) - px p) (py (snd e) - py p).
Proof.
  intros Hh HN. destruct e as [a b]. unfold in_xrange, ray_count, edge_lo, edge_hi, edge_sign, hit. cbn [fst snd].
  destruct (Z.lt_total (px a) (px b)) as [L|[L|L]].
  - replace (px b <? px a) with false by lia.
    rewrite (up_ray_off a b p hs dp tie Hh L HN).
    generalize ((px a - px p) * (py b - py p) - (px b - px p) * (py a - py p)). intros c.
    destruct (Z.ltb_spec 0 c), (Z.ltb_spec c 0); rewrite ?andb_true_r, ?andb_false_r; try lia; dcmp.
  - (* vertical *)
    replace (px b <? px a) with false by lia.
    assert (V : (if (px a <=? px p) && (px p <=? px b) then if up_ray a b p hs dp tie then 1 else 0 else 0) = 0).
    { destruct (Z.eq_dec (px p) (px a)) as [E|E].
      - replace (up_ray a b p hs dp tie) with false; [destruct (_ && _); reflexivity|].
        unfold up_ray, vert_overlap. change (px (psub b a)) with (px b - px a).
        replace (px b - px a =? 0) with true by lia.
        destruct (not_on_vert p a b HN) as [K|K]; try lia;
          replace (py p =? py a) with false by lia; rewrite andb_false_r; reflexivity.
      - destruct (Z.leb_spec (px a) (px p)), (Z.leb_spec (px p) (px b)); cbn [andb]; try reflexivity; lia. }
    rewrite V. clear V. generalize ((px a - px p) * (py b - py p) - (px b - px p) * (py a - py p)). intros c. rewrite L.
    destruct (Z.ltb_spec 0 hs), (Z.leb_spec (px b - px p) 0), (Z.ltb_spec 0 (px b - px p)), (Z.ltb_spec (px b - px p) 0),
      (Z.leb_spec 0 (px b - px p)); cbn [andb]; try reflexivity; lia.
  - replace (px b <? px a) with true by lia.
    rewrite (up_ray_off b a p hs dp tie Hh L (not_on_swap _ _ _ HN)).
    replace ((px b - px p) * (py a - py p) - (px a - px p) * (py b - py p))
      with (- ((px a - px p) * (py b - py p) - (px b - px p) * (py a - py p))) by ring.
    generalize ((px a - px p) * (py b - py p) - (px b - px p) * (py a - py p)). intros c.
    destruct (Z.ltb_spec 0 c), (Z.ltb_spec c 0), (Z.ltb_spec 0 (- c)); rewrite ?andb_true_r, ?andb_false_r; try lia; dcmp.
Qed.

Lemma sum_filter {A} (f : A -> Z) (t : A -> bool) l :
  sumZ (map f (filter t l)) = sumZ (map (fun e => if t e then f e else 0) l).
Proof.
  induction l as [|x l IH]; [reflexivity|]. cbn [filter map]. destruct (t x) eqn:E; cbn [map];
    unfold sumZ in *; cbn [fold_right]; lia.
Qed.

Lemma sumZ_ext {A} (f g : A -> Z) l : (forall x, In x l -> f x = g x) -> sumZ (map f l) = sumZ (map g l).
Proof.
  induction l as [|x l IH]; intros H; [reflexivity|]. cbn [map]. unfold sumZ in *. cbn [fold_right].
  rewrite (H x (or_introl eq_refl)), IH; [reflexivity|]. intros; apply H; right; assumption.
Qed.

Lemma sumZ_scale {A} (k : Z) (f : A -> Z) l : sumZ (map (fun x => k * f x) l) = k * sumZ (map f l).
Proof. induction l; unfold sumZ in *; cbn [map fold_right]; [lia|]. rewrite IHl. lia. Qed.

Lemma quarter_turns_qt0 o e :
  quarter_turns o e = qt0 (px (fst e) - px o) (py (fst e) - py o) (px (snd e) - px o) (py (snd e) - py o).
Proof.
  unfold quarter_turns, qt0, quadrant, quad0, area2.
  replace (px o * (py (fst e) - py (snd e)) + px (fst e) * (py (snd e) - py o) + px (snd e) * (py o - py (fst e)))
    with ((px (fst e) - px o) * (py (snd e) - py o) - (px (snd e) - px o) * (py (fst e) - py o)) by ring.
  reflexivity.
Qed.

(** The signed ray hits over a closed polygon give its winding number. *)
Lemma ray_sum_turns l p hs dp tie :
  hs <> 0 -> (forall e, In e (closed_edges l) -> ~ on_edge e p) ->
  turns l p = 4 * ray_sum p hs dp tie (closed_edges l).
Proof.
  intros Hh HN. unfold ray_sum, turns. rewrite sum_filter, <- sumZ_scale.
  rewrite (sumZ_ext (fun x => 4 * (if in_xrange p x then ray_count p hs dp tie x else 0))
    (fun e => quarter_turns p e + (pot0 hs (px (fst e) - px p) (py (fst e) - py p)
                                   - pot0 hs (px (snd e) - px p) (py (snd e) - py p)))).
  - rewrite (sumZ_map_sub (fun e => quarter_turns p e + (pot0 hs (px (fst e) - px p) (py (fst e) - py p)
                                   - pot0 hs (px (snd e) - px p) (py (snd e) - py p))) (quarter_turns p) (fun e => pot0 hs (px (fst e) - px p) (py (fst e) - py p)
                                   - pot0 hs (px (snd e) - px p) (py (snd e) - py p))) by reflexivity.
    rewrite (sumZ_telescope (fun q => pot0 hs (px q - px p) (py q - py p))). lia.
  - intros e He. rewrite (edge_hit e p hs dp tie Hh (HN e He)), quarter_turns_qt0.
    rewrite edge_potential; [lia| |].
    + specialize (HN e He). destruct e as [a b]. cbn [fst snd]. intros Hd Hr.
      destruct (Z.lt_total (px a) (px b)) as [L|[L|L]].
      * pose proof (not_on_cross p a b HN ltac:(lia) L) as NC. intros E. apply NC. rewrite <- E. ring.
      * lia.
      * pose proof (not_on_cross p b a (not_on_swap _ _ _ HN) ltac:(lia) L) as NC. intros E. apply NC.
        transitivity (- ((px a - px p) * (py b - py p) - (px b - px p) * (py a - py p))); [ring|lia].
    + specialize (HN e He). destruct e as [a b]. cbn [fst snd]. intros Ea Eb.
      pose proof (not_on_vert p a b HN). lia.
Qed.
