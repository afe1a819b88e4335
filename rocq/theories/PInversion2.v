(** * Proofs about inversions: swapping, fixing, tangency. *)

From Coq Require Import Reals Lra Psatz List Bool.
From Verif Require Import Base BaseLemmas Spec SpecLemmas SpecTriangle ModelInternal ModelLine ModelCircle
  ModelTriangle ModelInversion PLine PCircle PInvBase PAffine PTriangle PTriangle2 PInversion.
Import ListNotations.
Local Open Scope R_scope.

(** ** C36 *)
Lemma swap_maps I k s O1 r1 O2 r2 : 0 < r1 -> 0 < r2 -> s <> 0 -> pow_circle O2 r2 I <> 0 ->
  k = s * pow_circle O2 r2 I -> Rabs s * r2 = r1 -> O1 = vadd I (vscal s (vsub O2 I)) ->
  k <> 0 /\ inv_maps I k O1 r1 O2 r2 /\ inv_maps I k O2 r2 O1 r1.
Proof.
  intros H1 H2 Hs HP Hk Hr HO.
  assert (Hk0 : k <> 0) by (rewrite Hk; apply Rmult_integral_contrapositive_currified; auto).
  assert (S : inv_scale I k O2 r2 = s) by (unfold inv_scale; rewrite Hk; field; auto).
  assert (inv_maps I k O2 r2 O1 r1).
  { rewrite HO, <- Hr, <- S. apply inv_maps_image; auto. }
  split; auto. split; auto. apply inv_maps_sym; auto.
Qed.

Lemma pow_ext O1 r1 O2 r2 : r1 <> r2 -> r2 <> 0 ->
  let a := r1 / r2 in
  pow_circle O2 r2 (vsub O1 (vscal (a / (1 - a)) (vsub O2 O1))) = (dist2 O1 O2 - (r2 - r1) ^ 2) / (1 - a) ^ 2.
Proof.
  intros H H2 a. assert (r2 - r1 <> 0) by lra. unfold pow_circle, a.
  replace (dist2 O2 (vsub O1 (vscal (r1 / r2 / (1 - r1 / r2)) (vsub O2 O1))))
    with (dist2 O1 O2 * ((1 + r1 / r2 / (1 - r1 / r2)) * (1 + r1 / r2 / (1 - r1 / r2))))
    by (remember (r1 / r2 / (1 - r1 / r2)) as q; unspec; ring).
  field. auto.
Qed.

Lemma pow_int O1 r1 O2 r2 : 0 < r1 -> 0 < r2 ->
  let a := r1 / r2 in
  pow_circle O2 r2 (vadd O1 (vscal (a / (1 + a)) (vsub O2 O1))) = (dist2 O1 O2 - (r1 + r2) ^ 2) / (1 + a) ^ 2.
Proof.
  intros H H2 a. unfold pow_circle, a.
  replace (dist2 O2 (vadd O1 (vscal (r1 / r2 / (1 + r1 / r2)) (vsub O2 O1))))
    with (dist2 O1 O2 * ((1 - r1 / r2 / (1 + r1 / r2)) * (1 - r1 / r2 / (1 + r1 / r2))))
    by (remember (r1 / r2 / (1 + r1 / r2)) as q; unspec; ring).
  field. lra.
Qed.

Lemma img_ext O1 O2 a : a <> 1 -> let I := vsub O1 (vscal (a / (1 - a)) (vsub O2 O1)) in
  O1 = vadd I (vscal a (vsub O2 I)).
Proof. intros H I. unfold I. destruct O1, O2; unpt; f_equal; field; lra. Qed.
Lemma img_int O1 O2 a : a <> - 1 -> let I := vadd O1 (vscal (a / (1 + a)) (vsub O2 O1)) in
  O1 = vadd I (vscal (- a) (vsub O2 I)).
Proof. intros H I. unfold I. destruct O1, O2; unpt; f_equal; field; lra. Qed.

Lemma div_sq_pos x y : y <> 0 -> 0 < x -> 0 < x / y ^ 2.
Proof. intros Hy H. apply Rdiv_lt_0_compat; auto. simpl. nra. Qed.
Lemma div_sq_neg x y : y <> 0 -> x < 0 -> x / y ^ 2 < 0.
Proof. intros Hy H. pose proof (div_sq_pos (- x) y Hy ltac:(lra)). unfold Rdiv in *. lra. Qed.

Lemma ext_case O1 r1 O2 r2 k : 0 < r1 -> 0 < r2 -> r1 <> r2 -> dist2 O1 O2 <> (r2 - r1) ^ 2 ->
  let a := r1 / r2 in
  let I := vsub O1 (vscal (a / (1 - a)) (vsub O2 O1)) in
  k = a * pow_circle O2 r2 I ->
  k <> 0 /\ inv_maps I k O1 r1 O2 r2 /\ inv_maps I k O2 r2 O1 r1.
Proof.
  intros H1 H2 H3 H4 a I Hk. assert (Ha : a <> 1).
  { unfold a. intros E. apply H3. rewrite <- (Rmult_1_l r2), <- E. field. lra. }
  assert (Hp : 0 < a) by (unfold a; apply Rdiv_lt_0_compat; auto).
  apply (swap_maps I k a); auto; try lra.
  - unfold I, a. rewrite pow_ext by lra. fold a. unfold Rdiv. apply Rmult_integral_contrapositive_currified; [lra|].
    apply Rinv_neq_0_compat. apply pow_nonzero. lra.
  - rewrite Rabs_right by lra. unfold a. field. lra.
  - apply img_ext; auto.
Qed.

Lemma int_case O1 r1 O2 r2 k : 0 < r1 -> 0 < r2 -> dist2 O1 O2 <> (r1 + r2) ^ 2 ->
  let a := r1 / r2 in
  let I := vadd O1 (vscal (a / (1 + a)) (vsub O2 O1)) in
  k = - a * pow_circle O2 r2 I ->
  k <> 0 /\ inv_maps I k O1 r1 O2 r2 /\ inv_maps I k O2 r2 O1 r1.
Proof.
  intros H1 H2 H4 a I Hk.
  assert (Hp : 0 < a) by (unfold a; apply Rdiv_lt_0_compat; auto).
  apply (swap_maps I k (- a)); auto; try lra.
  - unfold I, a. rewrite pow_int by lra. fold a. unfold Rdiv. apply Rmult_integral_contrapositive_currified; [lra|].
    apply Rinv_neq_0_compat. apply pow_nonzero. lra.
  - rewrite Rabs_Ropp, Rabs_right by lra. unfold a. field. lra.
  - apply img_int; lra.
Qed.

Lemma mid_int O1 r1 O2 r2 : r1 = r2 -> 0 < r2 ->
  vscal (/ 2) (vadd O1 O2) = vadd O1 (vscal (r1 / r2 / (1 + r1 / r2)) (vsub O2 O1)).
Proof.
  intros -> H. replace (r2 / r2 / (1 + r2 / r2)) with (/ 2) by (field; lra). destruct O1, O2; unpt; f_equal; field.
Qed.

Lemma int_sign O1 r1 O2 r2 : 0 < r1 -> 0 < r2 ->
  let a := r1 / r2 in
  let P := pow_circle O2 r2 (vadd O1 (vscal (a / (1 + a)) (vsub O2 O1))) in
  (dist O1 O2 < r1 + r2 -> P < 0 /\ dist2 O1 O2 <> (r1 + r2) ^ 2) /\
  (r1 + r2 < dist O1 O2 -> 0 < P /\ dist2 O1 O2 <> (r1 + r2) ^ 2).
Proof.
  intros H1 H2 a P. pose proof (dist_nonneg O1 O2) as Hd. pose proof (dist_sq O1 O2) as Hs.
  assert (Hp : 0 < a) by (unfold a; apply Rdiv_lt_0_compat; auto).
  unfold P, a. rewrite pow_int by auto. fold a. split; intros H.
  - assert (dist2 O1 O2 - (r1 + r2) ^ 2 < 0) by (rewrite <- Hs; simpl; nra). split; [|lra]. apply div_sq_neg; lra.
  - assert (0 < dist2 O1 O2 - (r1 + r2) ^ 2) by (rewrite <- Hs; simpl; nra). split; [|lra]. apply div_sq_pos; lra.
Qed.

Lemma ext_sign O1 r1 O2 r2 : 0 < r1 -> 0 < r2 -> r1 <> r2 ->
  let a := r1 / r2 in
  let P := pow_circle O2 r2 (vsub O1 (vscal (a / (1 - a)) (vsub O2 O1))) in
  (dist O1 O2 < Rabs (r2 - r1) -> P < 0 /\ dist2 O1 O2 <> (r2 - r1) ^ 2) /\
  (Rabs (r2 - r1) < dist O1 O2 -> 0 < P /\ dist2 O1 O2 <> (r2 - r1) ^ 2).
Proof.
  intros H1 H2 H3 a P. pose proof (dist_nonneg O1 O2) as Hd. pose proof (dist_sq O1 O2) as Hs.
  assert (Ha : a <> 1).
  { unfold a. intros E. apply H3. rewrite <- (Rmult_1_l r2), <- E. field. lra. }
  pose proof (Rabs_pos (r2 - r1)) as Hq. pose proof (Rabs_sq (r2 - r1)) as Hq2.
  unfold P, a. rewrite pow_ext by lra. fold a. split; intros H.
  - assert (dist2 O1 O2 - (r2 - r1) ^ 2 < 0) by (rewrite <- Hs; simpl; nra). split; [|lra]. apply div_sq_neg; lra.
  - assert (0 < dist2 O1 O2 - (r2 - r1) ^ 2) by (rewrite <- Hs; simpl; nra). split; [|lra]. apply div_sq_pos; lra.
Qed.

Lemma Rmax_min_abs r1 r2 : Rmax r1 r2 - Rmin r1 r2 = Rabs (r2 - r1) /\ Rmax r1 r2 + Rmin r1 r2 = r1 + r2.
Proof. unfold Rmax, Rmin, Rabs. destruct (Rle_dec r1 r2), (Rcase_abs (r2 - r1)); lra. Qed.

Lemma pow_code O r M : dot_ (vsub M O) (vsub M O) - r * r = pow_circle O r M.
Proof. rewrite dot_dist2. unfold pow_circle. ring. Qed.

(** full characterisation *)
Definition swap_result (c1 c2 : circle) (positive : bool) (out : list message) (iota : inversion) : Prop :=
  ipower iota <> 0 /\ inv_maps (ipole iota) (ipower iota) (cO c1) (cr c1) (cO c2) (cr c2) /\
  inv_maps (ipole iota) (ipower iota) (cO c2) (cr c2) (cO c1) (cr c1) /\
  ((out = [] /\ (positive = true <-> 0 < ipower iota)) \/
   (out = [SwitchToTrue] /\ positive = false /\ 0 < ipower iota) \/
   (out = [SwitchToFalse] /\ positive = true /\ ipower iota < 0)).

Lemma swapping_cases c1 c2 positive : 0 < cr c1 -> 0 < cr c2 ->
  let d := dist (cO c1) (cO c2) in
  (from_swapping_two_circles c1 c2 positive = ([NoInversion], None) /\ cr c1 = cr c2 /\ d = cr c1 + cr c2) \/
  (~ (cr c1 = cr c2 /\ d = cr c1 + cr c2) /\
   exists out iota, from_swapping_two_circles c1 c2 positive = (out, Some iota) /\ swap_result c1 c2 positive out iota /\
     (out = [SwitchToTrue] <-> positive = false /\ (cr c1 = cr c2 -> d < cr c1 + cr c2) /\ (cr c1 <> cr c2 -> Rabs (cr c2 - cr c1) <= d <= cr c1 + cr c2)) /\
     (out = [SwitchToFalse] <-> positive = true /\ cr c1 = cr c2 /\ cr c1 + cr c2 < d)).
Proof.
  intros H1 H2 d. unfold from_swapping_two_circles. rewrite (distance_dist (cO c1) (cO c2)). fold d.
  destruct (eqb (cr c1) (cr c2)) eqn:E.
  - apply eqb_true in E. destruct (ltb d (cr c1 + cr c2)) eqn:E1.
    + apply ltb_true in E1. right. split; [lra|]. eexists. eexists. split; [reflexivity|].
      rewrite pow_code. rewrite (mid_int _ _ _ _ E H2).
      destruct (int_sign (cO c1) (cr c1) (cO c2) (cr c2) H1 H2) as [S _]. destruct (S E1) as [SP SN]. clear S.
      destruct (int_case (cO c1) (cr c1) (cO c2) (cr c2) (Rabs (pow_circle (cO c2) (cr c2) (vadd (cO c1) (vscal (cr c1 / cr c2 / (1 + cr c1 / cr c2)) (vsub (cO c2) (cO c1)))))) H1 H2 SN) as (K1 & K2 & K3).
      { rewrite Rabs_left by auto. replace (cr c1 / cr c2) with 1 by (rewrite E; field; lra). ring. }
      pose proof (Rabs_pos_lt _ (Rlt_not_eq _ _ SP)) as KP.
      split; [|split; [split; intros; destruct positive; try discriminate; intuition (try discriminate; try lra)|split; destruct positive; intros; try discriminate; intuition (try discriminate; try lra)]].
      split; [exact K1|]. split; [exact K2|]. split; [exact K3|]. cbn [ipower]. destruct positive; intuition.
    + apply ltb_false in E1. destruct (ltb (cr c1 + cr c2) d) eqn:E2.
      * apply ltb_true in E2. right. split; [lra|]. eexists. eexists. split; [reflexivity|].
        rewrite pow_code. rewrite (mid_int _ _ _ _ E H2).
        destruct (int_sign (cO c1) (cr c1) (cO c2) (cr c2) H1 H2) as [_ S]. destruct (S E2) as [SP SN]. clear S.
        destruct (int_case (cO c1) (cr c1) (cO c2) (cr c2) (- Rabs (pow_circle (cO c2) (cr c2) (vadd (cO c1) (vscal (cr c1 / cr c2 / (1 + cr c1 / cr c2)) (vsub (cO c2) (cO c1)))))) H1 H2 SN) as (K1 & K2 & K3).
        { rewrite Rabs_right by lra. replace (cr c1 / cr c2) with 1 by (rewrite E; field; lra). ring. }
        assert (KP : - Rabs (pow_circle (cO c2) (cr c2) (vadd (cO c1) (vscal (cr c1 / cr c2 / (1 + cr c1 / cr c2)) (vsub (cO c2) (cO c1))))) < 0) by (rewrite Rabs_right; lra).
        split; [|split; [split; intros; destruct positive; try discriminate; intuition (try discriminate; try lra)|split; intros; destruct positive; try discriminate; intuition (try discriminate; try lra)]].
        split; [exact K1|]. split; [exact K2|]. split; [exact K3|]. cbn [ipower]. destruct positive; [right; right; auto|].
        left. split; auto. split; [discriminate|lra].
      * apply ltb_false in E2. left. split; auto. split; auto. lra.
  - apply eqb_false in E. right. split; [tauto|].
    destruct (Rmax_min_abs (cr c1) (cr c2)) as [M1 M2].
    set (inside := leb (d + Rmin (cr c1) (cr c2)) (Rmax (cr c1) (cr c2))).
    assert (Hin : if inside then d <= Rabs (cr c2 - cr c1) else Rabs (cr c2 - cr c1) < d).
    { unfold inside. destruct (leb _ _) eqn:L; [apply leb_true in L|apply leb_false in L]; lra. }
    set (it := inside && eqb (Rmax (cr c1) (cr c2)) (d + Rmin (cr c1) (cr c2))).
    assert (Hit : it = true <-> inside = true /\ d = Rabs (cr c2 - cr c1)).
    { unfold it. rewrite andb_true_iff, eqb_true. split; intros [? ?]; split; auto; lra. }
    assert (Hab : Rabs (cr c2 - cr c1) < cr c1 + cr c2) by (unfold Rabs; destruct (Rcase_abs (cr c2 - cr c1)); lra).
    set (sw := negb positive && (negb inside || it) && leb d (cr c1 + cr c2)).
    assert (Hsw : sw = true <-> positive = false /\ Rabs (cr c2 - cr c1) <= d <= cr c1 + cr c2).
    { unfold sw. rewrite !andb_true_iff, orb_true_iff, !negb_true_iff, leb_true, Hit. destruct inside; split; intros.
      - destruct H as [[? [?|[? ?]]] ?]; [discriminate|]. split; auto; lra.
      - split; [split; [tauto|right; split; auto; lra]|tauto].
      - split; [tauto|lra].
      - split; [split; [tauto|auto]|tauto]. }
    rewrite !pow_code.
    set (a := cr c1 / cr c2).
    set (ext := vsub (cO c1) (vscal (a / (1 - a)) (vsub (cO c2) (cO c1)))).
    set (int := vadd (cO c1) (vscal (a / (1 + a)) (vsub (cO c2) (cO c1)))).
    assert (Hp : 0 < a) by (unfold a; apply Rdiv_lt_0_compat; auto).
    destruct (int_sign (cO c1) (cr c1) (cO c2) (cr c2) H1 H2) as [I1 I2].
    destruct (ext_sign (cO c1) (cr c1) (cO c2) (cr c2) H1 H2 E) as [E1 E2].
    fold d a in I1, I2, E1, E2. fold int in I1, I2. fold ext in E1, E2.
    pose proof (ext_case (cO c1) (cr c1) (cO c2) (cr c2)) as XE. pose proof (int_case (cO c1) (cr c1) (cO c2) (cr c2)) as XI.
    cbv zeta in XE, XI. fold a in XE, XI. fold ext in XE. fold int in XI.
    assert (Hmsg : forall l, l = (if sw then [SwitchToTrue] else []) ->
      (l = [SwitchToTrue] <-> positive = false /\ (cr c1 = cr c2 -> d < cr c1 + cr c2) /\ (cr c1 <> cr c2 -> Rabs (cr c2 - cr c1) <= d <= cr c1 + cr c2)) /\
      (l = [SwitchToFalse] <-> positive = true /\ cr c1 = cr c2 /\ cr c1 + cr c2 < d)).
    { intros l ->. split.
      - destruct sw; split; intros; try discriminate; auto.
        + split; [tauto|]. split; [tauto|]. tauto.
        + exfalso. enough (false = true) by discriminate. apply Hsw. tauto.
      - destruct sw; split; intros; try discriminate; tauto. }
    destruct (positive || sw) eqn:Pos.
    + assert (Hsg : forall k, 0 < k -> ((if sw then [SwitchToTrue] else []) = [] /\ (positive = true <-> 0 < k)) \/ ((if sw then [SwitchToTrue] else []) = [SwitchToTrue] /\ positive = false /\ 0 < k) \/ ((if sw then [SwitchToTrue] else []) = [SwitchToFalse] /\ positive = true /\ k < 0)).
      { intros k Hk. destruct sw eqn:Q. - right; left. tauto. - left. rewrite orb_false_r in Pos. tauto. }
      destruct inside eqn:Ins.
      * eexists. eexists. split; [reflexivity|]. split; [|apply Hmsg; auto].
        destruct (I1 ltac:(lra)) as [SP SN]. destruct (XI (a * Rabs (pow_circle (cO c2) (cr c2) int)) H1 H2 SN) as (K1 & K2 & K3).
        { rewrite Rabs_left by auto. ring. }
        split; [exact K1|]. split; [exact K2|]. split; [exact K3|]. cbn [ipower]. apply Hsg. apply Rmult_lt_0_compat; auto. apply Rabs_pos_lt. lra.
      * eexists. eexists. split; [reflexivity|]. split; [|apply Hmsg; auto].
        destruct (E2 ltac:(lra)) as [SP SN]. destruct (XE (a * Rabs (pow_circle (cO c2) (cr c2) ext)) H1 H2 E SN) as (K1 & K2 & K3).
        { rewrite Rabs_right by lra. ring. }
        split; [exact K1|]. split; [exact K2|]. split; [exact K3|]. cbn [ipower]. apply Hsg. apply Rmult_lt_0_compat; auto. apply Rabs_pos_lt. lra.
    + apply orb_false_iff in Pos. destruct Pos as [Pos Nsw]. rewrite Nsw in Hmsg |- *. rewrite Nsw, Pos in Hsw.
      assert (Hd : ~ (Rabs (cr c2 - cr c1) <= d <= cr c1 + cr c2)) by (intros K; enough (false = true) by discriminate; apply Hsw; auto).
      destruct inside eqn:Ins.
      * eexists. eexists. split; [reflexivity|]. split; [|apply Hmsg; auto].
        destruct (E1 ltac:(lra)) as [SP SN]. destruct (XE (- a * Rabs (pow_circle (cO c2) (cr c2) ext)) H1 H2 E SN) as (K1 & K2 & K3).
        { rewrite Rabs_left by lra. ring. }
        split; [exact K1|]. split; [exact K2|]. split; [exact K3|]. cbn [ipower].
        assert (- a * Rabs (pow_circle (cO c2) (cr c2) ext) < 0).
        { assert (0 < a * Rabs (pow_circle (cO c2) (cr c2) ext)) by (apply Rmult_lt_0_compat; auto; apply Rabs_pos_lt; lra). lra. }
        left. split; auto. rewrite Pos. split; [discriminate|lra].
      * eexists. eexists. split; [reflexivity|]. split; [|apply Hmsg; auto].
        destruct (I2 ltac:(lra)) as [SP SN]. destruct (XI (- a * Rabs (pow_circle (cO c2) (cr c2) int)) H1 H2 SN) as (K1 & K2 & K3).
        { rewrite Rabs_right by lra. ring. }
        split; [exact K1|]. split; [exact K2|]. split; [exact K3|]. cbn [ipower].
        assert (- a * Rabs (pow_circle (cO c2) (cr c2) int) < 0).
        { assert (0 < a * Rabs (pow_circle (cO c2) (cr c2) int)) by (apply Rmult_lt_0_compat; auto; apply Rabs_pos_lt; lra). lra. }
        left. split; auto. rewrite Pos. split; [discriminate|lra].
Qed.

(** the circles are swapped by [invert_circle] itself *)
Lemma maps_invert_circle iota c c' : ipower iota <> 0 -> 0 < cr c -> 0 < cr c' ->
  inv_maps (ipole iota) (ipower iota) (cO c) (cr c) (cO c') (cr c') ->
  (sepsilon_ < Rabs (pow_circle (cO c) (cr c) (ipole iota)) -> invert_circle iota c = Ok (GC c')) /\
  (forall c'', invert_circle iota c = Ok (GC c'') -> c'' = c').
Proof.
  intros Hk H1 H2 M. destruct (inv_maps_unique _ _ _ _ _ _ Hk H1 H2 M) as (_ & E1 & E2). split.
  - intros HD. rewrite invert_circle_far by auto. do 2 f_equal. apply circle_ext; cbn [cO cr]; auto.
  - intros c'' H. apply invert_circle_GC in H; auto. destruct H as (_ & _ & _ & F1 & F2). apply circle_ext; congruence.
Qed.

(** which signs are possible *)
Lemma swap_sign I k O1 r1 O2 r2 : k <> 0 -> 0 < r1 -> 0 < r2 -> inv_maps I k O1 r1 O2 r2 -> ~ (O1 = O2 /\ r1 = r2) ->
  (k < 0 -> (r1 <> r2 /\ dist O1 O2 < Rabs (r2 - r1)) \/ r1 + r2 < dist O1 O2) /\
  (0 < k -> (r1 <> r2 /\ Rabs (r2 - r1) < dist O1 O2) \/ dist O1 O2 < r1 + r2).
Proof.
  intros Hk H1 H2 M N. apply inv_maps_sym in M; auto.
  destruct (inv_maps_unique _ _ _ _ _ _ Hk H2 H1 M) as (HD & EO & Er).
  set (s := inv_scale I k O2 r2) in *.
  assert (Ks : k = s * pow_circle O2 r2 I) by (unfold s, inv_scale; field; auto).
  assert (Hs : s <> 0) by (intros E; rewrite E, Rmult_0_l in Ks; auto).
  pose proof (dist_nonneg O1 O2) as Hd. pose proof (dist_sq O1 O2) as Hsq.
  assert (E12 : dist2 O1 O2 = (1 - s) * (1 - s) * dist2 O2 I).
  { rewrite EO. unspec. ring. }
  assert (EP : (1 - s) * (1 - s) * pow_circle O2 r2 I = dist2 O1 O2 - ((1 - s) * r2) ^ 2).
  { rewrite E12. unfold pow_circle. ring. }
  pose proof (Rabs_pos (r2 - r1)) as Hq. pose proof (Rabs_sq (r2 - r1)) as Hq2.
  destruct (Rlt_dec 0 s) as [Ps|Ps].
  - rewrite Rabs_right in Er by lra.
    assert (s <> 1).
    { intros E. apply N. rewrite E in Er, EO. split; [|lra]. rewrite EO. destruct I, O2; unpt; f_equal; ring. }
    assert (r1 <> r2). { intros E. apply H. assert ((s - 1) * r2 = 0) by lra. apply Rmult_integral in H0. lra. }
    replace ((1 - s) * r2) with (r2 - r1) in EP by (rewrite Er; ring).
    assert (0 < (1 - s) * (1 - s)) by (apply Rsqr_pos_lt; lra).
    split; intros K; left; split; auto.
    + assert (pow_circle O2 r2 I < 0) by nra. assert ((1 - s) * (1 - s) * pow_circle O2 r2 I < 0) by nra.
      rewrite <- Hsq in EP. nra.
    + assert (0 < pow_circle O2 r2 I) by nra. assert (0 < (1 - s) * (1 - s) * pow_circle O2 r2 I) by nra.
      rewrite <- Hsq in EP. nra.
  - rewrite Rabs_left in Er by lra.
    replace ((1 - s) * r2) with (r1 + r2) in EP by (rewrite Er; ring).
    assert (0 < (1 - s) * (1 - s)) by (apply Rsqr_pos_lt; lra).
    split; intros K; right.
    + assert (0 < pow_circle O2 r2 I) by nra. assert (0 < (1 - s) * (1 - s) * pow_circle O2 r2 I) by nra.
      rewrite <- Hsq in EP. nra.
    + assert (pow_circle O2 r2 I < 0) by nra. assert ((1 - s) * (1 - s) * pow_circle O2 r2 I < 0) by nra.
      rewrite <- Hsq in EP. nra.
Qed.

Lemma swapping_switch_justified c1 c2 positive out o : 0 < cr c1 -> 0 < cr c2 -> c1 <> c2 ->
  from_swapping_two_circles c1 c2 positive = (out, o) ->
  (In SwitchToTrue out -> positive = false /\ forall I k, k < 0 -> ~ inv_maps I k (cO c1) (cr c1) (cO c2) (cr c2)) /\
  (In SwitchToFalse out -> positive = true /\ forall I k, 0 < k -> ~ inv_maps I k (cO c1) (cr c1) (cO c2) (cr c2)) /\
  (In NoInversion out -> o = None /\ forall I k, k <> 0 -> ~ inv_maps I k (cO c1) (cr c1) (cO c2) (cr c2)).
Proof.
  intros H1 H2 N H. assert (N' : ~ (cO c1 = cO c2 /\ cr c1 = cr c2)) by (intros [? ?]; apply N, circle_ext; auto).
  destruct (swapping_cases c1 c2 positive H1 H2) as [(E & Er & Ed)|(_ & out' & iota & E & (_ & _ & _ & S) & ST & SF)].
  - rewrite E in H. injection H as <- <-. split; [intros [K|[]]; discriminate|]. split; [intros [K|[]]; discriminate|].
    intros _. split; auto. intros I k Hk M. destruct (swap_sign _ _ _ _ _ _ Hk H1 H2 M N') as [S1 S2].
    destruct (Rlt_dec 0 k) as [P|P]; [destruct (S2 P)|destruct (S1 ltac:(lra))]; lra.
  - rewrite E in H. injection H as <- <-.
    split; [|split].
    + intros K. assert (out' = [SwitchToTrue]) by (destruct S as [[-> _]|[[-> _]|[-> _]]]; auto; simpl in K; intuition discriminate).
      apply ST in H. destruct H as (Hp & Q1 & Q2). split; auto. intros I k Hk M.
      destruct (swap_sign I k (cO c1) (cr c1) (cO c2) (cr c2) ltac:(lra) H1 H2 M N') as [S1 _].
      destruct (S1 Hk) as [[A1 A2]|A]; [specialize (Q2 A1); lra|]. destruct (Req_dec (cr c1) (cr c2)) as [A1|A1]; [specialize (Q1 A1)|specialize (Q2 A1)]; lra.
    + intros K. assert (out' = [SwitchToFalse]) by (destruct S as [[-> _]|[[-> _]|[-> _]]]; auto; simpl in K; intuition discriminate).
      apply SF in H. destruct H as (Hp & Q1 & Q2). split; auto. intros I k Hk M.
      destruct (swap_sign I k (cO c1) (cr c1) (cO c2) (cr c2) ltac:(lra) H1 H2 M N') as [_ S2].
      destruct (S2 Hk) as [[A1 A2]|A]; [tauto|lra].
    + intros K. exfalso. destruct S as [[-> _]|[[-> _]|[-> _]]]; simpl in K; intuition discriminate.
Qed.

Lemma swapping_same_refuted c : 0 < cr c -> exists o,
  from_swapping_two_circles c c false = ([SwitchToTrue], o) /\
  - (cr c ^ 2) < 0 /\ inv_maps (cO c) (- (cr c ^ 2)) (cO c) (cr c) (cO c) (cr c).
Proof.
  intros H. destruct (swapping_cases c c false H H) as [(_ & _ & E)|(_ & out & iota & E & _ & ST & _)].
  - rewrite (proj2 (dist_0 _ _) eq_refl) in E. lra.
  - exists (Some iota). rewrite E. rewrite (proj2 ST).
    + split; auto. split; [simpl; nra|].
      apply (swap_maps (cO c) (- cr c ^ 2) 1); auto; try lra; unfold pow_circle; rewrite ?(proj2 (dist2_0 _ _) eq_refl); try (simpl; nra).
      * rewrite Rabs_R1. ring.
      * destruct (cO c); unpt; f_equal; ring.
    + split; auto. rewrite (proj2 (dist_0 _ _) eq_refl). split; [lra|tauto].
Qed.

(** ** C37 *)
Lemma fixed_circle I O r : 0 < r -> pow_circle O r I <> 0 -> inv_maps I (pow_circle O r I) O r O r.
Proof.
  intros H HD. apply (swap_maps I (pow_circle O r I) 1 O r O r); auto; try lra.
  - rewrite Rabs_R1. ring.
  - destruct I, O; unpt; f_equal; ring.
Qed.

Lemma power_pow c M : power c M = pow_circle (cO c) (cr c) M.
Proof. unfold power. rewrite ?dot_dist2. unfold pow_circle. ring. Qed.

Lemma fixes_of_power iota c : 0 < cr c -> ipower iota = pow_circle (cO c) (cr c) (ipole iota) ->
  (ipower iota <> 0 -> inv_maps (ipole iota) (ipower iota) (cO c) (cr c) (cO c) (cr c)) /\
  (sepsilon_ < Rabs (ipower iota) -> invert_circle iota c = Ok (GC c)) /\
  (Rabs (ipower iota) <= sepsilon_ -> forall c', invert_circle iota c <> Ok (GC c')) /\
  (0 < ipower iota -> circ_orthogonal (ipole iota) (sqrt (ipower iota)) (cO c) (cr c)).
Proof.
  intros Hr E. split; [|split; [|split]].
  - intros Hk. rewrite E. apply fixed_circle; auto. rewrite <- E; auto.
  - intros Hk. apply maps_invert_circle; auto.
    + intros Z. rewrite Z, Rabs_R0 in Hk. pose proof sepsilon_pos; lra.
    + rewrite E. apply fixed_circle; auto. rewrite E in Hk. apply pow_band_neq; auto.
    + rewrite <- E; auto.
  - intros Hk c' H. apply invert_circle_GC in H; auto. destruct H as (_ & H & _). rewrite <- E in H. lra.
  - intros Hk. unfold circ_orthogonal. replace (sqrt (ipower iota) ^ 2) with (ipower iota) by (simpl; rewrite Rmult_1_r, sqrt_sqrt; lra).
    rewrite E. unfold pow_circle. rewrite (dist2_sym (ipole iota)). ring.
Qed.

Lemma fixing_two_spec c1 c2 : cO c1 <> cO c2 -> exists iota, from_fixing_two_circles c1 c2 = Ok iota /\
  on_line (cO c1) (cO c2) (ipole iota) /\
  ipower iota = pow_circle (cO c1) (cr c1) (ipole iota) /\ ipower iota = pow_circle (cO c2) (cr c2) (ipole iota).
Proof.
  intros H. destruct (radical_center2_spec c1 c2 H) as (P & E & HL & HP).
  exists (mkInv P (power c1 P)). unfold from_fixing_two_circles. rewrite E. cbn [bind ipole ipower]. rewrite power_pow. auto.
Qed.

Lemma fixing_two_concentric c1 c2 : cO c1 = cO c2 -> from_fixing_two_circles c1 c2 = Raise NonFinite.
Proof. intros H. unfold from_fixing_two_circles. rewrite radical_center2_concentric by auto. reflexivity. Qed.

Lemma fixing_two_Ok c1 c2 iota : from_fixing_two_circles c1 c2 = Ok iota -> cO c1 <> cO c2 /\
  ipower iota = pow_circle (cO c1) (cr c1) (ipole iota) /\ ipower iota = pow_circle (cO c2) (cr c2) (ipole iota).
Proof.
  intros H. destruct (pt_eq_dec (cO c1) (cO c2)) as [E|N].
  - rewrite fixing_two_concentric in H by auto. discriminate.
  - destruct (fixing_two_spec _ _ N) as (i & E & _ & P1 & P2). rewrite E in H. apply Ok_inj in H. subst. auto.
Qed.

Lemma fixing_three_spec c1 c2 c3 iota : from_fixing_three_circles c1 c2 c3 = Ok iota ->
  ipower iota = pow_circle (cO c1) (cr c1) (ipole iota) /\ ipower iota = pow_circle (cO c2) (cr c2) (ipole iota) /\
  ipower iota = pow_circle (cO c3) (cr c3) (ipole iota).
Proof.
  unfold from_fixing_three_circles. intros H. apply bind_Ok in H. destruct H as ([P|] & E & H); [|discriminate].
  apply Ok_inj in H. subst iota. cbn [ipole ipower]. rewrite power_pow.
  destruct (radical_center3_spec _ _ _ _ E) as (E1 & E2 & _). auto.
Qed.

Lemma fixing_three_total c1 c2 c3 l1 l2 :
  radical_axis c1 c2 = Ok (Some l1) -> radical_axis c1 c3 = Ok (Some l2) ->
  ~ collinear (cO c1) (cO c2) (cO c3) -> exists iota, from_fixing_three_circles c1 c2 c3 = Ok iota.
Proof.
  intros H1 H2 N. destruct (radical_center3_total _ _ _ _ _ H1 H2 N) as (P & E).
  unfold from_fixing_three_circles. rewrite E. cbn [bind]. eauto.
Qed.

(** ** C38 *)
Definition inv_dist (O1 : pt) (r1 : R) (O2 : pt) (r2 : R) : R := Rabs (dist2 O1 O2 - r1 ^ 2 - r2 ^ 2) / (r1 * r2).

Lemma scale_product I k O1 r1 O2 r2 : pow_circle O1 r1 I <> 0 -> pow_circle O2 r2 I <> 0 ->
  let s1 := inv_scale I k O1 r1 in let s2 := inv_scale I k O2 r2 in
  dist2 (vadd I (vscal s1 (vsub O1 I))) (vadd I (vscal s2 (vsub O2 I))) - (Rabs s1 * r1) ^ 2 - (Rabs s2 * r2) ^ 2 =
  s1 * s2 * (dist2 O1 O2 - r1 ^ 2 - r2 ^ 2).
Proof.
  intros H1 H2 s1 s2.
  replace ((Rabs s1 * r1) ^ 2) with (s1 * s1 * r1 ^ 2) by (rewrite <- (Rabs_sq s1); ring).
  replace ((Rabs s2 * r2) ^ 2) with (s2 * s2 * r2 ^ 2) by (rewrite <- (Rabs_sq s2); ring).
  assert (K1 : s1 * pow_circle O1 r1 I = k) by (unfold s1, inv_scale; field; auto).
  assert (K2 : s2 * pow_circle O2 r2 I = k) by (unfold s2, inv_scale; field; auto).
  assert (K : dist2 (vadd I (vscal s1 (vsub O1 I))) (vadd I (vscal s2 (vsub O2 I))) - s1 * s1 * r1 ^ 2 - s2 * s2 * r2 ^ 2 -
    s1 * s2 * (dist2 O1 O2 - r1 ^ 2 - r2 ^ 2) = (s1 - s2) * (s1 * pow_circle O1 r1 I - s2 * pow_circle O2 r2 I)).
  { clear. unfold pow_circle. unspec. ring. }
  rewrite K1, K2 in K. lra.
Qed.

Lemma invert_circle_dist iota c1 c2 c1' c2' : 0 < cr c1 -> 0 < cr c2 ->
  invert_circle iota c1 = Ok (GC c1') -> invert_circle iota c2 = Ok (GC c2') ->
  0 < cr c1' /\ 0 < cr c2' /\
  inv_dist (cO c1') (cr c1') (cO c2') (cr c2') = inv_dist (cO c1) (cr c1) (cO c2) (cr c2).
Proof.
  intros H1 H2 E1 E2. apply invert_circle_GC in E1; auto. apply invert_circle_GC in E2; auto.
  destruct E1 as (Hk & D1 & P1 & O1 & R1). destruct E2 as (_ & D2 & P2 & O2 & R2).
  apply pow_band_neq in D1. apply pow_band_neq in D2. split; auto. split; auto.
  unfold inv_dist. rewrite O1, O2, R1, R2, scale_product by auto.
  set (s1 := inv_scale (ipole iota) (ipower iota) (cO c1) (cr c1)) in *.
  set (s2 := inv_scale (ipole iota) (ipower iota) (cO c2) (cr c2)) in *.
  rewrite !Rabs_mult. assert (Rabs s1 <> 0) by (intros Z; rewrite Z in R1; lra). assert (Rabs s2 <> 0) by (intros Z; rewrite Z in R2; lra).
  field. repeat split; auto; lra.
Qed.

Lemma word_GL w l c : invert_circle_word w (GL l) = Ok (GC c) -> False.
Proof. destruct w; cbn [invert_circle_word]; discriminate. Qed.

Lemma word_dist w : forall c1 c2 c1' c2', 0 < cr c1 -> 0 < cr c2 ->
  invert_circle_word w (GC c1) = Ok (GC c1') -> invert_circle_word w (GC c2) = Ok (GC c2') ->
  0 < cr c1' /\ 0 < cr c2' /\
  inv_dist (cO c1') (cr c1') (cO c2') (cr c2') = inv_dist (cO c1) (cr c1) (cO c2) (cr c2).
Proof.
  induction w as [|i w IH]; cbn [invert_circle_word]; intros c1 c2 c1' c2' H1 H2 E1 E2.
  - apply Ok_inj in E1. apply Ok_inj in E2. injection E1 as <-. injection E2 as <-. auto.
  - apply bind_Ok in E1. destruct E1 as ([d1|l] & F1 & E1); [|apply word_GL in E1; tauto].
    apply bind_Ok in E2. destruct E2 as ([d2|l] & F2 & E2); [|apply word_GL in E2; tauto].
    destruct (invert_circle_dist _ _ _ _ _ H1 H2 F1 F2) as (P1 & P2 & E).
    destruct (IH _ _ _ _ P1 P2 E1 E2) as (Q1 & Q2 & E'). split; auto. split; auto. congruence.
Qed.

Lemma tangent_inv_dist O1 r1 O2 r2 : 0 < r1 -> 0 < r2 ->
  (ext_tangent O1 r1 O2 r2 \/ int_tangent O1 r1 O2 r2 <-> inv_dist O1 r1 O2 r2 = 2).
Proof.
  intros H1 H2. assert (Hp : 0 < r1 * r2) by nra. pose proof (dist_nonneg O1 O2) as Hd. pose proof (dist_sq O1 O2) as Hs.
  assert (E : inv_dist O1 r1 O2 r2 = 2 <-> Rabs (dist2 O1 O2 - r1 ^ 2 - r2 ^ 2) = 2 * r1 * r2).
  { unfold inv_dist. split; intros K.
    - transitivity (Rabs (dist2 O1 O2 - r1 ^ 2 - r2 ^ 2) / (r1 * r2) * (r1 * r2)); [field; lra|]. rewrite K. ring.
    - rewrite K. field. lra. }
  rewrite E, <- Hs. unfold ext_tangent, int_tangent. clear E.
  pose proof (Rabs_pos (r1 - r2)) as Hq. pose proof (Rabs_sq (r1 - r2)) as Hq2. split.
  - intros [K|K]; rewrite K.
    + rewrite Rabs_right; nra.
    + rewrite Hq2. rewrite Rabs_left; nra.
  - set (d := dist O1 O2) in *. unfold Rabs at 1. destruct (Rcase_abs _); intros K.
    + right. apply Rsqr_inj; auto. unfold Rsqr. rewrite Hq2. lra.
    + left. apply Rsqr_inj; try lra. unfold Rsqr. lra.
Qed.

Lemma word_tangent w c1 c2 c1' c2' : 0 < cr c1 -> 0 < cr c2 ->
  invert_circle_word w (GC c1) = Ok (GC c1') -> invert_circle_word w (GC c2) = Ok (GC c2') ->
  (ext_tangent (cO c1) (cr c1) (cO c2) (cr c2) \/ int_tangent (cO c1) (cr c1) (cO c2) (cr c2) <->
   ext_tangent (cO c1') (cr c1') (cO c2') (cr c2') \/ int_tangent (cO c1') (cr c1') (cO c2') (cr c2')).
Proof.
  intros H1 H2 E1 E2. destruct (word_dist w c1 c2 c1' c2' H1 H2 E1 E2) as (P1 & P2 & E).
  rewrite !tangent_inv_dist by auto. rewrite E. tauto.
Qed.

Lemma orth_inv_dist O1 r1 O2 r2 : 0 < r1 -> 0 < r2 -> (circ_orthogonal O1 r1 O2 r2 <-> inv_dist O1 r1 O2 r2 = 0).
Proof.
  intros H1 H2. assert (0 < r1 * r2) by nra. unfold circ_orthogonal, inv_dist. split; intros K.
  - rewrite K. replace (r1 ^ 2 + r2 ^ 2 - r1 ^ 2 - r2 ^ 2) with 0 by ring. rewrite Rabs_R0. field. lra.
  - assert (Z : Rabs (dist2 O1 O2 - r1 ^ 2 - r2 ^ 2) = 0).
    { transitivity (Rabs (dist2 O1 O2 - r1 ^ 2 - r2 ^ 2) / (r1 * r2) * (r1 * r2)); [field; lra|]. rewrite K. ring. }
    destruct (Req_dec (dist2 O1 O2 - r1 ^ 2 - r2 ^ 2) 0) as [E|E]; [lra|]. apply Rabs_no_R0 in E. lra.
Qed.

Lemma word_orthogonal w c1 c2 c1' c2' : 0 < cr c1 -> 0 < cr c2 ->
  invert_circle_word w (GC c1) = Ok (GC c1') -> invert_circle_word w (GC c2) = Ok (GC c2') ->
  (circ_orthogonal (cO c1) (cr c1) (cO c2) (cr c2) <-> circ_orthogonal (cO c1') (cr c1') (cO c2') (cr c2')).
Proof.
  intros H1 H2 E1 E2. destruct (word_dist w c1 c2 c1' c2' H1 H2 E1 E2) as (P1 & P2 & E).
  rewrite !orth_inv_dist by auto. rewrite E. tauto.
Qed.

(** exactly one common point *)
Lemma inv_maps_common I k O1 r1 O2 r2 O1' r1' O2' r2' : k <> 0 -> inv_maps I k O1 r1 O1' r1' -> inv_maps I k O2 r2 O2' r2' ->
  (exists M, unique (fun M => on_circle O1 r1 M /\ on_circle O2 r2 M) M) ->
  exists M, unique (fun M => on_circle O1' r1' M /\ on_circle O2' r2' M) M.
Proof.
  intros Hk (N1 & N1' & M1) (N2 & N2' & M2) (M & [HM1 HM2] & U).
  assert (HM : M <> I) by (intros ->; contradiction).
  exists (inv_pt I k M). split; [split; [apply M1|apply M2]; auto|].
  intros P [P1 P2]. assert (HP : P <> I) by (intros ->; contradiction).
  assert (HQ : inv_pt I k P <> I) by (apply inv_pt_neq; auto).
  rewrite (U (inv_pt I k P)).
  - apply inv_pt_invol; auto.
  - split; [apply M1|apply M2]; auto; rewrite inv_pt_invol; auto.
Qed.

Lemma word_touch w : forall c1 c2 c1' c2', 0 < cr c1 -> 0 < cr c2 ->
  invert_circle_word w (GC c1) = Ok (GC c1') -> invert_circle_word w (GC c2) = Ok (GC c2') ->
  (exists M, unique (fun M => on_circle (cO c1) (cr c1) M /\ on_circle (cO c2) (cr c2) M) M) ->
  (exists M, unique (fun M => on_circle (cO c1') (cr c1') M /\ on_circle (cO c2') (cr c2') M) M).
Proof.
  induction w as [|i w IH]; cbn [invert_circle_word]; intros c1 c2 c1' c2' H1 H2 E1 E2 T.
  - apply Ok_inj in E1. apply Ok_inj in E2. injection E1 as <-. injection E2 as <-. auto.
  - apply bind_Ok in E1. destruct E1 as ([d1|l] & F1 & E1); [|apply word_GL in E1; tauto].
    apply bind_Ok in E2. destruct E2 as ([d2|l] & F2 & E2); [|apply word_GL in E2; tauto].
    destruct (invert_circle_spec _ _ _ H1 F1) as [P1 M1]. destruct (invert_circle_spec _ _ _ H2 F2) as [P2 M2].
    apply (IH d1 d2); auto. refine (inv_maps_common _ _ _ _ _ _ _ _ _ _ _ M1 M2 T).
    apply invert_circle_GC in F1; auto. tauto.
Qed.

(** ** C39 *)
Lemma invert_gcircle_raise iota g : invert_gcircle iota g = Raise TypeError.
Proof. reflexivity. Qed.
