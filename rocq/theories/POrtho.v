(** * Proofs about orthogonal_through_two_points_in_circle. *)

From Coq Require Import Reals Lra Psatz List Bool.
From Verif Require Import Base BaseLemmas Spec SpecLemmas SpecTriangle ModelInternal ModelLine ModelCircle
  ModelTriangle ModelInversion PLine PCircle PCircle2 PInvBase PAffine PInversion.
Import ListNotations.
Local Open Scope R_scope.

(** the centre equidistant from P and its inverse *)
Lemma equidistant_power I r P O : P <> I -> inv_pt I (r * r) P <> P ->
  orthogonal (vsub O (midpoint P (inv_pt I (r * r) P))) (vsub (inv_pt I (r * r) P) P) ->
  dist2 I O - dist2 O P = r * r.
Proof.
  intros HP Hne Ho. pose proof (dist2_pos I P ltac:(auto)) as Hd.
  set (t := r * r / dist2 I P) in *.
  assert (Ht : t * dist2 I P = r * r) by (unfold t; field; lra).
  assert (E : inv_pt I (r * r) P = vadd I (vscal t (vsub P I))) by reflexivity. rewrite E in *.
  assert (T1 : t <> 1). { intros T. apply Hne. rewrite T. destruct I, P; unpt; f_equal; ring. }
  assert (K : (t - 1) * (dist2 I O - dist2 O P - t * dist2 I P) = 0).
  { clear - Ho. unfold orthogonal, midpoint in Ho. destruct I as [a b], P as [p q], O as [x y]. unspec. nra. }
  apply Rmult_integral in K. lra.
Qed.

Lemma perp_orth M A B u O : on_line A B M -> orthogonal (vsub B A) u -> scross (vsub B A) (vsub O A) = 0 -> A <> B ->
  orthogonal (vsub O M) u.
Proof.
  intros [t ->] Ho Hc HAB. apply (on_line_cross A B O HAB) in Hc. destruct Hc as [s ->]. unfold at_line, orthogonal in *.
  transitivity ((s - t) * sdot (vsub B A) u); [unspec; ring|]. rewrite Ho. ring.
Qed.

Lemma half_mid P Q : vscal (/ 2) (vadd P Q) = midpoint P Q.
Proof. unfold midpoint. destruct P, Q; unpt; f_equal; field. Qed.

Lemma perp_mid P Q : P <> Q -> perpendicular (mkLine P Q true true) (midpoint P Q) false true =
  Line_init (midpoint P Q) (vadd (midpoint P Q) (- (snd Q - snd P), fst Q - fst P)) true true.
Proof.
  intros H. unfold perpendicular. rewrite includes_nonstrict. cbn [lA lB]. rewrite collinear_on_line; auto.
  exists (/ 2). unfold midpoint, at_line. destruct P, Q; unpt; f_equal; field.
Qed.

Lemma ortho_in_core c P1 P2 arc : 0 < cr c ->
  let I := cO c in
  let result := orthogonal_through_two_points_in_circle c P1 P2 arc in
  (allclose P1 P2 = true \/ cr c * cr c <= dist P1 I \/ cr c * cr c <= dist P2 I) /\ result = Raise ValueError \/
  (allclose P1 P2 = false /\ dist P1 I < cr c * cr c /\ dist P2 I < cr c * cr c /\
   ((collinear_ I P1 P2 = Ok true /\ result = Ok (OLine (mkLine P1 P2 (negb arc) (negb arc)))) \/
    (collinear_ I P1 P2 = Ok false /\ 
     let Q1 := inv_pt I (cr c * cr c) P1 in
     let Q2 := inv_pt I (cr c * cr c) P2 in
     (((allclose P1 Q1 = true \/ allclose P2 Q2 = true \/
        allclose (midpoint P1 Q1) (vadd (midpoint P1 Q1) (- (snd Q1 - snd P1), fst Q1 - fst P1)) = true \/
        allclose (midpoint P2 Q2) (vadd (midpoint P2 Q2) (- (snd Q2 - snd P2), fst Q2 - fst P2)) = true) /\
       result = Raise ValueError) \/
      exists O, O <> P1 /\ dist2 I O - dist2 O P1 = cr c * cr c /\ dist2 I O - dist2 O P2 = cr c * cr c /\
       result = if arc then
                  let theta1 := pymod (atan2 (snd P1 - snd O) (fst P1 - fst O)) (2 * PI) in
                  let theta2 := pymod (atan2 (snd P2 - snd O) (fst P2 - fst O)) (2 * PI) in
                  Ok (OArc (mkArc O (dist O P1) (Rmin theta1 theta2) (Rmax theta1 theta2) false))
                else Ok (OCircle (mkCircle O (dist O P1))))))).
Proof.
  intros Hr I result. unfold result, orthogonal_through_two_points_in_circle.
  destruct (allclose P1 P2) eqn:E0; [left; auto|].
  rewrite (distance_dist P1 (cO c)), (distance_dist P2 (cO c)). fold I.
  destruct (leb (cr c * cr c) (dist P1 I)) eqn:E1; [apply leb_true in E1; left; auto|]. apply leb_false in E1.
  destruct (leb (cr c * cr c) (dist P2 I)) eqn:E2; [apply leb_true in E2; left; auto|]. apply leb_false in E2.
  right. split; auto. split; auto. split; auto.
  destruct (collinear_total I P1 P2) as [col Hcol]. rewrite Hcol. cbn [bind]. destruct col.
  - left. split; auto. unfold Line_init. rewrite E0. reflexivity.
  - right. split; auto. destruct (collinear_false _ _ _ Hcol) as (Nc & F1 & F2 & _).
    pose proof (allclose_false_neq _ _ F1) as N1. pose proof (allclose_false_neq _ _ F2) as N2.
    rewrite !invert_far by auto. cbn [ipole ipower]. set (k := cr c * cr c) in *.
    set (Q1 := inv_pt I k P1) in *. set (Q2 := inv_pt I k P2) in *. cbv zeta.
    destruct (Line_init_cases P1 Q1 true true) as [[A1 ->]|[A ->]]; [|left; auto].
    destruct (Line_init_cases P2 Q2 true true) as [[A2 ->]|[A ->]]; [|left; auto]. cbn [bind].
    rewrite !half_mid.
    pose proof (allclose_false_neq _ _ A1) as M1. pose proof (allclose_false_neq _ _ A2) as M2.
    destruct (perpendicular (mkLine P1 Q1 true true) _ false true) as [p1|e] eqn:R1.
    2: { pose proof R1 as R1'. rewrite perp_mid in R1' by auto. apply perpendicular_raises in R1; auto. left. rewrite R1. split; auto.
         right; right; left. unfold Line_init in R1'. destruct (allclose (midpoint P1 Q1) _) eqn:Z in R1'; [auto|discriminate]. }
    destruct (perpendicular (mkLine P2 Q2 true true) _ false true) as [p2|e] eqn:R2.
    2: { pose proof R2 as R2'. rewrite perp_mid in R2' by auto. apply perpendicular_raises in R2; auto. left. rewrite R2. split; auto.
         right; right; right. unfold Line_init in R2'. destruct (allclose (midpoint P2 Q2) _) eqn:Z in R2'; [auto|discriminate]. }
    cbn [bind].
    apply perpendicular_spec in R1; auto. apply perpendicular_spec in R2; auto. cbn [lA lB] in R1, R2.
    destruct R1 as (L1 & O1 & B1 & _). destruct R2 as (L2 & O2 & B2 & _).
    apply allclose_false_neq in B1. apply allclose_false_neq in B2.
    pose proof (line_line_intersection_spec (lA p1) (lB p1) (lA p2) (lB p2)) as S.
    destruct (line_line_intersection_ _ _ _ _) as [O|].
    + right. destruct S as (_ & S1 & S2). exists O.
      assert (T1 : dist2 I O - dist2 O P1 = k).
      { apply equidistant_power; auto. eapply perp_orth; eauto. }
      assert (T2 : dist2 I O - dist2 O P2 = k).
      { apply equidistant_power; auto. eapply perp_orth; eauto. }
      assert (NO : O <> P1).
      { intros ->. rewrite (proj2 (dist2_0 P1 P1) eq_refl) in T1.
        assert (N : P2 <> P1) by (apply allclose_false_neq in E0; auto).
        apply M1. unfold Q1, inv_pt. replace (k / dist2 I P1) with 1 by (rewrite <- T1; field; pose proof (dist2_pos I P1 ltac:(auto)); lra).
        destruct I, P1; unpt; f_equal; ring. }
      split; auto. split; auto. split; auto. pose proof (dist_pos _ _ NO) as HD. rewrite (distance_dist O P1).
      destruct arc.
      * unfold Arc_init. rewrite (proj2 (leb_false _ _)) by auto. reflexivity.
      * rewrite Circle_init_pos by auto. reflexivity.
    + exfalso. apply Nc. apply collinear_cross.
      assert (U1 : vsub Q1 P1 = vscal (k / dist2 I P1 - 1) (vsub P1 I)) by (unfold Q1, inv_pt; destruct I, P1; unpt; f_equal; ring).
      assert (U2 : vsub Q2 P2 = vscal (k / dist2 I P2 - 1) (vsub P2 I)) by (unfold Q2, inv_pt; destruct I, P2; unpt; f_equal; ring).
      set (t1 := k / dist2 I P1 - 1) in *. set (t2 := k / dist2 I P2 - 1) in *.
      assert (Z1 : t1 <> 0). { intros Z. rewrite Z in U1. apply M1. destruct P1, Q1; unpt. injection U1 as X1 X2. f_equal; lra. }
      assert (Z2 : t2 <> 0). { intros Z. rewrite Z in U2. apply M2. destruct P2, Q2; unpt. injection U2 as X1 X2. f_equal; lra. }
      rewrite U1 in O1. rewrite U2 in O2. unfold orthogonal in O1, O2.
      pose proof (dist2_pos _ _ B1) as D1. pose proof (dist2_pos _ _ B2) as D2.
      set (w1 := vsub (lB p1) (lA p1)) in *. set (w2 := vsub (lB p2) (lA p2)) in *.
      assert (D1' : 0 < sdot w1 w1) by exact D1. assert (D2' : 0 < sdot w2 w2) by exact D2.
      set (u := vsub P1 I) in *. set (v := vsub P2 I) in *.
      assert (V1 : sdot w1 u = 0). { assert (t1 * sdot w1 u = 0) by (rewrite <- O1; clear; unspec; ring). apply Rmult_integral in H; tauto. }
      assert (V2 : sdot w2 v = 0). { assert (t2 * sdot w2 v = 0) by (rewrite <- O2; clear; unspec; ring). apply Rmult_integral in H; tauto. }
      change (scross u v = 0). clear - V1 V2 S D1' D2'. destruct w1 as [a b], w2 as [p q], u as [x y], v as [z w]. unspec.
      assert (V3 : a * z + b * w = 0).
      { assert ((p * p + q * q) * (a * z + b * w) = 0).
        { transitivity ((a * p + b * q) * (p * z + q * w) + (a * q - b * p) * (q * z - p * w)); [ring|]. rewrite V2, S. ring. }
        apply Rmult_integral in H. lra. }
      assert ((a * a + b * b) * (x * w - y * z) = 0).
      { transitivity ((a * x + b * y) * (a * w - b * z) + (a * z + b * w) * (b * x - a * y)); [ring|]. rewrite V1, V3. ring. }
      apply Rmult_integral in H. lra.
Qed.

Lemma dist_eq_sq A B C : dist2 A B = dist2 A C -> dist A B = dist A C.
Proof. unfold dist. intros ->. reflexivity. Qed.

Lemma ortho_in_circle c P1 P2 arc c' : 0 < cr c -> orthogonal_through_two_points_in_circle c P1 P2 arc = Ok (OCircle c') ->
  arc = false /\ 0 < cr c' /\ on_circle (cO c') (cr c') P1 /\ on_circle (cO c') (cr c') P2 /\
  circ_orthogonal (cO c) (cr c) (cO c') (cr c').
Proof.
  intros Hr H. destruct (ortho_in_core c P1 P2 arc Hr) as [[_ E]|(_ & _ & _ & [[_ E]|[_ [[_ E]|(O & NO & E1 & E2 & E)]]])]; cbv zeta in E; rewrite E in H; try discriminate.
  destruct arc; [discriminate|]. apply Ok_inj in H. injection H as <-. cbn [cO cr]. split; auto. split; [apply dist_pos; auto|].
  split; [reflexivity|]. split; [unfold on_circle; apply dist_eq_sq; lra|].
  unfold circ_orthogonal. replace (dist O P1 ^ 2) with (dist2 O P1) by (rewrite <- dist_sq; ring). simpl. lra.
Qed.

Lemma ortho_in_line c P1 P2 arc l : 0 < cr c -> orthogonal_through_two_points_in_circle c P1 P2 arc = Ok (OLine l) ->
  l = mkLine P1 P2 (negb arc) (negb arc) /\
  (on_line P1 P2 (cO c) \/ allclose (cO c) P1 = true \/ allclose (cO c) P2 = true).
Proof.
  intros Hr H. destruct (ortho_in_core c P1 P2 arc Hr) as [[_ E]|(E0 & _ & _ & [[C E]|[_ [[_ E]|(O & NO & E1 & E2 & E)]]])]; cbv zeta in E; rewrite E in H; try discriminate.
  - apply Ok_inj in H. injection H as <-. split; auto.
    destruct (allclose (cO c) P1) eqn:F1; auto. destruct (allclose (cO c) P2) eqn:F2; auto. left.
    destruct (collinear_not_close _ _ _ F1 F2 E0) as (b & Hb & K). rewrite C in Hb. apply Ok_inj in Hb. subst b.
    apply allclose_false_neq in E0. apply allclose_false_neq in F1. apply on_line_cross; auto.
    assert (L : on_line (cO c) P1 P2) by (apply K; auto). apply on_line_cross in L; auto. unspec. lra.
  - destruct arc; discriminate.
Qed.

Lemma angle_point O r P : 0 < r -> dist O P = r ->
  vadd O (vscal r (cos (pymod (atan2 (snd P - snd O) (fst P - fst O)) (2 * PI)), sin (pymod (atan2 (snd P - snd O) (fst P - fst O)) (2 * PI)))) = P.
Proof.
  intros Hr H. rewrite cos_pymod, sin_pymod.
  assert (N : (fst P - fst O, snd P - snd O) <> (0, 0)).
  { intros E. injection E as E1 E2. assert (dist O P = 0); [|lra]. apply dist_0. destruct O, P; cbn [fst snd] in *. f_equal; lra. }
  destruct (cos_sin_atan2 _ _ N) as [-> ->].
  assert (S : sqrt ((fst P - fst O) * (fst P - fst O) + (snd P - snd O) * (snd P - snd O)) = r) by (rewrite <- H; reflexivity).
  rewrite S. destruct O, P; unpt; f_equal; field; lra.
Qed.

Lemma ortho_in_arc c P1 P2 arc A : 0 < cr c -> orthogonal_through_two_points_in_circle c P1 P2 arc = Ok (OArc A) ->
  arc = true /\ 0 < ar A /\ adeg A = false /\ circ_orthogonal (cO c) (cr c) (aO A) (ar A) /\
  0 <= aalpha1 A < aalpha2 A /\ aalpha2 A < 2 * PI /\
  ((starting_point A = P1 /\ ending_point A = P2) \/ (starting_point A = P2 /\ ending_point A = P1)).
Proof.
  intros Hr H. destruct (ortho_in_core c P1 P2 arc Hr) as [[_ E]|(F0 & _ & _ & [[_ E]|[_ [[_ E]|(O & NO & E1 & E2 & E)]]])]; cbv zeta in E; rewrite E in H; try discriminate.
  destruct arc; [|discriminate]. apply Ok_inj in H. injection H as <-. cbn [aO ar adeg aalpha1 aalpha2]. split; auto. split; [apply dist_pos; auto|].
  split; auto. pose proof (dist_pos _ _ NO) as HD. pose proof PI_RGT_0 as HPI.
  split; [unfold circ_orthogonal; replace (dist O P1 ^ 2) with (dist2 O P1) by (rewrite <- dist_sq; ring); simpl; lra|].
  assert (D2 : dist O P2 = dist O P1) by (apply dist_eq_sq; lra).
  pose proof (angle_point O (dist O P1) P1 HD eq_refl) as G1. pose proof (angle_point O (dist O P1) P2 HD D2) as G2.
  set (t1 := pymod (atan2 (snd P1 - snd O) (fst P1 - fst O)) (2 * PI)) in *.
  set (t2 := pymod (atan2 (snd P2 - snd O) (fst P2 - fst O)) (2 * PI)) in *.
  assert (B1 : 0 <= t1 < 2 * PI) by (apply pymod_range; lra).
  assert (B2 : 0 <= t2 < 2 * PI) by (apply pymod_range; lra).
  assert (NT : t1 <> t2). { intros Z. rewrite Z in G1. apply allclose_false_neq in F0. apply F0. congruence. }
  unfold starting_point, ending_point, circle_point_. cbn [aO ar adeg aalpha1 aalpha2].
  unfold Rmin, Rmax. destruct (Rle_dec t1 t2).
  - split; [lra|]. split; [lra|]. left. split; [exact G1|exact G2].
  - split; [lra|]. split; [lra|]. right. split; [exact G2|exact G1].
Qed.

Lemma ortho_in_raise c P1 P2 arc e : 0 < cr c -> orthogonal_through_two_points_in_circle c P1 P2 arc = Raise e -> e = ValueError.
Proof.
  intros Hr H. destruct (ortho_in_core c P1 P2 arc Hr) as [[_ E]|(F0 & _ & _ & [[_ E]|[_ [[_ E]|(O & NO & E1 & E2 & E)]]])]; cbv zeta in E; rewrite E in H; try discriminate; try congruence.
  destruct arc; discriminate.
Qed.

Lemma ortho_in_checks c P1 P2 arc : 0 < cr c -> allclose P1 P2 = true \/ cr c * cr c <= dist P1 (cO c) \/ cr c * cr c <= dist P2 (cO c) ->
  orthogonal_through_two_points_in_circle c P1 P2 arc = Raise ValueError.
Proof.
  intros Hr H. destruct (ortho_in_core c P1 P2 arc Hr) as [[_ E]|(F0 & F1 & F2 & _)]; auto. exfalso. destruct H as [H|[H|H]]; [congruence|lra|lra].
Qed.

(** r < 1: interior points are rejected *)
Lemma ortho_in_small c : 0 < cr c < 1 -> exists P1, dist (cO c) P1 < cr c /\
  forall P2 arc, orthogonal_through_two_points_in_circle c P1 P2 arc = Raise ValueError.
Proof.
  intros Hr. exists (vadd (cO c) (cr c * cr c, 0)).
  assert (E : dist (cO c) (vadd (cO c) (cr c * cr c, 0)) = cr c * cr c).
  { apply Rsqr_inj; [apply dist_nonneg|nra|]. unfold Rsqr. rewrite dist_sq. unspec. ring. }
  rewrite E. split; [nra|]. intros P2 arc. apply ortho_in_checks; [lra|]. right; left. rewrite dist_sym, E. lra.
Qed.

(** r > 1: exterior points are accepted *)
Lemma ortho_in_large r arc : 1 < r -> exists P1 P2 res, r < dist (0, 0) P1 /\ r < dist (0, 0) P2 /\
  orthogonal_through_two_points_in_circle (mkCircle (0, 0) r) P1 P2 arc = Ok res.
Proof.
  intros Hr. set (d := (r + r * r) / 2). assert (Hd : r < d < r * r) by (unfold d; nra).
  assert (D1 : dist (0, 0) (d, 0) = d). { apply Rsqr_inj; [apply dist_nonneg|nra|]. unfold Rsqr. rewrite dist_sq. unspec. ring. }
  assert (D2 : dist (0, 0) (- d, 0) = d). { apply Rsqr_inj; [apply dist_nonneg|nra|]. unfold Rsqr. rewrite dist_sq. unspec. ring. }
  exists (d, 0), (- d, 0), (OLine (mkLine (d, 0) (- d, 0) (negb arc) (negb arc))). rewrite D1, D2. split; [lra|]. split; [lra|].
  assert (F : allclose (d, 0) (- d, 0) = false).
  { unfold allclose. apply andb_false_iff. left. cbn [fst]. apply leb_false. replace (d - - d) with (2 * d) by ring.
    rewrite Rabs_Ropp, !Rabs_right by lra. lra. }
  destruct (ortho_in_core (mkCircle (0, 0) r) (d, 0) (- d, 0) arc ltac:(cbn [cr]; lra)) as [[H _]|(_ & _ & _ & [[_ E]|[K _]])]; cbn [cO cr] in *.
  - exfalso. rewrite dist_sym, D1 in H. rewrite dist_sym, D2 in H. destruct H as [H|[H|H]]; [congruence|lra|lra].
  - exact E.
  - exfalso. apply collinear_false in K. destruct K as [K _]. apply K. apply collinear_cross. unspec. ring.
Qed.

(** when a circle (an arc) is returned *)
Lemma ortho_in_total c P1 P2 (arc : bool) : 0 < cr c ->
  let Q1 := inv_pt (cO c) (cr c * cr c) P1 in
  let Q2 := inv_pt (cO c) (cr c * cr c) P2 in
  allclose P1 P2 = false -> dist P1 (cO c) < cr c * cr c -> dist P2 (cO c) < cr c * cr c ->
  ~ collinear (cO c) P1 P2 -> allclose (cO c) P1 = false -> allclose (cO c) P2 = false ->
  allclose P1 Q1 = false -> allclose P2 Q2 = false ->
  allclose (midpoint P1 Q1) (vadd (midpoint P1 Q1) (- (snd Q1 - snd P1), fst Q1 - fst P1)) = false ->
  allclose (midpoint P2 Q2) (vadd (midpoint P2 Q2) (- (snd Q2 - snd P2), fst Q2 - fst P2)) = false ->
  if arc then exists A : ModelCircle.arc, orthogonal_through_two_points_in_circle c P1 P2 arc = Ok (OArc A)
  else exists c' : circle, orthogonal_through_two_points_in_circle c P1 P2 arc = Ok (OCircle c').
Proof.
  intros Hr Q1 Q2 F0 D1 D2 C G1 G2 A1 A2 B1 B2.
  destruct (ortho_in_core c P1 P2 arc Hr) as [[H _]|(_ & _ & _ & [[K _]|[_ [[Q _]|(O & NO & E1 & E2 & E)]]])]; cbv zeta in *.
  - destruct H as [H|[H|H]]; [congruence|lra|lra].
  - pose proof (collinear_not _ _ _ C G1 G2 F0). congruence.
  - fold Q1 Q2 in Q. exfalso. destruct Q as [Q|[Q|[Q|Q]]]; congruence.
  - rewrite E. destruct arc; eauto.
Qed.

(** the arc is the long one *)
Lemma pymod_small x m : 0 <= x < m -> pymod x m = x.
Proof. intros H. apply (pymod_unique x m x 0); try lra. Qed.

Lemma atan_pos x : 0 < x -> 0 < atan x < PI / 2.
Proof.
  intros H. split; [rewrite <- atan_0; apply atan_increasing; auto|]. apply atan_bound.
Qed.

Lemma dist_bound P Q r : 0 <= r -> dist2 P Q < r * r -> dist P Q < r.
Proof. intros Hr H. apply Rsqr_incrst_0; auto; [|apply dist_nonneg]. unfold Rsqr. rewrite dist_sq. auto. Qed.

Lemma long_arc_ex : exists A, orthogonal_through_two_points_in_circle (mkCircle (0, 0) 1) (- / 2, / 10) (- / 2, - / 10) true = Ok (OArc A).
Proof.
  assert (Q1 : inv_pt (0, 0) (1 * 1) (- / 2, / 10) = (- 25 / 13, 5 / 13)) by (unfold inv_pt; unspec; f_equal; field).
  assert (Q2 : inv_pt (0, 0) (1 * 1) (- / 2, - / 10) = (- 25 / 13, - 5 / 13)) by (unfold inv_pt; unspec; f_equal; field).
  apply (ortho_in_total (mkCircle (0, 0) 1) (- / 2, / 10) (- / 2, - / 10) true); cbn [cO cr]; rewrite ?Q1, ?Q2; unfold midpoint; unfold vadd; cbn [fst snd]; try lra; try (evalclose; fail).
  - apply dist_bound; try lra. unspec. lra.
  - apply dist_bound; try lra. unspec. lra.
  - rewrite collinear_cross. unspec. lra.
Qed.

Lemma long_arc_refuted : exists c P1 P2 A, 0 < cr c /\ in_disk (cO c) (cr c) P1 /\ in_disk (cO c) (cr c) P2 /\
  orthogonal_through_two_points_in_circle c P1 P2 true = Ok (OArc A) /\ PI < aalpha2 A - aalpha1 A.
Proof.
  destruct long_arc_ex as [A HA]. exists (mkCircle (0, 0) 1), (- / 2, / 10), (- / 2, - / 10), A. cbn [cO cr].
  split; [lra|]. split; [unfold in_disk; left; apply dist_bound; try lra; unspec; lra|].
  split; [unfold in_disk; left; apply dist_bound; try lra; unspec; lra|]. split; auto.
  destruct (ortho_in_core (mkCircle (0, 0) 1) (- / 2, / 10) (- / 2, - / 10) true ltac:(cbn [cr]; lra)) as [[_ E]|(F0 & _ & _ & [[_ E]|[_ [[_ E]|(O & NO & E1 & E2 & E)]]])]; cbv zeta in E; rewrite E in HA; try discriminate.
  apply Ok_inj in HA. injection HA as <-. cbn [aalpha1 aalpha2]. cbn [cO cr] in *.
  assert (EO : O = (- 63 / 50, 0)).
  { destruct O as [x y]. clear - E1 E2. unspec. f_equal; lra. }
  subst O. cbn [fst snd].
  replace (- / 2 - - 63 / 50) with (19 / 25) by field. replace (/ 10 - 0) with (/ 10) by ring. replace (- / 10 - 0) with (- / 10) by ring.
  unfold atan2. destruct (Rlt_dec 0 (19 / 25)) as [_|N]; [|lra].
  replace (/ 10 / (19 / 25)) with (5 / 38) by field. replace (- / 10 / (19 / 25)) with (- (5 / 38)) by field. rewrite atan_opp.
  pose proof (atan_pos (5 / 38) ltac:(lra)) as B. pose proof PI_RGT_0 as HPI. set (al := atan (5 / 38)) in *.
  rewrite (pymod_small al) by lra. rewrite (pymod_unique (- al) (2 * PI) (2 * PI - al) (-1)) by lra.
  rewrite Rmin_left, Rmax_right by lra. lra.
Qed.
