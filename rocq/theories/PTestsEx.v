(** * The unit tests of the repository: their own data meet the hypotheses. *)

From Coq Require Import Reals List Bool ZArith Lra Lia Psatz.
From Verif Require Import Base BaseLemmas Spec SpecLemmas SpecTriangle SpecMobius ModelInternal ModelLine ModelCircle ModelAffine ModelEllipse ModelTriangle ModelInversion ModelTransfo ModelMobius ModelTests.
From Verif Require PRandom PCircEx PGasket11 PMobiusEx PTangentCirclesEx.
From Verif Require Import PInvBase PLine PCircle PCircle2 PAffine PEllipse PEllipseEx PTriangle2 PTransfo PReflect PInversion PInversion2 PInversionEx PMobius PMobius2 PMobius3 PExample1 PTests PTests2 PTests3.
Import ListNotations.
Local Open Scope R_scope.

Ltac nocol := rewrite collinear_cross; unfold scross; unpt; lra.
Ltac neq2 := let E := fresh in intros E; injection E; intros; lra.
Ltac nodup := repeat (constructor; [cbn [In]; let H := fresh in intros H; repeat (destruct H as [H|H]; [revert H; neq2|]); exact H|]); constructor.

Lemma ex_affine_three : test_affine_three_points (1, 2) (3, 4) (7, 7) (2, 1) (4, 4) (-7, 7) = Ok true.
Proof. apply affine_three_ok; try nocol; evalclose. Qed.

Lemma ex_mapping_three : test_mapping_three_points (1, 2) (3, 4) (7, 7) (2, 1) (4, 4) (-7, 7) = Ok true.
Proof. apply mapping_three_test_ok; nodup. Qed.

Lemma ex_homothety : test_homothety_circle (mkHom (1, 1) (-3)) (mkCircle (2, 0) 4) 20 = Ok true.
Proof. apply homothety_test_ok; cbn; lra. Qed.

Lemma ex_invert_circle : test_invert_circle (mkInv (5, 5) 6) (mkCircle (0, 2) 3) (3, 2) (0, 5) (-3, 2) = Ok true.
Proof.
  apply invert_circle_test_ok; cbn [cO cr ipole ipower]; try lra; try (apply on_circle_sq; [lra|unspec; lra]).
  - unfold pow_circle, sepsilon_. unspec. rewrite Rabs_right; lra.
  - repeat constructor; evalclose.
Qed.

Lemma ex_compose_inversions : test_compose_inversions (mkInv (1, 1) 2) (mkInv (3, 2) 4) (4, 5) = Ok true /\ test_compose_inversions (mkInv (1, 1) 2) (mkInv (3, 2) (-4)) (4, 5) = Ok true.
Proof.
  assert (N : allclose (3, 2) (4, 5) = false) by evalclose.
  assert (E1 : invert (mkInv (3, 2) 4) (Pt (4, 5)) = Pt (17 / 5, 16 / 5)) by (unfold invert; cbn [ipole ipower]; rewrite N; unfold dot_; unpt; f_equal; apply pair_eq; field).
  assert (E2 : invert (mkInv (3, 2) (-4)) (Pt (4, 5)) = Pt (13 / 5, 4 / 5)) by (unfold invert; cbn [ipole ipower]; rewrite N; unfold dot_; unpt; f_equal; apply pair_eq; field).
  split; apply compose_inversions_ok; cbn [ipole ipower]; try lra; try (rewrite N; discriminate).
  - intros P. rewrite E1. intros E; injection E as <-. replace (allclose (1, 1) (17 / 5, 16 / 5)) with false by (symmetry; evalclose). discriminate.
  - intros P. rewrite E2. intros E; injection E as <-. replace (allclose (1, 1) (13 / 5, 4 / 5)) with false by (symmetry; evalclose). discriminate.
Qed.

Lemma ex_ellipse_equation ev : (forall M, is_eigvals M (ev M)) -> test_ellipse_equation ev (mkEllipse (4, 3) 5 1 100 true) = Ok true.
Proof.
  intros H. apply ellipse_equation_test; cbn [eO ea eb]; auto; try lra; [unspec; lra|]. unfold ell_th, radians, deg. cbn [edeg ealpha]. pose proof PI_RGT_0. apply Rlt_not_eq. apply cos_lt_0; lra.
Qed.

Lemma ex_affine_ellipse : test_affine_ellipse (mkAffine (mkM2 (7 / 2) 2 0 4) (-1, 5 / 4)) (mkEllipse (1, 1) 5 2 30 true) 3 = Ok true.
Proof. apply affine_ellipse_test; cbn [ea eb afA]; try lra; try lia. unfold det2. cbn. lra. Qed.

Lemma ex_random_on : let d := [(/ 2, (3, 4)); (0, (-1, 2)); (/ 3, (0, 5))] in
  test_ellipse_random_on (mkEllipse (4, 3) 5 1 100 true) 3 d = Ok true /\ test_ellipse_random_in (mkEllipse (4, 3) 5 1 100 true) 3 d = Ok true.
Proof. intros d. apply random_on_test; cbn [ea eb]; try lra; try lia; repeat constructor; cbn [fst snd]; try lra; neq2. Qed.

Lemma random_five e d1 d2 d3 d4 d5 P1 P2 P3 P4 P5 :
  ellipse_random_points e 1 WhereOn [d1] = Ok [P1] -> ellipse_random_points e 1 WhereOn [d2] = Ok [P2] -> ellipse_random_points e 1 WhereOn [d3] = Ok [P3] -> ellipse_random_points e 1 WhereOn [d4] = Ok [P4] -> ellipse_random_points e 1 WhereOn [d5] = Ok [P5] ->
  ellipse_random_points e 5 WhereOn [d1; d2; d3; d4; d5] = Ok [P1; P2; P3; P4; P5].
Proof.
  unfold ellipse_random_points. change (1 <=? 0)%Z with false. change (5 <=? 0)%Z with false. cbv iota. destruct (shape_matrix e) as [A|]; cbn [bind]; [|discriminate]. cbn [mapM].
  assert (K : forall (r : res pt) P, (let! y := r in let! ys := Ok [] in Ok (y :: ys)) = Ok [P] -> r = Ok P). { intros r P. destruct r; cbn [bind]; [congruence|discriminate]. }
  intros H1 H2 H3 H4 H5. apply K in H1. apply K in H2. apply K in H3. apply K in H4. apply K in H5. rewrite H1, H2, H3, H4, H5. reflexivity.
Qed.

Lemma ex_five ev : (forall M, is_eigvals M (ev M)) ->
  test_ellipse_five_points ev (mkEllipse (1, 1) 2 1 0 true) (0, (1 * cos 0, 1 * sin 0)) (0, (1 * cos (PI / 2), 1 * sin (PI / 2))) (0, (1 * cos PI, 1 * sin PI)) (0, (1 * cos (PI / 3), 1 * sin (PI / 3))) (0, (1 * cos (PI / 6), 1 * sin (PI / 6))) = Ok true.
Proof.
  intros H. pose proof (fun t => PRandom.ellipse_on_param (mkEllipse (1, 1) 2 1 0 true) 0 1 t ltac:(cbn; lra) ltac:(cbn; lra) eq_refl ltac:(lra)) as K.
  refine (proj2 (proj2 (five_points_test ev (mkEllipse (1, 1) 2 1 0 true) _ _ _ _ _ H _ _ _ _ _ _ _ _ (random_five _ _ _ _ _ _ _ _ _ _ _ (K 0) (K (PI / 2)) (K PI) (K (PI / 3)) (K (PI / 6))) _)) _); cbn [eO ea eb fst snd].
  - lra.
  - unfold ell_th, radians, deg. cbn [edeg ealpha]. replace (2 * _) with 0 by field. rewrite cos_0. lra.
  - repeat constructor; cbn [fst]; lra.
  - rewrite cos_0, sin_0, cos_PI2, sin_PI2, cos_PI, sin_PI, cos_PI3, sin_PI3, cos_PI6, sin_PI6. assert (1 < sqrt 3 < 2) by (split; [rewrite <- sqrt_1 at 1; apply sqrt_lt_1; lra|rewrite <- (sqrt_square 2) at 1 by lra; apply sqrt_lt_1; lra]). nodup.
  - unspec. lra.
Qed.

Lemma ex_matrix eigh : (forall Sm, is_eigh Sm (eigh Sm)) -> test_ellipse_matrix eigh (mkEllipse (2, 3) 5 4 50 true) = Ok true.
Proof. intros H. apply ellipse_matrix_test; cbn [ea eb]; auto; lra. Qed.

Lemma ex_rotate : test_rotate_ellipse (mkRot (1, 2) (PI / 5) false) (mkEllipse (5, 4) 3 2 30 true) = Ok true.
Proof. apply rotate_ellipse_test; cbn [ea eb]; lra. Qed.

Lemma ex_scale : test_scale_circle (mkScaling (1, 1) (2, 3) 2) (mkCircle (-1, 2) 4) = Ok true /\ test_scale_circle (mkScaling (1, 1) (2, 3) (-2)) (mkCircle (-1, 2) 4) = Ok false.
Proof.
  destruct (scale_circle_test (mkScaling (1, 1) (2, 3) 2) (mkCircle (-1, 2) 4)) as (_ & K & _); cbn [scw cr]; [neq2|lra|]. destruct (scale_circle_test (mkScaling (1, 1) (2, 3) (-2)) (mkCircle (-1, 2) 4)) as (_ & _ & K'); cbn [scw cr]; [neq2|lra|].
  cbn [scs cr] in *. split; [apply K; lra|apply K'; [lra|evalclose]].
Qed.

Lemma ex_contains : test_contains (mkTri (0, 0) (1, 5) (3, 3)) 3 [(/ 2, / 3); (/ 4, / 7); (/ 5, / 2)] = Ok true.
Proof. apply contains_test; cbn [tA tB tC]; [nocol|lia|]. repeat constructor; cbn [fst snd]; lra. Qed.

Lemma ex_excircles : test_excircles (mkTri (0, 0) (1, 5) (3, 3)) = Ok true.
Proof. apply excircles_test; cbn [tA tB tC]; try nocol; evalclose. Qed.

Lemma ex_malfatti_test : test_malfatti (mkTri (0, 0) (4, 0) (0, 3)) = Ok true.
Proof.
  assert (NC : ~ collinear (0, 0) (4, 0) (0, 3)) by nocol.
  destruct (malfatti_test (mkTri (0, 0) (4, 0) (0, 3)) NC) as (c1 & c2 & c3 & T & E & K & _). destruct PCircEx.ex_malfatti as (d1 & d2 & d3 & T' & E' & (A1 & A2) & (B1 & B2) & (C1 & C2)). rewrite E in E'. injection E' as <- <- <- _.
  destruct (PTriangle5.malfatti_spec _ _ _ NC) as (d1 & d2 & d3 & TA & TB & TC & E' & _ & _ & _ & T1 & T2 & T3 & _). rewrite E in E'. injection E' as <- <- <- _.
  assert (G : forall c c', 1 / 4 <= cr c -> 1 / 4 <= cr c' -> Rabs (fst (cO c')) + Rabs (snd (cO c')) <= 1000 -> ext_tangent (cO c) (cr c) (cO c') (cr c') -> circle_is_equal c c' = false).
  { intros c c' H1 H2 H3 HT. unfold circle_is_equal. rewrite (PGasket11.allclose_far (cO c) (cO c') 1000 (/ 2)); [apply andb_false_r|..]; try lra.
    - pose proof (Rabs_pos (snd (cO c'))). lra.
    - pose proof (Rabs_pos (fst (cO c'))). lra.
    - unfold ext_tangent in HT. rewrite <- dist_sq, HT. nra. }
  apply K; apply G; auto.
Qed.

Lemma ex_circumcircles : test_circumcircles (0, 0) (2, 0) (3, 2) (3, -3) = Ok true.
Proof.
  destruct (circumcircles_test (0, 0) (2, 0) (3, 2) (3, -3)) as (c1 & c2 & E1 & E2 & K & _); [nocol|nocol|]. apply K.
  destruct (circumcircle_spec _ _ E1) as (_ & R1 & _ & _ & _ & U1). destruct (circumcircle_spec _ _ E2) as (_ & R2 & _ & _ & _ & U2). cbn [tA tB tC] in *.
  assert (S1 : sqrt (65 / 16) * sqrt (65 / 16) = 65 / 16) by (apply sqrt_sqrt; lra). assert (S2 : sqrt 5 * sqrt 5 = 5) by (apply sqrt_sqrt; lra). pose proof (sqrt_pos (65 / 16)) as P1. pose proof (sqrt_pos 5) as P2.
  destruct (U1 (1, 7 / 4) (sqrt (65 / 16))) as [O1 Q1]; [lra|(apply on_circle_sq; [auto|unspec; lra])..|]. destruct (U2 (1, -2) (sqrt 5)) as [O2 Q2]; [lra|(apply on_circle_sq; [auto|unspec; lra])..|].
  destruct c1 as [o1 r1], c2 as [o2 r2]. cbn [cO cr] in *. subst o1 r1 o2 r2. split.
  - unfold circle_is_equal. cbn [cO cr]. replace (allclose (1, 7 / 4) (1, -2)) with false by (symmetry; evalclose). apply andb_false_r.
  - assert (B1 : 2 <= sqrt (65 / 16) <= 2.1) by (split; nra). assert (B2 : 2.2 <= sqrt 5 <= 2.3) by (split; nra). set (a := sqrt (65 / 16)) in *. set (b := sqrt 5) in *. unspec. split; nra.
Qed.

Lemma ex_orthogonal : test_orthogonal (mkCircle (0, 0) 3) 0 (PI / 2) = Ok true.
Proof.
  apply orthogonal_test_ok; [cbn; lra|]. unfold circle_point_from_angle, unit_vector_. cbn [cO cr]. rewrite cos_0, sin_0, cos_PI2, sin_PI2. nocol.
Qed.

Lemma ex_cross_ratio_real : test_cross_ratio_real (mkCircle (2, 3) 4) 0 90 180 270 = Ok true.
Proof.
  apply cross_ratio_real_ok; [cbn; lra|]. unfold circle_point_from_angle, unit_vector_. cbn [cO cr].
  replace (0 * (PI / 180)) with 0 by ring. replace (90 * (PI / 180)) with (PI / 2) by field. replace (180 * (PI / 180)) with PI by field. replace (270 * (PI / 180)) with (3 * (PI / 2)) by field.
  rewrite cos_0, sin_0, cos_PI2, sin_PI2, cos_PI, sin_PI, cos_3PI2, sin_3PI2. unpt. nodup.
Qed.

Lemma exT_finite p : transform PMobiusEx.exT (Pt p) <> Ok Inf.
Proof.
  intros E. apply transform_Ok in E; [|apply PMobiusEx.exT_det]. destruct E as (k & K0 & K1 & K2). unfold PMobiusEx.exT in *. cbn [ma mb mc md hom fst snd] in *.
  destruct p as [x y]. unfold Cmul, Cadd, C0, C1 in *. cbn [fst snd] in *. injection K2 as K3 K4. lra.
Qed.

Lemma ex_cross_ratio_invariant : test_cross_ratio_invariant PMobiusEx.exT (0, 0) (1, 0) (2, 5) (7, 1) = Ok true.
Proof. apply cross_ratio_invariant_ok; [apply PMobiusEx.exT_det|nodup|]. repeat constructor; apply exT_finite. Qed.

Lemma ex_swapping : test_swapping (mkCircle (0, 0) 2) (mkCircle (6, -2) 1) true = Ok true.
Proof.
  destruct (swapping_test_ok (mkCircle (0, 0) 2) (mkCircle (6, -2) 1) true) as (_ & _ & K); [cbn; lra|cbn; lra|]. apply (K _ _ PTangentCirclesEx.ex_iota1); cbn [cO cr ipole]; unfold pow_circle, sepsilon_; unspec; rewrite Rabs_right; lra.
Qed.

Lemma ex_fixing_two : test_fixing_two (mkCircle (0, 0) 1) (mkCircle (4, 0) 2) = Ok true.
Proof. apply fixing_two_test_ok; [cbn; lra|cbn; lra|apply ex_C37]. Qed.

Lemma ex_image_circle fuel : test_image_circle fuel PMobiusEx.exT (mkCircle (2, 3) 4) 0 90 180 = Some (Ok true).
Proof.
  apply image_circle_ok; [apply PMobiusEx.exT_det|cbn; lra|intros p E; destruct (exT_finite p E)|]. unfold circle_point_from_angle, unit_vector_. cbn [cO cr].
  replace (0 * (PI / 180)) with 0 by ring. replace (90 * (PI / 180)) with (PI / 2) by field. replace (180 * (PI / 180)) with PI by field.
  rewrite cos_0, sin_0, cos_PI2, sin_PI2, cos_PI, sin_PI. unpt. nodup.
Qed.

Lemma ex_diameter : test_ellipse_diameter (mkEllipse (2, 3) 5 4 0 true) = Ok true.
Proof.
  eapply ellipse_diameter_test; cbn [ea eb]; try lra; unfold ellipse_diameter, ell_angle, ellipse_point_, Line_init; cbn [eO ea eb edeg ealpha].
  - rewrite !Rplus_0_l, cos_PI, sin_PI, cos_0, sin_0. replace (0 * (PI / 180)) with 0 by field. rewrite ?cos_0, ?sin_0. unpt.
    match goal with |- context [allclose ?P ?Q] => replace (allclose P Q) with false by (symmetry; evalclose) end. reflexivity.
  - rewrite cos_plus, sin_plus, cos_PI, sin_PI, cos_PI2, sin_PI2. replace (0 * (PI / 180)) with 0 by field. rewrite ?cos_0, ?sin_0. unpt.
    match goal with |- context [allclose ?P ?Q] => replace (allclose P Q) with false by (symmetry; evalclose) end. reflexivity.
Qed.

(** two congruent circles of the test *)
Lemma ex_mid : test_mid_circles (mkCircle (1, 2) 3) (mkCircle (14, 15) 3) = Ok true.
Proof.
  assert (N : allclose (1, 2) (14, 15) = false) by evalclose.
  assert (N2 : allclose (41 / 2, - 9 / 2) (- 11 / 2, 43 / 2) = false) by evalclose.
  assert (EM : mid_circles (mkCircle (1, 2) 3) (mkCircle (14, 15) 3) = Ok [GL (mkLine (41 / 2, - 9 / 2) (- 11 / 2, 43 / 2) true true)]).
  { unfold mid_circles. cbn [cO cr]. rewrite (proj2 (eqb_true 3 3)) by reflexivity. rewrite N. unfold dot_. unpt.
    replace (/ 2 * (1 + 14) + (15 - 2), / 2 * (2 + 15) + - (14 - 1)) with (41 / 2, - 9 / 2) by (apply pair_eq; field). replace (/ 2 * (1 + 14) - (15 - 2), / 2 * (2 + 15) - - (14 - 1)) with (- 11 / 2, 43 / 2) by (apply pair_eq; field).
    unfold Line_init. rewrite N2. cbn [bind]. rewrite (proj2 (ltb_false _ _)) by lra. reflexivity. }
  assert (R : exists d1 d2, reflect_circle (mkLine (41 / 2, - 9 / 2) (- 11 / 2, 43 / 2) true true) (mkCircle (1, 2) 3) = Ok d1 /\ reflect_circle (mkLine (41 / 2, - 9 / 2) (- 11 / 2, 43 / 2) true true) (mkCircle (14, 15) 3) = Ok d2).
  { unfold reflect_circle. cbn [cO cr].
    assert (K : forall P, P = (1, 2) \/ P = (14, 15) -> (exists Q, reflection_transform_pt (mkLine (41 / 2, - 9 / 2) (- 11 / 2, 43 / 2) true true) P = Ok Q)).
    { intros P HP. destruct (reflection_cases (mkLine (41 / 2, - 9 / 2) (- 11 / 2, 43 / 2) true true) P N2) as [K1 K2]. cbn [lA lB] in *. destruct (allclose (41 / 2, - 9 / 2) P) eqn:Z1; [exists P; auto|]. destruct (allclose (- 11 / 2, 43 / 2) P) eqn:Z2; [exists P; auto|].
      destruct (Req_dec (scross (vsub (- 11 / 2, 43 / 2) (41 / 2, - 9 / 2)) (vsub P (41 / 2, - 9 / 2))) 0) as [Z|Z].
      - exists P. apply K1. right. right. apply on_line_cross; [neq2|auto].
      - destruct K2 as (H & EH & _ & E); auto; [intros L; apply on_line_cross in L; [contradiction|neq2]|].
        destruct (projection_spec (mkLine (41 / 2, - 9 / 2) (- 11 / 2, 43 / 2) true true) P) as (H' & EH' & L & O); [neq2|]. rewrite EH in EH'. injection EH' as <-. cbn [lA lB] in *. apply on_line_cross in L; [|neq2].
        assert (EHv : H = (15 / 2, 17 / 2)). { destruct H as [hx hy]. unfold orthogonal, scross, sdot in *. destruct HP as [->| ->]; unpt; apply pair_eq; lra. }
        destruct E as (Q & EQ & _); eauto. rewrite EHv. destruct HP as [->| ->]; evalclose. }
    destruct (K (1, 2)) as (Q1 & ->); auto. destruct (K (14, 15)) as (Q2 & ->); auto. cbn [bind]. unfold Circle_init. rewrite (proj2 (leb_false 3 0)) by lra. eauto. }
  destruct R as (d1 & d2 & E1 & E2).
  assert (T : exists b, test_mid_circles (mkCircle (1, 2) 3) (mkCircle (14, 15) 3) = Ok b).
  { unfold test_mid_circles. rewrite EM. cbn [bind mapM test_mid_one]. unfold Reflection_init, Line_init. cbn [lA lB]. rewrite N2. cbn [bind]. rewrite E1. cbn [bind]. rewrite E2. cbn [bind]. eauto. }
  destruct T as (b & E). rewrite E. f_equal. apply (mid_circles_ok (mkCircle (1, 2) 3) (mkCircle (14, 15) 3)); cbn [cO cr]; try lra; auto.
  intros gs l c EG HI. rewrite EM in EG. injection EG as <-. cbn [In] in HI. destruct HI as [HI|[]]. injection HI as <-. cbn [lA lB]. intros [->| ->]; cbn [cO]; split; evalclose.
Qed.

Lemma ex_image_line : test_image_line PMobiusEx.exJ PMobiusEx.exl = Ok true.
Proof. destruct PMobiusEx.ex_line_circle as (c & E). eapply image_line_ok; [apply PMobiusEx.exJ_det|apply PMobiusEx.exl_neq|exact E]. Qed.

Lemma ex_gpower arg eig : is_arg arg -> eig_ok eig (mkMob C1 (RtoC (-1)) C1 C1) -> test_gpower arg eig (mkMob C1 (RtoC (-1)) C1 C1) 1 = Ok true.
Proof.
  intros HA HE. set (M := mkMob C1 (RtoC (-1)) C1 C1) in *. assert (HD : mdet M <> C0). { unfold M, mdet, RtoC, C1, C0, Cmul, Csub. cbn. intros X. injection X as X1 X2. lra. }
  assert (Hd : gpower_domain M). { left. unfold M, mdet. cbn [ma mb mc md]. unfold RtoC, C1, C0, Cmul, Csub, Cadd, cabs. cbn [fst snd]. unfold sepsilon_. apply Rle_trans with 1; [lra|]. rewrite <- sqrt_1 at 1. apply sqrt_le_1_alt. unfold mod2_. cbn [fst snd]. lra. }
  destruct (gpower_test_ok arg eig M 1 HA HE HD Hd) as (N & EN & K & _). apply K. destruct (power_nat M 1) as (_ & N' & EN' & H & _). rewrite EN in EN'. injection EN' as <-. rewrite (H ltac:(lia)).
  unfold M, inverse. cbn [matrix_power matmul ma mb mc md mdiag]. unfold matmul. cbn [ma mb mc md]. unfold RtoC, C1, C0, Cmul, Csub, Cadd, Copp. cbn [fst snd]. intros X. injection X as X1 X2. lra.
Qed.

Lemma ex_fixing_three : test_fixing_three (mkCircle (0, 0) 1) (mkCircle (8, 0) 1) (mkCircle (0, 6) 1) = Ok true.
Proof.
  assert (N1 : allclose (0, 0) (8, 0) = false) by evalclose. assert (N2 : allclose (0, 0) (0, 6) = false) by evalclose.
  assert (E1 : exists l, radical_axis (mkCircle (0, 0) 1) (mkCircle (8, 0) 1) = Ok (Some l)).
  { unfold radical_axis, radical_center2, dot_. cbn [cO cr]. rewrite N1. unpt. rewrite (proj2 (eqb_false _ _)) by lra. cbn [bind]. unfold Line_init.
    match goal with |- context [allclose ?P ?Q] => replace (allclose P Q) with false by (symmetry; evalclose) end. cbn [bind]. eauto. }
  assert (E2 : exists l, radical_axis (mkCircle (0, 0) 1) (mkCircle (0, 6) 1) = Ok (Some l)).
  { unfold radical_axis, radical_center2, dot_. cbn [cO cr]. rewrite N2. unpt. rewrite (proj2 (eqb_false _ _)) by lra. cbn [bind]. unfold Line_init.
    match goal with |- context [allclose ?P ?Q] => replace (allclose P Q) with false by (symmetry; evalclose) end. cbn [bind]. eauto. }
  destruct E1 as (l1 & E1). destruct E2 as (l2 & E2).
  apply fixing_three_test_ok; try (cbn; lra).
  destruct (fixing_three_total (mkCircle (0, 0) 1) (mkCircle (8, 0) 1) (mkCircle (0, 6) 1) l1 l2) as (iota & E); auto; [cbn [cO]; nocol|]. exists iota. split; [auto|].
  destruct (fixing_three_spec _ _ _ _ E) as (P1 & P2 & P3). destruct iota as [[x y] k]. cbn [ipole ipower cO cr] in *. unfold pow_circle in *. unspec. assert (x = 4) by lra. assert (y = 3) by lra. subst x y. replace k with 24 by lra. rewrite Rabs_right by lra. unfold sepsilon_. lra.
Qed.

(** 1/z and the circle of centre i through the pole *)
Lemma ex_image_circle_line fuel : test_image_circle_line (S fuel) PMobiusEx.exJ (mkCircle (0, 1) 1) 0 180 = Some (Ok true).
Proof.
  set (c := mkCircle (0, 1) 1). pose proof PMobiusEx.exJ_det as HD. pose proof PI_4 as P4. pose proof PI2_1 as P2.
  pose proof PI2_3_2 as P3. assert (C3 : cos 3 < - / 2). { replace (- / 2) with (cos (2 * (PI / 3))) by (rewrite cos_2PI3; field). apply cos_decreasing_1; lra. } pose proof (SIN_bound 3) as B3. pose proof (sin2_cos2 3) as SC. unfold Rsqr in SC. assert (S3 : -1 < sin 3) by nra.
  assert (T1 : transform PMobiusEx.exJ (Pt (1, 1)) = Ok (Pt (/ 2, - / 2))) by (apply transform_Ok; [auto|]; exists (1, 1); unfold PMobiusEx.exJ; cbn [ma mb mc md hom fst snd]; split; [PMobiusEx.cneq|unC; split; f_equal; field]).
  assert (T2 : transform PMobiusEx.exJ (Pt (-1, 1)) = Ok (Pt (- / 2, - / 2))) by (apply transform_Ok; [auto|]; exists (-1, 1); unfold PMobiusEx.exJ; cbn [ma mb mc md hom fst snd]; split; [PMobiusEx.cneq|unC; split; f_equal; field]).
  set (b := cos 3 / (2 + 2 * sin 3)). assert (Hb : b * (2 + 2 * sin 3) = cos 3) by (unfold b; field; lra). assert (Nb : b < 0) by nra. clearbody b.
  assert (T3 : transform PMobiusEx.exJ (Pt (cos 3, 1 + sin 3)) = Ok (Pt (b, - / 2))).
  { apply transform_Ok; [auto|]; exists (cos 3, 1 + sin 3); unfold PMobiusEx.exJ; cbn [ma mb mc md hom fst snd]; split; [PMobiusEx.cneq|unC; split; f_equal]; try ring.
    - transitivity (cos 3 * b + (1 + sin 3) / 2); [|field]. apply Rmult_eq_reg_r with (2 + 2 * sin 3); [|lra]. transitivity (cos 3 * (b * (2 + 2 * sin 3)) + (1 + sin 3) * (1 + sin 3)); [rewrite Hb; lra|field].
    - transitivity ((b * (2 + 2 * sin 3)) / 2 - cos 3 / 2); [rewrite Hb; field|field]. }
  assert (E : transform_circle (S fuel) PMobiusEx.exJ c = Some (Ok (GL (mkLine (/ 2, - / 2) (b, - / 2) true true)))).
  { destruct (PMobius4.transform_circle_near PMobiusEx.exJ c (S fuel) HD) as (_ & ->); [cbn; lra|unfold PMobiusEx.exJ, c, Cmod2; cbn [ma mb mc md cO cr fst snd]; unC; lra|].
    replace (- md PMobiusEx.exJ / mc PMobiusEx.exJ)%C with ((0, 0) : C) by (unfold PMobiusEx.exJ; cbn [mc md]; unC; f_equal; field). cbn [search]. unfold circle_point_from_angle, unit_vector_, c. cbn [cO cr].
    rewrite !Rplus_0_l, cos_0, sin_0. unpt. replace (0 + 1 * 1, 1 + 1 * 0) with (1, 1) by (apply pair_eq; ring). replace (0 + 1 * cos 3, 1 + 1 * sin 3) with (cos 3, 1 + sin 3) by (apply pair_eq; ring).
    replace (allclose (1, 1) (0, 0)) with false by (symmetry; evalclose). cbn [search]. unfold circle_point_from_angle, unit_vector_. cbn [cO cr]. unpt. rewrite !Rplus_0_l, !Rmult_1_l, ?cos_0, ?sin_0.
    replace (allclose (cos 3, 1 + sin 3) (0, 0)) with false by (symmetry; evalclose). rewrite ?Rplus_0_l, ?Rplus_0_r. rewrite ?cos_0, ?sin_0, ?Rplus_0_r, ?Rmult_1_l. rewrite T1, T3. cbn [bind]. unfold Line_init_ext, Line_init.
    replace (allclose (/ 2, - / 2) (b, - / 2)) with false by (symmetry; evalclose). reflexivity. }
  apply (image_circle_line_ok (S fuel) PMobiusEx.exJ c 0 180 HD ltac:(cbn; lra)) with (l := mkLine (/ 2, - / 2) (b, - / 2) true true) (A' := (/ 2, - / 2)) (B' := (- / 2, - / 2)); auto.
  - unfold circle_point_from_angle, unit_vector_, c. cbn [cO cr]. replace (0 * (PI / 180)) with 0 by ring. rewrite cos_0, sin_0. unpt. replace (0 + 1 * 1, 1 + 1 * 0) with (1, 1) by (apply pair_eq; ring). auto.
  - unfold circle_point_from_angle, unit_vector_, c. cbn [cO cr]. replace (180 * (PI / 180)) with PI by field. rewrite cos_PI, sin_PI. unpt. replace (0 + 1 * -1, 1 + 1 * 0) with (-1, 1) by (apply pair_eq; ring). auto.
  - evalclose.
Qed.
