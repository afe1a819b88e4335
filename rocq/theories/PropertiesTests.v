(** * C119: the unit tests of the repository, for all data *)

From Coq Require Import Reals List Bool ZArith.
From Verif Require Import Base Spec SpecTriangle SpecMobius ModelInternal ModelLine ModelCircle ModelAffine ModelEllipse ModelTriangle ModelInversion ModelTransfo ModelMobius ModelTests.
From Verif Require Import PEllipse PMobius2 PTests PTests2 PTests3 PTestsEx.
From Verif Require PMobiusEx.
Import ListNotations.
Local Open Scope R_scope.

(** test_Affine.py: three pairs of points. *)
Theorem C119_affine_three_points P1 P2 P3 Q1 Q2 Q3 :
  (~ collinear P1 P2 P3 -> allclose P1 P2 = false -> allclose P1 P3 = false -> allclose P2 P3 = false ->
   ~ collinear Q1 Q2 Q3 -> allclose Q1 Q2 = false -> allclose Q1 Q3 = false -> allclose Q2 Q3 = false ->
   test_affine_three_points P1 P2 P3 Q1 Q2 Q3 = Ok true) /\
  forall b, test_affine_three_points P1 P2 P3 Q1 Q2 Q3 = Ok b -> b = true.
Proof. exact (affine_three_ok P1 P2 P3 Q1 Q2 Q3). Qed.
Print Assumptions C119_affine_three_points.
Example C119_affine_three_points_case : test_affine_three_points (1, 2) (3, 4) (7, 7) (2, 1) (4, 4) (-7, 7) = Ok true.
Proof. exact ex_affine_three. Qed.

(** test_Circle.py: the orthogonal circle through two points of a circle. *)
Theorem C119_orthogonal c a b : 0 < cr c ->
  (~ collinear (cO c) (circle_point_from_angle c a false) (circle_point_from_angle c b false) -> test_orthogonal c a b = Ok true).
Proof. exact (orthogonal_test_ok c a b). Qed.
Print Assumptions C119_orthogonal.
Example C119_orthogonal_case : test_orthogonal (mkCircle (0, 0) 3) 0 (PI / 2) = Ok true.
Proof. exact ex_orthogonal. Qed.

(** test_CrossRatio.py: four points of a circle. *)
Theorem C119_cross_ratio_real c a b d e : 0 < cr c ->
  (NoDup [circle_point_from_angle c a true; circle_point_from_angle c b true; circle_point_from_angle c d true; circle_point_from_angle c e true] ->
   test_cross_ratio_real c a b d e = Ok true) /\
  (forall r, test_cross_ratio_real c a b d e = Ok r -> r = true).
Proof. exact (cross_ratio_real_ok c a b d e). Qed.
Print Assumptions C119_cross_ratio_real.
Example C119_cross_ratio_real_case : test_cross_ratio_real (mkCircle (2, 3) 4) 0 90 180 270 = Ok true.
Proof. exact ex_cross_ratio_real. Qed.

(** test_CrossRatio.py: images by a Mobius transformation. *)
Theorem C119_cross_ratio_invariant M A B C D : mdet M <> C0 ->
  (NoDup [A; B; C; D] -> Forall (fun P => transform M (Pt P) <> Ok Inf) [A; B; C; D] -> test_cross_ratio_invariant M A B C D = Ok true) /\
  (forall b, test_cross_ratio_invariant M A B C D = Ok b -> b = true).
Proof. exact (cross_ratio_invariant_ok M A B C D). Qed.
Print Assumptions C119_cross_ratio_invariant.
Example C119_cross_ratio_invariant_case : test_cross_ratio_invariant PMobiusEx.exT (0, 0) (1, 0) (2, 5) (7, 1) = Ok true.
Proof. exact ex_cross_ratio_invariant. Qed.

(** test_Ellipse.py: an ellipse and its equation.  With the data of the test the squared
    distance of the centre to the origin is 25 and the sum of the squared radii 26. *)
Theorem C119_ellipse_equation ev ell : (forall M, is_eigvals M (ev M)) -> 0 < eb ell < ea ell ->
  (ea ell ^ 2 + eb ell ^ 2 <= dist2 (0, 0) (eO ell) -> test_ellipse_equation ev ell = Raise ValueError) /\
  (dist2 (0, 0) (eO ell) < ea ell ^ 2 + eb ell ^ 2 -> cos (2 * radians (edeg ell) (ealpha ell)) <> 0 -> test_ellipse_equation ev ell = Ok true).
Proof. exact (ellipse_equation_test ev ell). Qed.
Print Assumptions C119_ellipse_equation.
Example C119_ellipse_equation_case ev : (forall M, is_eigvals M (ev M)) -> test_ellipse_equation ev (mkEllipse (4, 3) 5 1 100 true) = Ok true.
Proof. exact (ex_ellipse_equation ev). Qed.

(** An axis at 45 degrees. *)
Theorem C119_ellipse_equation_refuted ev : (forall M, is_eigvals M (ev M)) -> test_ellipse_equation ev (mkEllipse (0, 0) 2 1 45 true) = Ok false.
Proof. exact (ellipse_equation_test_refuted ev). Qed.
Print Assumptions C119_ellipse_equation_refuted.

(** test_Ellipse.py: the image of an ellipse. *)
Theorem C119_affine_ellipse f ell0 n : 0 < ea ell0 -> 0 < eb ell0 -> (0 < n)%Z ->
  (det2 (afA f) <> 0 -> test_affine_ellipse f ell0 n = Ok true) /\ (det2 (afA f) = 0 -> test_affine_ellipse f ell0 n = Raise AttributeError).
Proof. exact (affine_ellipse_test f ell0 n). Qed.
Print Assumptions C119_affine_ellipse.
Example C119_affine_ellipse_case : test_affine_ellipse (mkAffine (mkM2 (7 / 2) 2 0 4) (-1, 5 / 4)) (mkEllipse (1, 1) 5 2 30 true) 3 = Ok true.
Proof. exact ex_affine_ellipse. Qed.

(** test_Ellipse.py: random points on and in an ellipse. *)
Theorem C119_ellipse_random ell n draws : 0 < ea ell -> 0 < eb ell -> Forall (fun d => 0 <= fst d < 1) draws ->
  (forall b, test_ellipse_random_on ell n draws = Ok b -> b = true) /\ (forall b, test_ellipse_random_in ell n draws = Ok b -> b = true) /\
  ((0 < n)%Z -> Forall (fun d => snd d <> (0, 0)) draws -> test_ellipse_random_on ell n draws = Ok true /\ test_ellipse_random_in ell n draws = Ok true).
Proof. exact (random_on_test ell n draws). Qed.
Print Assumptions C119_ellipse_random.
Example C119_ellipse_random_case : let d := [(/ 2, (3, 4)); (0, (-1, 2)); (/ 3, (0, 5))] in
  test_ellipse_random_on (mkEllipse (4, 3) 5 1 100 true) 3 d = Ok true /\ test_ellipse_random_in (mkEllipse (4, 3) 5 1 100 true) 3 d = Ok true.
Proof. exact ex_random_on. Qed.

(** test_Ellipse.py: the ellipse through five random points of an ellipse. *)
Theorem C119_ellipse_five_points ev ell d1 d2 d3 d4 d5 : (forall M, is_eigvals M (ev M)) -> 0 < eb ell < ea ell -> cos (2 * radians (edeg ell) (ealpha ell)) <> 0 ->
  Forall (fun d => 0 <= fst d < 1) [d1; d2; d3; d4; d5] ->
  forall P1 P2 P3 P4 P5, ellipse_random_points ell 5 WhereOn [d1; d2; d3; d4; d5] = Ok [P1; P2; P3; P4; P5] -> NoDup [P1; P2; P3; P4; P5] ->
  (forall b, test_ellipse_five_points ev ell d1 d2 d3 d4 d5 = Ok b -> b = true) /\
  (test_ellipse_five_points ev ell d1 d2 d3 d4 d5 = Ok true <-> dist2 (0, 0) (eO ell) < ea ell ^ 2 + eb ell ^ 2).
Proof. exact (five_points_test ev ell d1 d2 d3 d4 d5). Qed.
Print Assumptions C119_ellipse_five_points.
Example C119_ellipse_five_points_case ev : (forall M, is_eigvals M (ev M)) ->
  test_ellipse_five_points ev (mkEllipse (1, 1) 2 1 0 true) (0, (1 * cos 0, 1 * sin 0)) (0, (1 * cos (PI / 2), 1 * sin (PI / 2))) (0, (1 * cos PI, 1 * sin PI)) (0, (1 * cos (PI / 3), 1 * sin (PI / 3))) (0, (1 * cos (PI / 6), 1 * sin (PI / 6))) = Ok true.
Proof. exact (ex_five ev). Qed.

(** test_Ellipse.py: the shape matrix. *)
Theorem C119_ellipse_matrix eigh ell : (forall Sm, is_eigh Sm (eigh Sm)) -> 0 < eb ell < ea ell -> test_ellipse_matrix eigh ell = Ok true.
Proof. exact (ellipse_matrix_test eigh ell). Qed.
Print Assumptions C119_ellipse_matrix.
Example C119_ellipse_matrix_case eigh : (forall Sm, is_eigh Sm (eigh Sm)) -> test_ellipse_matrix eigh (mkEllipse (2, 3) 5 4 50 true) = Ok true.
Proof. exact (ex_matrix eigh). Qed.

(** test_Ellipse.py: the axes. *)
Theorem C119_ellipse_diameter ell : 0 < ea ell -> 0 < eb ell ->
  (forall b, test_ellipse_diameter ell = Ok b -> b = true) /\
  (forall l1 l2, ellipse_diameter ell 0 false = Ok l1 -> ellipse_diameter ell (PI / 2) false = Ok l2 -> test_ellipse_diameter ell = Ok true).
Proof. exact (ellipse_diameter_test ell). Qed.
Print Assumptions C119_ellipse_diameter.
Example C119_ellipse_diameter_case : test_ellipse_diameter (mkEllipse (2, 3) 5 4 0 true) = Ok true.
Proof. exact ex_diameter. Qed.

(** test_Homothety.py. *)
Theorem C119_homothety H c a : 0 < cr c ->
  (hscale H <> 0 -> test_homothety_circle H c a = Ok true) /\ (hscale H = 0 -> test_homothety_circle H c a = Raise ValueError).
Proof. exact (homothety_test_ok H c a). Qed.
Print Assumptions C119_homothety.
Example C119_homothety_case : test_homothety_circle (mkHom (1, 1) (-3)) (mkCircle (2, 0) 4) 20 = Ok true.
Proof. exact ex_homothety. Qed.

(** test_Inversion.py: the image of a circle; no assertion fails. *)
Theorem C119_invert_circle iota c P1 P2 P3 : 0 < cr c -> ipower iota <> 0 ->
  on_circle (cO c) (cr c) P1 -> on_circle (cO c) (cr c) P2 -> on_circle (cO c) (cr c) P3 ->
  on_circle (cO c) (cr c) (ipole iota) \/ sepsilon_ < Rabs (pow_circle (cO c) (cr c) (ipole iota)) ->
  forall b, test_invert_circle iota c P1 P2 P3 = Ok b -> b = true.
Proof. exact (invert_circle_test_never iota c P1 P2 P3). Qed.
Print Assumptions C119_invert_circle.

(** ... and the test passes. *)
Theorem C119_invert_circle_passes iota c P1 P2 P3 : 0 < cr c -> ipower iota <> 0 ->
  on_circle (cO c) (cr c) P1 -> on_circle (cO c) (cr c) P2 -> on_circle (cO c) (cr c) P3 ->
  sepsilon_ < Rabs (pow_circle (cO c) (cr c) (ipole iota)) ->
  Forall (fun P => allclose (ipole iota) P = false) [P1; P2; P3] ->
  test_invert_circle iota c P1 P2 P3 = Ok true.
Proof. exact (invert_circle_test_ok iota c P1 P2 P3). Qed.
Print Assumptions C119_invert_circle_passes.
Example C119_invert_circle_passes_case : test_invert_circle (mkInv (5, 5) 6) (mkCircle (0, 2) 3) (3, 2) (0, 5) (-3, 2) = Ok true.
Proof. exact ex_invert_circle. Qed.

(** test_Inversion.py: the inversion swapping two circles. *)
Theorem C119_swapping c1 c2 positive : 0 < cr c1 -> 0 < cr c2 ->
  (forall b, test_swapping c1 c2 positive = Ok b -> b = true) /\
  (test_swapping c1 c2 positive = Raise AttributeError <-> cr c1 = cr c2 /\ dist (cO c1) (cO c2) = cr c1 + cr c2) /\
  (forall out iota, from_swapping_two_circles c1 c2 positive = (out, Some iota) ->
     sepsilon_ < Rabs (pow_circle (cO c1) (cr c1) (ipole iota)) -> sepsilon_ < Rabs (pow_circle (cO c2) (cr c2) (ipole iota)) ->
     test_swapping c1 c2 positive = Ok true).
Proof. exact (swapping_test_ok c1 c2 positive). Qed.
Print Assumptions C119_swapping.
Example C119_swapping_case : test_swapping (mkCircle (0, 0) 2) (mkCircle (6, -2) 1) true = Ok true.
Proof. exact ex_swapping. Qed.

(** test_Inversion.py: the inversion fixing two circles. *)
Theorem C119_fixing_two c1 c2 : 0 < cr c1 -> 0 < cr c2 ->
  (forall b, test_fixing_two c1 c2 = Ok b -> b = true) /\
  (test_fixing_two c1 c2 = Ok true <-> exists iota, from_fixing_two_circles c1 c2 = Ok iota /\ sepsilon_ < Rabs (ipower iota)).
Proof. exact (fixing_two_test_ok c1 c2). Qed.
Print Assumptions C119_fixing_two.
Example C119_fixing_two_case : test_fixing_two (mkCircle (0, 0) 1) (mkCircle (4, 0) 2) = Ok true.
Proof. exact ex_fixing_two. Qed.

(** test_Inversion.py: the inversion fixing three circles. *)
Theorem C119_fixing_three c1 c2 c3 : 0 < cr c1 -> 0 < cr c2 -> 0 < cr c3 ->
  (forall b, test_fixing_three c1 c2 c3 = Ok b -> b = true) /\
  (test_fixing_three c1 c2 c3 = Ok true <-> exists iota, from_fixing_three_circles c1 c2 c3 = Ok iota /\ sepsilon_ < Rabs (ipower iota)).
Proof. exact (fixing_three_test_ok c1 c2 c3). Qed.
Print Assumptions C119_fixing_three.
Example C119_fixing_three_case : test_fixing_three (mkCircle (0, 0) 1) (mkCircle (8, 0) 1) (mkCircle (0, 6) 1) = Ok true.
Proof. exact ex_fixing_three. Qed.

(** test_Inversion.py: the composition of two inversions. *)
Theorem C119_compose_inversions iota1 iota2 M : ipower iota1 <> 0 -> ipower iota2 <> 0 ->
  (allclose (ipole iota2) M = true -> M = ipole iota2) ->
  (forall P, invert iota2 (Pt M) = Pt P -> allclose (ipole iota1) P = true -> P = ipole iota1) ->
  test_compose_inversions iota1 iota2 M = Ok true.
Proof. exact (compose_inversions_ok iota1 iota2 M). Qed.
Print Assumptions C119_compose_inversions.
Example C119_compose_inversions_case : test_compose_inversions (mkInv (1, 1) 2) (mkInv (3, 2) 4) (4, 5) = Ok true /\ test_compose_inversions (mkInv (1, 1) 2) (mkInv (3, 2) (-4)) (4, 5) = Ok true.
Proof. exact ex_compose_inversions. Qed.

(** test_MidCircles.py: no assertion fails. *)
Theorem C119_mid_circles c1 c2 : 0 < cr c1 -> 0 < cr c2 ->
  cr c1 = cr c2 \/ / 67108864 <= 4 * cr c1 * cr c2 -> cr c1 <> cr c2 \/ cO c1 = cO c2 \/ allclose (cO c1) (cO c2) = false ->
  (forall gs l c, mid_circles c1 c2 = Ok gs -> In (GL l) gs -> c = c1 \/ c = c2 -> allclose (lA l) (cO c) = false /\ allclose (lB l) (cO c) = false) ->
  forall b, test_mid_circles c1 c2 = Ok b -> b = true.
Proof. exact (mid_circles_ok c1 c2). Qed.
Print Assumptions C119_mid_circles.
Example C119_mid_circles_case : test_mid_circles (mkCircle (1, 2) 3) (mkCircle (14, 15) 3) = Ok true.
Proof. exact ex_mid. Qed.

(** test_Mobius.py: the image of a circle is a circle. *)
Theorem C119_image_circle fuel M c a b d : mdet M <> C0 -> 0 < cr c ->
  (forall r, test_image_circle fuel M c a b d = Some (Ok r) -> r = true) /\
  ((forall p, transform M (Pt p) = Ok Inf -> ~ on_circle (cO c) (cr c) p) ->
   NoDup [circle_point_from_angle c a true; circle_point_from_angle c b true; circle_point_from_angle c d true] ->
   test_image_circle fuel M c a b d = Some (Ok true)).
Proof. exact (image_circle_ok fuel M c a b d). Qed.
Print Assumptions C119_image_circle.
Example C119_image_circle_case fuel : test_image_circle fuel PMobiusEx.exT (mkCircle (2, 3) 4) 0 90 180 = Some (Ok true).
Proof. exact (ex_image_circle fuel). Qed.

(** test_Mobius.py: the image of a circle is a line. *)
Theorem C119_image_circle_line fuel M c a b : mdet M <> C0 -> 0 < cr c ->
  let A := circle_point_from_angle c a true in let B := circle_point_from_angle c b true in
  (forall r, test_image_circle_line fuel M c a b = Some (Ok r) -> r = true) /\
  (forall l A' B', transform_circle fuel M c = Some (Ok (GL l)) -> transform M (Pt A) = Ok (Pt A') -> transform M (Pt B) = Ok (Pt B') ->
     allclose A' B' = false -> test_image_circle_line fuel M c a b = Some (Ok true)).
Proof. exact (image_circle_line_ok fuel M c a b). Qed.
Print Assumptions C119_image_circle_line.
Example C119_image_circle_line_case fuel : test_image_circle_line (S fuel) PMobiusEx.exJ (mkCircle (0, 1) 1) 0 180 = Some (Ok true).
Proof. exact (ex_image_circle_line fuel). Qed.

(** test_Mobius.py: the image of a line is a circle. *)
Theorem C119_image_line M l : mdet M <> C0 -> lA l <> lB l ->
  (forall r, test_image_line M l = Ok r -> r = true) /\
  (forall c, transform_line M l = Ok (GC c) -> test_image_line M l = Ok true).
Proof. exact (image_line_ok M l). Qed.
Print Assumptions C119_image_line.
Example C119_image_line_case : test_image_line PMobiusEx.exJ PMobiusEx.exl = Ok true.
Proof. exact ex_image_line. Qed.

(** test_Mobius.py: three pairs of points. *)
Theorem C119_mapping_three_points P1 P2 P3 Q1 Q2 Q3 :
  (NoDup [P1; P2; P3] -> NoDup [Q1; Q2; Q3] -> test_mapping_three_points P1 P2 P3 Q1 Q2 Q3 = Ok true) /\
  (forall b, test_mapping_three_points P1 P2 P3 Q1 Q2 Q3 = Ok b -> b = true).
Proof. exact (mapping_three_test_ok P1 P2 P3 Q1 Q2 Q3). Qed.
Print Assumptions C119_mapping_three_points.
Example C119_mapping_three_points_case : test_mapping_three_points (1, 2) (3, 4) (7, 7) (2, 1) (4, 4) (-7, 7) = Ok true.
Proof. exact ex_mapping_three. Qed.

(** test_Mobius.py: a circle to a circle; no hypothesis but positive radii. *)
Theorem C119_mapping_one_circle fuel c1 c2 : 0 < cr c1 -> 0 < cr c2 -> test_mapping_one_circle fuel c1 c2 = Some (Ok true).
Proof. exact (mapping_one_circle_ok fuel c1 c2). Qed.
Print Assumptions C119_mapping_one_circle.

(** test_Mobius.py: the generalized power; the last assertion divides by the first entry of a
    matrix. *)
Theorem C119_gpower arg eig M n : is_arg arg -> eig_ok eig M -> mdet M <> C0 -> gpower_domain M ->
  exists N, power M (- INR n) = Ok N /\ (ma N <> C0 -> test_gpower arg eig M n = Ok true) /\ (ma N = C0 -> test_gpower arg eig M n = Ok false).
Proof. exact (gpower_test_ok arg eig M n). Qed.
Print Assumptions C119_gpower.
Example C119_gpower_case arg eig : is_arg arg -> eig_ok eig (mkMob C1 (RtoC (-1)) C1 C1) -> test_gpower arg eig (mkMob C1 (RtoC (-1)) C1 C1) 1 = Ok true.
Proof. exact (ex_gpower arg eig). Qed.

(** ... which is 0 for the power -2 of [[1, -1], [1, 1]]. *)
Theorem C119_gpower_refuted arg eig : is_arg arg -> eig_ok eig (mkMob C1 (RtoC (-1)) C1 C1) ->
  test_gpower arg eig (mkMob C1 (RtoC (-1)) C1 C1) 2 = Ok false.
Proof. exact (gpower_test_refuted arg eig). Qed.
Print Assumptions C119_gpower_refuted.

(** test_Rotation.py. *)
Theorem C119_rotate_ellipse r ell : 0 < eb ell < ea ell -> test_rotate_ellipse r ell = Ok true.
Proof. exact (rotate_ellipse_test r ell). Qed.
Print Assumptions C119_rotate_ellipse.
Example C119_rotate_ellipse_case : test_rotate_ellipse (mkRot (1, 2) (PI / 5) false) (mkEllipse (5, 4) 3 2 30 true) = Ok true.
Proof. exact ex_rotate. Qed.

(** test_Scaling.py; the scale of the test is 2.  With a scale smaller than -1 it fails. *)
Theorem C119_scale_circle S c : scw S <> (0, 0) -> 0 < cr c ->
  (scs S = 0 -> test_scale_circle S c = Raise ValueError) /\
  (-1 < scs S -> scs S <> 0 -> scs S <> 1 -> test_scale_circle S c = Ok true) /\
  (scs S < -1 -> allclose1 (cr c) (- scs S * cr c) = false -> test_scale_circle S c = Ok false).
Proof. exact (scale_circle_test S c). Qed.
Print Assumptions C119_scale_circle.
Example C119_scale_circle_case : test_scale_circle (mkScaling (1, 1) (2, 3) 2) (mkCircle (-1, 2) 4) = Ok true /\ test_scale_circle (mkScaling (1, 1) (2, 3) (-2)) (mkCircle (-1, 2) 4) = Ok false.
Proof. exact ex_scale. Qed.

(** test_Triangle.py: random points of a triangle. *)
Theorem C119_contains t n draws : ~ collinear (tA t) (tB t) (tC t) -> (0 < n)%Z -> Forall (fun d => 0 < fst d < 1 /\ 0 < snd d < 1) draws -> test_contains t n draws = Ok true.
Proof. exact (contains_test t n draws). Qed.
Print Assumptions C119_contains.
Example C119_contains_case : test_contains (mkTri (0, 0) (1, 5) (3, 3)) 3 [(/ 2, / 3); (/ 4, / 7); (/ 5, / 2)] = Ok true.
Proof. exact ex_contains. Qed.

(** A drawn number 0 gives a point of the side AB. *)
Theorem C119_contains_refuted t n q : (0 < n)%Z -> test_contains t n [(0, q)] = Ok false.
Proof. exact (contains_test_refuted t n q). Qed.
Print Assumptions C119_contains_refuted.

(** test_Triangle.py: the Malfatti circles and their tangency points. *)
Theorem C119_malfatti t : ~ collinear (tA t) (tB t) (tC t) -> exists c1 c2 c3 T,
  malfatti_circles t = Ok (Some ((c1, c2, c3), T)) /\
  (circle_is_equal c1 c2 = false -> circle_is_equal c1 c3 = false -> circle_is_equal c2 c3 = false -> test_malfatti t = Ok true) /\
  (circle_is_equal c1 c2 = true \/ circle_is_equal c1 c3 = true \/ circle_is_equal c2 c3 = true -> test_malfatti t = Ok false).
Proof. exact (malfatti_test t). Qed.
Print Assumptions C119_malfatti.
Example C119_malfatti_case : test_malfatti (mkTri (0, 0) (4, 0) (0, 3)) = Ok true.
Proof. exact ex_malfatti_test. Qed.

(** test_Triangle.py: the excircles are tangent to the sides. *)
Theorem C119_excircles t : allclose (tA t) (tB t) = false -> allclose (tA t) (tC t) = false -> allclose (tB t) (tC t) = false -> ~ collinear (tA t) (tB t) (tC t) -> test_excircles t = Ok true.
Proof. exact (excircles_test t). Qed.
Print Assumptions C119_excircles.
Example C119_excircles_case : test_excircles (mkTri (0, 0) (1, 5) (3, 3)) = Ok true.
Proof. exact ex_excircles. Qed.

(** test_intersections.py: two circumcircles with a common side. *)
Theorem C119_circumcircles A B C D : ~ collinear A B C -> ~ collinear A B D -> exists c1 c2, circumcircle (mkTri A B C) = Ok (Some c1) /\ circumcircle (mkTri A B D) = Ok (Some c2) /\
  let d2 := dist2 (cO c1) (cO c2) in
  (circle_is_equal c1 c2 = false /\ (cr c1 - cr c2) ^ 2 + / 67108864 <= d2 <= (cr c1 + cr c2) ^ 2 - / 67108864 -> test_circumcircles A B C D = Ok true) /\
  (~ (circle_is_equal c1 c2 = false /\ (cr c1 - cr c2) ^ 2 + / 67108864 <= d2 <= (cr c1 + cr c2) ^ 2 - / 67108864) -> test_circumcircles A B C D = Ok false).
Proof. exact (circumcircles_test A B C D). Qed.
Print Assumptions C119_circumcircles.
Example C119_circumcircles_case : test_circumcircles (0, 0) (2, 0) (3, 2) (3, -3) = Ok true.
Proof. exact ex_circumcircles. Qed.

