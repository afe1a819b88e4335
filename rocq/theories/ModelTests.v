(** * The unit tests of the repository, as functions of their data.

    The files of /repo/tests fix the points, circles, ... of each test.  Here each test is a
    function of these data: [Ok true] means that all the assertions hold, [Ok false] that an
    assertion fails, [Raise e] that an exception interrupts the test. *)

From Coq Require Import Reals ZArith List Bool.
From Verif Require Import Base ModelInternal ModelLine ModelCircle ModelTriangle ModelInversion ModelAffine ModelEllipse
  ModelTransfo ModelMobius.
Import ListNotations.
Local Open Scope R_scope.

(** geometry.py:383-384 [is_equal] of a circle with an object that may be a line *)
Definition circle_is_equal_g (c : circle) (g : gcircle) : res bool :=
  match g with GC c' => Ok (circle_is_equal c c') | GL _ => Raise ValueError end.

(** [np.allclose] of two results that may be the number inf *)
Definition allclose_e (P Q : ept) : bool :=
  match P, Q with Pt P, Pt Q => allclose P Q | Inf, Inf => true | _, _ => false end.

(** test_Affine.py:12-22 *)
Definition test_affine_three_points (P1 P2 P3 Q1 Q2 Q3 : pt) : res bool :=
  let! f := affine_from_three_points P1 P2 P3 Q1 Q2 Q3 in
  match f with
  | None => Raise AttributeError
  | Some f => Ok (pt_eqb Q1 (affine_transform f P1) && pt_eqb Q2 (affine_transform f P2) && pt_eqb Q3 (affine_transform f P3))
  end.

(** test_Circle.py:4-8; [is_orthogonal] of a line is a ValueError (geometry.py:615-616), and
    [math.isclose] of None a TypeError *)
Definition test_orthogonal (circ1 : circle) (alpha1 alpha2 : R) : res bool :=
  let! o := orthogonal_through_two_points_on_circle circ1 alpha1 alpha2 false in
  match o with
  | OCircle circ2 =>
      if is_orthogonal circ1 circ2 then
        let! t := circle_angle circ1 circ2 in
        match t with None => Raise TypeError | Some t => Ok (isclose t (PI / 2)) end
      else Ok false
  | _ => Raise ValueError
  end.

(** test_CrossRatio.py:6-13 *)
Definition test_cross_ratio_real (circ : circle) (a b c d : R) : res bool :=
  let! cr := cross_ratio (circle_point_from_angle circ a true) (circle_point_from_angle circ b true)
                         (circle_point_from_angle circ c true) (circle_point_from_angle circ d true) in
  Ok (approx_equal_ (snd cr) 0).

(** test_CrossRatio.py:15-26; the cross ratio with the number inf is a ValueError
    (geometry.py:2626-2629) *)
Definition test_cross_ratio_invariant (mob : mobius) (A B C D : pt) : res bool :=
  let! cr := cross_ratio A B C D in
  let! A' := transform mob (Pt A) in
  let! B' := transform mob (Pt B) in
  let! C' := transform mob (Pt C) in
  let! D' := transform mob (Pt D) in
  match A', B', C', D' with
  | Pt A', Pt B', Pt C', Pt D' =>
      let! cr2 := cross_ratio A' B' C' D' in
      Ok (approx_equal_ (fst cr) (fst cr2) && approx_equal_ (snd cr) (snd cr2))
  | _, _, _, _ => Raise ValueError
  end.

(** test_Ellipse.py:6-10 *)
Definition test_ellipse_equation (eigvals : mat2 -> R * R) (ell : ellipse) : res bool :=
  let '(A, B, C, D, E, F) := ellipse_equation ell in
  let! ell2 := ellipse_from_equation eigvals A B C D E F in
  Ok (ellipse_is_equal ell ell2).

(** test_Ellipse.py:12-22, with [n] points of the path *)
Definition test_affine_ellipse (f : affine) (ell0 : ellipse) (n : Z) : res bool :=
  let! ell1 := affine_transform_ellipse f (AEllipse ell0) in
  let! path0 := ellipse_path ell0 n in
  match ell1 with
  | None => Raise AttributeError
  | Some ell1 => Ok (forallb (fun P => ellipse_includes ell1 (affine_transform f P)) path0)
  end.

(** test_Ellipse.py:24-29 and 31-36 *)
Definition test_ellipse_random_on (ell : ellipse) (n : Z) (draws : list (R * pt)) : res bool :=
  let! rpoints := ellipse_random_points ell n WhereOn draws in
  Ok (forallb (ellipse_includes ell) rpoints).
Definition test_ellipse_random_in (ell : ellipse) (n : Z) (draws : list (R * pt)) : res bool :=
  let! rpoints := ellipse_random_points ell n WhereIn draws in
  Ok (forallb (ellipse_contains ell) rpoints).

(** test_Ellipse.py:38-43 *)
Definition test_ellipse_five_points (eigvals : mat2 -> R * R) (ell : ellipse) (d1 d2 d3 d4 d5 : R * pt) : res bool :=
  let! pts := ellipse_random_points ell 5 WhereOn [d1; d2; d3; d4; d5] in
  match pts with
  | [P1; P2; P3; P4; P5] =>
      let! ell2 := ellipse_from_five_points eigvals P1 P2 P3 P4 P5 in
      Ok (ellipse_is_equal ell ell2)
  | _ => Raise TypeError
  end.

(** test_Ellipse.py:45-49 *)
Definition test_ellipse_matrix (eigh : mat2 -> eigh_res) (ell : ellipse) : res bool :=
  let! Sm := shape_matrix ell in
  let! ell2 := from_center_and_matrix eigh (eO ell) Sm in
  Ok (ellipse_is_equal ell ell2).

(** test_Ellipse.py:51-57; the lengths 10 and 8 of the test are twice the radii 5 and 4 *)
Definition test_ellipse_diameter (ell : ellipse) : res bool :=
  let! l1 := ellipse_diameter ell 0 false in
  let! l2 := ellipse_diameter ell (PI / 2) false in
  match l1, l2 with
  | [majorAxis], [minorAxis] =>
      Ok (is_perpendicular majorAxis minorAxis
          && approx_equal_ (distance_ (lA majorAxis) (lB majorAxis)) (2 * ea ell)
          && approx_equal_ (distance_ (lA minorAxis) (lB minorAxis)) (2 * eb ell))
  | _, _ => Raise AttributeError
  end.

(** test_Homothety.py:3-9 *)
Definition test_homothety_circle (H : homothety) (circ : circle) (alpha : R) : res bool :=
  let M := circle_point_from_angle circ alpha true in
  let! imcirc := homothety_transform_circle H circ in
  Ok (circle_includes imcirc (homothety_transform H M)).

(** test_Inversion.py:4-13; [includes] of a line is geometry.py:169-203, with the default
    arguments *)
Definition gcircle_includes_e (g : gcircle) (P : ept) : res bool :=
  match g, P with
  | GC c, Pt P => Ok (circle_includes c P)
  | GL l, Pt P => line_includes l P false true
  | _, Inf => Raise ValueError
  end.
Definition test_invert_circle (iota : inversion) (circ0 : circle) (P1 P2 P3 : pt) : res bool :=
  let! circ1 := invert_circle iota circ0 in
  let! b1 := gcircle_includes_e circ1 (invert iota (Pt P1)) in
  let! b2 := gcircle_includes_e circ1 (invert iota (Pt P2)) in
  let! b3 := gcircle_includes_e circ1 (invert iota (Pt P3)) in
  Ok (b1 && b2 && b3).

(** test_Inversion.py:20-22, a block repeated sixteen times *)
Definition test_swapping (circ1 circ2 : circle) (positive : bool) : res bool :=
  match snd (from_swapping_two_circles circ1 circ2 positive) with
  | None => Raise AttributeError
  | Some iota =>
      let! g2 := invert_circle iota circ2 in
      let! b1 := circle_is_equal_g circ1 g2 in
      let! g1 := invert_circle iota circ1 in
      let! b2 := circle_is_equal_g circ2 g1 in
      Ok (b1 && b2)
  end.

(** test_Inversion.py:93-100 *)
Definition test_fixing_two (circ1 circ2 : circle) : res bool :=
  let! iota := from_fixing_two_circles circ1 circ2 in
  let! newcirc1 := invert_circle iota circ1 in
  let! newcirc2 := invert_circle iota circ2 in
  let! b1 := circle_is_equal_g circ1 newcirc1 in
  let! b2 := circle_is_equal_g circ2 newcirc2 in
  Ok (b1 && b2).

(** test_Inversion.py:102-112 *)
Definition test_fixing_three (circ1 circ2 circ3 : circle) : res bool :=
  let! iota := from_fixing_three_circles circ1 circ2 circ3 in
  let! newcirc1 := invert_circle iota circ1 in
  let! newcirc2 := invert_circle iota circ2 in
  let! newcirc3 := invert_circle iota circ3 in
  let! b1 := circle_is_equal_g circ1 newcirc1 in
  let! b2 := circle_is_equal_g circ2 newcirc2 in
  let! b3 := circle_is_equal_g circ3 newcirc3 in
  Ok (b1 && b2 && b3).

(** test_Inversion.py:114-128 *)
Definition test_compose_inversions (iota1 iota2 : inversion) (M : pt) : res bool :=
  let P := invert iota1 (invert iota2 (Pt M)) in
  let Mob := inversion_compose iota2 iota1 true in
  let! Q := transform Mob (Pt M) in
  Ok (allclose_e P Q).

(** test_MidCircles.py: the block after [isinstance(mc, Line)] (lines 9-11), and the one after
    [isinstance(mc, Circle)] (lines 36-38) *)
Definition test_mid_one (circ1 circ2 : circle) (g : gcircle) : res bool :=
  match g with
  | GL l =>
      let! R := Reflection_init l in
      let! c1 := reflect_circle R circ1 in
      let! c2 := reflect_circle R circ2 in
      Ok (circle_is_equal c1 circ2 && circle_is_equal c2 circ1)
  | GC c =>
      let iota := inversion_on_circle c in
      let! g1 := invert_circle iota circ1 in
      let! g2 := invert_circle iota circ2 in
      match g1, g2 with
      | GC c1, GC c2 => Ok (circle_is_equal c1 circ2 && circle_is_equal c2 circ1)
      | _, _ => Raise ValueError
      end
  end.

(** test_MidCircles.py:3-76: the blocks for the returned object, or for the two members of the
    returned list *)
Definition test_mid_circles (circ1 circ2 : circle) : res bool :=
  let! mc := mid_circles circ1 circ2 in
  let! bs := mapM (test_mid_one circ1 circ2) mc in
  Ok (forallb (fun b => b) bs).

(** [Triangle(P, Q, R).circumcircle()] of results of [Mobius.transform]; the constructor
    refuses the number inf *)
Definition circumcircle_e (P Q R : ept) : res (option circle) :=
  match P, Q, R with
  | Pt P, Pt Q, Pt R => circumcircle (mkTri P Q R)
  | _, _, _ => Raise ValueError
  end.

(** test_Mobius.py:9-14 (and 17-22); [is_equal(None)] is a ValueError *)
Definition test_image_circle (fuel : nat) (Mob : mobius) (circ : circle) (a b c : R) : option (res bool) :=
  match transform_circle fuel Mob circ with
  | None => None
  | Some g => Some (
      let! g := g in
      let! P := transform Mob (Pt (circle_point_from_angle circ a true)) in
      let! Q := transform Mob (Pt (circle_point_from_angle circ b true)) in
      let! R := transform Mob (Pt (circle_point_from_angle circ c true)) in
      let! circ2 := circumcircle_e P Q R in
      match g, circ2 with
      | GC circ1, Some circ2 => Ok (circle_is_equal circ1 circ2)
      | _, _ => Raise ValueError
      end)
  end.

(** test_Mobius.py:25-29 *)
Definition test_image_circle_line (fuel : nat) (Mob : mobius) (circ : circle) (a b : R) : option (res bool) :=
  match transform_circle fuel Mob circ with
  | None => None
  | Some g => Some (
      let! g := g in
      let! P := transform Mob (Pt (circle_point_from_angle circ a true)) in
      let! Q := transform Mob (Pt (circle_point_from_angle circ b true)) in
      let! line2 := Line_init_ext P Q in
      match g with
      | GL line1 => Ok (line_is_equal line1 line2)
      | GC _ => Raise ValueError
      end)
  end.

(** test_Mobius.py:37-43 *)
Definition test_image_line (Mob : mobius) (l : line) : res bool :=
  let! g := transform_line Mob l in
  let! P := transform Mob (Pt (lA l)) in
  let! Q := transform Mob (Pt (lB l)) in
  let! R := transform Mob (Pt (vscal (/ 2) (vadd (lA l) (lB l)))) in
  let! circ2 := circumcircle_e P Q R in
  match g, circ2 with
  | GC circ1, Some circ2 => Ok (circle_is_equal circ1 circ2)
  | _, _ => Raise ValueError
  end.

(** test_Mobius.py:45-58 *)
Definition test_mapping_three_points (P1 P2 P3 Q1 Q2 Q3 : pt) : res bool :=
  let! Mob := from_mapping_three_points (Pt P1) (Pt P2) (Pt P3) (Pt Q1) (Pt Q2) (Pt Q3) in
  match Mob with
  | None => Raise AttributeError
  | Some Mob =>
      let! R1 := transform Mob (Pt P1) in
      let! R2 := transform Mob (Pt P2) in
      let! R3 := transform Mob (Pt P3) in
      Ok (allclose_e (Pt Q1) R1 && allclose_e (Pt Q2) R2 && allclose_e (Pt Q3) R3)
  end.

(** test_Mobius.py:60-65 *)
Definition test_mapping_one_circle (fuel : nat) (circ1 circ2 : circle) : option (res bool) :=
  match transform_circle fuel (from_mapping_one_circle circ1 circ2) circ1 with
  | None => None
  | Some g => Some (let! circ3 := g in circle_is_equal_g circ2 circ3)
  end.

(** test_Mobius.py:71-77, with the exponents [n] and [-n]; the quotient by a zero entry is nan
    or inf, and the last assertion fails *)
Definition test_gpower (arg : C -> R) (eig : mobius -> C * C * mobius) (Mob : mobius) (n : nat) : res bool :=
  let! pow := ModelMobius.power Mob (INR n) in
  let! gpow := gpower arg eig Mob (INR n) in
  if mallclose pow gpow then
    let! powminus := ModelMobius.power Mob (- INR n) in
    let! gpowminus := gpower arg eig Mob (- INR n) in
    if Ceqb (ma gpowminus) C0 then Ok false
    else
      let f := (ma powminus / ma gpowminus)%C in
      Ok (mallclose powminus (mkMob (f * ma gpowminus) (f * mb gpowminus) (f * mc gpowminus) (f * md gpowminus))%C)
  else Ok false.

(** test_Rotation.py:15-19 *)
Definition test_rotate_ellipse (R : rotation) (ell : ellipse) : res bool :=
  let f := rotation_as_affine R in
  let! ell1 := rotate_ellipse R ell in
  let! ell2 := affine_transform_ellipse f (AEllipse ell) in
  match ell2 with None => Raise ValueError | Some ell2 => Ok (ellipse_is_equal ell1 ell2) end.

(** test_Scaling.py:3-9 *)
Definition test_scale_circle (S : scaling) (circ : circle) : res bool :=
  let! f := scaling_as_affine S in
  let! ell1 := scale_circle S circ in
  let! ell2 := affine_transform_ellipse f (ACircle circ) in
  match ell2 with None => Raise ValueError | Some ell2 => Ok (ellipse_is_equal ell1 ell2) end.

(** test_Triangle.py:6-12 *)
Definition test_contains (t : triangle) (n : Z) (draws : list (R * R)) : res bool :=
  let! pts := triangle_random_points t n WhereIn draws in
  Ok (forallb (triangle_contains t) pts).

(** [is_point_(I)]: one point was returned *)
Definition one_point (i : ccinter) : option pt :=
  match i with CCPoints (IOne P) => Some P | _ => None end.

(** test_Triangle.py:14-27 *)
Definition test_malfatti (t : triangle) : res bool :=
  let! m := malfatti_circles t in
  match m with
  | None => Raise TypeError
  | Some ((C1, C2, C3), (TA, TB, TC)) =>
      let! I1 := intersection_circle_circle C1 C2 in
      let! I2 := intersection_circle_circle C1 C3 in
      let! I3 := intersection_circle_circle C2 C3 in
      match one_point I1, one_point I2, one_point I3 with
      | Some I1, Some I2, Some I3 => Ok (allclose TA I3 && allclose TB I2 && allclose TC I1)
      | _, _, _ => Ok false
      end
  end.

(** test_Triangle.py:29-46 *)
Definition is_one (i : inter) : bool := match i with IOne _ => true | _ => false end.
Definition test_excircles (t : triangle) : res bool :=
  let! AB := Line_init (tA t) (tB t) true true in
  let! AC := Line_init (tA t) (tC t) true true in
  let! BC := Line_init (tB t) (tC t) true true in
  let! e := excircles t in
  let '(eA, eB, eC) := e in
  let! IAB := intersection_circle_line eA AB in
  let! IAC := intersection_circle_line eA AC in
  let! IBA := intersection_circle_line eB AB in
  let! IBC := intersection_circle_line eB BC in
  let! ICA := intersection_circle_line eC AC in
  let! ICB := intersection_circle_line eC BC in
  Ok (is_one IAB && is_one IAC && is_one IBA && is_one IBC && is_one ICA && is_one ICB).

(** test_intersections.py:6-17; [type(Is) == list] *)
Definition test_circumcircles (A B C D : pt) : res bool :=
  let! c1 := circumcircle (mkTri A B C) in
  let! c2 := circumcircle (mkTri A B D) in
  match c1, c2 with
  | Some c1, Some c2 =>
      let! Is := intersection_circle_circle c1 c2 in
      match Is with
      | CCPoints (ITwo P Q) => Ok ((allclose P A || allclose P B) && (allclose Q A || allclose Q B))
      | _ => Ok false
      end
  | _, _ => Raise AttributeError
  end.
