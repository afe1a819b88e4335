(** * Properties of triangles: C42-C51, and the triangle part of C20; C54 on the
    whole plane.  Every proof is one line; the work is in the P*.v files. *)

From Coq Require Import Reals List Bool ZArith.
From Verif Require Import Base Spec SpecTriangle ModelInternal ModelLine ModelCircle ModelAffine ModelEllipse ModelTransfo ModelTriangle
  PTriangle PTriangle2 PTriangle3 PTriangle4 PTriangle5 PTriangle6 PTriangleEx.
Import ListNotations.
Local Open Scope R_scope.

(** ** C20, Triangle.random_points *)
Theorem C20_triangle_random_points A B C n w draws ps :
  Forall (fun d => 0 <= fst d < 1 /\ 0 <= snd d < 1) draws ->
  triangle_random_points (mkTri A B C) n w draws = Ok ps ->
  length ps = length draws /\
  match w with
  | WhereIn => Forall (in_closed_triangle A B C) ps
  | WhereOn => Forall (fun M => on_segment A B M \/ on_segment B C M \/ on_segment C A M) ps
  | WhereOther => False
  end.
Proof. exact (triangle_random_spec A B C n w draws ps). Qed.
Print Assumptions C20_triangle_random_points.

Theorem C20_triangle_random_points_total A B C n w draws : (0 < n)%Z -> w <> WhereOther -> A <> B ->
  Forall (fun d => 0 <= fst d < 1 /\ 0 <= snd d < 1) draws ->
  exists ps, triangle_random_points (mkTri A B C) n w draws = Ok ps.
Proof. exact (triangle_random_total A B C n w draws). Qed.
Print Assumptions C20_triangle_random_points_total.

Theorem C20_triangle_random_points_raise T n w draws :
  (n <= 0)%Z \/ w = WhereOther -> triangle_random_points T n w draws = Raise ValueError.
Proof. exact (triangle_random_raises T n w draws). Qed.
Print Assumptions C20_triangle_random_points_raise.

(** every interior point, and every point of the boundary, is reached by some draw *)
Theorem C20_triangle_random_points_onto A B C M : A <> B -> A <> C -> B <> C ->
  (inside_triangle A B C M -> exists u v, 0 <= u < 1 /\ 0 <= v < 1 /\
     triangle_random_points (mkTri A B C) 1 WhereIn [(u, v)] = Ok [M]) /\
  (on_segment A B M \/ on_segment B C M \/ on_segment C A M -> exists u, 0 <= u < 1 /\
     forall v, triangle_random_points (mkTri A B C) 1 WhereOn [(u, v)] = Ok [M]).
Proof. exact (triangle_random_onto A B C M). Qed.
Print Assumptions C20_triangle_random_points_onto.

Example C20_triangle_example : exists p1 p2,
  triangle_random_points (mkTri (0, 0) (4, 0) (0, 3)) 1 WhereIn [(/ 2, / 4)] = Ok [p1] /\
  triangle_random_points (mkTri (0, 0) (4, 0) (0, 3)) 1 WhereOn [(/ 2, / 4)] = Ok [p2].
Proof. exact ex_C20_triangle. Qed.

(** ** C42, orientation *)
Theorem C42_orientation A B C :
  (orientation (mkTri A B C) = 0%Z <-> collinear A B C) /\
  (orientation (mkTri A B C) = (-1)%Z <-> counterclockwise A B C) /\
  (orientation (mkTri A B C) = 1%Z <-> clockwise A B C).
Proof. exact (orientation_spec (mkTri A B C)). Qed.
Print Assumptions C42_orientation.

Theorem C42_documented_orientation_refuted : exists A B C,
  counterclockwise A B C /\ orientation (mkTri A B C) <> 1%Z.
Proof. exact ex_C42_refuted. Qed.
Print Assumptions C42_documented_orientation_refuted.

Example C42_example : counterclockwise (0, 0) (4, 0) (0, 3) /\ orientation (mkTri (0, 0) (4, 0) (0, 3)) = (-1)%Z.
Proof. exact (conj T345_ccw ex_C42). Qed.

(** ** C43, contains *)
Theorem C43_contains A B C M :
  triangle_contains (mkTri A B C) M = true <-> ~ collinear A B C /\ inside_triangle A B C M.
Proof. exact (contains_spec (mkTri A B C) M). Qed.
Print Assumptions C43_contains.

Example C43_example : let T := mkTri (0, 0) (4, 0) (0, 3) in
  triangle_contains T (1, 1) = true /\ triangle_contains T (3, 3) = false /\ triangle_contains T (2, 0) = false.
Proof. exact ex_C43. Qed.

(** ** C44, angles, flatness, is_acute *)
Theorem C44_angles A B C : A <> B -> A <> C -> B <> C -> exists al be ga,
  angleA (mkTri A B C) = Ok al /\ angleB (mkTri A B C) = Ok be /\ angleC (mkTri A B C) = Ok ga /\
  is_angle B A C al /\ is_angle A B C be /\ is_angle A C B ga /\ al + be + ga = PI.
Proof. exact (angles_spec A B C). Qed.
Print Assumptions C44_angles.

Theorem C44_angle_open A B C al : ~ collinear A B C -> is_angle B A C al -> 0 < al < PI.
Proof. exact (angle_open A B C al). Qed.
Print Assumptions C44_angle_open.

Theorem C44_is_acute A B C al be ga : A <> B -> A <> C -> B <> C ->
  is_angle B A C al -> is_angle A B C be -> is_angle A C B ga ->
  (is_acute (mkTri A B C) = true <-> al <= PI / 2 /\ be <= PI / 2 /\ ga <= PI / 2).
Proof. exact (is_acute_angles A B C al be ga). Qed.
Print Assumptions C44_is_acute.

Theorem C44_flatness A B C f : flatness (mkTri A B C) = Ok f ->
  A <> B /\ A <> C /\ 0 <= f <= 1 /\ (f = 1 <-> collinear A B C) /\
  f * (dist2 A B * dist2 A C) = sdot (vsub B A) (vsub C A) ^ 2.
Proof. exact (flatness_spec (mkTri A B C) f). Qed.
Print Assumptions C44_flatness.

Theorem C44_flatness_raise A B C e :
  flatness (mkTri A B C) = Raise e <-> e = ZeroDivisionError /\ (A = B \/ A = C).
Proof. exact (flatness_raise (mkTri A B C) e). Qed.
Print Assumptions C44_flatness_raise.

Example C44_example : exists f, flatness (mkTri (0, 0) (4, 0) (0, 3)) = Ok f /\ f = 0 /\
  is_acute (mkTri (0, 0) (4, 0) (0, 3)) = true.
Proof. exact ex_C44. Qed.

(** ** C45, circumcircle *)
Theorem C45_circumcircle A B C c : circumcircle (mkTri A B C) = Ok (Some c) ->
  ~ collinear A B C /\ 0 < cr c /\
  on_circle (cO c) (cr c) A /\ on_circle (cO c) (cr c) B /\ on_circle (cO c) (cr c) C /\
  (forall O r, 0 <= r -> on_circle O r A -> on_circle O r B -> on_circle O r C -> O = cO c /\ r = cr c).
Proof. exact (circumcircle_spec (mkTri A B C) c). Qed.
Print Assumptions C45_circumcircle.

Theorem C45_circumcircle_none A B C :
  circumcircle (mkTri A B C) = Ok None <-> A <> B /\ A <> C /\ collinear A B C.
Proof. exact (circumcircle_none (mkTri A B C)). Qed.
Print Assumptions C45_circumcircle_none.

Theorem C45_circumcircle_raise A B C e :
  circumcircle (mkTri A B C) = Raise e <-> e = ZeroDivisionError /\ (A = B \/ A = C).
Proof. exact (circumcircle_raise (mkTri A B C) e). Qed.
Print Assumptions C45_circumcircle_raise.

Example C45_example : circumcircle (mkTri (0, 0) (4, 0) (0, 3)) = Ok (Some (mkCircle (2, 3 / 2) (5 / 2))).
Proof. exact ex_C45. Qed.

(** ** C46, incircle *)
Theorem C46_incircle A B C : ~ collinear A B C -> exists c, incircle (mkTri A B C) = Ok c /\ 0 < cr c /\
  inside_triangle A B C (cO c) /\
  (exists F, line_tangent_at A B (cO c) (cr c) F /\ on_segment A B F) /\
  (exists F, line_tangent_at B C (cO c) (cr c) F /\ on_segment B C F) /\
  (exists F, line_tangent_at C A (cO c) (cr c) F /\ on_segment C A F).
Proof. exact (incircle_spec A B C). Qed.
Print Assumptions C46_incircle.

Theorem C46_incircle_flat A B C : collinear A B C -> ~ (A = B /\ A = C) -> incircle (mkTri A B C) = Raise ValueError.
Proof. exact (incircle_flat A B C). Qed.
Print Assumptions C46_incircle_flat.

Example C46_example : incircle (mkTri (0, 0) (4, 0) (0, 3)) = Ok (mkCircle (1, 1) 1).
Proof. exact ex_C46. Qed.

(** ** C47, excircles *)
Theorem C47_excircles A B C :
  let excircle A B C c :=
    0 < cr c /\ line_tangent A B (cO c) (cr c) /\ line_tangent C A (cO c) (cr c) /\
    (exists F, line_tangent_at B C (cO c) (cr c) F /\ on_segment B C F) /\
    opposite_sides B C A (cO c) /\ same_side A B C (cO c) /\ same_side C A B (cO c) in
  ~ collinear A B C -> exists cA cB cC,
  excircles (mkTri A B C) = Ok (cA, cB, cC) /\ excircle A B C cA /\ excircle B C A cB /\ excircle C A B cC.
Proof. exact (excircles_spec A B C). Qed.
Print Assumptions C47_excircles.

Theorem C47_excircles_flat A B C : collinear A B C -> ~ (A = B /\ A = C) -> excircles (mkTri A B C) = Raise ValueError.
Proof. exact (excircles_flat A B C). Qed.
Print Assumptions C47_excircles_flat.

Example C47_example : exists cA cB cC, excircles (mkTri (0, 0) (4, 0) (0, 3)) = Ok (cA, cB, cC).
Proof. exact ex_C47. Qed.

(** ** C48, orthic_triangle *)
Theorem C48_orthic_triangle A B C : A <> B -> A <> C -> B <> C -> exists T, orthic_triangle (mkTri A B C) = Ok T /\
  altitude_foot A B C (tA T) /\ altitude_foot B C A (tB T) /\ altitude_foot C A B (tC T).
Proof. exact (orthic_spec A B C). Qed.
Print Assumptions C48_orthic_triangle.

(** a right angle at A: the code divides by zero and still answers *)
Example C48_example : exists T, orthic_triangle (mkTri (0, 0) (4, 0) (0, 3)) = Ok T /\ tB T = (0, 0).
Proof. exact ex_C48. Qed.

(** ** C49, malfatti_circles *)
Theorem C49_malfatti_circles A B C :
  let corner A B C c :=
    0 < cr c /\ inside_triangle A B C (cO c) /\
    (exists F, line_tangent_at A B (cO c) (cr c) F /\ on_segment A B F) /\
    (exists F, line_tangent_at A C (cO c) (cr c) F /\ on_segment A C F) in
  ~ collinear A B C -> exists cA cB cC TA TB TC,
  malfatti_circles (mkTri A B C) = Ok (Some ((cA, cB, cC), (TA, TB, TC))) /\
  corner A B C cA /\ corner B C A cB /\ corner C A B cC /\
  ext_tangent (cO cA) (cr cA) (cO cB) (cr cB) /\ ext_tangent (cO cB) (cr cB) (cO cC) (cr cC) /\
  ext_tangent (cO cA) (cr cA) (cO cC) (cr cC) /\
  (on_circle (cO cB) (cr cB) TA /\ on_circle (cO cC) (cr cC) TA) /\
  (on_circle (cO cA) (cr cA) TB /\ on_circle (cO cC) (cr cC) TB) /\
  (on_circle (cO cA) (cr cA) TC /\ on_circle (cO cB) (cr cB) TC).
Proof. exact (malfatti_spec A B C). Qed.
Print Assumptions C49_malfatti_circles.

Theorem C49_malfatti_flat A B C : collinear A B C -> A <> B -> A <> C -> malfatti_circles (mkTri A B C) = Ok None.
Proof. exact (malfatti_flat A B C). Qed.
Print Assumptions C49_malfatti_flat.

Theorem C49_malfatti_raise A B C : A = B \/ A = C -> malfatti_circles (mkTri A B C) = Raise ZeroDivisionError.
Proof. exact (malfatti_raise A B C). Qed.
Print Assumptions C49_malfatti_raise.

Example C49_example : exists r, malfatti_circles (mkTri (0, 0) (4, 0) (0, 3)) = Ok (Some r).
Proof. exact ex_C49. Qed.

(** ** C50, equal_detour_point *)
Theorem C50_equal_detour_point A B C : ~ collinear A B C -> exists P d, equal_detour_point (mkTri A B C) = Ok (P, d) /\
  inside_triangle A B C P /\
  dist P A + dist P B - dist A B = d /\ dist P B + dist P C - dist B C = d /\ dist P C + dist P A - dist C A = d.
Proof. exact (equal_detour_spec A B C). Qed.
Print Assumptions C50_equal_detour_point.

Example C50_example : exists P d, equal_detour_point (mkTri (0, 0) (4, 0) (0, 3)) = Ok (P, d).
Proof. exact ex_C50. Qed.

(** ** C51, Steiner ellipse and inellipse *)
Theorem C51_steiner_ellipse A B C : ~ collinear A B C -> allclose A B = false -> allclose A C = false -> allclose B C = false ->
  exists e, steiner_ellipse (mkTri A B C) = Ok (Some e) /\
    let on := on_ellipse (eO e) (ea e) (eb e) (radians (edeg e) (ealpha e)) in
    0 < eb e <= ea e /\ eO e = centroid A B C /\ on A /\ on B /\ on C /\
    (forall O a b th, 0 < a -> 0 < b -> in_ellipse O a b th A -> in_ellipse O a b th B -> in_ellipse O a b th C -> ea e * eb e <= a * b).
Proof. exact (steiner_ellipse_spec A B C). Qed.
Print Assumptions C51_steiner_ellipse.

Theorem C51_steiner_inellipse A B C : ~ collinear A B C -> allclose A B = false -> allclose A C = false -> allclose B C = false ->
  exists e, steiner_inellipse (mkTri A B C) = Ok (Some e) /\
    let tangent := ell_tangent (eO e) (ea e) (eb e) (radians (edeg e) (ealpha e)) in
    0 < eb e <= ea e /\ eO e = centroid A B C /\
    tangent (midpoint A B) (vsub B A) /\ tangent (midpoint B C) (vsub C B) /\ tangent (midpoint A C) (vsub C A).
Proof. exact (steiner_inellipse_spec A B C). Qed.
Print Assumptions C51_steiner_inellipse.

Theorem C51_steiner_flat A B C : collinear A B C -> A <> B -> A <> C ->
  steiner_ellipse (mkTri A B C) = Ok None /\ steiner_inellipse (mkTri A B C) = Ok None.
Proof. exact (steiner_flat A B C). Qed.
Print Assumptions C51_steiner_flat.

Theorem C51_steiner_raise A B C : A = B \/ A = C ->
  steiner_ellipse (mkTri A B C) = Raise ZeroDivisionError /\ steiner_inellipse (mkTri A B C) = Raise ZeroDivisionError.
Proof. exact (steiner_raise A B C). Qed.
Print Assumptions C51_steiner_raise.

Theorem C51_steiner_close A B C : ~ collinear A B C -> allclose A B = true \/ allclose A C = true \/ allclose B C = true ->
  steiner_ellipse (mkTri A B C) = Raise AttributeError /\ steiner_inellipse (mkTri A B C) = Raise AttributeError.
Proof. exact (steiner_close A B C). Qed.
Print Assumptions C51_steiner_close.

Example C51_example : (exists e, steiner_ellipse (mkTri (0, 0) (4, 0) (0, 3)) = Ok (Some e)) /\
  (exists e, steiner_inellipse (mkTri (0, 0) (4, 0) (0, 3)) = Ok (Some e)).
Proof. exact ex_C51. Qed.

Example C51_example_tiny : let t := / 1000000000 in
  ~ collinear (0, 0) (t, 0) (0, t) /\ steiner_ellipse (mkTri (0, 0) (t, 0) (0, t)) = Raise AttributeError /\
  steiner_inellipse (mkTri (0, 0) (t, 0) (0, t)) = Raise AttributeError.
Proof. exact ex_C51_tiny. Qed.

(** ** C54, the image ellipse is exact on the whole plane: centre to centre, inside to inside *)
Theorem C54_transform_ellipse_inside f e0 : 0 < ea e0 -> 0 < eb e0 -> det2 (afA f) <> 0 ->
  exists e, affine_transform_ellipse f (AEllipse e0) = Ok (Some e) /\ affine_transform f (eO e0) = eO e /\
    forall M, in_ellipse (eO e0) (ea e0) (eb e0) (radians (edeg e0) (ealpha e0)) M <->
              in_ellipse (eO e) (ea e) (eb e) (radians (edeg e) (ealpha e)) (affine_transform f M).
Proof. exact (transform_ellipse_inside f e0). Qed.
Print Assumptions C54_transform_ellipse_inside.

Theorem C54_transform_circle_inside f c : 0 < cr c -> det2 (afA f) <> 0 ->
  exists e, affine_transform_ellipse f (ACircle c) = Ok (Some e) /\ affine_transform f (cO c) = eO e /\
    forall M, in_disk (cO c) (cr c) M <->
              in_ellipse (eO e) (ea e) (eb e) (radians (edeg e) (ealpha e)) (affine_transform f M).
Proof. exact (transform_circle_inside f c). Qed.
Print Assumptions C54_transform_circle_inside.
