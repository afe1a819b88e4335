(** * Symmetries: similarities of the plane, the order of the vertices of a triangle, the
    order of two arguments, the points that define a line. *)

From Coq Require Import Reals Lra List Bool ZArith Permutation.
From Verif Require Import Base Spec SpecTriangle SpecSym ModelInternal ModelLine ModelCircle ModelAffine ModelEllipse ModelTransfo ModelTriangle ModelInversion PLine PCircle PTriangleEx PSym PSym2 PSym3 PSym4 PSym5 PSymEx.
Import ListNotations.
Local Open Scope R_scope.

(** ** C87, similarities *)

(** what the similarities are: a homothety with a rotation, perhaps a reflection, and a translation *)
Theorem C87_similarities s f : similarity s f -> exists c d e t, c * c + d * d = 1 /\ (e = 1 \/ e = -1) /\
  forall P, f P = (s * (c * fst P - e * (d * snd P)) + fst t, s * (d * fst P + e * (c * snd P)) + snd t).
Proof. exact (similarity_form s f). Qed.
Print Assumptions C87_similarities.

Theorem C87_incircle s f A B C : similarity s f ->
  incircle (mkTri (f A) (f B) (f C)) = rmap (fun c => mkCircle (f (cO c)) (s * cr c)) (incircle (mkTri A B C)).
Proof. exact (fun H => incircle_sim s f H A B C). Qed.
Print Assumptions C87_incircle.

Theorem C87_circumcircle s f A B C : similarity s f ->
  circumcircle (mkTri (f A) (f B) (f C)) = rmap (option_map (fun c => mkCircle (f (cO c)) (s * cr c))) (circumcircle (mkTri A B C)).
Proof. exact (fun H => circumcircle_sim s f H A B C). Qed.
Print Assumptions C87_circumcircle.

Theorem C87_excircles s f A B C : similarity s f ->
  excircles (mkTri (f A) (f B) (f C)) =
  rmap (fun '(c1, c2, c3) => (mkCircle (f (cO c1)) (s * cr c1), mkCircle (f (cO c2)) (s * cr c2), mkCircle (f (cO c3)) (s * cr c3)))
    (excircles (mkTri A B C)).
Proof. exact (fun H => excircles_sim s f H A B C). Qed.
Print Assumptions C87_excircles.

Theorem C87_orthic_triangle s f A B C : similarity s f ->
  orthic_triangle (mkTri (f A) (f B) (f C)) = rmap (fun T => mkTri (f (tA T)) (f (tB T)) (f (tC T))) (orthic_triangle (mkTri A B C)).
Proof. exact (fun H => orthic_sim s f H A B C). Qed.
Print Assumptions C87_orthic_triangle.

Theorem C87_equal_detour_point s f A B C : similarity s f ->
  equal_detour_point (mkTri (f A) (f B) (f C)) = rmap (fun '(P, d) => (f P, s * d)) (equal_detour_point (mkTri A B C)).
Proof. exact (fun H => detour_sim s f H A B C). Qed.
Print Assumptions C87_equal_detour_point.

Theorem C87_malfatti_circles s f A B C : similarity s f ->
  malfatti_circles (mkTri (f A) (f B) (f C)) =
  rmap (option_map (fun '((c1, c2, c3), (P1, P2, P3)) =>
    ((mkCircle (f (cO c1)) (s * cr c1), mkCircle (f (cO c2)) (s * cr c2), mkCircle (f (cO c3)) (s * cr c3)), (f P1, f P2, f P3))))
    (malfatti_circles (mkTri A B C)).
Proof. exact (fun H => malfatti_sim s f H A B C). Qed.
Print Assumptions C87_malfatti_circles.

Theorem C87_contains s f A B C M : similarity s f ->
  triangle_contains (mkTri (f A) (f B) (f C)) (f M) = triangle_contains (mkTri A B C) M.
Proof. exact (fun H => contains_sim s f H A B C M). Qed.
Print Assumptions C87_contains.

Theorem C87_orientation s f : similarity s f -> exists sg, (sg = 1%Z \/ sg = (-1)%Z) /\
  forall A B C, orientation (mkTri (f A) (f B) (f C)) = (sg * orientation (mkTri A B C))%Z.
Proof. exact (orientation_sim s f). Qed.
Print Assumptions C87_orientation.

Theorem C87_measures s f A B C : similarity s f -> let T := mkTri A B C in let T' := mkTri (f A) (f B) (f C) in
  (angleA T' = angleA T /\ angleB T' = angleB T /\ angleC T' = angleC T) /\
  (side_a T' = s * side_a T /\ side_b T' = s * side_b T /\ side_c T' = s * side_c T) /\
  is_acute T' = is_acute T /\ flatness T' = flatness T.
Proof. exact (fun H => conj (angles_sim s f H A B C) (conj (sides_sim s f H A B C) (conj (acute_sim s f H A B C) (flat_rel s f H A B C)))). Qed.
Print Assumptions C87_measures.

(** the ellipses, if both calls return one: the image of the ellipse of the triangle is the
    ellipse of the image, in any order of its vertices *)
Theorem C87_steiner_ellipse s f A B C A' B' C' e e' : similarity s f -> ~ collinear A B C -> Permutation [f A; f B; f C] [A'; B'; C'] ->
  steiner_ellipse (mkTri A B C) = Ok (Some e) -> steiner_ellipse (mkTri A' B' C') = Ok (Some e') ->
  eO e' = f (eO e) /\ ea e' = s * ea e /\ eb e' = s * eb e /\
  forall M, ell_form (eO e') (ea e') (eb e') (radians (edeg e') (ealpha e')) (f M) = ell_form (eO e) (ea e) (eb e) (radians (edeg e) (ealpha e)) M.
Proof. exact (steiner_ellipse_sim s f A B C A' B' C' e e'). Qed.
Print Assumptions C87_steiner_ellipse.

Theorem C87_steiner_inellipse s f A B C A' B' C' e e' : similarity s f -> ~ collinear A B C -> Permutation [f A; f B; f C] [A'; B'; C'] ->
  steiner_inellipse (mkTri A B C) = Ok (Some e) -> steiner_inellipse (mkTri A' B' C') = Ok (Some e') ->
  eO e' = f (eO e) /\ ea e' = s * ea e /\ eb e' = s * eb e /\
  forall M, ell_form (eO e') (ea e') (eb e') (radians (edeg e') (ealpha e')) (f M) = ell_form (eO e) (ea e) (eb e) (radians (edeg e) (ealpha e)) M.
Proof. exact (steiner_inellipse_sim s f A B C A' B' C' e e'). Qed.
Print Assumptions C87_steiner_inellipse.

(** but the call can fail for the smaller of two similar triangles *)
Theorem C87_steiner_scale_refuted : exists s f A B C, similarity s f /\ ~ collinear A B C /\
  (exists e, steiner_ellipse (mkTri A B C) = Ok (Some e)) /\ steiner_ellipse (mkTri (f A) (f B) (f C)) = Raise AttributeError.
Proof. exact steiner_scale. Qed.
Print Assumptions C87_steiner_scale_refuted.

Example C87_example : similarity 2 (fun P => (3 - 2 * snd P, 1 + 2 * fst P)) /\ incircle (mkTri (3, 1) (3, 9) (-3, 1)) = Ok (mkCircle (1, 3) 2).
Proof. exact (conj ex_sim ex_C87). Qed.

(** ** C88, order of the vertices *)

Theorem C88_centers A B C A' B' C' : Permutation [A; B; C] [A'; B'; C'] -> ~ collinear A B C ->
  incircle (mkTri A' B' C') = incircle (mkTri A B C) /\ circumcircle (mkTri A' B' C') = circumcircle (mkTri A B C) /\
  equal_detour_point (mkTri A' B' C') = equal_detour_point (mkTri A B C).
Proof. exact (fun P K => conj (incircle_perm A B C A' B' C' P K) (conj (circumcircle_perm A B C A' B' C' P K) (detour_perm3 A B C A' B' C' P K))). Qed.
Print Assumptions C88_centers.

(** what is attached to a vertex (an excircle, a foot of the orthic triangle, a Malfatti circle
    with the opposite tangency point, an angle, the opposite side) stays attached to it *)
Theorem C88_excircles A B C A' B' C' cA cB cC : Permutation [A; B; C] [A'; B'; C'] -> ~ collinear A B C ->
  excircles (mkTri A B C) = Ok (cA, cB, cC) ->
  exists cA' cB' cC', excircles (mkTri A' B' C') = Ok (cA', cB', cC') /\ Permutation [(A, cA); (B, cB); (C, cC)] [(A', cA'); (B', cB'); (C', cC')].
Proof. exact (excircles_perm A B C A' B' C' cA cB cC). Qed.
Print Assumptions C88_excircles.

Theorem C88_orthic_triangle A B C A' B' C' T : Permutation [A; B; C] [A'; B'; C'] -> A <> B -> A <> C -> B <> C ->
  orthic_triangle (mkTri A B C) = Ok T ->
  exists T', orthic_triangle (mkTri A' B' C') = Ok T' /\ Permutation [(A, tA T); (B, tB T); (C, tC T)] [(A', tA T'); (B', tB T'); (C', tC T')].
Proof. exact (orthic_perm A B C A' B' C' T). Qed.
Print Assumptions C88_orthic_triangle.

Theorem C88_malfatti_circles A B C A' B' C' cA cB cC TA TB TC : Permutation [A; B; C] [A'; B'; C'] -> ~ collinear A B C ->
  malfatti_circles (mkTri A B C) = Ok (Some ((cA, cB, cC), (TA, TB, TC))) ->
  exists cA' cB' cC' TA' TB' TC', malfatti_circles (mkTri A' B' C') = Ok (Some ((cA', cB', cC'), (TA', TB', TC'))) /\
    Permutation [(A, (cA, TA)); (B, (cB, TB)); (C, (cC, TC))] [(A', (cA', TA')); (B', (cB', TB')); (C', (cC', TC'))].
Proof. exact (malfatti_perm A B C A' B' C' cA cB cC TA TB TC). Qed.
Print Assumptions C88_malfatti_circles.

Theorem C88_angles A B C A' B' C' : Permutation [A; B; C] [A'; B'; C'] -> let T := mkTri A B C in let T' := mkTri A' B' C' in
  Permutation [(A, angleA T); (B, angleB T); (C, angleC T)] [(A', angleA T'); (B', angleB T'); (C', angleC T')].
Proof. exact (angles_perm A B C A' B' C'). Qed.
Print Assumptions C88_angles.

Theorem C88_sides A B C A' B' C' : Permutation [A; B; C] [A'; B'; C'] -> let T := mkTri A B C in let T' := mkTri A' B' C' in
  Permutation [(A, side_a T); (B, side_b T); (C, side_c T)] [(A', side_a T'); (B', side_b T'); (C', side_c T')].
Proof. exact (sides_perm A B C A' B' C'). Qed.
Print Assumptions C88_sides.

Theorem C88_contains_acute A B C A' B' C' M : Permutation [A; B; C] [A'; B'; C'] ->
  triangle_contains (mkTri A' B' C') M = triangle_contains (mkTri A B C) M /\ is_acute (mkTri A' B' C') = is_acute (mkTri A B C).
Proof. exact (fun P => conj (contains_perm A B C A' B' C' M P) (acute_perm A B C A' B' C' P)). Qed.
Print Assumptions C88_contains_acute.

Theorem C88_orientation A B C : let o T := orientation T in
  o (mkTri B C A) = o (mkTri A B C) /\ o (mkTri C A B) = o (mkTri A B C) /\
  o (mkTri B A C) = (- o (mkTri A B C))%Z /\ o (mkTri A C B) = (- o (mkTri A B C))%Z /\ o (mkTri C B A) = (- o (mkTri A B C))%Z.
Proof. exact (orient_perm A B C). Qed.
Print Assumptions C88_orientation.

(** flatness is a measure at the first vertex, and depends on which vertex that is *)
Theorem C88_flatness_refuted : flatness (mkTri (0, 0) (4, 0) (0, 3)) = Ok 0 /\ exists x, flatness (mkTri (4, 0) (0, 0) (0, 3)) = Ok x /\ x = 16 / 25.
Proof. exact flatness_order. Qed.
Print Assumptions C88_flatness_refuted.

(** a triangle with two equal vertices has no circumcircle, or raises, according to the order *)
Theorem C88_degenerate_refuted : circumcircle (mkTri (0, 0) (1, 0) (1, 0)) = Ok None /\ circumcircle (mkTri (1, 0) (0, 0) (1, 0)) = Raise ZeroDivisionError.
Proof. exact circum_order. Qed.
Print Assumptions C88_degenerate_refuted.

Example C88_example : Permutation [(0, 0); (4, 0); (0, 3)] [(4, 0); (0, 3); (0, 0)] /\ ~ collinear (0, 0) (4, 0) (0, 3) /\
  (exists cA cB cC, excircles (mkTri (0, 0) (4, 0) (0, 3)) = Ok (cA, cB, cC)) /\ exists r, malfatti_circles (mkTri (0, 0) (4, 0) (0, 3)) = Ok (Some r).
Proof.
  split; [etransitivity; [apply perm_swap|apply perm_skip, perm_swap]|]. exact (conj T345_nc (conj ex_C47 ex_C49)).
Qed.

(** ** C89, order of two arguments *)

Theorem C89_tests l1 l2 c1 c2 :
  is_parallel l1 l2 = is_parallel l2 l1 /\ is_perpendicular l1 l2 = is_perpendicular l2 l1 /\ is_orthogonal c1 c2 = is_orthogonal c2 c1 /\
  circle_angle c1 c2 = circle_angle c2 c1.
Proof. exact (conj (parallel_comm l1 l2) (conj (perpendicular_comm l1 l2) (conj (orthogonal_comm c1 c2) (angle_comm c1 c2)))). Qed.
Print Assumptions C89_tests.

Theorem C89_radical c1 c2 : radical_center2 c1 c2 = radical_center2 c2 c1 /\
  forall l l', radical_axis c1 c2 = Ok (Some l) -> radical_axis c2 c1 = Ok (Some l') -> same_line (lA l) (lB l) (lA l') (lB l').
Proof. exact (conj (rc2_comm c1 c2) (axis_comm c1 c2)). Qed.
Print Assumptions C89_radical.

Theorem C89_radical_center c1 c2 c3 d1 d2 d3 P Q : Permutation [c1; c2; c3] [d1; d2; d3] ->
  radical_center3 c1 c2 c3 = Ok (Some P) -> radical_center3 d1 d2 d3 = Ok (Some Q) -> Q = P.
Proof. exact (rc3_perm c1 c2 c3 d1 d2 d3 P Q). Qed.
Print Assumptions C89_radical_center.

Theorem C89_mid_circles c1 c2 : 0 < cr c1 -> 0 < cr c2 -> cr c1 <> cr c2 -> mid_circles c1 c2 = mid_circles c2 c1.
Proof. exact (mid_comm c1 c2). Qed.
Print Assumptions C89_mid_circles.

Theorem C89_intersection_circle_circle c1 c2 : 0 < cr c1 -> 0 < cr c2 -> circle_is_equal c1 c2 = false -> circle_is_equal c2 c1 = false ->
  match intersection_circle_circle c1 c2, intersection_circle_circle c2 c1 with
  | Ok (CCPoints INone), Ok (CCPoints INone) => True
  | Ok (CCPoints (IOne _)), Ok (CCPoints (IOne _)) => True
  | Ok (CCPoints (ITwo P Q)), Ok (CCPoints (ITwo P' Q')) => Permutation [P; Q] [P'; Q']
  | _, _ => False
  end.
Proof. exact (icc_comm c1 c2). Qed.
Print Assumptions C89_intersection_circle_circle.

(** a single point reported for two circles is on the first, and changes with the order *)
Theorem C89_single_point_refuted : exists P P',
  intersection_circle_circle (mkCircle (0, 0) 1) (mkCircle (0, 0) (10001 / 10000)) = Ok (CCPoints (IOne P)) /\
  intersection_circle_circle (mkCircle (0, 0) (10001 / 10000)) (mkCircle (0, 0) 1) = Ok (CCPoints (IOne P')) /\ P <> P'.
Proof. exact icc_order. Qed.
Print Assumptions C89_single_point_refuted.

(** two lines accepted by the constructor: equal in one order only, and meeting in one order only *)
Theorem C89_lines_refuted : exists A B C D l m, Line_init A B true true = Ok l /\ Line_init C D true true = Ok m /\
  line_is_equal l m = true /\ line_is_equal m l = false /\
  intersection_line_line l m false = None /\ exists P, intersection_line_line m l false = Some P.
Proof. exact (ex_intro _ _ (ex_intro _ _ (ex_intro _ _ (ex_intro _ _ (ex_intro _ la (ex_intro _ lb
  (conj (proj1 lines_accepted) (conj (proj2 lines_accepted) (conj (proj1 line_equal_order) (conj (proj2 line_equal_order) meet_order)))))))))). Qed.
Print Assumptions C89_lines_refuted.

(** the tolerance is relative to the second point *)
Theorem C89_circles_refuted : exists A B, circleAB A B = Raise ValueError /\ (exists c, circleAB B A = Ok c) /\
  circle_is_equal (mkCircle A 1) (mkCircle B 1) = true /\ circle_is_equal (mkCircle B 1) (mkCircle A 1) = false.
Proof. exact (ex_intro _ _ (ex_intro _ _ (conj (proj1 circleAB_order) (conj (proj2 circleAB_order) circle_equal_order)))). Qed.
Print Assumptions C89_circles_refuted.

Example C89_example : let c1 := mkCircle (0, 0) 5 in let c2 := mkCircle (6, 0) 5 in
  circle_is_equal c1 c2 = false /\ circle_is_equal c2 c1 = false /\ exists P Q, intersection_circle_circle c1 c2 = Ok (CCPoints (ITwo P Q)).
Proof. exact ex_C89. Qed.

(** ** C90, the points that define a line *)

Theorem C90_projection_distance l l' M : lA l <> lB l -> lA l' <> lB l' -> same_line (lA l) (lB l) (lA l') (lB l') ->
  line_projection l M = line_projection l' M /\ line_distance l M = line_distance l' M.
Proof. exact (projection_same l l' M). Qed.
Print Assumptions C90_projection_distance.

Theorem C90_includes l l' M cc : allclose (lA l) (lB l) = false -> allclose (lA l') (lB l') = false -> same_line (lA l) (lB l) (lA l') (lB l') ->
  allclose (lA l) M = false -> allclose (lB l) M = false -> allclose (lA l') M = false -> allclose (lB l') M = false ->
  line_includes l M false cc = line_includes l' M false cc.
Proof. exact (includes_same l l' M cc). Qed.
Print Assumptions C90_includes.

Theorem C90_intersection_line_line l1 l1' l2 l2' st st' P P' : lA l1 <> lB l1 -> lA l1' <> lB l1' -> lA l2 <> lB l2 -> lA l2' <> lB l2' ->
  same_line (lA l1) (lB l1) (lA l1') (lB l1') -> same_line (lA l2) (lB l2) (lA l2') (lB l2') ->
  intersection_line_line l1 l2 st = Some P -> intersection_line_line l1' l2' st' = Some P' -> P' = P.
Proof. exact (meet_same l1 l1' l2 l2' st st' P P'). Qed.
Print Assumptions C90_intersection_line_line.

Theorem C90_intersection_circle_line c l l' : 0 < cr c -> lA l <> lB l -> lA l' <> lB l' -> same_line (lA l) (lB l) (lA l') (lB l') ->
  match intersection_circle_line c l, intersection_circle_line c l' with
  | Ok INone, Ok INone => True
  | Ok (IOne P), Ok (IOne P') => P = P'
  | Ok (ITwo P Q), Ok (ITwo P' Q') => Permutation [P; Q] [P'; Q']
  | Ok (IOne _), Ok (ITwo _ _) => True
  | Ok (ITwo _ _), Ok (IOne _) => True
  | _, _ => False
  end.
Proof. exact (icl_same c l l'). Qed.
Print Assumptions C90_intersection_circle_line.

Theorem C90_reflection l l' P Q Q' : allclose (lA l) (lB l) = false -> allclose (lA l') (lB l') = false -> same_line (lA l) (lB l) (lA l') (lB l') ->
  allclose (lA l) P = false -> allclose (lB l) P = false -> allclose (lA l') P = false -> allclose (lB l') P = false ->
  reflection_transform_pt l P = Ok Q -> reflection_transform_pt l' P = Ok Q' -> Q' = Q.
Proof. exact (reflection_same l l' P Q Q'). Qed.
Print Assumptions C90_reflection.

Theorem C90_invert_line iota l l' c c' : lA l <> lB l -> lA l' <> lB l' -> same_line (lA l) (lB l) (lA l') (lB l') ->
  invert_line iota l = Ok (Some (GC c)) -> invert_line iota l' = Ok (Some (GC c')) -> c' = c.
Proof. exact (invert_line_same iota l l' c c'). Qed.
Print Assumptions C90_invert_line.

(** is_parallel, includes and the number of intersection points with a circle do depend on the points *)
Theorem C90_is_parallel_refuted : let l := mkLine (0, 0) (1, 0) true true in let m := mkLine (0, 0) (1, / 100000000) true true in
  let m' := mkLine (0, 0) (100, / 1000000) true true in
  Line_init (0, 0) (1, 0) true true = Ok l /\ Line_init (0, 0) (1, / 100000000) true true = Ok m /\ Line_init (0, 0) (100, / 1000000) true true = Ok m' /\
  same_line (lA m) (lB m) (lA m') (lB m') /\ is_parallel l m = true /\ is_parallel l m' = false.
Proof. exact parallel_points. Qed.
Print Assumptions C90_is_parallel_refuted.

Theorem C90_includes_refuted : let l := mkLine (0, 0) (1, 0) true true in let l' := mkLine (3, 0) (4, 0) true true in let M := (0, / 1000000000) in
  same_line (lA l) (lB l) (lA l') (lB l') /\ line_includes l M false true = Ok true /\ line_includes l' M false true = Ok false.
Proof. exact includes_points. Qed.
Print Assumptions C90_includes_refuted.

Theorem C90_secant_refuted : let l := mkLine (0, 0) (1, 0) true true in let l' := mkLine (0, 0) (/ 100000, 0) true true in let c := mkCircle (0, 0) 1 in
  Line_init (0, 0) (1, 0) true true = Ok l /\ Line_init (0, 0) (/ 100000, 0) true true = Ok l' /\
  same_line (lA l) (lB l) (lA l') (lB l') /\
  (exists P Q, intersection_circle_line c l = Ok (ITwo P Q)) /\ exists P, intersection_circle_line c l' = Ok (IOne P).
Proof. exact icl_points. Qed.
Print Assumptions C90_secant_refuted.

Example C90_example : let l := mkLine (0, 0) (1, 2) true true in let l' := mkLine (2, 4) (-1, -2) true true in
  same_line (lA l) (lB l) (lA l') (lB l') /\ line_projection l (5, 0) = Some (1, 2) /\ line_projection l' (5, 0) = Some (1, 2).
Proof. exact ex_C90. Qed.
