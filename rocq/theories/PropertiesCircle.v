(** * Properties C09-C15, C17, C18, C20 (circles), C21: circles and arcs. *)

From Coq Require Import Reals Lra Psatz List Bool ZArith.
From Verif Require Import Base BaseLemmas Spec SpecLemmas ModelInternal ModelLine ModelCircle PLine PCircle PInvBase PCircle2 PCircleEx.
Import ListNotations.
Local Open Scope R_scope.

(** Every circle built by the constructor has a positive radius: this is the
    hypothesis [0 < cr c] of the theorems below. *)
Theorem Circle_constructor_positive O r c : Circle_init O r = Ok c <-> 0 < r /\ c = mkCircle O r.
Proof. exact (Circle_init_Ok O r c). Qed.
Print Assumptions Circle_constructor_positive.

(** ** C09 *)
Theorem C09_contains c P : 0 < cr c -> (circle_contains c P = true <-> in_disk (cO c) (cr c) P).
Proof. exact (fun H => contains_spec c P (Rlt_le _ _ H)). Qed.
Print Assumptions C09_contains.

Theorem C09_power c M : 0 < cr c ->
  power c M = dist2 (cO c) M - cr c ^ 2 /\
  (power c M < 0 <-> dist (cO c) M < cr c) /\
  (power c M = 0 <-> on_circle (cO c) (cr c) M) /\
  (0 < power c M <-> cr c < dist (cO c) M).
Proof. exact (fun H => power_spec c M (Rlt_le _ _ H)). Qed.
Print Assumptions C09_power.

Theorem C09_includes_complete c P : 0 < cr c -> on_circle (cO c) (cr c) P -> circle_includes c P = true.
Proof. exact (fun H => includes_on_circle c P (Rlt_le _ _ H)). Qed.
Print Assumptions C09_includes_complete.

(** [includes] rejects every point that is off the circle by more than the tolerance *)
Theorem C09_includes_sound_outside_tolerance c P :
  2 / 1000000000 * (1 + cr c * cr c) <= Rabs (dist2 (cO c) P - cr c * cr c) -> circle_includes c P = false.
Proof. exact (includes_false c P). Qed.
Print Assumptions C09_includes_sound_outside_tolerance.

Theorem C09_includes_accepts_centre_of_small_circle c :
  0 < cr c <= / 100000 -> circle_includes c (cO c) = true.
Proof. exact (includes_tiny c). Qed.
Print Assumptions C09_includes_accepts_centre_of_small_circle.

Theorem C09_includes_sound_refuted :
  circle_includes (mkCircle (7, 8) (/ 100000)) (7, 8) = true /\ ~ on_circle (7, 8) (/ 100000) (7, 8).
Proof. exact includes_unsound_ex. Qed.
Print Assumptions C09_includes_sound_refuted.

Example C09_example : let c := mkCircle (1, 2) 5 in
  0 < cr c /\ on_circle (cO c) (cr c) (4, 6) /\ circle_contains c (4, 6) = true /\
  circle_contains c (5, 6) = false /\ circle_includes c (5, 6) = false.
Proof. exact ex_C09. Qed.

(** ** C10 *)
Theorem C10_point_from_angle c : 0 < cr c ->
  (forall alpha degrees, on_circle (cO c) (cr c) (circle_point_from_angle c alpha degrees)) /\
  (forall M degrees, on_circle (cO c) (cr c) M -> exists alpha, circle_point_from_angle c alpha degrees = M).
Proof. exact (point_from_angle_spec c). Qed.
Print Assumptions C10_point_from_angle.

(** the point is at the given angle *)
Theorem C10_point_from_angle_coordinates c alpha degrees :
  circle_point_from_angle c alpha degrees =
  vadd (cO c) (vscal (cr c) (cos (radians degrees alpha), sin (radians degrees alpha))).
Proof. exact (point_from_angle_eq c alpha degrees). Qed.
Print Assumptions C10_point_from_angle_coordinates.

(** ** C11 *)
Theorem C11_circleAB A B :
  (allclose A B = true -> circleAB A B = Raise ValueError) /\
  (allclose A B = false -> exists c, circleAB A B = Ok c /\ 0 < cr c /\
     cO c = midpoint A B /\ on_circle (cO c) (cr c) A /\ on_circle (cO c) (cr c) B /\
     forall M, on_circle (cO c) (cr c) M <-> orthogonal (vsub M A) (vsub M B)).
Proof. exact (circleAB_spec A B). Qed.
Print Assumptions C11_circleAB.

Theorem C11_circleOA O A :
  (allclose O A = true -> circleOA O A = Raise ValueError) /\
  (allclose O A = false -> exists c, circleOA O A = Ok c /\ 0 < cr c /\
     cO c = O /\ on_circle (cO c) (cr c) A).
Proof. exact (circleOA_spec O A). Qed.
Print Assumptions C11_circleOA.

Example C11_example : exists c, circleAB (0, 0) (6, 8) = Ok c.
Proof. exact ex_C11. Qed.

(** ** C12 *)
Theorem C12_radical_axis c1 c2 l : radical_axis c1 c2 = Ok (Some l) ->
  lA l <> lB l /\
  forall M, on_line (lA l) (lB l) M <-> pow_circle (cO c1) (cr c1) M = pow_circle (cO c2) (cr c2) M.
Proof. exact (radical_axis_spec c1 c2 l). Qed.
Print Assumptions C12_radical_axis.

(** None exactly for centres within the tolerance; the only exception is the
    ValueError of the Line constructor *)
Theorem C12_radical_axis_total c1 c2 :
  (allclose (cO c1) (cO c2) = true -> radical_axis c1 c2 = Ok None) /\
  (allclose (cO c1) (cO c2) = false ->
     (exists l, radical_axis c1 c2 = Ok (Some l)) \/ radical_axis c1 c2 = Raise ValueError).
Proof. exact (radical_axis_total c1 c2). Qed.
Print Assumptions C12_radical_axis_total.

Theorem C12_radical_center_of_two_circles c1 c2 : cO c1 <> cO c2 ->
  exists P, radical_center2 c1 c2 = Ok P /\ on_line (cO c1) (cO c2) P /\
    pow_circle (cO c1) (cr c1) P = pow_circle (cO c2) (cr c2) P.
Proof. exact (radical_center2_spec c1 c2). Qed.
Print Assumptions C12_radical_center_of_two_circles.

Theorem C12_radical_center_of_concentric_circles_not_finite c1 c2 :
  cO c1 = cO c2 -> radical_center2 c1 c2 = Raise NonFinite.
Proof. exact (radical_center2_concentric c1 c2). Qed.
Print Assumptions C12_radical_center_of_concentric_circles_not_finite.

Theorem C12_radical_center_of_three_circles c1 c2 c3 P : radical_center3 c1 c2 c3 = Ok (Some P) ->
  pow_circle (cO c1) (cr c1) P = pow_circle (cO c2) (cr c2) P /\
  pow_circle (cO c1) (cr c1) P = pow_circle (cO c3) (cr c3) P /\
  forall M, pow_circle (cO c1) (cr c1) M = pow_circle (cO c2) (cr c2) M ->
            pow_circle (cO c1) (cr c1) M = pow_circle (cO c3) (cr c3) M -> M = P.
Proof. exact (radical_center3_spec c1 c2 c3 P). Qed.
Print Assumptions C12_radical_center_of_three_circles.

Theorem C12_radical_center_exists c1 c2 c3 l1 l2 :
  radical_axis c1 c2 = Ok (Some l1) -> radical_axis c1 c3 = Ok (Some l2) ->
  ~ collinear (cO c1) (cO c2) (cO c3) -> exists P, radical_center3 c1 c2 c3 = Ok (Some P).
Proof. exact (radical_center3_total c1 c2 c3 l1 l2). Qed.
Print Assumptions C12_radical_center_exists.

Example C12_example : let c1 := mkCircle (0, 0) 1 in let c2 := mkCircle (4, 0) 2 in let c3 := mkCircle (0, 4) 3 in
  exists P, radical_center3 c1 c2 c3 = Ok (Some P).
Proof. exact ex_C12. Qed.

(** ** C13 *)
Theorem C13_mid_circles_swap c1 c2 gs g : 0 < cr c1 -> 0 < cr c2 ->
  cr c1 = cr c2 \/ / 67108864 <= 4 * cr c1 * cr c2 ->
  cr c1 <> cr c2 \/ cO c1 = cO c2 \/ allclose (cO c1) (cO c2) = false ->
  mid_circles c1 c2 = Ok gs -> In g gs ->
  match g with
  | GC c => 0 < cr c /\ inv_maps (cO c) (cr c ^ 2) (cO c1) (cr c1) (cO c2) (cr c2)
            /\ inv_maps (cO c) (cr c ^ 2) (cO c2) (cr c2) (cO c1) (cr c1)
  | GL l => lA l <> lB l /\ mirror_maps (lA l) (lB l) (cO c1) (cr c1) (cO c2) (cr c2)
            /\ mirror_maps (lA l) (lB l) (cO c2) (cr c2) (cO c1) (cr c1)
  end.
Proof. exact (mid_circles_sound c1 c2 gs g). Qed.
Print Assumptions C13_mid_circles_swap.

Theorem C13_mid_circles_total c1 c2 :
  0 < cr c1 -> 0 < cr c2 -> cr c1 <> cr c2 -> / 67108864 <= 4 * cr c1 * cr c2 ->
  exists gs, mid_circles c1 c2 = Ok gs /\
   (length gs = 2%nat <->
      (cr c1 - cr c2) ^ 2 + / 67108864 <= dist2 (cO c1) (cO c2) <= (cr c1 + cr c2) ^ 2 - / 67108864) /\
   (length gs = 1%nat \/ length gs = 2%nat).
Proof. exact (mid_circles_total c1 c2). Qed.
Print Assumptions C13_mid_circles_total.

(** every circle of inversion exchanging the two circles is returned, except in
    the tolerance bands around tangency *)
Theorem C13_mid_circles_complete c1 c2 I R0 : 0 < cr c1 -> 0 < cr c2 -> cr c1 <> cr c2 ->
  / 67108864 <= 4 * cr c1 * cr c2 -> 0 < R0 ->
  ~ ((cr c1 + cr c2) ^ 2 - / 67108864 < dist2 (cO c1) (cO c2) < (cr c1 + cr c2) ^ 2) ->
  ~ ((cr c1 - cr c2) ^ 2 < dist2 (cO c1) (cO c2) < (cr c1 - cr c2) ^ 2 + / 67108864) ->
  inv_maps I (R0 ^ 2) (cO c1) (cr c1) (cO c2) (cr c2) ->
  exists gs, mid_circles c1 c2 = Ok gs /\ In (GC (mkCircle I R0)) gs.
Proof. exact (mid_circles_complete c1 c2 I R0). Qed.
Print Assumptions C13_mid_circles_complete.

Theorem C13_mid_circles_tiny_nested_wrong c1 c2 : 0 < cr c1 -> 0 < cr c2 -> cr c1 <> cr c2 ->
  (cr c1 + cr c2) ^ 2 < / 67108864 -> cO c1 <> cO c2 -> dist2 (cO c1) (cO c2) < (cr c1 - cr c2) ^ 2 ->
  exists c, mid_circles c1 c2 = Ok [GC c] /\ 0 < cr c /\
    ~ inv_maps (cO c) (cr c ^ 2) (cO c1) (cr c1) (cO c2) (cr c2).
Proof. exact (mid_circles_tiny c1 c2). Qed.
Print Assumptions C13_mid_circles_tiny_nested_wrong.

Theorem C13_mid_circles_swap_refuted : exists c1 c2 c,
  Circle_init (0, 0) (/ 100000) = Ok c1 /\ Circle_init (/ 200000, 0) (2 / 100000) = Ok c2 /\
  mid_circles c1 c2 = Ok [GC c] /\
  ~ inv_maps (cO c) (cr c ^ 2) (cO c1) (cr c1) (cO c2) (cr c2).
Proof. exact mid_circles_refuted. Qed.
Print Assumptions C13_mid_circles_swap_refuted.

Example C13_example :
  (exists g1 g2, mid_circles (mkCircle (0, 0) 1) (mkCircle (2, 0) 2) = Ok [g1; g2]) /\
  (exists g, mid_circles (mkCircle (0, 0) 1) (mkCircle (1, 0) 3) = Ok [g]) /\
  (exists g, mid_circles (mkCircle (0, 0) 1) (mkCircle (3, 0) 2) = Ok [g]) /\
  (exists g, mid_circles (mkCircle (0, 0) 1) (mkCircle (3, 0) 1) = Ok [g]).
Proof. exact ex_C13. Qed.

(** ** C14 *)
Theorem C14_intersection_circle_line c l : lA l <> lB l -> 0 < cr c ->
  match intersection_circle_line c l with
  | Raise _ => False
  | Ok INone => forall M, on_line (lA l) (lB l) M -> ~ on_circle (cO c) (cr c) M
  | Ok (IOne P) => on_line (lA l) (lB l) P /\ orthogonal (vsub P (cO c)) (vsub (lB l) (lA l)) /\
       in_disk (cO c) (cr c) P /\
       (on_circle (cO c) (cr c) P <->
        exists M, on_line (lA l) (lB l) M /\ on_circle (cO c) (cr c) M /\
          forall N, on_line (lA l) (lB l) N -> on_circle (cO c) (cr c) N -> N = M)
  | Ok (ITwo P Q) => P <> Q /\ on_line (lA l) (lB l) P /\ on_line (lA l) (lB l) Q /\
       on_circle (cO c) (cr c) P /\ on_circle (cO c) (cr c) Q /\
       forall M, on_line (lA l) (lB l) M -> on_circle (cO c) (cr c) M -> M = P \/ M = Q
  end.
Proof. exact (icl_spec c l). Qed.
Print Assumptions C14_intersection_circle_line.

(** which of the three answers is given; P is the projection of the centre *)
Theorem C14_intersection_circle_line_which c l P :
  lA l <> lB l -> 0 < cr c -> line_projection l (cO c) = Some P ->
  let Delta := dist2 (lA l) (lB l) * (cr c * cr c - dist2 (cO c) P) in
  (intersection_circle_line c l = Ok INone <-> Delta < 0) /\
  (intersection_circle_line c l = Ok (IOne P) <-> 0 <= Delta < / 67108864) /\
  ((exists X Y, intersection_circle_line c l = Ok (ITwo X Y)) <-> / 67108864 <= Delta).
Proof. exact (icl_which c l P). Qed.
Print Assumptions C14_intersection_circle_line_which.

Theorem C14_secant_line_reported_tangent_refuted u r : sdot u u = 1 -> 0 < r <= 10 ->
  exists l, Line_init (0, 0) (vscal (/ 100000) u) true true = Ok l /\
    on_line (lA l) (lB l) (0, 0) /\
    intersection_circle_line (mkCircle (0, 0) r) l = Ok (IOne (0, 0)) /\
    exists M, on_line (lA l) (lB l) M /\ on_circle (0, 0) r M.
Proof. exact (icl_tiny u r). Qed.
Print Assumptions C14_secant_line_reported_tangent_refuted.

Example C14_example : let c := mkCircle (0, 0) 5 in let l := mkLine (0, 3) (1, 3) true true in
  exists P Q, intersection_circle_line c l = Ok (ITwo P Q).
Proof. exact ex_C14. Qed.

(** ** C15 *)
Theorem C15_intersection_circle_circle c1 c2 : 0 < cr c1 -> 0 < cr c2 ->
  match intersection_circle_circle c1 c2 with
  | Raise _ => False
  | Ok (CCSame c) => c = c1 /\ circle_is_equal c1 c2 = true
  | Ok (CCPoints INone) => forall M, on_circle (cO c1) (cr c1) M -> ~ on_circle (cO c2) (cr c2) M
  | Ok (CCPoints (IOne P)) => on_circle (cO c1) (cr c1) P /\
      (on_circle (cO c2) (cr c2) P <-> exists M, on_circle (cO c1) (cr c1) M /\ on_circle (cO c2) (cr c2) M)
  | Ok (CCPoints (ITwo P Q)) =>
      P <> Q /\
      on_circle (cO c1) (cr c1) P /\ on_circle (cO c2) (cr c2) P /\
      on_circle (cO c1) (cr c1) Q /\ on_circle (cO c2) (cr c2) Q /\
      forall M, on_circle (cO c1) (cr c1) M -> on_circle (cO c2) (cr c2) M -> M = P \/ M = Q
  end.
Proof. exact (icc_spec c1 c2). Qed.
Print Assumptions C15_intersection_circle_circle.

Theorem C15_concentric_circles_report_a_point c1 c2 : 0 < cr c1 -> 0 < cr c2 -> cO c1 = cO c2 ->
  approx_equal_ (cr c1) (cr c2) = false -> (cr c1 - cr c2) ^ 2 <= / 67108864 ->
  (exists P, intersection_circle_circle c1 c2 = Ok (CCPoints (IOne P))) /\
  forall M, on_circle (cO c1) (cr c1) M -> ~ on_circle (cO c2) (cr c2) M.
Proof. exact (icc_concentric c1 c2). Qed.
Print Assumptions C15_concentric_circles_report_a_point.

Theorem C15_single_point_common_refuted : exists c1 c2 P,
  Circle_init (0, 0) 1 = Ok c1 /\ Circle_init (0, 0) (10001 / 10000) = Ok c2 /\
  intersection_circle_circle c1 c2 = Ok (CCPoints (IOne P)) /\
  forall M, on_circle (cO c1) (cr c1) M -> ~ on_circle (cO c2) (cr c2) M.
Proof. exact icc_refuted. Qed.
Print Assumptions C15_single_point_common_refuted.

Example C15_example : let c1 := mkCircle (0, 0) 5 in let c2 := mkCircle (6, 0) 5 in
  exists P Q, intersection_circle_circle c1 c2 = Ok (CCPoints (ITwo P Q)).
Proof. exact ex_C15. Qed.

(** ** C17 *)
Theorem C17_angle c1 c2 : 0 < cr c1 -> 0 < cr c2 ->
  (cr c1 - cr c2) ^ 2 <= dist2 (cO c1) (cO c2) <= (cr c1 + cr c2) ^ 2 ->
  exists t, circle_angle c1 c2 = Ok (Some t) /\ 0 <= t <= PI /\
    cos t = (dist2 (cO c1) (cO c2) - cr c1 ^ 2 - cr c2 ^ 2) / (2 * cr c1 * cr c2) /\
    (forall M, on_circle (cO c1) (cr c1) M -> on_circle (cO c2) (cr c2) M ->
       cos t = - (sdot (vsub M (cO c1)) (vsub M (cO c2)) / (dist (cO c1) M * dist (cO c2) M))) /\
    (t = PI / 2 <-> circ_orthogonal (cO c1) (cr c1) (cO c2) (cr c2)).
Proof. exact (angle_spec c1 c2). Qed.
Print Assumptions C17_angle.

(** the hypothesis of [C17_angle] says exactly that circles with distinct centres meet *)
Theorem C17_intersecting_circles c1 c2 : 0 < cr c1 -> 0 < cr c2 -> cO c1 <> cO c2 ->
  (cr c1 - cr c2) ^ 2 <= dist2 (cO c1) (cO c2) <= (cr c1 + cr c2) ^ 2 ->
  exists M, on_circle (cO c1) (cr c1) M /\ on_circle (cO c2) (cr c2) M.
Proof. exact (common_point_exists (cO c1) (cr c1) (cO c2) (cr c2)). Qed.
Print Assumptions C17_intersecting_circles.

Theorem C17_intersecting_circles_bound c1 c2 M : 0 < cr c1 -> 0 < cr c2 ->
  on_circle (cO c1) (cr c1) M -> on_circle (cO c2) (cr c2) M ->
  (cr c1 - cr c2) ^ 2 <= dist2 (cO c1) (cO c2) <= (cr c1 + cr c2) ^ 2.
Proof. exact (fun H1 H2 => common_point_bound (cO c1) (cO c2) (cr c1) (cr c2) M (Rlt_le _ _ H1) (Rlt_le _ _ H2)). Qed.
Print Assumptions C17_intersecting_circles_bound.

Theorem C17_is_orthogonal_complete c1 c2 :
  circ_orthogonal (cO c1) (cr c1) (cO c2) (cr c2) -> is_orthogonal c1 c2 = true.
Proof. exact (is_orthogonal_complete c1 c2). Qed.
Print Assumptions C17_is_orthogonal_complete.

Theorem C17_angle_none c1 c2 : 0 < cr c1 -> 0 < cr c2 ->
  (circle_angle c1 c2 = Ok None <->
   (cr c1 + cr c2) ^ 2 + / 67108864 < dist2 (cO c1) (cO c2) \/
   dist2 (cO c1) (cO c2) < (cr c1 - cr c2) ^ 2 - / 67108864).
Proof. exact (angle_none c1 c2). Qed.
Print Assumptions C17_angle_none.

Theorem C17_angle_raises c1 c2 : 0 < cr c1 -> 0 < cr c2 ->
  ((exists e, circle_angle c1 c2 = Raise e) <->
   (cr c1 + cr c2) ^ 2 < dist2 (cO c1) (cO c2) <= (cr c1 + cr c2) ^ 2 + / 67108864 \/
   (cr c1 - cr c2) ^ 2 - / 67108864 <= dist2 (cO c1) (cO c2) < (cr c1 - cr c2) ^ 2) /\
  (forall e, circle_angle c1 c2 = Raise e -> e = ValueError).
Proof. exact (angle_raises c1 c2). Qed.
Print Assumptions C17_angle_raises.

Example C17_example : let c1 := mkCircle (0, 0) 3 in let c2 := mkCircle (5, 0) 4 in
  (cr c1 - cr c2) ^ 2 <= dist2 (cO c1) (cO c2) <= (cr c1 + cr c2) ^ 2 /\
  circ_orthogonal (cO c1) (cr c1) (cO c2) (cr c2) /\ circle_angle c1 c2 = Ok (Some (PI / 2)).
Proof. exact ex_C17. Qed.

Example C17_example_raises : exists c1 c2, Circle_init (0, 0) 1 = Ok c1 /\ Circle_init (2 + / 1000000000, 0) 1 = Ok c2 /\
  circle_angle c1 c2 = Raise ValueError.
Proof. exact angle_raises_ex. Qed.

(** ** C18 *)
Theorem C18_orthogonal_circle_on c a b : 0 < cr c ->
  let P1 := circle_point_from_angle c a false in
  let P2 := circle_point_from_angle c b false in
  ~ collinear (cO c) P1 P2 ->
  exists c', orthogonal_through_two_points_on_circle c a b false = Ok (OCircle c') /\ 0 < cr c' /\
    on_circle (cO c') (cr c') P1 /\ on_circle (cO c') (cr c') P2 /\
    circ_orthogonal (cO c) (cr c) (cO c') (cr c').
Proof. exact (ootp_circle c a b). Qed.
Print Assumptions C18_orthogonal_circle_on.

Theorem C18_orthogonal_arc_on c a b : 0 < cr c ->
  let P1 := circle_point_from_angle c a false in
  let P2 := circle_point_from_angle c b false in
  ~ collinear (cO c) P1 P2 ->
  exists A, orthogonal_through_two_points_on_circle c a b true = Ok (OArc A) /\ 0 < ar A /\ adeg A = false /\
    circ_orthogonal (cO c) (cr c) (aO A) (ar A) /\
    ((starting_point A = P1 /\ ending_point A = P2) \/ (starting_point A = P2 /\ ending_point A = P1)) /\
    0 < aalpha2 A - aalpha1 A < PI /\
    forall M, (exists t, radians (adeg A) (aalpha1 A) <= t <= radians (adeg A) (aalpha2 A) /\
                         M = vadd (aO A) (vscal (ar A) (cos t, sin t))) ->
      in_disk (cO c) (cr c) M.
Proof. exact (ootp_arc c a b). Qed.
Print Assumptions C18_orthogonal_arc_on.

(** angles differing by a multiple of pi: the diameter through the first point
    (ValueError if its two end points are allclose) *)
Theorem C18_diameter c a b arc : 0 < cr c ->
  let P1 := circle_point_from_angle c a false in
  let P2 := circle_point_from_angle c b false in
  collinear (cO c) P1 P2 ->
  let P1' := vsub (vscal 2 (cO c)) P1 in
  (allclose P1 P1' = true -> orthogonal_through_two_points_on_circle c a b arc = Raise ValueError) /\
  (allclose P1 P1' = false ->
   orthogonal_through_two_points_on_circle c a b arc = Ok (OLine (mkLine P1 P1' (negb arc) (negb arc)))) /\
  on_line P1 P1' P2 /\ on_line P1 P1' (cO c).
Proof. exact (ootp_diameter c a b arc). Qed.
Print Assumptions C18_diameter.

Example C18_example : let c := mkCircle (0, 0) 1 in
  ~ collinear (cO c) (circle_point_from_angle c 0 false) (circle_point_from_angle c (PI / 2) false) /\
  collinear (cO c) (circle_point_from_angle c 0 false) (circle_point_from_angle c PI false).
Proof. exact ex_C18. Qed.

(** ** C20, circles *)
Theorem C20_circle_random_points c n w draws ps : 0 < cr c ->
  Forall (fun d => 0 <= fst d < 1) draws ->
  circle_random_points c n w draws = Ok ps ->
  length ps = length draws /\
  match w with
  | WhereOn => Forall (on_circle (cO c) (cr c)) ps
  | WhereIn => Forall (in_disk (cO c) (cr c)) ps
  | WhereOther => False
  end.
Proof. exact (circle_random_spec c n w draws ps). Qed.
Print Assumptions C20_circle_random_points.

Theorem C20_circle_random_points_total c n w draws : 0 < cr c -> (0 < n)%Z -> w <> WhereOther ->
  Forall (fun d => snd d <> (0, 0)) draws -> exists ps, circle_random_points c n w draws = Ok ps.
Proof. exact (circle_random_total c n w draws). Qed.
Print Assumptions C20_circle_random_points_total.

Theorem C20_circle_random_points_raise c n w draws :
  (n <= 0)%Z \/ w = WhereOther -> circle_random_points c n w draws = Raise ValueError.
Proof. exact (circle_random_raises c n w draws). Qed.
Print Assumptions C20_circle_random_points_raise.

(** the whole open disk, respectively the whole circle, is reached *)
Theorem C20_circle_random_points_onto c M : 0 < cr c ->
  (dist (cO c) M < cr c -> exists u g, 0 <= u < 1 /\ g <> (0, 0) /\ circle_random_points c 1 WhereIn [(u, g)] = Ok [M]) /\
  (on_circle (cO c) (cr c) M -> exists g, g <> (0, 0) /\ forall u, circle_random_points c 1 WhereOn [(u, g)] = Ok [M]).
Proof. exact (circle_random_onto c M). Qed.
Print Assumptions C20_circle_random_points_onto.

Example C20_example_circle : exists p1 p2,
  circle_random_points (mkCircle (1, 1) 2) 2 WhereIn [(/ 4, (3, 4)); (0, (-1, 0))] = Ok [p1; p2].
Proof. exact ex_C20. Qed.

(** ** C21 *)
Theorem C21_arc_path a n : 0 < ar a -> (0 < n)%Z -> exists sweep path,
  arc_path a n = Ok path /\ length path = Z.to_nat n /\ 0 <= sweep < 2 * PI /\
  Forall (on_circle (aO a) (ar a)) path /\
  nth 0 path (0, 0) = starting_point a /\
  ((2 <= n)%Z -> last path (0, 0) = ending_point a) /\
  forall i, (i < Z.to_nat n)%nat ->
    nth i path (0, 0) = vadd (aO a) (vscal (ar a)
       (cos (radians (adeg a) (aalpha1 a) + (if (n =? 1)%Z then 0 else INR i / (IZR n - 1)) * sweep),
        sin (radians (adeg a) (aalpha1 a) + (if (n =? 1)%Z then 0 else INR i / (IZR n - 1)) * sweep))).
Proof. exact (arc_path_full a n). Qed.
Print Assumptions C21_arc_path.

(** the end points are the points of the circle at the two angles *)
Theorem C21_arc_end_points a :
  starting_point a = vadd (aO a) (vscal (ar a) (cos (radians (adeg a) (aalpha1 a)), sin (radians (adeg a) (aalpha1 a)))) /\
  ending_point a = vadd (aO a) (vscal (ar a) (cos (radians (adeg a) (aalpha2 a)), sin (radians (adeg a) (aalpha2 a)))).
Proof. exact (arc_end_points a). Qed.
Print Assumptions C21_arc_end_points.

Theorem C21_arc_path_raises a n : (n <= 0)%Z -> arc_path a n = Raise ValueError.
Proof. exact (arc_path_raises a n). Qed.
Print Assumptions C21_arc_path_raises.

Example C21_example : exists path, arc_path (mkArc (1, 2) 3 350 370 true) 5 = Ok path /\ length path = 5%nat.
Proof. exact ex_C21. Qed.
