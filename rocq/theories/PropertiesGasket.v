(** * C95: the triangle filled with circles by examples/triangularApollonianGasket.py *)

From Coq Require Import Reals Lra List Bool.
From Verif Require Import Base Spec SpecTriangle SpecGasket ModelLine ModelCircle ModelTriangle ModelGasket PGasket10 PGasket12 PGasket13 PGasket14 PGasketEx.
Import ListNotations.
Local Open Scope R_scope.

(** the whole drawing is a packing of the triangle *)
Theorem C95_gasket A B C depth : ~ collinear A B C ->
  drawTriangularGasket A B C depth = Raise ValueError \/
  exists l, drawTriangularGasket A B C depth = Ok l /\
    Forall (fun c => 0 < cr c) l /\
    ForallOrdPairs not_overlapping l /\
    Forall (disc_in_triangle A B C) l /\
    (2 * length l + 1 = 7 * 3 ^ (S depth))%nat /\
    forall l1 c l2, l = l1 ++ c :: l2 -> (3 <= length l1)%nat -> touches_three A B C l1 c.
Proof. exact (draw_spec A B C depth). Qed.
Print Assumptions C95_gasket.

(** the radii in the corners bound the depth that can be drawn ... *)
Theorem C95_corner_radii A B C depth l cA cB cC T : ~ collinear A B C ->
  malfatti_circles (mkTri A B C) = Ok (Some ((cA, cB, cC), T)) ->
  drawTriangularGasket A B C depth = Ok l -> forall j, (j <= depth)%nat ->
  / 100000000 < cr cA * ((dist A (cO cA) - cr cA) / (dist A (cO cA) + cr cA)) ^ j /\
  / 100000000 < cr cB * ((dist B (cO cB) - cr cB) / (dist B (cO cB) + cr cB)) ^ j /\
  / 100000000 < cr cC * ((dist C (cO cC) - cr cC) / (dist C (cO cC) + cr cC)) ^ j.
Proof. exact (draw_corner A B C depth l cA cB cC T). Qed.
Print Assumptions C95_corner_radii.

(** ... so that every triangle has a depth from which the drawing fails, *)
Theorem C95_depth_limited A B C : ~ collinear A B C ->
  exists n, forall depth, (n <= depth)%nat -> drawTriangularGasket A B C depth = Raise ValueError.
Proof. exact (draw_limit A B C). Qed.
Print Assumptions C95_depth_limited.

(** while it succeeds as long as the corner radii are well above the tolerances *)
Theorem C95_depth_reached A B C depth M cA cB cC T : ~ collinear A B C ->
  malfatti_circles (mkTri A B C) = Ok (Some ((cA, cB, cC), T)) ->
  bounded M A -> bounded M B -> bounded M C ->
  corner_tolerance M depth A B C cA -> corner_tolerance M depth B A C cB -> corner_tolerance M depth C A B cC ->
  exists l, drawTriangularGasket A B C depth = Ok l.
Proof. exact (draw_total A B C depth M cA cB cC T). Qed.
Print Assumptions C95_depth_reached.

(** the three ways of filling a hole: between three circles, *)
Theorem C95_inner_soddy_circle c1 c2 c3 : 0 < cr c1 -> 0 < cr c2 -> 0 < cr c3 ->
  circles_touch c1 c2 -> circles_touch c2 c3 -> circles_touch c1 c3 ->
  exists c hs, innerSoddyCircle c1 c2 c3 = Ok (c, hs) /\ 0 < cr c /\
    circles_touch c c1 /\ circles_touch c c2 /\ circles_touch c c3 /\
    disc_in_triangle (cO c1) (cO c2) (cO c3) c.
Proof. exact (innerSoddy_spec c1 c2 c3). Qed.
Print Assumptions C95_inner_soddy_circle.

(** between two circles and a line, *)
Theorem C95_side_circle_circle A B c1 c2 F1 F2 : 0 < cr c1 -> 0 < cr c2 -> A <> B -> circles_touch c1 c2 ->
  line_tangent_at A B (cO c1) (cr c1) F1 -> line_tangent_at A B (cO c2) (cr c2) F2 ->
  0 < scross (vsub B A) (vsub (cO c1) A) * scross (vsub B A) (vsub (cO c2) A) ->
  exists c hs, side_circle_circle A B c1 c2 = Ok (c, hs) /\ 0 < cr c /\
    circles_touch c c1 /\ circles_touch c c2 /\ side_touched c A B /\
    forall M, in_disk (cO c) (cr c) M -> in_disk (midpoint F1 F2) (dist F1 F2 / 2) M.
Proof. exact (side_circle_circle_spec A B c1 c2 F1 F2). Qed.
Print Assumptions C95_side_circle_circle.

(** between a circle and the two sides of an angle *)
Theorem C95_side_side_circle A B C c F G : ~ collinear A B C -> 0 < cr c ->
  line_tangent_at A B (cO c) (cr c) F -> line_tangent_at A C (cO c) (cr c) G ->
  on_open_ray A B F -> on_open_ray A C G ->
  side_side_circle A B C c = Raise ValueError \/
  exists c' hs, side_side_circle A B C c = Ok (c', hs) /\ 0 < cr c' /\
    circles_touch c' c /\ side_touched c' A B /\ side_touched c' A C /\
    forall M, in_disk (cO c') (cr c') M -> in_disk A (dist A F) M.
Proof. exact (side_side_spec A B C c F G). Qed.
Print Assumptions C95_side_side_circle.

(** ** C49, the Malfatti discs lie in the triangle *)
Theorem C49_malfatti_inside A B C cA cB cC T : ~ collinear A B C ->
  malfatti_circles (mkTri A B C) = Ok (Some ((cA, cB, cC), T)) ->
  disc_in_triangle A B C cA /\ disc_in_triangle A B C cB /\ disc_in_triangle A B C cC.
Proof. exact (malfatti_inside A B C cA cB cC T). Qed.
Print Assumptions C49_malfatti_inside.

(** ** C02, what the answer True means: nearly the same direction (the sine of the angle is at
    most 1e-4), nearly the same distance from the origin *)
Theorem C02_is_equal_near l1 l2 : lA l1 <> lB l1 -> lA l2 <> lB l2 -> line_is_equal l1 l2 = true ->
  let d1 := vsub (lB l1) (lA l1) in let d2 := vsub (lB l2) (lA l2) in
  let h1 := Rabs (scross d1 (lA l1)) / dist (lA l1) (lB l1) in let h2 := Rabs (scross d2 (lA l2)) / dist (lA l2) (lB l2) in
  Rabs (scross d1 d2) <= / 10000 * (dist (lA l1) (lB l1) * dist (lA l2) (lB l2)) /\
  Rabs (h1 - h2) <= / 100000000 + / 100000 * Rmax h1 h2.
Proof. exact (is_equal_near l1 l2). Qed.
Print Assumptions C02_is_equal_near.

(** ** C95, examples: the triangle (0,0), (4,0), (0,3) with depth 3 *)
Example C95_example : exists l, drawTriangularGasket (0, 0) (4, 0) (0, 3) 3 = Ok l.
Proof. exact ex_gasket. Qed.

Example C95_example_gadgets :
  circles_touch (mkCircle (0, 0) 1) (mkCircle (4, 0) 3) /\ circles_touch (mkCircle (4, 0) 3) (mkCircle (0, 3) 2) /\
  circles_touch (mkCircle (0, 0) 1) (mkCircle (0, 3) 2) /\
  circles_touch (mkCircle (0, 1) 1) (mkCircle (2, 1) 1) /\ line_tangent_at (-1, 0) (3, 0) (0, 1) 1 (0, 0) /\
  line_tangent_at (-1, 0) (3, 0) (2, 1) 1 (2, 0) /\
  line_tangent_at (0, 0) (4, 0) (1, 1) 1 (1, 0) /\ line_tangent_at (0, 0) (0, 3) (1, 1) 1 (0, 1).
Proof. exact ex_gadgets. Qed.
