(** * C124: the largest disc in a triangle, the smallest disc around it, the inscribed
    triangle of least perimeter, three discs in a triangle. *)

From Coq Require Import Reals Lra List Bool.
From Verif Require Import Base BaseLemmas Spec SpecTriangle SpecRandom SpecExtremal ModelInternal ModelLine ModelCircle ModelTriangle
  PTriangleEx PExtremal PExtremal2.
Import ListNotations.
Local Open Scope R_scope.

(** The incircle bounds the only largest disc contained in the triangle. *)
Theorem C124_incircle_largest : forall A B C, ~ collinear A B C ->
  exists c, incircle (mkTri A B C) = Ok c /\ disc_in_triangle A B C (cO c) (cr c) /\
    forall O r, 0 <= r -> disc_in_triangle A B C O r -> r <= cr c /\ (r = cr c -> O = cO c).
Proof. exact incircle_largest. Qed.
Print Assumptions C124_incircle_largest.

(** When [is_acute] answers True, the circumcircle bounds the only smallest disc containing
    the vertices. *)
Theorem C124_circumcircle_smallest : forall A B C, ~ collinear A B C -> is_acute (mkTri A B C) = true ->
  exists c, circumcircle (mkTri A B C) = Ok (Some c) /\
    forall O r, dist O A <= r -> dist O B <= r -> dist O C <= r -> cr c <= r /\ (r = cr c -> O = cO c).
Proof. exact circumcircle_smallest. Qed.
Print Assumptions C124_circumcircle_smallest.

(** With an obtuse angle at [A] it is not: the circle of diameter [BC] contains the vertices,
    is smaller, and is the smallest one. *)
Theorem C124_obtuse : forall A B C, ~ collinear A B C -> allclose B C = false -> sdot (vsub B A) (vsub C A) < 0 ->
  exists c cc, circleAB B C = Ok c /\ circumcircle (mkTri A B C) = Ok (Some cc) /\
    dist (cO c) A < cr c /\ dist (cO c) B = cr c /\ dist (cO c) C = cr c /\ cr c < cr cc /\
    (forall O r, dist O B <= r -> dist O C <= r -> cr c <= r /\ (r = cr c -> O = cO c)).
Proof. exact obtuse_smallest. Qed.
Print Assumptions C124_obtuse.

(** Fagnano: with three acute angles, the orthic triangle is inscribed and is the only
    triangle of least perimeter with a vertex on the line of each side. *)
Theorem C124_fagnano : forall A B C, ~ collinear A B C ->
  0 < sdot (vsub B A) (vsub C A) -> 0 < sdot (vsub A B) (vsub C B) -> 0 < sdot (vsub A C) (vsub B C) ->
  exists T c, orthic_triangle (mkTri A B C) = Ok T /\ circumcircle (mkTri A B C) = Ok (Some c) /\
    on_segment B C (tA T) /\ on_segment C A (tB T) /\ on_segment A B (tC T) /\
    cr c * perimeter (tA T) (tB T) (tC T) = 2 * triangle_area A B C /\
    forall D E F, on_line B C D -> on_line C A E -> on_line A B F ->
      perimeter (tA T) (tB T) (tC T) <= perimeter D E F /\
      (perimeter D E F = perimeter (tA T) (tB T) (tC T) -> D = tA T /\ E = tB T /\ F = tC T).
Proof. exact fagnano. Qed.
Print Assumptions C124_fagnano.

(** The Malfatti circles bound three discs of the triangle that do not overlap... *)
Theorem C124_malfatti_packed : forall A B C, ~ collinear A B C ->
  exists cA cB cC T, malfatti_circles (mkTri A B C) = Ok (Some ((cA, cB, cC), T)) /\
    packed3 A B C (cO cA) (cr cA) (cO cB) (cr cB) (cO cC) (cr cC).
Proof. exact malfatti_packed. Qed.
Print Assumptions C124_malfatti_packed.

(** ... but their total area is not the largest possible. *)
Theorem C124_malfatti_largest_refuted : exists A B C cA cB cC T O1 r1 O2 r2 O3 r3,
  ~ collinear A B C /\ malfatti_circles (mkTri A B C) = Ok (Some ((cA, cB, cC), T)) /\
  packed3 A B C O1 r1 O2 r2 O3 r3 /\
  PI * cr cA ^ 2 + PI * cr cB ^ 2 + PI * cr cC ^ 2 < PI * r1 ^ 2 + PI * r2 ^ 2 + PI * r3 ^ 2.
Proof. exact malfatti_not_largest. Qed.
Print Assumptions C124_malfatti_largest_refuted.

(** The hypotheses on examples: an acute triangle, an obtuse one, and discs in and around
    the triangle of sides 3, 4, 5. *)
Example C124_acute_case : ~ collinear (0, 0) (4, 0) (1, 3) /\ is_acute (mkTri (0, 0) (4, 0) (1, 3)) = true /\
  0 < sdot (vsub (4, 0) (0, 0)) (vsub (1, 3) (0, 0)) /\ 0 < sdot (vsub (0, 0) (4, 0)) (vsub (1, 3) (4, 0)) /\
  0 < sdot (vsub (0, 0) (1, 3)) (vsub (4, 0) (1, 3)).
Proof. exact acute_case. Qed.
Example C124_obtuse_case : ~ collinear (0, 1) (-4, 0) (4, 0) /\ allclose (-4, 0) (4, 0) = false /\
  sdot (vsub (-4, 0) (0, 1)) (vsub (4, 0) (0, 1)) < 0.
Proof. exact obtuse_case. Qed.
Example C124_discs : packed3 (0, 0) (4, 0) (0, 3) (1, 1) 1 (5 / 2, 1 / 2) (1 / 2) (3 / 8, 9 / 4) (3 / 8).
Proof. exact T345_packed. Qed.
