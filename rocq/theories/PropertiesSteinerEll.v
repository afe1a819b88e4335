(** * C123: the two Steiner ellipses are extremal; their foci. *)

From Coq Require Import Reals Lra List Bool.
From Verif Require Import Base BaseLemmas Spec SpecTriangle SpecRandom ModelInternal ModelLine ModelAffine ModelEllipse ModelTriangle
  PEllipse PTriangleEx PSteinerEll PSteinerEll2 PSteinerEll3.
Import ListNotations.
Local Open Scope R_scope.

(** The inellipse lies in the triangle; no ellipse in the triangle has a larger area, and
    one of the same area is the same ellipse. *)
Theorem C123_inellipse_largest : forall A B C, ~ collinear A B C -> allclose A B = false -> allclose A C = false -> allclose B C = false ->
  exists e, steiner_inellipse (mkTri A B C) = Ok (Some e) /\
    (forall M, in_ellipse (eO e) (ea e) (eb e) (ell_th e) M -> in_closed_triangle A B C M) /\
    (forall O a b th, 0 < a -> 0 < b -> (forall M, in_ellipse O a b th M -> in_closed_triangle A B C M) ->
       PI * a * b <= PI * ea e * eb e /\
       (PI * a * b = PI * ea e * eb e -> forall M, in_ellipse O a b th M <-> in_ellipse (eO e) (ea e) (eb e) (ell_th e) M)).
Proof. exact inellipse_largest. Qed.
Print Assumptions C123_inellipse_largest.

(** An ellipse containing the three vertices has at least the area of the circumellipse,
    and is the circumellipse if it has the same area. *)
Theorem C123_circumellipse_smallest : forall A B C, ~ collinear A B C -> allclose A B = false -> allclose A C = false -> allclose B C = false ->
  exists e, steiner_ellipse (mkTri A B C) = Ok (Some e) /\
    (forall O a b th, 0 < a -> 0 < b -> Forall (in_ellipse O a b th) [A; B; C] ->
       PI * ea e * eb e <= PI * a * b /\
       (PI * a * b = PI * ea e * eb e -> forall M, in_ellipse O a b th M <-> in_ellipse (eO e) (ea e) (eb e) (ell_th e) M)).
Proof. exact circumellipse_smallest. Qed.
Print Assumptions C123_circumellipse_smallest.

(** Areas; the circumellipse is the inellipse scaled by 2 about its centre. *)
Theorem C123_areas : forall A B C, ~ collinear A B C -> allclose A B = false -> allclose A C = false -> allclose B C = false ->
  exists e e', steiner_ellipse (mkTri A B C) = Ok (Some e) /\ steiner_inellipse (mkTri A B C) = Ok (Some e') /\
    PI * ea e' * eb e' = PI / (3 * sqrt 3) * triangle_area A B C /\ PI * ea e * eb e = 4 * (PI * ea e' * eb e') /\
    eO e = eO e' /\ ea e = 2 * ea e' /\ eb e = 2 * eb e' /\
    (forall M, in_ellipse (eO e') (ea e') (eb e') (ell_th e') M <-> in_ellipse (eO e) (ea e) (eb e) (ell_th e) (vadd (eO e) (vscal 2 (vsub M (eO e))))).
Proof. exact steiner_areas. Qed.
Print Assumptions C123_areas.

(** The tangent of the circumellipse at a vertex is parallel to the opposite side. *)
Theorem C123_tangents : forall A B C, ~ collinear A B C -> allclose A B = false -> allclose A C = false -> allclose B C = false ->
  exists e, steiner_ellipse (mkTri A B C) = Ok (Some e) /\
    let tg := ell_tangent (eO e) (ea e) (eb e) (ell_th e) in tg A (vsub C B) /\ tg B (vsub A C) /\ tg C (vsub B A).
Proof. exact steiner_tangents. Qed.
Print Assumptions C123_tangents.

(** Marden's theorem: the foci of the inellipse are the zeros of the derivative of the
    polynomial whose zeros are the vertices. *)
Theorem C123_marden : forall A B C, ~ collinear A B C -> allclose A B = false -> allclose A C = false -> allclose B C = false ->
  exists e F1 F2, steiner_inellipse (mkTri A B C) = Ok (Some e) /\
    (forall M, on_ellipse (eO e) (ea e) (eb e) (ell_th e) M <-> dist M F1 + dist M F2 = 2 * ea e) /\
    forall z, (RtoC 3 * (z - F1) * (z - F2) = (z - A) * (z - B) + (z - B) * (z - C) + (z - C) * (z - A))%C.
Proof. exact marden. Qed.
Print Assumptions C123_marden.

(** The foci of any ellipse whose first radius is the larger one. *)
Theorem C123_foci : forall O a b th, 0 < b <= a ->
  let c := sqrt (a * a - b * b) in
  forall M, on_ellipse O a b th M <-> dist M (vadd O (vscal c (cos th, sin th))) + dist M (vsub O (vscal c (cos th, sin th))) = 2 * a.
Proof. exact foci. Qed.
Print Assumptions C123_foci.

(** The hypotheses on an example: a triangle, an ellipse in it, an ellipse around it, and
    the polynomial of its foci. *)
Example C123_example : let A := (0, 0) in let B := (4, 0) in let C := (0, 3) in
  ~ collinear A B C /\ (allclose A B = false /\ allclose A C = false /\ allclose B C = false) /\
  (forall M, in_ellipse (1, 1) (1 / 2) (1 / 2) 0 M -> in_closed_triangle A B C M) /\ Forall (in_ellipse (2, 1) 3 3 0) [A; B; C] /\
  (exists e F1 F2, steiner_inellipse (mkTri A B C) = Ok (Some e) /\
    (forall M, on_ellipse (eO e) (ea e) (eb e) (ell_th e) M <-> dist M F1 + dist M F2 = 2 * ea e) /\
    forall z, (RtoC 3 * (z - F1) * (z - F2) = RtoC 3 * z * z - (8, 6) * z + (0, 12))%C).
Proof. exact (conj T345_nc (conj T345_close (conj T345_disc (conj T345_box T345_marden)))). Qed.
