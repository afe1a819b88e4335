(** * Property C116: the tests of the library accept what the library constructs (the checks of examples/example1.py). *)

From Coq Require Import Reals List Bool ZArith.
From Verif Require Import Base Spec SpecMobius SpecEllForm ModelInternal ModelLine ModelCircle ModelAffine ModelEllipse ModelTriangle ModelInversion ModelTransfo ModelMobius ModelAlias ModelExample1 PExample1.
Import ListNotations.
Local Open Scope R_scope.

(** a vertex is on the circumcircle; no check ever prints False *)
Theorem C116_circumcircle A B C : (~ collinear A B C -> ex1_circumcircle A B C = Ok true) /\ forall b, ex1_circumcircle A B C = Ok b -> b = true.
Proof. exact (ex1_circumcircle_ok A B C). Qed.
Print Assumptions C116_circumcircle.

(** the points of [intersection_circle_line]; P is the projection of the center on the line *)
Theorem C116_circle_line c l P : lA l <> lB l -> 0 < cr c -> line_projection l (cO c) = Some P ->
  (ex1_circle_line c l = Ok true <-> / 67108864 <= dist2 (lA l) (lB l) * (cr c * cr c - dist2 (cO c) P)) /\ ex1_circle_line c l <> Ok false.
Proof. exact (ex1_circle_line_ok c l P). Qed.
Print Assumptions C116_circle_line.

(** the points of [intersection_ellipse_line] *)
Theorem C116_ellipse_line e l : 0 < ea e -> 0 < eb e ->
  ((exists P Q, intersection_ellipse_line e l = Ok (ITwo P Q)) <-> ex1_ellipse_line e l = Ok true) /\ ex1_ellipse_line e l <> Ok false.
Proof. exact (ex1_ellipse_line_ok e l). Qed.
Print Assumptions C116_ellipse_line.

(** the image of the first ellipse by [from_ellipse_to_ellipse] "should be" the second one: it has the same points, and it is the
    same object if this one is in normal form and the units of the angles are the same *)
Theorem C116_ellipses e1 e2 : 0 < ea e1 -> 0 < eb e1 -> 0 < ea e2 -> 0 < eb e2 ->
  exists e, ex1_ellipses e1 e2 = Ok (Some e) /\ normal_e e /\ edeg e = edeg e1 /\
    (forall M, on_ellipse (eO e) (ea e) (eb e) (radians (edeg e) (ealpha e)) M <-> on_ellipse (eO e2) (ea e2) (eb e2) (radians (edeg e2) (ealpha e2)) M) /\
    (normal_e e2 -> edeg e2 = edeg e1 -> e = e2).
Proof. exact (ex1_ellipses_ok e1 e2). Qed.
Print Assumptions C116_ellipses.

(** the image of a point of the circle is on the image of the circle *)
Theorem C116_mobius fuel M c alpha degrees : mdet M <> C0 -> 0 < cr c ->
  ((forall p, transform M (Pt p) = Ok Inf -> ~ on_circle (cO c) (cr c) p) -> ex1_mobius fuel M c alpha degrees = Some (Ok true)) /\
  ex1_mobius fuel M c alpha degrees <> Some (Ok false).
Proof. exact (ex1_mobius_ok fuel M c alpha degrees). Qed.
Print Assumptions C116_mobius.

(** [gpower] and [power] return the same matrix for the exponents 0, 1, 2, ... *)
Theorem C116_powers arg eig M n : is_arg arg ->
  (let '(l1, l2, V) := eig M in is_eigen (ma M) (mb M) (mc M) (md M) l1 l2 (ma V) (mb V) (mc V) (md V)) ->
  mdet M <> C0 ->
  (let disc := ((ma M + md M) * (ma M + md M) - RtoC 4 * mdet M)%C in
   let alpha := ((ma M + md M) / RtoC 2)%C in
   sepsilon_ <= cabs disc \/
   (disc = C0 /\ (M = mkMob alpha C0 C0 alpha \/ ~ (Cnear (ma M) alpha /\ Cnear (mb M) C0 /\ Cnear (mc M) C0 /\ Cnear (md M) alpha)) /\
    ((mb M = C0 /\ (md M - alpha)%C = C0) \/ ~ (Cnear (mb M) C0 /\ Cnear (md M - alpha)%C C0)))) ->
  gpower arg eig M (INR n) = ModelMobius.power M (INR n).
Proof. exact (gpower_power_matrix arg eig M n). Qed.
Print Assumptions C116_powers.

Theorem C116_projection l P : lA l <> lB l -> ex1_projection l P = Ok true.
Proof. exact (ex1_projection_ok l P). Qed.
Print Assumptions C116_projection.

Theorem C116_reflection l P Q d : line_reflection l P = Ok Q ->
  allclose (lA l) P = false -> allclose (lB l) P = false -> allclose (lA l) Q = false -> allclose (lB l) Q = false ->
  ex1_reflection l P = Ok d -> d = (0, 0).
Proof. exact (ex1_reflection_ok l P Q d). Qed.
Print Assumptions C116_reflection.

(** ** The same for other constructions *)
Theorem C116_circle_circle c1 c2 P Q : 0 < cr c1 -> 0 < cr c2 -> intersection_circle_circle c1 c2 = Ok (CCPoints (ITwo P Q)) ->
  circle_includes c1 P = true /\ circle_includes c2 P = true /\ circle_includes c1 Q = true /\ circle_includes c2 Q = true.
Proof. exact (icc_included c1 c2 P Q). Qed.
Print Assumptions C116_circle_circle.

Theorem C116_lines l1 l2 st P : lA l1 <> lB l1 -> lA l2 <> lB l2 -> intersection_line_line l1 l2 st = Some P ->
  line_includes l1 P false true = Ok true /\ line_includes l2 P false true = Ok true.
Proof. exact (ill_included l1 l2 st P). Qed.
Print Assumptions C116_lines.

Theorem C116_perpendicular l M eH eM l' : lA l <> lB l -> perpendicular l M eH eM = Ok l' ->
  line_includes l' M false true = Ok true /\ is_perpendicular l l' = true.
Proof. exact (perp_included l M eH eM l'). Qed.
Print Assumptions C116_perpendicular.

Theorem C116_orthogonal c a b : 0 < cr c -> ~ collinear (cO c) (circle_point_from_angle c a false) (circle_point_from_angle c b false) ->
  exists c', orthogonal_through_two_points_on_circle c a b false = Ok (OCircle c') /\ is_orthogonal c c' = true /\
    circle_includes c' (circle_point_from_angle c a false) = true /\ circle_includes c' (circle_point_from_angle c b false) = true.
Proof. exact (ootp_accepted c a b). Qed.
Print Assumptions C116_orthogonal.

Theorem C116_triangle A B C : ~ collinear A B C ->
  (exists c, incircle (mkTri A B C) = Ok c /\ triangle_contains (mkTri A B C) (cO c) = true) /\
  (exists c, circumcircle (mkTri A B C) = Ok (Some c) /\ circle_includes c A = true /\ circle_includes c B = true /\ circle_includes c C = true) /\
  (allclose A B = false -> allclose A C = false -> allclose B C = false ->
   exists e, steiner_ellipse (mkTri A B C) = Ok (Some e) /\ ellipse_includes e A = true /\ ellipse_includes e B = true /\ ellipse_includes e C = true).
Proof. exact (tri_accepted A B C). Qed.
Print Assumptions C116_triangle.

Theorem C116_boundary eigh P1 P2 P3 e : (forall S, is_eigh S (eigh S)) -> from_boundary3 eigh P1 P2 P3 = Ok e ->
  Forall (fun P => ellipse_includes e P = true) [P1; P2; P3].
Proof. exact (boundary3_accepted eigh P1 P2 P3 e). Qed.
Print Assumptions C116_boundary.

(** the data of the script *)
Example C116_example fuel :
  ex1_circle_line (mkCircle (1, 1) 5) (mkLine (2, -2) (0, 4) true true) = Ok true /\
  ex1_ellipse_line (mkEllipse (1, 1) 5 1 30 true) (mkLine (2, -2) (0, 4) true true) = Ok true /\
  ex1_ellipses (mkEllipse (1, 1) 5 1 30 true) (mkEllipse (4, -1) 3 2 50 true) = Ok (Some (mkEllipse (4, -1) 3 2 50 true)) /\
  ex1_mobius fuel (mkMob (1, 1) (0, 2) (2, 1) (1, 0)) (mkCircle (0, 0) 3) 1 true = Some (Ok true) /\
  ex1_circumcircle (0, 0) (1, 0) (2, 1) = Ok true /\ ex1_projection (mkLine (0, 0) (2, 2) true true) (-1, 5) = Ok true /\
  line_reflection (mkLine (0, 0) (2, 2) true true) (-1, 5) = Ok (5, -1) /\ ex1_reflection (mkLine (0, 0) (2, 2) true true) (-1, 5) = Ok (0, 0).
Proof. exact (conj script_circle_line (conj script_ellipse_line (conj script_ellipses (conj (proj2 (proj2 (script_mobius fuel))) script_rest)))). Qed.
