(** * Property C117: what affine maps do to areas, orientations, insides and intersections. *)

From Coq Require Import Reals List Bool ZArith.
From Verif Require Import Base Spec SpecTriangle SpecArea ModelInternal ModelLine ModelCircle ModelAffine ModelEllipse ModelTriangle ModelTransfo PArea PAreaEx.
Import ListNotations.
Local Open Scope R_scope.

(** an affine map multiplies the signed areas by its determinant, and by no other number *)
Theorem C117_area f k : scales_areas k (affine_transform f) <-> k = det2 (afA f).
Proof. exact (conj (area_factor f k) (fun E => eq_ind_r (fun k => scales_areas k (affine_transform f)) (affine_area f) E)). Qed.
Print Assumptions C117_area.

Theorem C117_compose f g left : scales_areas (det2 (afA f) * det2 (afA g)) (affine_transform (affine_compose f g left)).
Proof. exact (compose_area f g left). Qed.
Print Assumptions C117_compose.

Theorem C117_inverse f : det2 (afA f) <> 0 -> exists g, affine_inverse f = Ok (Some g) /\ scales_areas (/ det2 (afA f)) (affine_transform g).
Proof. exact (inverse_area f). Qed.
Print Assumptions C117_inverse.

(** the other classes *)
Theorem C117_classes : (forall r, scales_areas 1 (rotate r)) /\ (forall h, scales_areas (hscale h * hscale h) (homothety_transform h)) /\
  (forall s, scales_areas (xysx s * xysy s) (scalingxy_transform s)) /\ (forall S, scales_areas (scs S) (scaling_transform S)).
Proof. exact (conj rotation_area (conj homothety_area (conj scalingxy_area scaling_area))). Qed.
Print Assumptions C117_classes.

Theorem C117_shear s A B C A' B' C' : sw s <> (0, 0) -> 0 < sratio s ->
  shear_transform s A = Ok A' -> shear_transform s B = Ok B' -> shear_transform s C = Ok C' -> area A' B' C' = area A B C.
Proof. exact (shear_area s A B C A' B' C'). Qed.
Print Assumptions C117_shear.

Theorem C117_reflection l P Q S P' Q' S' : allclose (lA l) (lB l) = false ->
  Forall (fun M => allclose (lA l) M = false /\ allclose (lB l) M = false) [P; Q; S] ->
  reflection_transform_pt l P = Ok P' -> reflection_transform_pt l Q = Ok Q' -> reflection_transform_pt l S = Ok S' -> area P' Q' S' = - area P Q S.
Proof. exact (reflection_area l P Q S P' Q' S'). Qed.
Print Assumptions C117_reflection.

Theorem C117_reflection_affine l : lA l <> lB l -> exists f, reflection_as_affine l = Ok f /\ scales_areas (-1) (affine_transform f).
Proof. exact (reflection_affine_area l). Qed.
Print Assumptions C117_reflection_affine.

Theorem C117_projection p P Q S P' Q' S' : allclose (lA (pD p)) (lB (pD p)) = false ->
  ~ parallel (vsub (lB (pDelta p)) (lA (pDelta p))) (vsub (lB (pD p)) (lA (pD p))) ->
  Forall (fun M => allclose (lA (pD p)) M = false /\ allclose (lB (pD p)) M = false) [P; Q; S] ->
  project p P = Ok P' -> project p Q = Ok Q' -> project p S = Ok S' -> area P' Q' S' = 0.
Proof. exact (project_area p P Q S P' Q' S'). Qed.
Print Assumptions C117_projection.

(** [Triangle.orientation] and [Triangle.contains] *)
Theorem C117_orientation f A B C :
  let o := orientation (mkTri A B C) in
  let o' := orientation (mkTri (affine_transform f A) (affine_transform f B) (affine_transform f C)) in
  (0 < det2 (afA f) -> o' = o) /\ (det2 (afA f) < 0 -> o' = (- o)%Z) /\ (det2 (afA f) = 0 -> o' = 0%Z).
Proof. exact (affine_orientation f A B C). Qed.
Print Assumptions C117_orientation.

Theorem C117_contains f A B C M :
  let T' := mkTri (affine_transform f A) (affine_transform f B) (affine_transform f C) in
  (det2 (afA f) <> 0 -> triangle_contains T' (affine_transform f M) = triangle_contains (mkTri A B C) M) /\
  (det2 (afA f) = 0 -> forall N, triangle_contains T' N = false).
Proof. exact (affine_contains f A B C M). Qed.
Print Assumptions C117_contains.

(** [Ellipse.contains] and [Circle.contains] *)
Theorem C117_ellipse_contains f e : 0 < ea e -> 0 < eb e -> det2 (afA f) <> 0 ->
  exists e', affine_transform_ellipse f (AEllipse e) = Ok (Some e') /\ forall M, ellipse_contains e' (affine_transform f M) = ellipse_contains e M.
Proof. exact (affine_ellipse_contains f e). Qed.
Print Assumptions C117_ellipse_contains.

Theorem C117_circle_contains f c : 0 < cr c -> det2 (afA f) <> 0 ->
  exists e', affine_transform_ellipse f (ACircle c) = Ok (Some e') /\ forall M, ellipse_contains e' (affine_transform f M) = circle_contains c M.
Proof. exact (affine_circle_contains f c). Qed.
Print Assumptions C117_circle_contains.

(** barycentres, and intersections of lines *)
Theorem C117_barycentre f u v w A B C : u + v + w = 1 ->
  affine_transform f (bary u v w A B C) = bary u v w (affine_transform f A) (affine_transform f B) (affine_transform f C).
Proof. exact (affine_bary f u v w A B C). Qed.
Print Assumptions C117_barycentre.

Theorem C117_intersection f l1 l2 m1 m2 st P Q : lA l1 <> lB l1 -> lA l2 <> lB l2 ->
  affine_transform_line f l1 = Ok (Some m1) -> affine_transform_line f l2 = Ok (Some m2) ->
  intersection_line_line l1 l2 st = Some P -> intersection_line_line m1 m2 st = Some Q -> Q = affine_transform f P.
Proof. exact (affine_intersection f l1 l2 m1 m2 st P Q). Qed.
Print Assumptions C117_intersection.

Example C117_example : let f := mkAffine (mkM2 2 1 0 (-1)) (3, 4) in
  let T' := mkTri (affine_transform f (0, 0)) (affine_transform f (4, 0)) (affine_transform f (0, 3)) in
  det2 (afA f) = -2 /\ area (0, 0) (4, 0) (0, 3) = 6 /\ area (tA T') (tB T') (tC T') = -12 /\
  orientation T' = 1%Z /\ triangle_contains T' (affine_transform f (1, 1)) = true.
Proof. exact area_ex. Qed.

(** the hypotheses on reflections, projections, shears and lines are met *)
Example C117_example_classes :
  let l := mkLine (0, 0) (0, 1) true true in let p := mkProj l (mkLine (0, 0) (1, 0) true true) false in
  allclose (0, 0) (0, 1) = false /\ Forall (fun M => allclose (0, 0) M = false /\ allclose (0, 1) M = false) [(1, 1); (3, 1); (1, 2)] /\
  (exists P Q S, reflection_transform_pt l (1, 1) = Ok P /\ reflection_transform_pt l (3, 1) = Ok Q /\ reflection_transform_pt l (1, 2) = Ok S) /\
  (exists P Q S, project p (1, 1) = Ok P /\ project p (3, 1) = Ok Q /\ project p (1, 2) = Ok S) /\
  (exists A', shear_transform (mkShear (1, 1) (1, 0) 1 45 true) (2, 3) = Ok A') /\
  exists m1 m2 P, affine_transform_line (mkAffine (mkM2 3 0 0 1) (0, 2)) (mkLine (1, 0) (1, 1) true true) = Ok (Some m1) /\
    affine_transform_line (mkAffine (mkM2 3 0 0 1) (0, 2)) (mkLine (0, 2) (1, 2) true true) = Ok (Some m2) /\
    intersection_line_line (mkLine (1, 0) (1, 1) true true) (mkLine (0, 2) (1, 2) true true) false = Some (1, 2) /\ intersection_line_line m1 m2 false = Some P.
Proof. exact area_ex_classes. Qed.
