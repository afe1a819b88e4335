(** * C114: an ellipse is determined by its points; images of ellipses by composed maps. *)

From Coq Require Import Reals.
From Verif Require Import Base Spec SpecEllForm ModelInternal ModelLine ModelCircle ModelAffine ModelEllipse ModelTransfo PEllUnique PEllUnique2.
Local Open Scope R_scope.

(** an ellipse whose points are on another one has the same center, the same axes and, unless it is a circle, the same direction *)
Theorem C114_unique O a b th O' a' b' th' : 0 < b <= a -> 0 < b' <= a' -> (forall M, on_ellipse O a b th M -> on_ellipse O' a' b' th' M) ->
  O = O' /\ a = a' /\ b = b' /\ (forall M, ell_form O a b th M = ell_form O' a' b' th' M) /\ (b < a -> cos (2 * th) = cos (2 * th') /\ sin (2 * th) = sin (2 * th')).
Proof. exact (ellipse_unique O a b th O' a' b' th'). Qed.
Print Assumptions C114_unique.

(** the ellipse returned by [transform_ellipse] is in normal form, and is the only ellipse in normal form with its points *)
Theorem C114_normal f e : 0 < ea e -> 0 < eb e -> det2 (afA f) <> 0 -> exists e1, affine_transform_ellipse f (AEllipse e) = Ok (Some e1) /\ normal_e e1 /\
  eO e1 = affine_transform f (eO e) /\ ea e1 * eb e1 = Rabs (det2 (afA f)) * (ea e * eb e) /\
  forall e2, normal_e e2 -> edeg e2 = edeg e -> (forall M, on_ellipse (eO e) (ea e) (eb e) (radians (edeg e) (ealpha e)) M -> on_ellipse (eO e2) (ea e2) (eb e2) (radians (edeg e2) (ealpha e2)) (affine_transform f M)) -> e2 = e1.
Proof. exact (ellipse_normal f e). Qed.
Print Assumptions C114_normal.

(** composition *)
Theorem C114_compose f g arg (left : bool) : (match arg with ACircle c => 0 < cr c | AEllipse e => 0 < ea e /\ 0 < eb e end) -> det2 (afA f) <> 0 -> det2 (afA g) <> 0 ->
  let first := if left then f else g in let second := if left then g else f in
  exists e1 e2, affine_transform_ellipse first arg = Ok (Some e1) /\ affine_transform_ellipse second (AEllipse e1) = Ok (Some e2) /\
    affine_transform_ellipse (affine_compose f g left) arg = Ok (Some e2).
Proof. exact (ellipse_compose f g arg left). Qed.
Print Assumptions C114_compose.

(** inverse *)
Theorem C114_inverse f e : 0 < ea e -> 0 < eb e -> det2 (afA f) <> 0 ->
  exists fi e1 e2, affine_inverse f = Ok (Some fi) /\ affine_transform_ellipse f (AEllipse e) = Ok (Some e1) /\ affine_transform_ellipse fi (AEllipse e1) = Ok (Some e2) /\
    (forall M, on_ellipse (eO e2) (ea e2) (eb e2) (radians (edeg e2) (ealpha e2)) M <-> on_ellipse (eO e) (ea e) (eb e) (radians (edeg e) (ealpha e)) M) /\ (normal_e e -> e2 = e).
Proof. exact (ellipse_inverse f e). Qed.
Print Assumptions C114_inverse.

(** [rotate_ellipse] and the affine map of the rotation *)
Theorem C114_rotation r e : 0 < ea e -> 0 < eb e -> exists e1 e2, rotate_ellipse r e = Ok e1 /\ affine_transform_ellipse (rotation_as_affine r) (AEllipse e) = Ok (Some e2) /\
  eO e2 = eO e1 /\ edeg e2 = edeg e1 /\ ea e2 = Rmax (ea e1) (eb e1) /\ eb e2 = Rmin (ea e1) (eb e1) /\
  forall M, on_ellipse (eO e1) (ea e1) (eb e1) (radians (edeg e1) (ealpha e1)) M <-> on_ellipse (eO e2) (ea e2) (eb e2) (radians (edeg e2) (ealpha e2)) M.
Proof. exact (ellipse_rotation r e). Qed.
Print Assumptions C114_rotation.

(** the identity puts an ellipse in normal form *)
Theorem C114_identity e : 0 < ea e -> 0 < eb e -> exists e1, affine_transform_ellipse (mkAffine (mkM2 1 0 0 1) (0, 0)) (AEllipse e) = Ok (Some e1) /\ normal_e e1 /\
  (forall M, on_ellipse (eO e1) (ea e1) (eb e1) (radians (edeg e1) (ealpha e1)) M <-> on_ellipse (eO e) (ea e) (eb e) (radians (edeg e) (ealpha e)) M) /\ (normal_e e -> e1 = e).
Proof. exact (ellipse_identity e). Qed.
Print Assumptions C114_identity.

Example C114_example : exists e1 e2, affine_transform_ellipse (mkAffine (mkM2 2 1 0 1) (3, 4)) (AEllipse (mkEllipse (1, 0) 2 1 30 true)) = Ok (Some e1) /\
  affine_transform_ellipse (mkAffine (mkM2 0 (-1) 1 0) (1, 1)) (AEllipse e1) = Ok (Some e2) /\
  affine_transform_ellipse (mkAffine (mkM2 0 (-1) 2 1) (-3, 4)) (AEllipse (mkEllipse (1, 0) 2 1 30 true)) = Ok (Some e2) /\ eO e2 = (-3, 6) /\ ea e2 * eb e2 = 4.
Proof. exact unique_ex. Qed.
