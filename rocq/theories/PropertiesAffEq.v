(** * Fitting an ellipse to points, then mapping it: the same as mapping the points first. *)

From Coq Require Import Reals List.
From Verif Require Import Base Spec SpecBoundary4 SpecLowner ModelInternal ModelLine ModelCircle ModelAffine ModelEllipse ModelTransfo ModelTriangle ModelBoundary4 ModelLowner
  PAffEq PAffEq2 PAffEqEx.
Import ListNotations.
Local Open Scope R_scope.

(** ** C110 *)
Theorem C110_from_boundary3 eigh f P1 P2 P3 e : (forall S, is_eigh S (eigh S)) -> det2 (afA f) <> 0 -> from_boundary3 eigh P1 P2 P3 = Ok e ->
  exists e' e2, from_boundary3 eigh (affine_transform f P1) (affine_transform f P2) (affine_transform f P3) = Ok e' /\
    affine_transform_ellipse f (AEllipse e) = Ok (Some e2) /\
    forall M, on_ellipse (eO e2) (ea e2) (eb e2) (radians (edeg e2) (ealpha e2)) M <-> on_ellipse (eO e') (ea e') (eb e') (radians (edeg e') (ealpha e')) M.
Proof. exact (boundary3_same eigh f P1 P2 P3 e). Qed.
Print Assumptions C110_from_boundary3.

Theorem C110_from_boundary4 argsort roots eigh f P1 P2 P3 P4 : is_argsort argsort -> is_roots roots -> (forall S, is_eigh S (eigh S)) ->
  det2 (afA f) <> 0 -> convex_position P1 P2 P3 P4 ->
  exists e e' e2, from_boundary4 true argsort roots eigh P1 P2 P3 P4 = Ok e /\
    from_boundary4 true argsort roots eigh (affine_transform f P1) (affine_transform f P2) (affine_transform f P3) (affine_transform f P4) = Ok e' /\
    affine_transform_ellipse f (AEllipse e) = Ok (Some e2) /\
    forall M, on_ellipse (eO e2) (ea e2) (eb e2) (radians (edeg e2) (ealpha e2)) M <-> on_ellipse (eO e') (ea e') (eb e') (radians (edeg e') (ealpha e')) M.
Proof. exact (boundary4_same argsort roots eigh f P1 P2 P3 P4). Qed.
Print Assumptions C110_from_boundary4.

(** the smallest ellipse containing points; the draws of the two calls need not be the same *)
Theorem C110_LownerJohnEllipse argsort roots eigh eigvals ch ch' f points e e' :
  is_argsort argsort -> is_roots roots -> (forall S, is_eigh S (eigh S)) -> (forall M, is_eigvals M (eigvals M)) -> det2 (afA f) <> 0 ->
  (forall O a b th, through_five points O a b th -> not_diagonal a b th) ->
  (forall O a b th, through_five (map (affine_transform f) points) O a b th -> not_diagonal a b th) ->
  LownerJohn_full true argsort roots eigh eigvals ch points = Ok (Some e) ->
  LownerJohn_full true argsort roots eigh eigvals ch' (map (affine_transform f) points) = Ok (Some e') ->
  exists e2, affine_transform_ellipse f (AEllipse e) = Ok (Some e2) /\
    forall M, on_ellipse (eO e2) (ea e2) (eb e2) (radians (edeg e2) (ealpha e2)) M <-> on_ellipse (eO e') (ea e') (eb e') (radians (edeg e') (ealpha e')) M.
Proof. exact (lowner_same argsort roots eigh eigvals ch ch' f points e e'). Qed.
Print Assumptions C110_LownerJohnEllipse.

Theorem C110_steiner f A B C : det2 (afA f) <> 0 -> ~ collinear A B C ->
  allclose A B = false -> allclose A C = false -> allclose B C = false ->
  let A' := affine_transform f A in let B' := affine_transform f B in let C' := affine_transform f C in
  allclose A' B' = false -> allclose A' C' = false -> allclose B' C' = false ->
  (exists e e' e2, steiner_ellipse (mkTri A B C) = Ok (Some e) /\ steiner_ellipse (mkTri A' B' C') = Ok (Some e') /\
     affine_transform_ellipse f (AEllipse e) = Ok (Some e2) /\
     forall M, on_ellipse (eO e2) (ea e2) (eb e2) (radians (edeg e2) (ealpha e2)) M <-> on_ellipse (eO e') (ea e') (eb e') (radians (edeg e') (ealpha e')) M) /\
  (exists e e' e2, steiner_inellipse (mkTri A B C) = Ok (Some e) /\ steiner_inellipse (mkTri A' B' C') = Ok (Some e') /\
     affine_transform_ellipse f (AEllipse e) = Ok (Some e2) /\
     forall M, on_ellipse (eO e2) (ea e2) (eb e2) (radians (edeg e2) (ealpha e2)) M <-> on_ellipse (eO e') (ea e') (eb e') (radians (edeg e') (ealpha e')) M).
Proof. exact (steiner_same f A B C). Qed.
Print Assumptions C110_steiner.

(** areas are multiplied by the determinant *)
Theorem C110_area eigh f P1 P2 P3 e : (forall S, is_eigh S (eigh S)) -> det2 (afA f) <> 0 -> from_boundary3 eigh P1 P2 P3 = Ok e ->
  exists e', from_boundary3 eigh (affine_transform f P1) (affine_transform f P2) (affine_transform f P3) = Ok e' /\
    PI * ea e' * eb e' = Rabs (det2 (afA f)) * (PI * ea e * eb e).
Proof. exact (boundary3_area eigh f P1 P2 P3 e). Qed.
Print Assumptions C110_area.

Example C110_example : let f := mkAffine (mkM2 2 1 0 1) (3, 4) in
  det2 (afA f) <> 0 /\ ~ collinear (0, 0) (4, 0) (0, 3) /\
  allclose (0, 0) (4, 0) = false /\ allclose (0, 0) (0, 3) = false /\ allclose (4, 0) (0, 3) = false /\
  allclose (affine_transform f (0, 0)) (affine_transform f (4, 0)) = false /\
  allclose (affine_transform f (0, 0)) (affine_transform f (0, 3)) = false /\
  allclose (affine_transform f (4, 0)) (affine_transform f (0, 3)) = false.
Proof. exact ex_C110. Qed.
