(** * C101: the matrices of the transformations, and [Affine.compose] with any of them. *)

From Coq Require Import Reals.
From Verif Require Import Base Spec SpecCompose ModelInternal ModelLine ModelAffine ModelTransfo PCompose.
Local Open Scope R_scope.

(** get3x3matrix: the last row is (0, 0, 1) and the matrix applied to (x, y, 1) is the transformed point *)
Theorem C101_matrix : forall T, proper T -> exists M, get3x3matrix T = Ok M /\ (n31 M = 0 /\ n32 M = 0 /\ n33 M = 1) /\ forall P, maps_to T P (mat3_apply M P).
Proof. exact matrix_full. Qed.
Print Assumptions C101_matrix.

(** the product of two matrices is the matrix of the composition *)
Theorem C101_product : forall T U, proper T -> proper U -> exists M N, get3x3matrix T = Ok M /\ get3x3matrix U = Ok N /\
  forall P, maps_to U P (mat3_apply N P) /\ maps_to T (mat3_apply N P) (mat3_apply (mm3 M N) P).
Proof. exact product_spec. Qed.
Print Assumptions C101_product.

(** compose: at left the transformation acts after the affine map, at right before *)
Theorem C101_compose : forall f T, proper T ->
  (exists g, affine_compose_any f T true = Ok g /\ forall P, maps_to T (affine_transform f P) (affine_transform g P)) /\
  (exists g, affine_compose_any f T false = Ok g /\ forall P, exists Q, maps_to T P Q /\ affine_transform g P = affine_transform f Q).
Proof. exact compose_spec. Qed.
Print Assumptions C101_compose.

(** degenerate transformations *)
Theorem C101_singular : forall f left, (forall l, lA l = lB l -> affine_compose_any f (TReflection l) left = Raise LinAlgError) /\
  (forall s, sw s = (0, 0) -> affine_compose_any f (TShear s) left = Raise LinAlgError) /\
  (forall sc, scw sc = (0, 0) -> affine_compose_any f (TScaling sc) left = Raise LinAlgError).
Proof. exact compose_singular. Qed.
Print Assumptions C101_singular.

Example C101_example : exists f g h k,
  affine_compose_any (rotation_as_affine (mkRot (0, 0) 90 true)) (TReflection (mkLine (0, 0) (1, 1) true true)) true = Ok f /\ affine_transform f (1, 2) = (1, -2) /\
  affine_compose_any (rotation_as_affine (mkRot (0, 0) 90 true)) (TReflection (mkLine (0, 0) (1, 1) true true)) false = Ok g /\ affine_transform g (1, 2) = (-1, 2) /\
  affine_compose_any (homothety_as_affine (mkHom (1, 1) 2)) (TShear (mkShear (0, 0) (1, 0) 1 0 true)) true = Ok h /\ affine_transform h (1, 2) = (1, 3) /\
  affine_compose_any (homothety_as_affine (mkHom (1, 1) 2)) (TScaling (mkScaling (0, 0) (1, 0) 3)) false = Ok k /\ affine_transform k (1, 2) = (5, 3).
Proof. exact compose_ex. Qed.
