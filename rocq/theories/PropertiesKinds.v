(** * C113: what composing reflections, rotations, homotheties, inversions gives. *)

From Coq Require Import Reals.
From Verif Require Import Base Spec SpecCompose ModelInternal ModelLine ModelAffine ModelTransfo ModelInversion PKinds.
Local Open Scope R_scope.

(** two reflections in lines through [O], the second line being the first one turned by [th]: the rotation about [O] by [2 th] *)
Theorem C113_reflections_meet l1 l2 O k th : lA l1 <> lB l1 -> lA l2 <> lB l2 -> on_line (lA l1) (lB l1) O -> on_line (lA l2) (lB l2) O ->
  vsub (lB l2) (lA l2) = vscal k (rot th (0, 0) (vsub (lB l1) (lA l1))) ->
  exists f g, reflection_as_affine l1 = Ok f /\ affine_compose_any f (TReflection l2) true = Ok g /\ forall P, affine_transform g P = rot (2 * th) O P.
Proof. exact (reflections_meet l1 l2 O k th). Qed.
Print Assumptions C113_reflections_meet.

(** parallel lines: the translation by twice the vector from the first to the second *)
Theorem C113_reflections_parallel l1 l2 k v : lA l1 <> lB l1 -> lA l2 <> lB l2 -> vsub (lB l2) (lA l2) = vscal k (vsub (lB l1) (lA l1)) ->
  orthogonal v (vsub (lB l1) (lA l1)) -> on_line (lA l2) (lB l2) (vadd (lA l1) v) ->
  exists f g, reflection_as_affine l1 = Ok f /\ affine_compose_any f (TReflection l2) true = Ok g /\ forall P, affine_transform g P = vadd P (vscal 2 v).
Proof. exact (reflections_parallel l1 l2 k v). Qed.
Print Assumptions C113_reflections_parallel.

(** a reflection, then a rotation about a point of the line: the reflection in the line turned by half the angle *)
Theorem C113_reflection_rotation l r : lA l <> lB l -> on_line (lA l) (lB l) (rO r) ->
  let h := radians (rdeg r) (rtheta r) / 2 in
  exists f g, reflection_as_affine l = Ok f /\ affine_compose_any f (TRotation r) true = Ok g /\
    rot h (rO r) (lA l) <> rot h (rO r) (lB l) /\ forall P, mirror (rot h (rO r) (lA l)) (rot h (rO r) (lB l)) P (affine_transform g P).
Proof. exact (reflection_rotation l r). Qed.
Print Assumptions C113_reflection_rotation.

Theorem C113_rotations r1 r2 : let t := radians (rdeg r1) (rtheta r1) + radians (rdeg r2) (rtheta r2) in
  exists g, affine_compose_any (rotation_as_affine r1) (TRotation r2) true = Ok g /\
    (cos t <> 1 -> exists C, (forall P, affine_transform g P = rot t C P) /\ forall P, affine_transform g P = P <-> P = C) /\
    (cos t = 1 -> exists v, forall P, affine_transform g P = vadd P v).
Proof. exact (rotations r1 r2). Qed.
Print Assumptions C113_rotations.

Theorem C113_homotheties h1 h2 : let s := hscale h1 * hscale h2 in
  exists g, affine_compose_any (homothety_as_affine h1) (THomothety h2) true = Ok g /\
    (s <> 1 -> exists C, on_line (hO h1) (hO h2) C /\ forall P, affine_transform g P = vadd C (vscal s (vsub P C))) /\
    (s = 1 -> forall P, affine_transform g P = vadd P (vscal (1 - hscale h2) (vsub (hO h2) (hO h1)))).
Proof. exact (homotheties h1 h2). Qed.
Print Assumptions C113_homotheties.

(** two inversions of the same pole, where both give finite points *)
Theorem C113_inversions i1 i2 P N Q : ipole i1 = ipole i2 -> ipower i1 <> 0 -> invert i1 (Pt P) = Pt N -> invert i2 (Pt N) = Pt Q ->
  Q = homothety_transform (mkHom (ipole i1) (ipower i2 / ipower i1)) P.
Proof. exact (inversions i1 i2 P N Q). Qed.
Print Assumptions C113_inversions.

Example C113_example : exists f g g' h,
  reflection_as_affine (mkLine (0, 0) (1, 0) true true) = Ok f /\ affine_compose_any f (TReflection (mkLine (0, 0) (2, 2) true true)) true = Ok g /\ affine_transform g (1, 2) = (-2, 1) /\
  affine_compose_any (rotation_as_affine (mkRot (0, 0) 90 true)) (TRotation (mkRot (2, 0) 90 true)) true = Ok g' /\ affine_transform g' (1, 2) = (1, -4) /\
  affine_compose_any (homothety_as_affine (mkHom (0, 0) 2)) (THomothety (mkHom (2, 0) (1 / 2))) true = Ok h /\ affine_transform h (1, 2) = (2, 2).
Proof. exact kinds_ex. Qed.
