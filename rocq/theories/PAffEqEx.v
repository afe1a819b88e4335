(** * Fitting and affine maps: areas and a concrete case. *)

From Coq Require Import Reals Lra Psatz List Bool.
From Verif Require Import Base BaseLemmas Spec SpecLemmas SpecTriangle ModelInternal ModelLine ModelCircle ModelAffine ModelEllipse ModelTransfo ModelTriangle ModelBoundary4
  PAffine PTriangle PTriangle2 PAffEq PAffEq2.
Import ListNotations.
Local Open Scope R_scope.

Lemma boundary3_area eigh f P1 P2 P3 e : (forall S, is_eigh S (eigh S)) -> det2 (afA f) <> 0 -> from_boundary3 eigh P1 P2 P3 = Ok e ->
  exists e', from_boundary3 eigh (affine_transform f P1) (affine_transform f P2) (affine_transform f P3) = Ok e' /\
    PI * ea e' * eb e' = Rabs (det2 (afA f)) * (PI * ea e * eb e).
Proof.
  intros Hs Hd H. destruct (boundary3_affine eigh f P1 P2 P3 e Hs Hd H) as (e' & E & _ & A). exists e'. split; auto.
  rewrite Rmult_assoc, A. ring.
Qed.

Lemma ex_C110 : let f := mkAffine (mkM2 2 1 0 1) (3, 4) in
  det2 (afA f) <> 0 /\ ~ collinear (0, 0) (4, 0) (0, 3) /\
  allclose (0, 0) (4, 0) = false /\ allclose (0, 0) (0, 3) = false /\ allclose (4, 0) (0, 3) = false /\
  allclose (affine_transform f (0, 0)) (affine_transform f (4, 0)) = false /\
  allclose (affine_transform f (0, 0)) (affine_transform f (0, 3)) = false /\
  allclose (affine_transform f (4, 0)) (affine_transform f (0, 3)) = false.
Proof.
  cbv zeta.
  assert (E0 : affine_transform (mkAffine (mkM2 2 1 0 1) (3, 4)) (0, 0) = (3, 4)) by (unfold affine_transform, mv2, vadd; cbn [afA afb m11 m12 m21 m22 fst snd]; apply pair_eq; lra).
  assert (E1 : affine_transform (mkAffine (mkM2 2 1 0 1) (3, 4)) (4, 0) = (11, 4)) by (unfold affine_transform, mv2, vadd; cbn [afA afb m11 m12 m21 m22 fst snd]; apply pair_eq; lra).
  assert (E2 : affine_transform (mkAffine (mkM2 2 1 0 1) (3, 4)) (0, 3) = (6, 7)) by (unfold affine_transform, mv2, vadd; cbn [afA afb m11 m12 m21 m22 fst snd]; apply pair_eq; lra).
  rewrite E0, E1, E2.
  split; [unfold det2; cbn; lra|]. split; [apply not_collinear_dbl; unfold dbl; unspec; lra|].
  repeat split; evalclose.
Qed.
