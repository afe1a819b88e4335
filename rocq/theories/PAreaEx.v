(** * The hypotheses of C117 are met. *)

From Coq Require Import Reals Lra List Bool.
From Verif Require Import Base BaseLemmas Spec SpecLemmas ModelInternal ModelLine ModelAffine ModelTransfo PLine PLineEx PAffine PReflect PTransfo PTransfoEx.
Import ListNotations.
Local Open Scope R_scope.

Lemma refl_ex x y : 1 <= x -> 1 <= y -> exists P, reflection_transform_pt (mkLine (0, 0) (0, 1) true true) (x, y) = Ok P.
Proof.
  intros Hx Hy. set (l := mkLine (0, 0) (0, 1) true true). assert (C : allclose (lA l) (lB l) = false) by (unfold l; cbn [lA lB]; evalclose).
  assert (N : forall z, allclose (0, z) (x, y) = false).
  { intros z. unfold allclose. cbn [fst snd]. replace (allclose1 0 x) with false; auto. symmetry. unfold allclose1. evalb. reflexivity. }
  assert (L : on_line (lA l) (lB l) (0, y)) by (exists y; unfold l; cbn [lA lB]; unspec; f_equal; ring).
  destruct (reflection_exact l (x, y) (0, y) C L) as [_ K].
  { unfold l; cbn [lA lB]; unspec; ring. }
  destruct K as [_ K]; [apply N|apply N| |].
  { intros K. apply on_line_cross in K; [|apply allclose_false_neq; auto]. revert K. unfold l; cbn [lA lB]; unspec. lra. }
  destruct K as (Q & E & _); [apply N|]. eauto.
Qed.

Lemma proj_ex x y : 1 <= x -> 1 <= y -> exists P, project (mkProj (mkLine (0, 0) (0, 1) true true) (mkLine (0, 0) (1, 0) true true) false) (x, y) = Ok P.
Proof.
  intros Hx Hy. set (p := mkProj _ _ _). assert (C : allclose (lA (pD p)) (lB (pD p)) = false) by (unfold p; cbn [pD lA lB]; evalclose).
  assert (N : forall z, allclose (0, z) (x, y) = false).
  { intros z. unfold allclose. cbn [fst snd]. replace (allclose1 0 x) with false; auto. symmetry. unfold allclose1. evalb. reflexivity. }
  pose proof (allclose_false_neq _ _ C) as NC.
  destruct (collinear_not_close _ _ (x, y) C (N 0) (N 1)) as (b & Eb & Kb).
  destruct (project_spec p (x, y) NC) as (P & E & _); eauto.
  - rewrite parallel_cross. unfold p; cbn [pD pDelta lA lB]. unspec. lra.
  - destruct b; [left; apply Kb; auto|right; auto].
Qed.

Lemma area_ex_classes :
  let l := mkLine (0, 0) (0, 1) true true in let p := mkProj l (mkLine (0, 0) (1, 0) true true) false in
  allclose (0, 0) (0, 1) = false /\ Forall (fun M => allclose (0, 0) M = false /\ allclose (0, 1) M = false) [(1, 1); (3, 1); (1, 2)] /\
  (exists P Q S, reflection_transform_pt l (1, 1) = Ok P /\ reflection_transform_pt l (3, 1) = Ok Q /\ reflection_transform_pt l (1, 2) = Ok S) /\
  (exists P Q S, project p (1, 1) = Ok P /\ project p (3, 1) = Ok Q /\ project p (1, 2) = Ok S) /\
  (exists A', shear_transform (mkShear (1, 1) (1, 0) 1 45 true) (2, 3) = Ok A') /\
  exists m1 m2 P, affine_transform_line (mkAffine (mkM2 3 0 0 1) (0, 2)) (mkLine (1, 0) (1, 1) true true) = Ok (Some m1) /\
    affine_transform_line (mkAffine (mkM2 3 0 0 1) (0, 2)) (mkLine (0, 2) (1, 2) true true) = Ok (Some m2) /\
    intersection_line_line (mkLine (1, 0) (1, 1) true true) (mkLine (0, 2) (1, 2) true true) false = Some (1, 2) /\ intersection_line_line m1 m2 false = Some P.
Proof.
  intros l p. split; [evalclose|]. split; [repeat (constructor; [split; evalclose|]); constructor|].
  split. { destruct (refl_ex 1 1) as [P HP], (refl_ex 3 1) as [Q HQ], (refl_ex 1 2) as [S HS]; try lra. exists P, Q, S. auto. }
  split. { destruct (proj_ex 1 1) as [P HP], (proj_ex 3 1) as [Q HQ], (proj_ex 1 2) as [S HS]; try lra. exists P, Q, S. auto. }
  split. { destruct (shear_formula (mkShear (1, 1) (1, 0) 1 45 true) (2, 3)) as [E _]; cbn [sw sratio]; [intros X; injection X; lra|lra|]. eauto. }
  exists (mkLine (3, 2) (3, 3) true true), (mkLine (0, 4) (3, 4) true true), (3, 4).
  unfold affine_transform_line, det2, mv2, vadd, Line_init. cbn [afA afb m11 m12 m21 m22 lA lB lextA lextB fst snd]. evalb.
  replace (3 * 1 + 0 * 0 + 0, 0 * 1 + 1 * 0 + 2) with (3, 2) by (f_equal; ring). replace (3 * 1 + 0 * 1 + 0, 0 * 1 + 1 * 1 + 2) with (3, 3) by (f_equal; ring).
  replace (3 * 0 + 0 * 2 + 0, 0 * 0 + 1 * 2 + 2) with (0, 4) by (f_equal; ring). replace (3 * 1 + 0 * 2 + 0, 0 * 1 + 1 * 2 + 2) with (3, 4) by (f_equal; ring).
  replace (allclose (3, 2) (3, 3)) with false by (symmetry; evalclose). replace (allclose (0, 4) (3, 4)) with false by (symmetry; evalclose). cbn [bind].
  split; auto. split; auto. split; [apply ex_C08|].
  assert (HO : snd (direction_offset (mkLine (0, 4) (3, 4) true true)) = 4).
  { unfold direction_offset. cbn [lA lB fst snd]. evalb.
    replace (atan2 (3 - 0) (4 - 4)) with (PI / 2).
    2:{ unfold atan2. repeat destruct Rlt_dec; try lra. }
    rewrite sin_neg, cos_neg, sin_PI2, cos_PI2. evalb. cbn [snd]. lra. }
  assert (HE : line_is_equal (mkLine (3, 2) (3, 3) true true) (mkLine (0, 4) (3, 4) true true) = false).
  { unfold line_is_equal. rewrite HO, vertical_do by lra. cbn [fst snd].
    unfold approx_equal_. unfold isclose. evalb.
    destruct (direction_offset (mkLine (0, 4) (3, 4) true true)) as [d o]. cbn [snd] in HO. subst o.
    unfold allclose. cbn [fst snd].
    assert (E : allclose1 3 4 = false) by (unfold allclose1; evalb; reflexivity). rewrite E. apply andb_false_r. }
  unfold intersection_line_line. rewrite HE.
  destruct (is_parallel _ _) eqn:F; [apply is_parallel_iff in F; cbn [lA lB] in F; unfold sepsilon_ in F; revert F; unspec; rsolve|].
  cbn [negb lA lB]. unfold line_line_intersection_, det2x2_. cbn [fst snd]. evalb. f_equal. f_equal; field.
Qed.
