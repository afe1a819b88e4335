(** * Reformulations and concrete cases for the transformations. *)

From Coq Require Import Reals Lra Lia Psatz List Bool Arith.
From Verif Require Import Base BaseLemmas Spec SpecLemmas ModelInternal ModelLine ModelCircle ModelAffine ModelEllipse ModelTransfo ModelBatch
  PLine PCircle PInvBase PAffine PReflect PTransfo PBatch.
Import ListNotations.
Local Open Scope R_scope.

Lemma foot_unique A B P H F : A <> B -> on_line A B H -> orthogonal (vsub P H) (vsub B A) ->
  on_line A B F -> orthogonal (vsub F P) (vsub B A) -> F = H.
Proof.
  intros N H1 H2 F1 F2. apply on_line_cross in H1; auto. apply on_line_cross in F1; auto. pose proof (pt_neq _ _ N) as Hp.
  apply (lli_unique A B P (vadd P (- (snd B - snd A), fst B - fst A))); auto.
  - unspec. nra.
  - clear - F2. unspec. lra.
  - clear - H2. unspec. lra.
Qed.

Lemma reflection_exact l P H : allclose (lA l) (lB l) = false ->
  on_line (lA l) (lB l) H -> orthogonal (vsub P H) (vsub (lB l) (lA l)) ->
  ((allclose (lA l) P = true \/ allclose (lB l) P = true \/ on_line (lA l) (lB l) P) ->
      reflection_transform_pt l P = Ok P) /\
  (allclose (lA l) P = false -> allclose (lB l) P = false -> ~ on_line (lA l) (lB l) P ->
     (allclose H P = true -> reflection_transform_pt l P = Raise ValueError) /\
     (allclose H P = false -> exists Q, reflection_transform_pt l P = Ok Q /\ mirror (lA l) (lB l) P Q)).
Proof.
  intros C H1 H2. destruct (reflection_cases l P C) as [K1 K2]. split; auto. intros N1 N2 N3.
  destruct (K2 N1 N2 N3) as (F & EF & K3 & K4). pose proof (allclose_false_neq _ _ C) as N.
  destruct (projection_spec l P N) as (F' & EF' & F1 & F2). rewrite EF in EF'. injection EF' as <-.
  assert (F = H) by (apply (foot_unique (lA l) (lB l) P); auto).
  subst F. auto.
Qed.

(** the line y = x and the point (3, 1), whose image is (1, 3) *)
Lemma ex_C06 : let l := mkLine (0, 0) (1, 1) true true in
  allclose (lA l) (lB l) = false /\ allclose (lA l) (3, 1) = false /\ allclose (lB l) (3, 1) = false /\
  allclose (lA l) (1, 3) = false /\ allclose (lB l) (1, 3) = false /\
  reflection_transform_pt l (3, 1) = Ok (1, 3) /\ reflection_transform_pt l (1, 3) = Ok (3, 1).
Proof.
  intros l.
  assert (C : allclose (lA l) (lB l) = false) by (unfold l; cbn [lA lB]; evalclose).
  assert (C1 : allclose (lA l) (3, 1) = false) by (unfold l; cbn [lA lB]; evalclose).
  assert (C2 : allclose (lB l) (3, 1) = false) by (unfold l; cbn [lA lB]; evalclose).
  assert (C3 : allclose (lA l) (1, 3) = false) by (unfold l; cbn [lA lB]; evalclose).
  assert (C4 : allclose (lB l) (1, 3) = false) by (unfold l; cbn [lA lB]; evalclose).
  pose proof (allclose_false_neq _ _ C) as N.
  do 5 (split; auto).
  assert (L : on_line (lA l) (lB l) (2, 2)) by (exists 2; unfold l; cbn [lA lB]; unspec; f_equal; ring).
  split.
  - destruct (reflection_exact l (3, 1) (2, 2) C L) as [_ K].
    { unfold l; cbn [lA lB]; unspec; ring. }
    destruct K as [_ K]; auto.
    { intros K. apply on_line_cross in K; auto. revert K. unfold l; cbn [lA lB]; unspec. lra. }
    destruct K as (Q & E & M). { evalclose. }
    rewrite E. f_equal. apply (mirror_unique (lA l) (lB l) (3, 1)); auto. apply mirror_cross; auto. unfold l; cbn [lA lB]; unspec. lra.
  - destruct (reflection_exact l (1, 3) (2, 2) C L) as [_ K].
    { unfold l; cbn [lA lB]; unspec; ring. }
    destruct K as [_ K]; auto.
    { intros K. apply on_line_cross in K; auto. revert K. unfold l; cbn [lA lB]; unspec. lra. }
    destruct K as (Q & E & M). { evalclose. }
    rewrite E. f_equal. apply (mirror_unique (lA l) (lB l) (1, 3)); auto. apply mirror_cross; auto. unfold l; cbn [lA lB]; unspec. lra.
Qed.

(** the circle of centre (3, 1) and the line through (3, 1) and (1, 3) are reflected *)
Lemma ex_C06_objects : let l := mkLine (0, 0) (1, 1) true true in
  reflect_circle l (mkCircle (3, 1) 2) = Ok (mkCircle (1, 3) 2) /\
  reflect_line l (mkLine (3, 1) (1, 3) true false) = Ok (mkLine (1, 3) (3, 1) true false).
Proof.
  intros l. destruct ex_C06 as (_ & _ & _ & _ & _ & E1 & E2). fold l in E1, E2.
  unfold reflect_circle, reflect_line. cbn [cO cr lA lB lextA lextB]. rewrite E1, E2. cbn [bind]. rewrite Circle_init_pos by lra.
  split; auto. unfold Line_init. replace (allclose (1, 3) (3, 1)) with false; auto. symmetry. evalclose.
Qed.

(** a non-orthogonal map *)
Lemma ex_C52 : let f := mkAffine (mkM2 1 2 3 5) (7, 8) in
  det2 (afA f) <> 0 /\ affine_transform f (1, 1) = (10, 16) /\
  affine_inverse (mkAffine (mkM2 1 2 2 4) (7, 8)) = Ok None.
Proof.
  intros f. unfold f, det2; cbn [afA m11 m12 m21 m22]. split; [lra|]. split; [unaff; f_equal; ring|].
  apply (proj1 (inverse_spec (mkAffine (mkM2 1 2 2 4) (7, 8)))). unfold det2; cbn [afA m11 m12 m21 m22]. ring.
Qed.

Lemma ex_C53 : exists f, affine_from_three_points (0, 0) (1, 0) (0, 1) (2, 3) (4, 4) (1, 7) = Ok (Some f).
Proof.
  apply (proj2 (three_points_total _ _ _ _ _ _)); apply collinear_not; try evalclose; rewrite collinear_cross; unspec; lra.
Qed.

Lemma ex_C55_line : let f := mkAffine (mkM2 1 2 3 5) (7, 8) in let l := mkLine (0, 0) (1, 0) false true in
  det2 (afA f) <> 0 /\ allclose (affine_transform f (lA l)) (affine_transform f (lB l)) = false.
Proof.
  intros f l. unfold f, det2, l; cbn [afA m11 m12 m21 m22 lA lB]. split; [lra|]. unaff. evalclose.
Qed.

(** an invertible map can collapse the two points of a line within the tolerance *)
Lemma transform_line_raises : exists f l,
  det2 (afA f) <> 0 /\ Line_init (0, 0) (1, 0) true true = Ok l /\ affine_transform_line f l = Raise ValueError.
Proof.
  exists (mkAffine (mkM2 (/ 1000000000) 0 0 (/ 1000000000)) (0, 0)), (mkLine (0, 0) (1, 0) true true).
  assert (D : det2 (afA (mkAffine (mkM2 (/ 1000000000) 0 0 (/ 1000000000)) (0, 0))) <> 0) by (unfold det2; cbn [afA m11 m12 m21 m22]; lra).
  split; auto. split.
  - unfold Line_init. replace (allclose (0, 0) (1, 0)) with false by (symmetry; evalclose). auto.
  - destruct (proj2 (transform_line_spec _ (mkLine (0, 0) (1, 0) true true)) D) as [[_ E]|(l' & E & _ & _ & E1 & E2 & C & _)]; auto.
    exfalso. rewrite E1, E2 in C. cbn [lA lB] in C. unaff. revert C. evalclose. discriminate.
Qed.

(** oblique projection on the x axis along the direction (1, 1) *)
Lemma ex_C67 : exists p, Projection_init (mkLine (0, 0) (1, 0) true true) (Some (mkLine (0, 0) (1, 1) true true)) = Ok p /\
  ~ parallel (vsub (lB (pDelta p)) (lA (pDelta p))) (vsub (lB (pD p)) (lA (pD p))) /\
  collinear_ (lA (pD p)) (lB (pD p)) (5, 2) = Ok false /\ project p (5, 2) = Ok (3, 0) /\
  collinear_ (lA (pD p)) (lB (pD p)) (0, 1) = Ok false /\
  on_line (lA (pD p)) (lB (pD p)) (0, 0) /\ on_line (lA (pD p)) (lB (pD p)) (1, 0).
Proof.
  set (p := mkProj (mkLine (0, 0) (1, 0) true true) (mkLine (0, 0) (1, 1) true true) false). exists p.
  assert (N : lA (pD p) <> lB (pD p)) by (unfold p; cbn [pD lA lB]; intros E; injection E; lra).
  assert (NP : ~ parallel (vsub (lB (pDelta p)) (lA (pDelta p))) (vsub (lB (pD p)) (lA (pD p)))).
  { unfold p; cbn [pD pDelta lA lB]. rewrite parallel_cross. unspec. lra. }
  assert (C : collinear_ (lA (pD p)) (lB (pD p)) (5, 2) = Ok false).
  { unfold p; cbn [pD lA lB]. apply collinear_not; try evalclose. rewrite collinear_cross. unspec. lra. }
  split.
  { unfold Projection_init, Line_init; cbn [lA lB]. replace (allclose (0, 0) (1, 0)) with false by (symmetry; evalclose).
    replace (allclose (0, 0) (1, 1)) with false by (symmetry; evalclose). reflexivity. }
  split; auto. split; auto. split.
  - destruct (project_spec p (5, 2) N NP) as (Q & E & K); auto. rewrite E. f_equal. apply (proj_on_unique p (5, 2)); auto.
    split; unfold p; cbn [pD pDelta lA lB].
    + exists 3. unspec. f_equal; ring.
    + apply parallel_cross. unspec. ring.
  - split.
    + unfold p; cbn [pD lA lB]. apply collinear_not; try evalclose. rewrite collinear_cross. unspec. lra.
    + split; [apply on_line_A|apply on_line_B].
Qed.

Lemma rot_spec r :
  rotate r (rO r) = rO r /\
  (forall P Q, dist (rotate r P) (rotate r Q) = dist P Q) /\
  (forall P Q, vsub (rotate r Q) (rotate r P) = rot (radians (rdeg r) (rtheta r)) (0, 0) (vsub Q P)) /\
  (forall P, rotate r P = rot (radians (rdeg r) (rtheta r)) (rO r) P) /\
  (forall P, affine_transform (rotation_as_affine r) P = rotate r P).
Proof.
  split; [rewrite rotate_rot; apply rot_center|]. split; [intros; rewrite !rotate_rot; apply rot_isometry|].
  split; [|split; [intros; apply rotate_rot|intros; rewrite rotate_affine, rotate_rot; auto]].
  intros P Q. rewrite !rotate_rot. generalize (radians (rdeg r) (rtheta r)). intros th. unfold rot. unpt. f_equal; ring.
Qed.

Lemma rot_compose r1 r2 P : rO r1 = rO r2 ->
  rotate r1 (rotate r2 P) = rot (radians (rdeg r1) (rtheta r1) + radians (rdeg r2) (rtheta r2)) (rO r2) P.
Proof. intros H. rewrite !rotate_rot, H. apply rot_add. Qed.

Lemma ex_C68 : rotate (mkRot (1, 1) 90 true) (3, 1) = (1, 3) /\
  rotate_circle (mkRot (1, 1) 90 true) (mkCircle (3, 1) 5) = Ok (mkCircle (1, 3) 5) /\
  rotate_line (mkRot (1, 1) 90 true) (mkLine (3, 1) (1, 1) true false) = Ok (mkLine (1, 3) (1, 1) true false) /\
  rotate_ellipse (mkRot (1, 1) (PI / 2) false) (mkEllipse (3, 1) 5 4 10 true) = Ok (mkEllipse (1, 3) 5 4 (10 + PI / 2 * (180 / PI)) true).
Proof.
  assert (H : forall P, rotate (mkRot (1, 1) 90 true) P = (1 - (snd P - 1), 1 + (fst P - 1))).
  { intros [x y]. rewrite rotate_rot. cbn [rdeg rtheta rO]. unfold radians, deg. replace (90 * PI / 180) with (PI / 2) by field.
    unfold rot. rewrite cos_PI2, sin_PI2. cbn [fst snd]. f_equal; ring. }
  assert (H2 : forall P, rotate (mkRot (1, 1) (PI / 2) false) P = (1 - (snd P - 1), 1 + (fst P - 1))).
  { intros [x y]. rewrite rotate_rot. cbn [rdeg rtheta rO]. unfold radians.
    unfold rot. rewrite cos_PI2, sin_PI2. cbn [fst snd]. f_equal; ring. }
  split; [rewrite H; cbn [fst snd]; f_equal; ring|]. split; [|split].
  - unfold rotate_circle. rewrite H, Circle_init_pos by (cbn [cr]; lra). do 2 f_equal. cbn [cO fst snd]; f_equal; ring.
  - unfold rotate_line, Line_init. rewrite !H. cbn [lA lB lextA lextB fst snd].
    replace (allclose (1 - (1 - 1), 1 + (3 - 1)) (1 - (1 - 1), 1 + (1 - 1))) with false by (symmetry; evalclose).
    do 2 f_equal; f_equal; ring.
  - unfold rotate_ellipse, Ellipse_init. rewrite H2. cbn [eO ea eb ealpha edeg rdeg rtheta negb andb fst snd]. rewrite !(proj2 (leb_false _ 0)) by lra.
    do 2 f_equal; f_equal; ring.
Qed.

Lemma shear_init_hyp Q w k a d s : Shear_init Q w k a d = Ok s -> w <> (0, 0) -> sw s <> (0, 0) /\ 0 < sratio s.
Proof. intros H Hw. apply shear_init_spec in H. destruct H as (-> & H & _). auto. Qed.

(** the area of the image of any triangle is the area of the triangle *)
Lemma shear_area s P Q T P' Q' T' : sw s <> (0, 0) -> 0 < sratio s ->
  shear_transform s P = Ok P' -> shear_transform s Q = Ok Q' -> shear_transform s T = Ok T' ->
  scross (vsub Q' P') (vsub T' P') = scross (vsub Q P) (vsub T P).
Proof.
  intros Hw Hk E1 E2 E3. rewrite (shear_vectors s P Q P' Q'), (shear_vectors s P T P' T') by auto.
  generalize (vsub Q P) (vsub T P). intros u v. destruct (sw s) as [p q], u as [a b], v as [c d]. pose proof (sum_sq_pos p q Hw) as Hp.
  generalize (tan (radians (sdeg s) (sangle s))) (sratio s) Hk. intros t k Hk'. unfold sdot, scross. unpt. field. nra.
Qed.

Lemma ex_C69 : exists s, Shear_init (1, 1) (1, 0) 1 45 true = Ok s /\ sw s <> (0, 0) /\ 0 < sratio s.
Proof.
  exists (mkShear (1, 1) (1, 0) 1 45 true). split; [unfold Shear_init; evalb; auto|]. cbn [sw sratio]. split; [intros E; injection E; lra|lra].
Qed.

Lemma ex_C70 : scalingxy_transform (mkSXY (1, 2) 3 (-4)) (2, 4) = (4, -6) /\
  homothety_transform (mkHom (1, 2) (-2)) (2, 4) = (-1, -2) /\
  homothety_transform_circle (mkHom (1, 2) (-2)) (mkCircle (2, 4) 3) = Ok (mkCircle (-1, -2) 6).
Proof.
  destruct (scalingxy_spec (mkSXY (1, 2) 3 (-4)) (2, 4)) as [-> _]. destruct (homothety_spec (mkHom (1, 2) (-2)) (2, 4)) as [E _].
  split; [cbn [xyO xysx xysy fst snd]; f_equal; ring|]. split; [rewrite E; cbn [hO hscale]; unpt; f_equal; ring|].
  unfold homothety_transform_circle. cbn [cO cr]. rewrite E. cbn [hO hscale]. rewrite Circle_init_pos.
  - do 2 f_equal; [unpt; f_equal; ring|]. rewrite Rabs_left by lra. ring.
  - rewrite Rabs_left by lra. lra.
Qed.

Lemma ex_C71 : let S := mkScaling (1, 1) (0, 2) (-3) in
  scw S <> (0, 0) /\ scs S <> 0 /\ scaling_transform S (2, 2) = (2, -2).
Proof.
  intros S. unfold S; cbn [scw scs]. assert (H : (0, 2) <> (0, 0)) by (intros E; injection E; lra). split; auto. split; [lra|].
  destruct (scaling_spec (mkScaling (1, 1) (0, 2) (-3)) (2, 2) H) as (E1 & E2 & _). cbn [scw scO scs] in *.
  destruct (scaling_transform (mkScaling (1, 1) (0, 2) (-3)) (2, 2)) as [x y]. unspec. f_equal; lra.
Qed.

Lemma scale_circle_zero S c : scw S = (0, 0) -> scale_circle S c = Raise NonFinite.
Proof.
  intros H. unfold scale_circle. rewrite H. unfold vlength_. cbn [fst snd]. rewrite (proj2 (eqb_true _ _)); auto.
  replace (0 * 0 + 0 * 0) with 0 by ring. apply sqrt_0.
Qed.

Lemma project_full p M : lA (pD p) <> lB (pD p) ->
  ~ parallel (vsub (lB (pDelta p)) (lA (pDelta p))) (vsub (lB (pD p)) (lA (pD p))) ->
  on_line (lA (pD p)) (lB (pD p)) M \/ collinear_ (lA (pD p)) (lB (pD p)) M = Ok false ->
  exists P, project p M = Ok P /\
    on_line (lA (pD p)) (lB (pD p)) P /\ parallel (vsub (lB (pDelta p)) (lA (pDelta p))) (vsub P M) /\
    (forall P', on_line (lA (pD p)) (lB (pD p)) P' -> parallel (vsub (lB (pDelta p)) (lA (pDelta p))) (vsub P' M) -> P' = P) /\
    project p P = Ok P.
Proof.
  intros N NP H. destruct (project_spec p M N NP H) as (P & E & K). exists P. split; auto. destruct K as [K1 K2]. split; auto. split; auto. split.
  - intros P' Q1 Q2. apply (proj_on_unique p M); auto; split; auto.
  - apply (project_idempotent p M); auto. split; auto.
Qed.

Lemma projection_regular_cases l M : allclose (lA l) (lB l) = false ->
  (on_line (lA l) (lB l) M \/ collinear_ (lA l) (lB l) M = Ok false) <->
  (allclose (lA l) M = false /\ allclose (lB l) M = false) \/ on_line (lA l) (lB l) M.
Proof.
  intros C. pose proof (allclose_false_neq _ _ C) as N. split.
  - intros [H|H]; auto. apply collinear_false in H. tauto.
  - intros [[H1 H2]|H]; auto. destruct (Req_EM_T (scross (vsub (lB l) (lA l)) (vsub M (lA l))) 0) as [Z|Z].
    + left. apply on_line_cross; auto.
    + right. apply collinear_not; auto. rewrite collinear_cross. auto.
Qed.

Lemma ex_C72 : rotate_batch (mkRot (1, 1) 90 true) (Nd2 2 [[3; 1]; [1; 1]]) = Ok (Nd2 2 [[1; 3]; [1; 1]]).
Proof.
  destruct (rotate_batch_pw (mkRot (1, 1) 90 true)) as [(_ & H & _) _].
  change [[3; 1]; [1; 1]] with (map row [(3, 1); (1, 1)]). rewrite H. cbn [map].
  rewrite (proj1 ex_C68). destruct (rot_spec (mkRot (1, 1) 90 true)) as [E _]. cbn [rO] in E. rewrite E. reflexivity.
Qed.
