(** * Proofs about the matrices of the transformations and their composition. *)

From Coq Require Import Reals Lra.
From Verif Require Import Base BaseLemmas Spec SpecLemmas SpecCompose ModelInternal ModelLine ModelAffine ModelTransfo PAffine PReflect PTransfo.
Local Open Scope R_scope.

Lemma apply_of_mat3 M P : affine_transform (affine_of_mat3 M) P = mat3_apply M P.
Proof. unfold affine_transform, affine_of_mat3, mat3_apply, mv2, vadd. cbn [afA afb m11 m12 m21 m22 fst snd]. f_equal; ring. Qed.

Lemma last_row T M : get3x3matrix T = Ok M -> n31 M = 0 /\ n32 M = 0 /\ n33 M = 1.
Proof.
  destruct T as [f|l|p|r|s|s|h|sc]; cbn [get3x3matrix]; intros E.
  - injection E as <-. cbn. auto.
  - apply bind_Ok in E. destruct E as (J & _ & E). injection E as <-. cbn [move_row n31 n32 n33]. auto.
  - unfold projection_mat3 in E. apply bind_Ok in E. destruct E as (b & _ & E). apply bind_Ok in E. destruct E as (c1 & _ & E). apply bind_Ok in E. destruct E as (c2 & _ & E). injection E as <-. cbn [n31 n32 n33]. auto.
  - injection E as <-. unfold rotation_mat3. destruct (rO r). cbn [n31 n32 n33]. auto.
  - apply bind_Ok in E. destruct E as (J & _ & E). injection E as <-. cbn [move_row n31 n32 n33]. auto.
  - injection E as <-. unfold scalingxy_mat3. destruct (scalingxy_transform s (0, 0)). cbn [n31 n32 n33]. auto.
  - injection E as <-. unfold homothety_mat3. destruct (vscal (1 - hscale h) (hO h)). cbn [n31 n32 n33]. auto.
  - apply bind_Ok in E. destruct E as (J & _ & E). injection E as <-. cbn [move_row n31 n32 n33]. auto.
Qed.

Lemma matrix_spec T : proper T -> exists M, get3x3matrix T = Ok M /\ forall P, maps_to T P (mat3_apply M P).
Proof.
  destruct T as [f|l|p|r|s|s|h|sc]; cbn [get3x3matrix proper maps_to]; intros H.
  - exists (affine_mat3 f). split; auto. intros P. unfold mat3_apply, affine_mat3. cbn [n11 n12 n13 n21 n22 n23]. rewrite !Rmult_1_r. reflexivity.
  - destruct (reflection_affine_spec l H) as (f & E & K). apply bind_Ok in E. destruct E as (M & E & EM). injection EM as <-. exists M. split; auto. intros P. rewrite <- apply_of_mat3. apply K.
  - destruct H as (H1 & H2 & H3 & H4 & H5). destruct (projection_affine_spec p H1 H2 H3 H4 H5) as (f & E & K). apply bind_Ok in E. destruct E as (M & E & EM). injection EM as <-. exists M. split; auto. intros P. rewrite <- apply_of_mat3. apply K.
  - exists (rotation_mat3 r). split; auto. intros P. rewrite <- apply_of_mat3. apply (rotate_affine r P).
  - destruct H as [H1 H2]. destruct (shear_formula s (0, 0) H1 H2) as (_ & f & E & _). apply bind_Ok in E. destruct E as (M & E & _). exists M. split; auto. intros P.
    destruct (shear_formula s P H1 H2) as (K & _). unfold shear_transform in K. rewrite E in K. cbn [bind] in K. injection K as K1 K2. exact (f_equal2 pair K1 K2).
  - exists (scalingxy_mat3 s). split; auto. intros P. rewrite <- apply_of_mat3. destruct (scalingxy_spec s P) as [K1 K2]. rewrite <- K1. exact K2.
  - exists (homothety_mat3 h). split; auto. intros P. rewrite <- apply_of_mat3. destruct (homothety_spec h P) as [K1 K2]. rewrite <- K1. exact K2.
  - destruct (scaling_spec sc (0, 0) H) as (_ & _ & f & E & _). apply bind_Ok in E. destruct E as (M & E & _). exists M. split; auto. intros P.
    destruct (scaling_spec sc P H) as (K1 & K2 & f' & E' & K3). unfold scaling_as_affine in E'. rewrite E in E'. cbn [bind] in E'. injection E' as <-. rewrite apply_of_mat3 in K3. rewrite K3. auto.
Qed.

Lemma product_apply M N P : n31 N = 0 /\ n32 N = 0 /\ n33 N = 1 -> mat3_apply (mm3 M N) P = mat3_apply M (mat3_apply N P).
Proof. intros (E1 & E2 & E3). unfold mat3_apply, mm3. cbn [n11 n12 n13 n21 n22 n23 fst snd]. rewrite E1, E2, E3. f_equal; ring. Qed.

Lemma matrix_full T : proper T -> exists M, get3x3matrix T = Ok M /\ (n31 M = 0 /\ n32 M = 0 /\ n33 M = 1) /\ forall P, maps_to T P (mat3_apply M P).
Proof. intros H. destruct (matrix_spec T H) as (M & E & K). exists M. split; auto. split; auto. apply (last_row T M E). Qed.

Lemma product_spec T U : proper T -> proper U -> exists M N, get3x3matrix T = Ok M /\ get3x3matrix U = Ok N /\
  forall P, maps_to U P (mat3_apply N P) /\ maps_to T (mat3_apply N P) (mat3_apply (mm3 M N) P).
Proof.
  intros HT HU. destruct (matrix_full T HT) as (M & E & _ & K). destruct (matrix_full U HU) as (N & E' & R & K'). exists M, N. split; auto. split; auto.
  intros P. split; [apply K'|]. rewrite (product_apply M N P R). apply K.
Qed.

Lemma compose_spec f T : proper T -> (exists g, affine_compose_any f T true = Ok g /\ forall P, maps_to T (affine_transform f P) (affine_transform g P)) /\
  (exists g, affine_compose_any f T false = Ok g /\ forall P, exists Q, maps_to T P Q /\ affine_transform g P = affine_transform f Q).
Proof.
  intros H. destruct (matrix_full T H) as (M & E & R & K).
  assert (F : forall P, affine_transform f P = mat3_apply (affine_mat3 f) P).
  { intros P. unfold affine_transform, affine_mat3, mat3_apply, mv2, vadd. cbn [afA afb n11 n12 n13 n21 n22 n23 fst snd]. f_equal; ring. }
  unfold affine_compose_any. rewrite E. cbn [bind]. split; eexists; (split; [reflexivity|]); intros P.
  - rewrite apply_of_mat3, product_apply by (cbn; auto). rewrite <- F. apply K.
  - exists (mat3_apply M P). split; [apply K|]. rewrite apply_of_mat3, product_apply by exact R. rewrite <- F. reflexivity.
Qed.

Lemma compose_fails f T left e : get3x3matrix T = Raise e -> affine_compose_any f T left = Raise e.
Proof. intros H. unfold affine_compose_any. rewrite H. reflexivity. Qed.

Lemma compose_singular f left : (forall l, lA l = lB l -> affine_compose_any f (TReflection l) left = Raise LinAlgError) /\
  (forall s, sw s = (0, 0) -> affine_compose_any f (TShear s) left = Raise LinAlgError) /\ (forall sc, scw sc = (0, 0) -> affine_compose_any f (TScaling sc) left = Raise LinAlgError).
Proof.
  assert (Q : forall Q M2, (let! J := inv3 (rows3 (0, 0) (0, 0) Q) in Ok (move_row (mm3 J M2))) = Raise LinAlgError).
  { intros Q M2. unfold inv3, det3, rows3. cbn [n11 n12 n13 n21 n22 n23 n31 n32 n33 fst snd]. rewrite (proj2 (eqb_true _ _)) by ring. reflexivity. }
  split; [|split].
  - intros l H. apply compose_fails. cbn [get3x3matrix]. unfold reflection_mat3. rewrite H. replace (vsub (lB l) (lB l)) with ((0, 0) : pt) by (unfold vsub; f_equal; ring). cbn [fst snd]. rewrite Ropp_0. apply Q.
  - intros s H. apply compose_fails. cbn [get3x3matrix]. unfold shear_mat3. rewrite H. cbn [fst snd]. replace (vscal (sratio s) (- 0, 0)) with ((0, 0) : pt) by (unfold vscal; cbn [fst snd]; f_equal; ring). apply Q.
  - intros sc H. apply compose_fails. cbn [get3x3matrix]. unfold scaling_mat3. rewrite H. cbn [fst snd]. rewrite Ropp_0. apply Q.
Qed.

(** a rotation followed by a shear, a reflection, a scaling *)
Lemma compose_ex : exists f g h k, affine_compose_any (rotation_as_affine (mkRot (0, 0) 90 true)) (TReflection (mkLine (0, 0) (1, 1) true true)) true = Ok f /\ affine_transform f (1, 2) = (1, -2) /\
  affine_compose_any (rotation_as_affine (mkRot (0, 0) 90 true)) (TReflection (mkLine (0, 0) (1, 1) true true)) false = Ok g /\ affine_transform g (1, 2) = (-1, 2) /\
  affine_compose_any (homothety_as_affine (mkHom (1, 1) 2)) (TShear (mkShear (0, 0) (1, 0) 1 0 true)) true = Ok h /\ affine_transform h (1, 2) = (1, 3) /\
  affine_compose_any (homothety_as_affine (mkHom (1, 1) 2)) (TScaling (mkScaling (0, 0) (1, 0) 3)) false = Ok k /\ affine_transform k (1, 2) = (5, 3).
Proof.
  assert (C9 : 90 * (PI / 180) = PI / 2) by (pose proof PI_RGT_0; field).
  assert (SH : proper (TShear (mkShear (0, 0) (1, 0) 1 0 true))) by (split; [cbn; intros E; injection E; lra|cbn; lra]).
  assert (SC : proper (TScaling (mkScaling (0, 0) (1, 0) 3))) by (cbn; intros E; injection E; lra).
  assert (RE : proper (TReflection (mkLine (0, 0) (1, 1) true true))) by (cbn; intros E; injection E; lra).
  set (R := rotation_as_affine (mkRot (0, 0) 90 true)). set (H := homothety_as_affine (mkHom (1, 1) 2)).
  assert (ER : affine_transform R (1, 2) = (-2, 1)).
  { unfold R. rewrite rotate_affine. unfold rot, radians, deg. cbn [rdeg rtheta rO fst snd]. replace (90 * PI / 180) with (PI / 2) by (field). rewrite cos_PI2, sin_PI2. f_equal; ring. }
  assert (ER' : affine_transform R (2, 1) = (-1, 2)).
  { unfold R. rewrite rotate_affine. unfold rot, radians, deg. cbn [rdeg rtheta rO fst snd]. replace (90 * PI / 180) with (PI / 2) by (field). rewrite cos_PI2, sin_PI2. f_equal; ring. }
  assert (EH : forall x y, affine_transform H (x, y) = (2 * x - 1, 2 * y - 1)).
  { intros x y. unfold H. rewrite (proj2 (homothety_spec _ _)), (proj1 (homothety_spec _ _)). cbn [hO hscale]. unfold vadd, vscal, vsub. cbn [fst snd]. f_equal; ring. }
  destruct (compose_spec R _ RE) as ((f & Ef & Kf) & (g & Eg & Kg)). destruct (compose_spec H _ SH) as ((h & Eh & Kh) & _). destruct (compose_spec H _ SC) as (_ & (k & Ek & Kk)).
  exists f, g, h, k. split; [exact Ef|]. split.
  { specialize (Kf (1, 2)). rewrite ER in Kf. cbn [maps_to lA lB] in Kf. revert Kf. destruct (affine_transform f (1, 2)) as [x y]. intros KM. apply (mirror_unique (0, 0) (1, 1) _ _ _ ltac:(intros E; injection E; lra) KM). apply mirror_cross; [intros E; injection E; lra|]. unspec. split; lra. }
  split; [exact Eg|]. split.
  { destruct (Kg (1, 2)) as (Q & KQ & ->). cbn [maps_to lA lB] in KQ. assert (Q = (2, 1)) as ->; [|exact ER'].
    revert KQ. destruct Q as [x y]. intros KM. apply (mirror_unique (0, 0) (1, 1) _ _ _ ltac:(intros E; injection E; lra) KM). apply mirror_cross; [intros E; injection E; lra|]. unspec. split; lra. }
  split; [exact Eh|]. split.
  { specialize (Kh (1, 2)). rewrite EH in Kh. cbn [maps_to] in Kh. cbn [sdeg sangle sw sratio sQ] in Kh. unfold radians, deg in Kh. replace (0 * PI / 180) with 0 in Kh by field. rewrite tan_0 in Kh. rewrite Kh. unfold vsub, vadd, vscal. cbn [fst snd]. f_equal; ring. }
  split; [exact Ek|].
  destruct (Kk (1, 2)) as (Q & KQ & ->). cbn [maps_to scO scw scs] in KQ. destruct Q as [x y]. unfold sdot, scross, vsub in KQ. cbn [fst snd] in KQ. rewrite EH. f_equal; lra.
Qed.
