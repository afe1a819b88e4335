(** * Flat triangles in malfatti_circles; affine images of ellipses; Steiner ellipses; random points. *)

From Coq Require Import Reals Lra Lia Psatz List Bool ZArith.
From Verif Require Import Base BaseLemmas Spec SpecLemmas SpecTriangle ModelInternal ModelLine ModelCircle ModelAffine ModelEllipse ModelTransfo
  ModelTriangle PLine PCircle PInvBase PAffine PEllipse PEllipse2 PEllipse3 PEllipse5 PEllipse6 PTriangle PTriangle2 PTriangle3 PTriangle4 PTriangle5.
Import ListNotations.
Local Open Scope R_scope.

Lemma malfatti_flat A B C : collinear A B C -> A <> B -> A <> C -> malfatti_circles (mkTri A B C) = Ok None.
Proof.
  intros H HB HC. unfold malfatti_circles. destruct (flatness (mkTri A B C)) as [f|e] eqn:E.
  - cbn [bind]. apply flatness_spec in E. cbn [tA tB tC] in E. destruct (eqb f 1) eqn:Ef; auto. apply eqb_false in Ef. tauto.
  - apply (flatness_raise (mkTri A B C)) in E. cbn [tA tB tC] in E. tauto.
Qed.
Lemma malfatti_raise A B C : A = B \/ A = C -> malfatti_circles (mkTri A B C) = Raise ZeroDivisionError.
Proof.
  intros H. unfold malfatti_circles. rewrite (proj2 (flatness_raise (mkTri A B C) ZeroDivisionError)) by (cbn; tauto). reflexivity.
Qed.

(** ** a sum of two squares of affine functions equal to 1 exactly on the unit circle *)
Lemma two_squares p0 p1 p2 q0 q1 q2 :
  (forall u v, u * u + v * v = 1 <-> (p0 + p1 * u + p2 * v) ^ 2 + (q0 + q1 * u + q2 * v) ^ 2 = 1) ->
  p0 = 0 /\ q0 = 0 /\ forall u v, (p0 + p1 * u + p2 * v) ^ 2 + (q0 + q1 * u + q2 * v) ^ 2 = u * u + v * v.
Proof.
  intros H.
  pose proof (proj1 (H 1 0) ltac:(lra)) as E1. pose proof (proj1 (H (-1) 0) ltac:(lra)) as E2.
  pose proof (proj1 (H 0 1) ltac:(lra)) as E3. pose proof (proj1 (H 0 (-1)) ltac:(lra)) as E4.
  pose proof (proj1 (H (3/5) (4/5)) ltac:(lra)) as E5.
  assert (N : p0 ^ 2 + q0 ^ 2 <> 1). { intros E. assert (K : 0 * 0 + 0 * 0 = 1) by (apply H; rewrite <- E; ring). lra. }
  assert (D : p0 * p1 + q0 * q1 = 0) by nra. assert (D' : p0 * p2 + q0 * q2 = 0) by nra.
  assert (A1 : p1 ^ 2 + q1 ^ 2 = 1 - (p0 ^ 2 + q0 ^ 2)) by nra. assert (A2 : p2 ^ 2 + q2 ^ 2 = 1 - (p0 ^ 2 + q0 ^ 2)) by nra.
  assert (B : p1 * p2 + q1 * q2 = 0) by nra.
  clear E1 E2 E3 E4 E5 H. set (n := p0 ^ 2 + q0 ^ 2) in *.
  assert (W : (p1 * q2 - p2 * q1) * (p1 * q2 - p2 * q1) = (1 - n) * (1 - n)).
  { transitivity ((p1 ^ 2 + q1 ^ 2) * (p2 ^ 2 + q2 ^ 2) - (p1 * p2 + q1 * q2) * (p1 * p2 + q1 * q2)); [ring|]. rewrite A1, A2, B. ring. }
  assert (W' : p1 * q2 - p2 * q1 <> 0). { intros W0. rewrite W0 in W. assert (1 - n = 0) by (apply sq0; lra). lra. }
  assert (P0 : p0 = 0). { apply Rmult_eq_reg_r with (p1 * q2 - p2 * q1); auto. transitivity (q2 * (p0 * p1 + q0 * q1) - q1 * (p0 * p2 + q0 * q2)); [ring|]. rewrite D, D'; ring. }
  assert (Q0 : q0 = 0). { apply Rmult_eq_reg_r with (p1 * q2 - p2 * q1); auto. transitivity (p1 * (p0 * p2 + q0 * q2) - p2 * (p0 * p1 + q0 * q1)); [ring|]. rewrite D, D'; ring. }
  unfold n in *. subst p0 q0. split; auto. split; auto. intros u v.
  transitivity ((p1 ^ 2 + q1 ^ 2) * (u * u) + (p2 ^ 2 + q2 ^ 2) * (v * v) + 2 * (p1 * p2 + q1 * q2) * (u * v)); [ring|]. rewrite A1, A2, B. ring.
Qed.

Lemma affine_circle_form f c r O a b th : 0 < r -> 0 < a -> 0 < b ->
  (forall M, on_circle c r M <-> on_ellipse O a b th (affine_transform f M)) ->
  affine_transform f c = O /\ forall M, ell_form O a b th (affine_transform f M) = dist2 c M / (r * r).
Proof.
  intros Hr Ha Hb H. destruct f as [[m n m' n'] [x y]]. destruct c as [cx cy]. destruct O as [ox oy].
  set (f := mkAffine _ _) in *.
  set (X0 := m * cx + n * cy + x - ox). set (Y0 := m' * cx + n' * cy + y - oy).
  set (p0 := (cos th * X0 + sin th * Y0) / a). set (p1 := r * (cos th * m + sin th * m') / a). set (p2 := r * (cos th * n + sin th * n') / a).
  set (q0 := (- sin th * X0 + cos th * Y0) / b). set (q1 := r * (- sin th * m + cos th * m') / b). set (q2 := r * (- sin th * n + cos th * n') / b).
  assert (F : forall M, ell_form (ox, oy) a b th (affine_transform f M) =
    (p0 + p1 * ((fst M - cx) / r) + p2 * ((snd M - cy) / r)) ^ 2 + (q0 + q1 * ((fst M - cx) / r) + q2 * ((snd M - cy) / r)) ^ 2).
  { intros [u v]. unfold ell_form, fx, fy, f, p0, p1, p2, q0, q1, q2, X0, Y0. unaff. cbn [fst snd]. field. lra. }
  destruct (two_squares p0 p1 p2 q0 q1 q2) as (P0 & Q0 & G).
  { intros u v. pose proof (H (cx + r * u, cy + r * v)) as K. unfold on_ellipse in K. rewrite F, on_circle_sq in K by lra. cbn [fst snd] in K.
    replace ((cx + r * u - cx) / r) with u in K by (field; lra). replace ((cy + r * v - cy) / r) with v in K by (field; lra). rewrite <- K.
    replace (dist2 (cx, cy) (cx + r * u, cy + r * v)) with (r * r * (u * u + v * v)) by (unspec; ring).
    assert (0 < r * r) by nra. split; intros E; [rewrite E; ring|]. apply Rmult_eq_reg_l with (r * r); lra. }
  split.
  - assert (X0 = 0 /\ Y0 = 0) as [EX EY].
    { assert (A1 : cos th * X0 + sin th * Y0 = 0). { replace (cos th * X0 + sin th * Y0) with (p0 * a) by (unfold p0; field; lra). rewrite P0; ring. }
      assert (A2 : - sin th * X0 + cos th * Y0 = 0). { replace (- sin th * X0 + cos th * Y0) with (q0 * b) by (unfold q0; field; lra). rewrite Q0; ring. }
      pose proof (cs1 th) as C1. clearbody X0 Y0. clear - A1 A2 C1. set (c := cos th) in *. set (s := sin th) in *.
      split; [transitivity ((c * c + s * s) * X0); [rewrite C1; ring|]; transitivity (c * (c * X0 + s * Y0) - s * (- s * X0 + c * Y0)); [ring|]
             |transitivity ((c * c + s * s) * Y0); [rewrite C1; ring|]; transitivity (s * (c * X0 + s * Y0) + c * (- s * X0 + c * Y0)); [ring|]]; rewrite A1, A2; ring. }
    unfold f. unaff. unfold X0, Y0 in *. f_equal; lra.
  - intros M. rewrite F, G. unspec. field. lra.
Qed.

(** ** C54: the image is exact on the whole plane *)
Lemma ellipse_image_form f e0 e : 0 < ea e0 -> 0 < eb e0 -> 0 < ea e -> 0 < eb e ->
  (forall M, on_ellipse (eO e0) (ea e0) (eb e0) (ell_th e0) M <-> on_ellipse (eO e) (ea e) (eb e) (ell_th e) (affine_transform f M)) ->
  affine_transform f (eO e0) = eO e /\
  forall M, ell_form (eO e) (ea e) (eb e) (ell_th e) (affine_transform f M) = ell_form (eO e0) (ea e0) (eb e0) (ell_th e0) M.
Proof.
  intros Ha0 Hb0 Ha Hb H. set (g := frame_map (eO e0) (ea e0) (eb e0) (ell_th e0)).
  destruct (affine_circle_form (affine_compose g f true) (0, 0) 1 (eO e) (ea e) (eb e) (ell_th e)) as [E1 E2]; auto; [lra| |].
  { intros P. rewrite affine_compose_left, <- H. unfold g. rewrite frame_map_on by auto. tauto. }
  rewrite affine_compose_left in E1.
  assert (G0 : affine_transform g (0, 0) = eO e0).
  { unfold g. apply frame_inj with (O := eO e0) (th := ell_th e0).
    - rewrite (proj1 (frame_map_fx _ _ _ _ _)). unfold fx; cbn [fst]; ring.
    - rewrite (proj2 (frame_map_fx _ _ _ _ _)). unfold fy; cbn [snd]; ring. }
  rewrite G0 in E1. split; auto. intros M.
  destruct (proj2 (inverse_spec g)) as (i & _ & _ & _ & K).
  { unfold g. rewrite frame_map_det. nra. }
  specialize (E2 (affine_transform i M)). rewrite affine_compose_left, K in E2. rewrite E2.
  rewrite <- (K M) at 2. unfold g. rewrite frame_map_form by auto. field.
Qed.

Lemma transform_ellipse_inside f e0 : 0 < ea e0 -> 0 < eb e0 -> det2 (afA f) <> 0 ->
  exists e, affine_transform_ellipse f (AEllipse e0) = Ok (Some e) /\ affine_transform f (eO e0) = eO e /\
    forall M, in_ellipse (eO e0) (ea e0) (eb e0) (ell_th e0) M <-> in_ellipse (eO e) (ea e) (eb e) (ell_th e) (affine_transform f M).
Proof.
  intros Ha Hb Hd. destruct (transform_ellipse_spec f (AEllipse e0) (conj Ha Hb) Hd) as (e & H1 & H2 & _ & _ & H3). cbn [on_ce] in H3.
  destruct (ellipse_image_form f e0 e Ha Hb ltac:(lra) ltac:(lra) H3) as [E1 E2].
  exists e. do 2 (split; auto). intros M. unfold in_ellipse. rewrite E2. tauto.
Qed.
Lemma transform_circle_inside f c : 0 < cr c -> det2 (afA f) <> 0 ->
  exists e, affine_transform_ellipse f (ACircle c) = Ok (Some e) /\ affine_transform f (cO c) = eO e /\
    forall M, in_disk (cO c) (cr c) M <-> in_ellipse (eO e) (ea e) (eb e) (ell_th e) (affine_transform f M).
Proof.
  intros Hr Hd. destruct (transform_ellipse_spec f (ACircle c) Hr Hd) as (e & H1 & H2 & _ & _ & H3). cbn [on_ce] in H3.
  destruct (affine_circle_form f (cO c) (cr c) (eO e) (ea e) (eb e) (ell_th e) Hr ltac:(lra) ltac:(lra) H3) as [E1 E2].
  exists e. do 2 (split; auto). intros M. unfold in_ellipse, in_disk. rewrite E2.
  assert (0 < cr c * cr c) by nra. rewrite <- dist_sq. pose proof (dist_nonneg (cO c) M).
  split; intros K.
  - apply Rmult_le_reg_r with (cr c * cr c); auto. unfold Rdiv. rewrite Rmult_assoc, Rinv_l by lra. nra.
  - apply Rmult_le_compat_r with (r := cr c * cr c) in K; [|lra]. unfold Rdiv in K. rewrite Rmult_assoc, Rinv_l in K by lra. nra.
Qed.

(** ** Steiner *)
Lemma sqrt3 : sqrt 3 * sqrt 3 = 3 /\ 1 < sqrt 3 < 2.
Proof.
  assert (sqrt 3 * sqrt 3 = 3) by (apply sqrt_sqrt; lra). split; auto. pose proof (sqrt_pos 3). split; nra.
Qed.
Lemma steiner_dbl : dbl steiner_P steiner_Q steiner_R = 50 * sqrt 3.
Proof. unfold dbl, steiner_P, steiner_Q, steiner_R. unspec. ring. Qed.
Lemma steiner_dbl_neq : dbl steiner_P steiner_Q steiner_R <> 0.
Proof. rewrite steiner_dbl. pose proof sqrt3. lra. Qed.

Definition steiner_O : pt := (5, 5 * sqrt 3 / 3).

Lemma steiner_circ : circumcircle (mkTri steiner_P steiner_Q steiner_R) = Ok (Some (mkCircle steiner_O (10 * sqrt 3 / 3))).
Proof.
  destruct (circumcircle_total _ _ _ steiner_dbl_neq) as (c & Hc & Hr & H1 & H2 & H3). rewrite Hc. do 2 f_equal.
  pose proof sqrt3 as [Q [Q1 Q2]].
  destruct (circ_unique steiner_P steiner_Q steiner_R (cO c) steiner_O (cr c) (10 * sqrt 3 / 3)) as [EO Er]; auto; try lra.
  - apply steiner_dbl_neq.
  - apply on_circle_sq; [lra|]. unfold steiner_O, steiner_P. unspec. nra.
  - apply on_circle_sq; [lra|]. unfold steiner_O, steiner_Q. unspec. nra.
  - apply on_circle_sq; [lra|]. unfold steiner_O, steiner_R. unspec. nra.
  - destruct c; cbn in *. congruence.
Qed.
Lemma steiner_sides : dist steiner_Q steiner_R = 10 /\ dist steiner_P steiner_R = 10 /\ dist steiner_P steiner_Q = 10.
Proof.
  pose proof sqrt3 as [Q [Q1 Q2]].
  repeat split; apply (proj2 (on_circle_sq _ 10 _ ltac:(lra))); unfold steiner_P, steiner_Q, steiner_R; unspec; nra.
Qed.
Lemma steiner_inc : incircle (mkTri steiner_P steiner_Q steiner_R) = Ok (mkCircle steiner_O (5 * sqrt 3 / 3)).
Proof.
  destruct (incircle_total _ _ _ steiner_dbl_neq) as [H _]. rewrite H. destruct steiner_sides as (E1 & E2 & E3). rewrite E1, E2, E3, steiner_dbl.
  pose proof sqrt3 as [Q [Q1 Q2]]. rewrite Rabs_right by lra. f_equal. f_equal; [|field].
  unfold bary, steiner_O, steiner_P, steiner_Q, steiner_R. cbn [fst snd]. f_equal; field.
Qed.

Lemma steiner_ref_collinear : collinear_ steiner_P steiner_Q steiner_R = Ok false.
Proof.
  pose proof sqrt3 as [Q [Q1 Q2]].
  apply collinear_not.
  - apply not_collinear_dbl, steiner_dbl_neq.
  - unfold steiner_P, steiner_Q. evalclose.
  - unfold steiner_P, steiner_R, allclose. replace (allclose1 _ _) with false; auto. symmetry. unfold allclose1; cbn [fst snd]; evalb; reflexivity.
  - unfold steiner_Q, steiner_R, allclose. replace (allclose1 _ _) with false; auto. symmetry. unfold allclose1; cbn [fst snd]; evalb; reflexivity.
Qed.

Lemma affine_bary f u v w A B C : u + v + w = 1 ->
  affine_transform f (bary u v w A B C) = bary u v w (affine_transform f A) (affine_transform f B) (affine_transform f C).
Proof. intros H. destruct f as [[a b c d] [x y]]. unfold bary. unaff. f_equal; replace u with (1 - v - w) by lra; ring. Qed.

Lemma affine_dbl f A B C : dbl (affine_transform f A) (affine_transform f B) (affine_transform f C) = det2 (afA f) * dbl A B C.
Proof. destruct f as [[a b c d] [x y]]. unfold dbl, det2. unspec. unaff. ring. Qed.

Lemma steiner_affine A B C : ~ collinear A B C -> allclose A B = false -> allclose A C = false -> allclose B C = false ->
  exists f, affine_from_three_points steiner_P steiner_Q steiner_R A B C = Ok (Some f) /\ det2 (afA f) <> 0 /\
    affine_transform f steiner_P = A /\ affine_transform f steiner_Q = B /\ affine_transform f steiner_R = C /\
    affine_transform f steiner_O = centroid A B C.
Proof.
  intros N E1 E2 E3. destruct (proj2 (three_points_total steiner_P steiner_Q steiner_R A B C) steiner_ref_collinear (collinear_not _ _ _ N E1 E2 E3)) as (f & Hf).
  exists f. split; auto. destruct (three_points_spec _ _ _ _ _ _ _ Hf) as (F1 & F2 & F3 & _). split; [|repeat split; auto].
  - intros D. apply not_collinear_dbl in N. apply N. rewrite <- F1, <- F2, <- F3, affine_dbl, D. ring.
  - replace steiner_O with (bary (1/3) (1/3) (1/3) steiner_P steiner_Q steiner_R).
    + rewrite affine_bary by lra. rewrite F1, F2, F3. unfold bary, centroid. f_equal; field.
    + unfold bary, steiner_O, steiner_P, steiner_Q, steiner_R. cbn [fst snd]. f_equal; field.
Qed.

Lemma nonflat_branch {X} A B C (k : res X) (n : res X) : ~ collinear A B C ->
  (let! f := flatness (mkTri A B C) in if eqb f 1 then n else k) = k.
Proof.
  intros N. apply not_collinear_dbl in N. destruct (flatness_ok A B C N) as (f & Hf & Hf1). rewrite Hf. cbn [bind].
  rewrite (proj2 (eqb_false _ _) Hf1). auto.
Qed.

Lemma steiner_ellipse_spec A B C : ~ collinear A B C -> allclose A B = false -> allclose A C = false -> allclose B C = false ->
  exists e, steiner_ellipse (mkTri A B C) = Ok (Some e) /\ 0 < eb e <= ea e /\ eO e = centroid A B C /\
    on_ellipse (eO e) (ea e) (eb e) (ell_th e) A /\ on_ellipse (eO e) (ea e) (eb e) (ell_th e) B /\ on_ellipse (eO e) (ea e) (eb e) (ell_th e) C /\
    (forall O a b th, 0 < a -> 0 < b -> in_ellipse O a b th A -> in_ellipse O a b th B -> in_ellipse O a b th C -> ea e * eb e <= a * b).
Proof.
  intros N E1 E2 E3. destruct (steiner_affine A B C N E1 E2 E3) as (f & Hf & Hd & F1 & F2 & F3 & FO).
  pose proof sqrt3 as [Q [Q1 Q2]].
  set (c := mkCircle steiner_O (10 * sqrt 3 / 3)). assert (Hr : 0 < cr c) by (cbn; lra).
  destruct (transform_ellipse_spec f (ACircle c) Hr Hd) as (e & He & Hab & _ & _ & Hon). cbn [on_ce] in Hon.
  destruct (affine_circle_form f (cO c) (cr c) (eO e) (ea e) (eb e) (ell_th e) Hr ltac:(lra) ltac:(lra) Hon) as [EO _].
  assert (O1 : on_ellipse (eO e) (ea e) (eb e) (ell_th e) A) by (rewrite <- F1; apply Hon; apply on_circle_sq; [lra|]; unfold c, steiner_O, steiner_P; cbn [cO cr]; unspec; nra).
  assert (O2 : on_ellipse (eO e) (ea e) (eb e) (ell_th e) B) by (rewrite <- F2; apply Hon; apply on_circle_sq; [lra|]; unfold c, steiner_O, steiner_Q; cbn [cO cr]; unspec; nra).
  assert (O3 : on_ellipse (eO e) (ea e) (eb e) (ell_th e) C) by (rewrite <- F3; apply Hon; apply on_circle_sq; [lra|]; unfold c, steiner_O, steiner_R; cbn [cO cr]; unspec; nra).
  assert (EO' : eO e = centroid A B C) by (rewrite <- EO; exact FO).
  exists e. split.
  { unfold steiner_ellipse. rewrite nonflat_branch by auto. rewrite steiner_circ. cbn [bind]. unfold steiner_map. cbn [tA tB tC]. rewrite Hf. cbn [bind]. exact He. }
  repeat (split; auto).
  intros O a b th Ha Hb I1 I2 I3. pose proof (three_area O a b th A B C Ha Hb I1 I2 I3) as K1.
  rewrite EO' in O1, O2, O3. pose proof (three_area_centroid (ea e) (eb e) (ell_th e) A B C ltac:(lra) ltac:(lra) O1 O2 O3) as K2.
  assert (0 < a * b) by nra. assert (0 < ea e * eb e) by nra. destruct (Rle_dec (ea e * eb e) (a * b)) as [|L]; auto. exfalso. apply Rnot_le_lt in L.
  assert (a * b * (a * b) < ea e * eb e * (ea e * eb e)) by nra. lra.
Qed.

Lemma affine_line f M v k : affine_transform f (vadd M (vscal k v)) = vadd (affine_transform f M) (vscal k (mv2 (afA f) v)).
Proof. destruct f as [[a b c d] [x y]], M, v. unaff. f_equal; ring. Qed.
Lemma affine_vec f P Q : mv2 (afA f) (vsub Q P) = vsub (affine_transform f Q) (affine_transform f P).
Proof. destruct f as [[a b c d] [x y]], P, Q. unaff. f_equal; ring. Qed.

Lemma steiner_inellipse_spec A B C : ~ collinear A B C -> allclose A B = false -> allclose A C = false -> allclose B C = false ->
  exists e, steiner_inellipse (mkTri A B C) = Ok (Some e) /\ 0 < eb e <= ea e /\ eO e = centroid A B C /\
    ell_tangent (eO e) (ea e) (eb e) (ell_th e) (midpoint A B) (vsub B A) /\
    ell_tangent (eO e) (ea e) (eb e) (ell_th e) (midpoint B C) (vsub C B) /\
    ell_tangent (eO e) (ea e) (eb e) (ell_th e) (midpoint A C) (vsub C A).
Proof.
  intros N E1 E2 E3. destruct (steiner_affine A B C N E1 E2 E3) as (f & Hf & Hd & F1 & F2 & F3 & FO).
  pose proof sqrt3 as [Q [Q1 Q2]].
  set (c := mkCircle steiner_O (5 * sqrt 3 / 3)). assert (Hr : 0 < cr c) by (cbn; lra).
  destruct (transform_ellipse_spec f (ACircle c) Hr Hd) as (e & He & Hab & _ & _ & Hon). cbn [on_ce] in Hon.
  destruct (affine_circle_form f (cO c) (cr c) (eO e) (ea e) (eb e) (ell_th e) Hr ltac:(lra) ltac:(lra) Hon) as [EO _].
  assert (EO' : eO e = centroid A B C) by (rewrite <- EO; exact FO).
  exists e. split.
  { unfold steiner_inellipse. rewrite nonflat_branch by auto. rewrite steiner_inc. cbn [bind]. unfold steiner_map. cbn [tA tB tC]. rewrite Hf. cbn [bind]. exact He. }
  split; auto. split; auto.
  assert (T : forall U V, U <> V -> (forall k, dist2 steiner_O (vadd (midpoint U V) (vscal k (vsub V U))) = 5 * sqrt 3 / 3 * (5 * sqrt 3 / 3) + 100 * (k * k)) ->
     affine_transform f U <> affine_transform f V ->
     ell_tangent (eO e) (ea e) (eb e) (ell_th e) (midpoint (affine_transform f U) (affine_transform f V)) (vsub (affine_transform f V) (affine_transform f U))).
  { intros U V HUV K HN.
    assert (EM : midpoint (affine_transform f U) (affine_transform f V) = affine_transform f (midpoint U V)).
    { clear. destruct f as [[a b c d] [x y]], U, V. unfold midpoint. unaff. cbn [fst snd]. f_equal; field. }
    rewrite EM. split; [|split].
    - apply Hon. apply on_circle_sq; [lra|]. specialize (K 0). cbn [cO cr c]. replace (vadd (midpoint U V) (vscal 0 (vsub V U))) with (midpoint U V) in K.
      + rewrite K. ring.
      + unfold midpoint. destruct U, V. unpt. f_equal; ring.
    - intros E0. apply HN. destruct (affine_transform f U), (affine_transform f V). unfold vsub in E0; cbn in E0. injection E0 as X Y. f_equal; lra.
    - intros k E0. rewrite <- affine_vec, <- affine_line in E0. apply Hon in E0. apply on_circle_sq in E0; [|lra]. cbn [cO cr c] in E0. rewrite K in E0.
      apply sq0. lra. }
  rewrite <- F1, <- F2, <- F3.
  assert (D : forall x y, allclose x y = false -> x <> y) by (intros; apply allclose_false_neq; auto).
  split; [|split]; apply T.
  - unfold steiner_P, steiner_Q. intros E. injection E. lra.
  - intros k. unfold midpoint, steiner_O, steiner_P, steiner_Q. unspec. nra.
  - rewrite F1, F2. auto.
  - unfold steiner_R, steiner_Q. intros E. injection E. lra.
  - intros k. unfold midpoint, steiner_O, steiner_R, steiner_Q. unspec. apply Rminus_diag_uniq.
    transitivity ((sqrt 3 * sqrt 3 - 3) * (25/36 + 25/3 * k + 25 * (k * k) - 25/9)); [field|rewrite Q; ring].
  - rewrite F3, F2. auto.
  - unfold steiner_R, steiner_P. intros E. injection E. lra.
  - intros k. unfold midpoint, steiner_O, steiner_R, steiner_P. unspec. apply Rminus_diag_uniq.
    transitivity ((sqrt 3 * sqrt 3 - 3) * (25/36 + 25/3 * k + 25 * (k * k) - 25/9)); [field|rewrite Q; ring].
  - rewrite F3, F1. auto.
Qed.

(** flat triangles: None (ZeroDivisionError when A is B or C); vertices within the
    tolerance of np.allclose: AttributeError *)
Lemma steiner_flat A B C : collinear A B C -> A <> B -> A <> C ->
  steiner_ellipse (mkTri A B C) = Ok None /\ steiner_inellipse (mkTri A B C) = Ok None.
Proof.
  intros H HB HC. unfold steiner_ellipse, steiner_inellipse. destruct (flatness (mkTri A B C)) as [f|e] eqn:E.
  - cbn [bind]. apply flatness_spec in E. cbn [tA tB tC] in E. destruct (eqb f 1) eqn:Ef; auto. apply eqb_false in Ef. tauto.
  - apply (flatness_raise (mkTri A B C)) in E. cbn [tA tB tC] in E. tauto.
Qed.
Lemma steiner_raise A B C : A = B \/ A = C ->
  steiner_ellipse (mkTri A B C) = Raise ZeroDivisionError /\ steiner_inellipse (mkTri A B C) = Raise ZeroDivisionError.
Proof.
  intros H. unfold steiner_ellipse, steiner_inellipse. rewrite (proj2 (flatness_raise (mkTri A B C) ZeroDivisionError)) by (cbn; tauto). auto.
Qed.
Lemma steiner_close A B C : ~ collinear A B C -> allclose A B = true \/ allclose A C = true \/ allclose B C = true ->
  steiner_ellipse (mkTri A B C) = Raise AttributeError /\ steiner_inellipse (mkTri A B C) = Raise AttributeError.
Proof.
  intros N H.
  assert (K : collinear_ A B C = Ok true).
  { destruct H as [H|H]; [unfold collinear_, collinear_tol_; rewrite H; auto|apply collinear_close; auto]. }
  assert (F : forall c, steiner_map (mkTri A B C) c = Raise AttributeError).
  { intros c. unfold steiner_map, affine_from_three_points. cbn [tA tB tC]. rewrite steiner_ref_collinear. cbn [bind]. rewrite K. reflexivity. }
  unfold steiner_ellipse, steiner_inellipse. rewrite !nonflat_branch by auto. rewrite steiner_circ, steiner_inc. cbn [bind]. auto.
Qed.

(** ** random points *)
Lemma mapM_spec {X Y} (f : X -> res Y) (P : X -> Prop) (Q : Y -> Prop) l ys : (forall x y, P x -> f x = Ok y -> Q y) -> Forall P l -> mapM f l = Ok ys ->
  Forall Q ys /\ length ys = length l.
Proof.
  intros H. revert ys. induction l as [|x l IH]; intros ys HP E; cbn in E.
  - injection E as <-. auto.
  - inversion HP; subst. apply bind_Ok in E. destruct E as (y & Ey & E). apply bind_Ok in E. destruct E as (ys' & Eys & E). injection E as <-.
    destruct (IH ys' H3 Eys) as [A B]. split; [constructor; eauto|]. cbn. lia.
Qed.
Lemma mapM_total {X Y} (f : X -> res Y) l : Forall (fun x => exists y, f x = Ok y) l -> exists ys, mapM f l = Ok ys.
Proof.
  induction 1 as [|x l (y & Hy) _ (ys & IH)]; cbn; [eauto|]. rewrite Hy. cbn [bind]. rewrite IH. cbn [bind]. eauto.
Qed.

Lemma triangle_random_spec A B C n w draws ps :
  Forall (fun d => 0 <= fst d < 1 /\ 0 <= snd d < 1) draws ->
  triangle_random_points (mkTri A B C) n w draws = Ok ps ->
  length ps = length draws /\
  match w with
  | WhereIn => Forall (in_closed_triangle A B C) ps
  | WhereOn => Forall (fun M => on_segment A B M \/ on_segment B C M \/ on_segment C A M) ps
  | WhereOther => False
  end.
Proof.
  intros HD H. unfold triangle_random_points in H. destruct (n <=? 0)%Z; [discriminate|]. cbn [tA tB tC] in H. destruct w.
  - apply Ok_inj in H. subst ps. rewrite map_length. split; auto. apply Forall_map. eapply Forall_impl; [|exact HD]. intros d [H1 H2]. apply random_in_spec; lra.
  - rewrite (distance_dist A B), (distance_dist B C), (distance_dist C A) in H. apply (mapM_spec _ (fun d => 0 <= fst d < 1 /\ 0 <= snd d < 1) (fun M => on_segment A B M \/ on_segment B C M \/ on_segment C A M)) in H; auto.
    + tauto.
    + intros d M [D1 D2] E. pose proof (random_on_spec A B C (fst d * (dist A B + dist B C + dist C A))) as K. rewrite E in K. apply K.
      pose proof (dist_nonneg A B). pose proof (dist_nonneg B C). pose proof (dist_nonneg C A). nra.
  - discriminate.
Qed.
Lemma triangle_random_total A B C n w draws : (0 < n)%Z -> w <> WhereOther -> A <> B ->
  Forall (fun d => 0 <= fst d < 1 /\ 0 <= snd d < 1) draws -> exists ps, triangle_random_points (mkTri A B C) n w draws = Ok ps.
Proof.
  intros Hn Hw HAB HD. unfold triangle_random_points. destruct (Z.leb_spec n 0); [lia|]. destruct w; [eauto| |congruence]. cbn [tA tB tC].
  apply mapM_total. eapply Forall_impl; [|exact HD]. intros d [D1 D2]. rewrite (distance_dist A B), (distance_dist B C), (distance_dist C A).
  pose proof (random_on_spec A B C (fst d * (dist A B + dist B C + dist C A))) as K. destruct (runif_on_triangle1_ _ _ _ _) as [M|e]; eauto. exfalso.
  apply HAB. apply K. pose proof (dist_nonneg A B). pose proof (dist_nonneg B C). pose proof (dist_nonneg C A). nra.
Qed.
Lemma triangle_random_raises T n w draws : (n <= 0)%Z \/ w = WhereOther -> triangle_random_points T n w draws = Raise ValueError.
Proof.
  unfold triangle_random_points. intros [H|H]; destruct (Z.leb_spec n 0); auto; [lia|]. subst. auto.
Qed.

Lemma triangle_random_onto A B C M : A <> B -> A <> C -> B <> C ->
  (inside_triangle A B C M -> exists u v, 0 <= u < 1 /\ 0 <= v < 1 /\
     triangle_random_points (mkTri A B C) 1 WhereIn [(u, v)] = Ok [M]) /\
  (on_segment A B M \/ on_segment B C M \/ on_segment C A M -> exists u, 0 <= u < 1 /\
     forall v, triangle_random_points (mkTri A B C) 1 WhereOn [(u, v)] = Ok [M]).
Proof.
  intros H1 H2 H3. split.
  - intros (u & v & w & Hu & Hv & Hw & E & ->).
    assert (F : w / (v + w) * (v + w) = w) by (field; lra).
    exists (w / (v + w)), ((v + w) * (v + w)). split; [|split].
    + split; [apply Rlt_le, Rmult_lt_0_compat; auto; apply Rinv_0_lt_compat; lra|]. apply (Rmult_lt_reg_r (v + w)); lra.
    + nra.
    + unfold triangle_random_points. cbn [Z.leb Z.compare map tA tB tC fst snd]. do 2 f_equal. unfold runif_in_triangle1_, bary.
      rewrite (sqrt_eq _ (v + w)) by lra. f_equal; replace u with (1 - v - w) by lra; field; lra.
  - pose proof (dist_pos _ _ H1) as P1. pose proof (dist_pos _ _ H3) as P2. pose proof (dist_pos _ _ (not_eq_sym H2)) as P3.
    set (l1 := dist A B) in *. set (l2 := dist B C) in *. set (l3 := dist C A) in *. set (l := l1 + l2 + l3).
    assert (Hl : 0 < l) by (unfold l; lra).
    assert (K : forall x, 0 <= x < l -> runif_on_triangle1_ A B C x = Ok M -> exists u, 0 <= u < 1 /\
       forall v, triangle_random_points (mkTri A B C) 1 WhereOn [(u, v)] = Ok [M]).
    { intros x Hx E. exists (x / l). assert (F : x / l * l = x) by (field; lra). split.
      - split; [apply Rmult_le_pos; [lra|apply Rlt_le, Rinv_0_lt_compat; auto]|apply (Rmult_lt_reg_r l); lra].
      - intros v. unfold triangle_random_points. cbn [Z.leb Z.compare mapM tA tB tC fst snd].
        rewrite (distance_dist A B), (distance_dist B C), (distance_dist C A). fold l1 l2 l3 l. rewrite F, E. reflexivity. }
    assert (dd : forall x y, y <> 0 -> np_div x y = Ok (x / y)) by (intros x y Hy; unfold np_div; destruct Req_EM_T; [contradiction|auto]).
    assert (S1 : forall t, 0 <= t <= 1 -> M = at_line A B t -> runif_on_triangle1_ A B C (t * l1) = Ok M).
    { intros t Ht ->. unfold runif_on_triangle1_. rewrite (distance_dist A B), (distance_dist B C), (distance_dist C A). fold l1 l2 l3.
      destruct (leb (t * l1) l1) eqn:E; [|apply leb_false in E; nra]. rewrite !dd by lra. cbn [bind]. f_equal.
      replace ((l1 - t * l1) / l1) with (1 - t) by (field; lra). replace (t * l1 / l1) with t by (field; lra).
      unfold at_line. destruct A, B. unpt. f_equal; ring. }
    intros [(t & Ht & E)|[(t & Ht & E)|(t & Ht & E)]].
    + apply (K (t * l1)); [unfold l; nra|auto].
    + destruct (Req_dec t 0) as [->|T0].
      * apply (K (1 * l1)); [unfold l; lra|]. apply S1; [lra|]. rewrite E. unfold at_line. destruct A, B, C. unpt. f_equal; ring.
      * apply (K (l1 + t * l2)); [unfold l; nra|]. rewrite E. unfold runif_on_triangle1_. rewrite (distance_dist A B), (distance_dist B C), (distance_dist C A). fold l1 l2 l3.
        destruct (leb (l1 + t * l2) l1) eqn:Q; [apply leb_true in Q; nra|]. destruct (leb (l1 + t * l2) (l1 + l2)) eqn:Q'; [|apply leb_false in Q'; nra].
        rewrite !dd by lra. cbn [bind]. f_equal. replace ((l2 - (l1 + t * l2) + l1) / l2) with (1 - t) by (field; lra). replace ((l1 + t * l2 - l1) / l2) with t by (field; lra).
        unfold at_line. destruct B, C. unpt. f_equal; ring.
    + destruct (Req_dec t 1) as [->|T1].
      * apply (K (0 * l1)); [unfold l; lra|]. apply S1; [lra|]. rewrite E. unfold at_line. destruct A, B, C. unpt. f_equal; ring.
      * destruct (Req_dec t 0) as [->|T0].
        { apply (K (l1 + l2)); [unfold l; lra|]. rewrite E. unfold runif_on_triangle1_. rewrite (distance_dist A B), (distance_dist B C), (distance_dist C A). fold l1 l2 l3.
          destruct (leb (l1 + l2) l1) eqn:Q; [apply leb_true in Q; lra|]. destruct (leb (l1 + l2) (l1 + l2)) eqn:Q'; [|apply leb_false in Q'; lra].
          rewrite !dd by lra. cbn [bind]. f_equal. replace ((l2 - (l1 + l2) + l1) / l2) with 0 by (field; lra). replace ((l1 + l2 - l1) / l2) with 1 by (field; lra).
          unfold at_line. destruct A, B, C. unpt. f_equal; ring. }
        apply (K (l1 + l2 + t * l3)); [unfold l; nra|]. rewrite E. unfold runif_on_triangle1_. rewrite (distance_dist A B), (distance_dist B C), (distance_dist C A). fold l1 l2 l3.
        destruct (leb (l1 + l2 + t * l3) l1) eqn:Q; [apply leb_true in Q; nra|]. destruct (leb (l1 + l2 + t * l3) (l1 + l2)) eqn:Q'; [apply leb_true in Q'; nra|].
        rewrite !dd by lra. cbn [bind]. f_equal. replace ((l3 - (l1 + l2 + t * l3) + l1 + l2) / l3) with (1 - t) by (field; lra). replace ((l1 + l2 + t * l3 - l1 - l2) / l3) with t by (field; lra).
        unfold at_line. destruct A, C. unpt. f_equal; ring.
Qed.
