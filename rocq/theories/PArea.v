(** * Areas, orientation, inside and intersections under affine maps. *)

From Coq Require Import Reals Lra Psatz List Bool ZArith.
From Verif Require Import Base Spec SpecTriangle SpecArea ModelInternal ModelLine ModelCircle ModelAffine ModelEllipse ModelTriangle ModelTransfo.
From Verif Require Import BaseLemmas SpecLemmas PLine PAffine PReflect PTransfo PAffEq PEllipse PEllipse3 PTriangle6.
From Verif Require PTriangle PCircle.
Import ListNotations.
Local Open Scope R_scope.

Lemma affine_area f : scales_areas (det2 (afA f)) (affine_transform f).
Proof. intros A B C. destruct f as [[a b c d] [x y]]. unfold area, det2. unspec. unaff. field. Qed.

Lemma affine_at_line f A B t : affine_transform f (at_line A B t) = at_line (affine_transform f A) (affine_transform f B) t.
Proof. destruct f as [[a b c d] [x y]]. unfold at_line. unspec. unaff. f_equal; ring. Qed.

Lemma affine_bary f u v w A B C : u + v + w = 1 ->
  affine_transform f (bary u v w A B C) = bary u v w (affine_transform f A) (affine_transform f B) (affine_transform f C).
Proof.
  intros H. destruct f as [[a b c d] [x y]]. unfold bary. unspec. unaff. replace w with (1 - u - v) by lra. f_equal; ring.
Qed.

Lemma orientation_area A B C : orientation (mkTri A B C) = (if Rlt_dec 0 (area A B C) then -1 else if Rlt_dec (area A B C) 0 then 1 else 0)%Z.
Proof.
  unfold orientation, area, eqb, ltb. cbn [tA tB tC]. unfold scross. unpt.
  destruct A as [a1 a2], B as [b1 b2], C as [c1 c2]; cbn [fst snd].
  set (v := (b2 - a2) * (c1 - b1) - (b1 - a1) * (c2 - b2)).
  replace (((b1 - a1) * (c2 - a2) - (b2 - a2) * (c1 - a1)) / 2) with (- v / 2) by (unfold v; field).
  destruct (Req_EM_T v 0), (Rlt_dec 0 (- v / 2)), (Rlt_dec (- v / 2) 0), (Rlt_dec 0 v); auto; exfalso; lra.
Qed.

Lemma affine_orientation f A B C (d := det2 (afA f)) (o := orientation (mkTri A B C))
  (o' := orientation (mkTri (affine_transform f A) (affine_transform f B) (affine_transform f C))) :
  (0 < d -> o' = o) /\ (d < 0 -> o' = (- o)%Z) /\ (d = 0 -> o' = 0%Z).
Proof.
  subst o o'. rewrite !orientation_area, (affine_area f A B C). fold d. set (x := area A B C).
  repeat split; intros H; destruct (Rlt_dec 0 (d * x)), (Rlt_dec (d * x) 0), (Rlt_dec 0 x), (Rlt_dec x 0); auto; exfalso; nra.
Qed.

Lemma affine_contains f A B C M :
  (det2 (afA f) <> 0 -> triangle_contains (mkTri (affine_transform f A) (affine_transform f B) (affine_transform f C)) (affine_transform f M) = triangle_contains (mkTri A B C) M) /\
  (det2 (afA f) = 0 -> forall N, triangle_contains (mkTri (affine_transform f A) (affine_transform f B) (affine_transform f C)) N = false).
Proof.
  split; intros H.
  - apply eq_true_iff_eq. rewrite !PTriangle.contains_spec. cbn [tA tB tC]. split; intros [H1 (u & v & w & Hu & Hv & Hw & E & K)].
    + split. { intros X. apply H1. apply collinear_cross in X. apply collinear_cross. pose proof (affine_area f A B C) as Z. unfold area in Z. nra. }
      exists u, v, w. repeat split; auto. destruct (proj2 (inverse_spec f) H) as (g & _ & _ & G & _).
      rewrite <- (G M), K, <- affine_bary by auto. apply G.
    + split. { intros X. apply H1. eapply collinear_affine; eauto. }
      exists u, v, w. repeat split; auto. subst M. apply affine_bary; auto.
  - intros N. destruct (triangle_contains _ N) eqn:E; auto. apply PTriangle.contains_spec in E. cbn [tA tB tC] in E. destruct E as [E _]. exfalso. apply E.
    apply collinear_cross. pose proof (affine_area f A B C) as Z. rewrite H in Z. unfold area in Z. nra.
Qed.

(** ** Factors of the classes *)
Lemma rotation_area r : scales_areas 1 (rotate r).
Proof.
  intros A B C. rewrite !rotate_rot. unfold area, rot. pose proof (cs1 (radians (rdeg r) (rtheta r))) as H. unspec.
  set (c := cos _) in *. set (s := sin _) in *. destruct A as [a1 a2], B as [b1 b2], C as [c1 c2], (rO r) as [x y]; cbn [fst snd].
  transitivity ((c * c + s * s) * (((b1 - a1) * (c2 - a2) - (b2 - a2) * (c1 - a1)) / 2)); [field|rewrite H; reflexivity].
Qed.

Lemma homothety_area h : scales_areas (hscale h * hscale h) (homothety_transform h).
Proof. intros A B C. unfold homothety_transform, area. unspec. field. Qed.

Lemma scalingxy_area s : scales_areas (xysx s * xysy s) (scalingxy_transform s).
Proof. intros A B C. unfold scalingxy_transform, area. unspec. field. Qed.

Lemma scaling_area S : scales_areas (scs S) (scaling_transform S).
Proof.
  intros A B C. rewrite !scaling_eq. pose proof (cs1 (atan2 (snd (scw S)) (fst (scw S)))) as H. unfold sc_dir, area. unspec.
  set (c := cos _) in *. set (s := sin _) in *. destruct A as [a1 a2], B as [b1 b2], C as [c1 c2], (scO S) as [x y]; cbn [fst snd]. set (k := scs S).
  transitivity ((1 + (k - 1) * (c * c + s * s)) * (((b1 - a1) * (c2 - a2) - (b2 - a2) * (c1 - a1)) / 2)); [field|rewrite H; field].
Qed.

Lemma shear_area s A B C A' B' C' : sw s <> (0, 0) -> 0 < sratio s -> shear_transform s A = Ok A' -> shear_transform s B = Ok B' -> shear_transform s C = Ok C' ->
  area A' B' C' = area A B C.
Proof.
  intros Hw Hk. rewrite (proj1 (shear_formula s A Hw Hk)), (proj1 (shear_formula s B Hw Hk)), (proj1 (shear_formula s C Hw Hk)).
  intros HA HB HC. injection HA as <-. injection HB as <-. injection HC as <-. unfold area.
  destruct s as [[q1 q2] [p q] k a d]; cbn [sQ sw sratio sangle sdeg] in *. pose proof (sum_sq_pos p q Hw) as Hp.
  set (t := tan _). clearbody t. unspec. destruct A as [a1 a2], B as [b1 b2], C as [c1 c2]; cbn [fst snd]. field. repeat split; nra.
Qed.

Lemma mirror_area A B P Q S P' Q' S' : A <> B -> mirror A B P P' -> mirror A B Q Q' -> mirror A B S S' -> area P' Q' S' = - area P Q S.
Proof.
  intros H H1 H2 H3. apply mirror_cross in H1, H2, H3; auto. destruct H1 as [X1 Y1], H2 as [X2 Y2], H3 as [X3 Y3]. pose proof (pt_neq _ _ H) as Hp.
  unfold area. unspec. set (u := fst B - fst A) in *. set (v := snd B - snd A) in *.
  assert (C1 : u * (snd Q' - snd P') - v * (fst Q' - fst P') = - (u * (snd Q - snd P) - v * (fst Q - fst P))) by lra.
  assert (C2 : u * (snd S' - snd P') - v * (fst S' - fst P') = - (u * (snd S - snd P) - v * (fst S - fst P))) by lra.
  assert (D1 : u * (fst Q' - fst P') + v * (snd Q' - snd P') = u * (fst Q - fst P) + v * (snd Q - snd P)) by lra.
  assert (D2 : u * (fst S' - fst P') + v * (snd S' - snd P') = u * (fst S - fst P) + v * (snd S - snd P)) by lra.
  clear X1 X2 X3 Y1 Y2 Y3. clearbody u v.
  set (a := fst Q' - fst P') in *. set (b := snd Q' - snd P') in *. set (c := fst S' - fst P') in *. set (d := snd S' - snd P') in *.
  set (a' := fst Q - fst P) in *. set (b' := snd Q - snd P) in *. set (c' := fst S - fst P) in *. set (d' := snd S - snd P) in *.
  assert (E : (u * u + v * v) * (a * d - b * c) = (u * u + v * v) * - (a' * d' - b' * c')).
  { transitivity ((u * a + v * b) * (u * d - v * c) - (u * b - v * a) * (u * c + v * d)); [ring|]. rewrite C1, C2, D1, D2. ring. }
  apply Rmult_eq_reg_l in E; [|lra]. lra.
Qed.

Lemma reflection_affine_area l : lA l <> lB l -> exists f, reflection_as_affine l = Ok f /\ scales_areas (-1) (affine_transform f).
Proof.
  intros H. destruct (reflection_affine_spec l H) as (f & E & Hf). exists f. split; auto. intros A B C.
  rewrite (mirror_area (lA l) (lB l) A B C); auto. ring.
Qed.

Lemma reflection_area l P Q S P' Q' S' : allclose (lA l) (lB l) = false ->
  Forall (fun M => allclose (lA l) M = false /\ allclose (lB l) M = false) [P; Q; S] ->
  reflection_transform_pt l P = Ok P' -> reflection_transform_pt l Q = Ok Q' -> reflection_transform_pt l S = Ok S' -> area P' Q' S' = - area P Q S.
Proof.
  intros H HF E1 E2 E3. inversion HF as [|? ? [a1 b1] HF2]; subst. inversion HF2 as [|? ? [a2 b2] HF3]; subst. inversion HF3 as [|? ? [a3 b3] _]; subst.
  apply (mirror_area (lA l) (lB l)); [apply allclose_false_neq; auto|eapply reflection_spec; eauto..].
Qed.

Lemma projection_area p P Q S P' Q' S' : lA (pD p) <> lB (pD p) -> proj_on p P P' -> proj_on p Q Q' -> proj_on p S S' -> area P' Q' S' = 0.
Proof.
  intros H [H1 _] [H2 _] [H3 _]. apply on_line_cross in H1, H2, H3; auto. pose proof (pt_neq _ _ H) as Hp. unfold area. unspec.
  set (u := fst (lB (pD p)) - _) in *. set (v := snd (lB (pD p)) - _) in *.
  set (a1 := fst (lA (pD p))) in *. set (a2 := snd (lA (pD p))) in *.
  assert (X : u * (snd Q' - snd P') = v * (fst Q' - fst P')) by lra. assert (Y : u * (snd S' - snd P') = v * (fst S' - fst P')) by lra.
  set (z := (fst Q' - fst P') * (snd S' - snd P') - (snd Q' - snd P') * (fst S' - fst P')).
  assert (Z1 : u * z = 0). { unfold z. transitivity ((fst Q' - fst P') * (u * (snd S' - snd P')) - (u * (snd Q' - snd P')) * (fst S' - fst P')); [ring|rewrite X, Y; ring]. }
  assert (Z2 : v * z = 0). { unfold z. transitivity ((v * (fst Q' - fst P')) * (snd S' - snd P') - (snd Q' - snd P') * (v * (fst S' - fst P'))); [ring|rewrite <- X, <- Y; ring]. }
  assert (z = 0); [|lra]. apply Rmult_integral in Z1, Z2. destruct Z1, Z2; auto. exfalso. nra.
Qed.

(** ** Composition and inverse *)
Lemma compose_area f g left : scales_areas (det2 (afA f) * det2 (afA g)) (affine_transform (affine_compose f g left)).
Proof.
  intros A B C. rewrite affine_area. f_equal. destruct f as [[a b c d] [x y]], g as [[a' b' c' d'] [x' y']], left; unfold affine_compose, det2; unaff; ring.
Qed.

Lemma inverse_area f : det2 (afA f) <> 0 -> exists g, affine_inverse f = Ok (Some g) /\ scales_areas (/ det2 (afA f)) (affine_transform g).
Proof.
  intros H. destruct (proj2 (inverse_spec f) H) as (g & E & _ & _ & G). exists g. split; auto. intros A B C.
  rewrite <- (G A) at 2. rewrite <- (G B) at 2. rewrite <- (G C) at 2. rewrite (affine_area f). field. auto.
Qed.

(** ** Lines and ellipses *)
Lemma affine_intersection f l1 l2 m1 m2 st P Q : lA l1 <> lB l1 -> lA l2 <> lB l2 ->
  affine_transform_line f l1 = Ok (Some m1) -> affine_transform_line f l2 = Ok (Some m2) ->
  intersection_line_line l1 l2 st = Some P -> intersection_line_line m1 m2 st = Some Q -> Q = affine_transform f P.
Proof.
  intros N1 N2. unfold affine_transform_line. destruct (eqb (det2 (afA f)) 0) eqn:D; [discriminate|]. apply eqb_false in D.
  unfold Line_init. fold (affine_transform f (lA l1)) (affine_transform f (lB l1)) (affine_transform f (lA l2)) (affine_transform f (lB l2)).
  destruct (allclose (affine_transform f (lA l1)) _) eqn:C1; cbn [bind]; [discriminate|]. intros E1. injection E1 as <-.
  destruct (allclose (affine_transform f (lA l2)) _) eqn:C2; cbn [bind]; [discriminate|]. intros E2. injection E2 as <-. intros HP HQ.
  destruct (intersection_line_line_sound l1 l2 st P N1 N2 HP) as ((t1 & T1) & (t2 & T2) & _).
  apply allclose_false_neq in C1, C2.
  destruct (intersection_line_line_sound (mkLine (affine_transform f (lA l1)) (affine_transform f (lB l1)) (lextA l1) (lextB l1)) (mkLine (affine_transform f (lA l2)) (affine_transform f (lB l2)) (lextA l2) (lextB l2)) st Q C1 C2 HQ) as (_ & _ & U). symmetry. apply U; cbn [lA lB].
  - exists t1. rewrite T1. apply affine_at_line.
  - exists t2. rewrite T2. apply affine_at_line.
Qed.

Lemma affine_ellipse_contains f e : 0 < ea e -> 0 < eb e -> det2 (afA f) <> 0 -> exists e', affine_transform_ellipse f (AEllipse e) = Ok (Some e') /\
  forall M, ellipse_contains e' (affine_transform f M) = ellipse_contains e M.
Proof.
  intros Ha Hb D. destruct (transform_ellipse_inside f e Ha Hb D) as (e' & E & _ & K). exists e'. split; auto. intros M.
  destruct (transform_ellipse_spec f (AEllipse e) (conj Ha Hb) D) as (e2 & E2 & P2 & _). rewrite E in E2. injection E2 as <-.
  apply eq_true_iff_eq. rewrite !ellipse_contains_spec by (auto; lra). symmetry. apply K.
Qed.

Lemma affine_circle_contains f c : 0 < cr c -> det2 (afA f) <> 0 -> exists e', affine_transform_ellipse f (ACircle c) = Ok (Some e') /\
  forall M, ellipse_contains e' (affine_transform f M) = circle_contains c M.
Proof.
  intros Ha D. destruct (transform_circle_inside f c Ha D) as (e' & E & _ & K). exists e'. split; auto. intros M.
  destruct (transform_ellipse_spec f (ACircle c) Ha D) as (e2 & E2 & P2 & _). rewrite E in E2. injection E2 as <-.
  apply eq_true_iff_eq. rewrite ellipse_contains_spec by (auto; lra). rewrite (PCircle.contains_spec c M) by lra. symmetry. apply K.
Qed.

(** the determinant is the only factor *)
Lemma area_factor f k : scales_areas k (affine_transform f) -> k = det2 (afA f).
Proof.
  intros H. pose proof (H (0, 0) (1, 0) (0, 1)) as E. rewrite (affine_area f) in E. unfold area, scross in E. unpt. cbn [fst snd] in E. lra.
Qed.

Lemma area_ex (f := mkAffine (mkM2 2 1 0 (-1)) (3, 4)) :
  det2 (afA f) = -2 /\ area (0, 0) (4, 0) (0, 3) = 6 /\ area (affine_transform f (0, 0)) (affine_transform f (4, 0)) (affine_transform f (0, 3)) = -12 /\
  orientation (mkTri (affine_transform f (0, 0)) (affine_transform f (4, 0)) (affine_transform f (0, 3))) = 1%Z /\
  triangle_contains (mkTri (affine_transform f (0, 0)) (affine_transform f (4, 0)) (affine_transform f (0, 3))) (affine_transform f (1, 1)) = true.
Proof.
  assert (D : det2 (afA f) = -2) by (unfold det2, f; unaff; lra). assert (Ha : area (0, 0) (4, 0) (0, 3) = 6) by (unfold area, scross; unpt; cbn [fst snd]; lra).
  split; auto. split; auto. split. { rewrite affine_area, D, Ha. lra. } split.
  - rewrite (proj1 (proj2 (affine_orientation f (0, 0) (4, 0) (0, 3)))) by lra. rewrite orientation_area, Ha. destruct (Rlt_dec 0 6); auto; lra.
  - rewrite (proj1 (affine_contains f (0, 0) (4, 0) (0, 3) (1, 1))) by lra. apply PTriangle.contains_spec. cbn [tA tB tC]. split.
    + intros X. apply collinear_cross in X. unfold area in Ha. lra.
    + exists (5 / 12), (1 / 4), (1 / 3). repeat split; try lra. unfold bary. cbn [fst snd]. apply f_equal2; field.
Qed.

Lemma project_proj_on p M P : allclose (lA (pD p)) (lB (pD p)) = false -> ~ parallel (vsub (lB (pDelta p)) (lA (pDelta p))) (vsub (lB (pD p)) (lA (pD p))) ->
  allclose (lA (pD p)) M = false -> allclose (lB (pD p)) M = false -> project p M = Ok P -> proj_on p M P.
Proof.
  intros H NP HA HB E. destruct (collinear_not_close _ _ M H HA HB) as (b & Eb & Kb).
  destruct (project_spec p M) as (P2 & E2 & K); auto; [apply allclose_false_neq; auto| |rewrite E in E2; injection E2 as <-; auto].
  destruct b; [left; apply Kb; auto|right; auto].
Qed.

Lemma project_area p P Q S P' Q' S' : allclose (lA (pD p)) (lB (pD p)) = false -> ~ parallel (vsub (lB (pDelta p)) (lA (pDelta p))) (vsub (lB (pD p)) (lA (pD p))) ->
  Forall (fun M => allclose (lA (pD p)) M = false /\ allclose (lB (pD p)) M = false) [P; Q; S] ->
  project p P = Ok P' -> project p Q = Ok Q' -> project p S = Ok S' -> area P' Q' S' = 0.
Proof.
  intros H NP HF E1 E2 E3. inversion HF as [|? ? [a1 b1] HF2]; subst. inversion HF2 as [|? ? [a2 b2] HF3]; subst. inversion HF3 as [|? ? [a3 b3] _]; subst.
  apply (projection_area p P Q S); [apply allclose_false_neq; auto|apply project_proj_on; auto..].
Qed.
