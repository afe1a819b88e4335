(** * Proofs about Reflection, Projection, Rotation, Shear, ScalingXY, Homothety, Scaling. *)

From Coq Require Import Reals Lra Lia Psatz List Bool.
From Verif Require Import Base BaseLemmas Spec SpecLemmas ModelInternal ModelLine ModelCircle ModelAffine ModelEllipse ModelTransfo PLine PCircle PInvBase PAffine PReflect.
Import ListNotations.
Local Open Scope R_scope.

(** ** Projection *)

Lemma Projection_init_spec D Delta p : Projection_init D Delta = Ok p ->
  lA (pD p) = lA D /\ lB (pD p) = lB D /\ allclose (lA D) (lB D) = false /\
  (lextA (pD p) = true /\ lextB (pD p) = true /\ lextA (pDelta p) = true /\ lextB (pDelta p) = true) /\
  (porth p = true <-> Delta = None) /\
  match Delta with
  | Some d => lA (pDelta p) = lA d /\ lB (pDelta p) = lB d
  | None => orthogonal (vsub (lB (pDelta p)) (lA (pDelta p))) (vsub (lB D) (lA D))
            /\ ~ parallel (vsub (lB (pDelta p)) (lA (pDelta p))) (vsub (lB D) (lA D))
  end.
Proof.
  unfold Projection_init. intros H. apply bind_Ok in H. destruct H as (D' & E1 & H). apply Line_init_Ok in E1. destruct E1 as [C ->].
  pose proof (allclose_false_neq _ _ C) as N.
  destruct Delta as [d|].
  - apply bind_Ok in H. destruct H as (d' & E2 & H). apply Line_init_Ok in E2. destruct E2 as [_ ->]. injection H as <-. cbn [pD pDelta porth lA lB lextA lextB]. repeat split; auto; discriminate.
  - apply bind_Ok in H. destruct H as (d' & E2 & H). apply Line_init_Ok in E2. destruct E2 as [_ ->]. injection H as <-. cbn [pD pDelta porth lA lB lextA lextB].
    do 3 (split; auto). split; [auto|]. split; [tauto|]. pose proof (pt_neq _ _ N). rewrite parallel_cross. unspec. split; [ring|]. intros E. nra.
Qed.

Definition proj_on (p : projection) (M P : pt) : Prop :=
  on_line (lA (pD p)) (lB (pD p)) P /\ parallel (vsub (lB (pDelta p)) (lA (pDelta p))) (vsub P M).

Lemma proj_on_self p M : on_line (lA (pD p)) (lB (pD p)) M -> proj_on p M M.
Proof. intros H. split; auto. apply parallel_cross. unspec. ring. Qed.

Lemma project_spec p M : lA (pD p) <> lB (pD p) ->
  ~ parallel (vsub (lB (pDelta p)) (lA (pDelta p))) (vsub (lB (pD p)) (lA (pD p))) ->
  on_line (lA (pD p)) (lB (pD p)) M \/ (collinear_ (lA (pD p)) (lB (pD p)) M = Ok false) ->
  exists P, project p M = Ok P /\ proj_on p M P.
Proof.
  intros N NP H. unfold project. rewrite includes_nonstrict.
  destruct H as [H|H].
  - rewrite collinear_on_line by auto. cbn [bind]. exists M. split; auto. apply proj_on_self; auto.
  - rewrite H. cbn [bind].
    destruct (direction_offset_equation (pD p) N) as (_ & _ & HE).
    set (d := fst (direction_offset (pD p))) in *. set (o := snd (direction_offset (pD p))) in *.
    set (u := vsub (lB (pDelta p)) (lA (pDelta p))) in *.
    assert (EA : cos d * fst (lA (pD p)) + sin d * snd (lA (pD p)) = o) by (apply HE; rewrite <- surjective_pairing; apply on_line_A).
    assert (EB : cos d * fst (lB (pD p)) + sin d * snd (lB (pD p)) = o) by (apply HE; rewrite <- surjective_pairing; apply on_line_B).
    assert (HU : dot_ (unit_vector_ d) u <> 0).
    { intros E. apply NP. apply parallel_cross. pose proof (cs1 d) as C1. unfold dot_, unit_vector_ in E. cbn [fst snd] in E.
      assert (E' : cos d * (fst (lB (pD p)) - fst (lA (pD p))) + sin d * (snd (lB (pD p)) - snd (lA (pD p))) = 0) by lra.
      unfold scross. cbn [vsub fst snd]. clearbody u. revert E E'. generalize (fst (lB (pD p)) - fst (lA (pD p))) (snd (lB (pD p)) - snd (lA (pD p))).
      intros x y E E'.
      transitivity ((cos d * cos d + sin d * sin d) * (fst u * y - snd u * x)); [rewrite C1; ring|].
      transitivity ((cos d * fst u + sin d * snd u) * (cos d * y - sin d * x) - (cos d * x + sin d * y) * (cos d * snd u - sin d * fst u)); [ring|].
      rewrite E, E'. ring. }
    unfold np_div. destruct (Req_EM_T _ 0) as [Z|_]; [contradiction|]. cbn [bind]. eexists. split; [reflexivity|].
    split.
    + destruct (vadd _ _) as [x y] eqn:EV. apply HE. unfold vadd, vscal in EV. cbn [fst snd] in EV. injection EV as <- <-.
      revert HU. unfold u, dot_, unit_vector_. cbn [vsub fst snd]. intros HU. field. auto.
    + apply parallel_cross. unfold u. unspec. ring.
Qed.

Lemma project_idempotent p M P : lA (pD p) <> lB (pD p) -> proj_on p M P -> project p P = Ok P.
Proof. intros N [H _]. unfold project. rewrite includes_nonstrict, collinear_on_line by auto. auto. Qed.

Lemma proj_on_unique p M P P' : lA (pD p) <> lB (pD p) ->
  ~ parallel (vsub (lB (pDelta p)) (lA (pDelta p))) (vsub (lB (pD p)) (lA (pD p))) ->
  proj_on p M P -> proj_on p M P' -> P = P'.
Proof.
  intros N NP [H1 H2] [H3 H4]. rewrite parallel_cross in *. rewrite on_line_cross in * by auto.
  apply (lli_unique (lA (pD p)) (lB (pD p)) M (vadd M (vsub (lB (pDelta p)) (lA (pDelta p))))); auto.
  - intros E. apply NP. clear - E. unspec. lra.
  - unspec. lra.
  - unspec. lra.
Qed.

Lemma project_parallel p M : lA (pD p) <> lB (pD p) ->
  parallel (vsub (lB (pDelta p)) (lA (pDelta p))) (vsub (lB (pD p)) (lA (pD p))) ->
  collinear_ (lA (pD p)) (lB (pD p)) M = Ok false -> project p M = Raise NonFinite.
Proof.
  intros N NP H. unfold project. rewrite includes_nonstrict, H. cbn [bind].
  destruct (direction_offset_equation (pD p) N) as (_ & _ & HE).
  set (d := fst (direction_offset (pD p))) in *. set (o := snd (direction_offset (pD p))) in *.
  set (u := vsub (lB (pDelta p)) (lA (pDelta p))) in *.
  assert (EA : cos d * fst (lA (pD p)) + sin d * snd (lA (pD p)) = o) by (apply HE; rewrite <- surjective_pairing; apply on_line_A).
  assert (EB : cos d * fst (lB (pD p)) + sin d * snd (lB (pD p)) = o) by (apply HE; rewrite <- surjective_pairing; apply on_line_B).
  apply parallel_cross in NP. unfold np_div. destruct (Req_EM_T _ 0) as [_|Z]; [auto|]. exfalso. apply Z. clear Z.
  pose proof (pt_neq _ _ N) as Hp.
  assert (E' : cos d * (fst (lB (pD p)) - fst (lA (pD p))) + sin d * (snd (lB (pD p)) - snd (lA (pD p))) = 0) by lra.
  unfold scross in NP. unfold dot_, unit_vector_. cbn [vsub fst snd] in *. clearbody u. revert NP E' Hp. generalize (fst (lB (pD p)) - fst (lA (pD p))) (snd (lB (pD p)) - snd (lA (pD p))).
  intros x y E E' Hp.
  assert (G : (x * x + y * y) * (cos d * fst u + sin d * snd u) = 0).
  { transitivity ((cos d * x + sin d * y) * (x * fst u + y * snd u) + (fst u * y - snd u * x) * (cos d * y - sin d * x)); [ring|]. rewrite E, E'. ring. }
  apply Rmult_integral in G. destruct G; lra.
Qed.

(** points of the basis on which the code computes the matrix *)
Definition proj_regular (p : projection) (M : pt) : Prop :=
  on_line (lA (pD p)) (lB (pD p)) M \/ collinear_ (lA (pD p)) (lB (pD p)) M = Ok false.

Lemma proj_affine_combination p M0 M1 M2 P0 P1 P2 x y :
  proj_on p M0 P0 -> proj_on p M1 P1 -> proj_on p M2 P2 -> lA (pD p) <> lB (pD p) ->
  proj_on p (vadd M0 (vadd (vscal x (vsub M1 M0)) (vscal y (vsub M2 M0))))
            (vadd P0 (vadd (vscal x (vsub P1 P0)) (vscal y (vsub P2 P0)))).
Proof.
  intros [H1 H2] [H3 H4] [H5 H6] N. unfold proj_on. rewrite on_line_cross in * by auto. rewrite parallel_cross in *.
  set (A := lA (pD p)) in *. set (B := lB (pD p)) in *. set (u := vsub (lB (pDelta p)) (lA (pDelta p))) in *. clearbody A B u. split.
  - transitivity ((1 - x - y) * scross (vsub B A) (vsub P0 A) + x * scross (vsub B A) (vsub P1 A) + y * scross (vsub B A) (vsub P2 A)).
    + clear. unspec. ring.
    + rewrite H1, H3, H5. ring.
  - transitivity ((1 - x - y) * scross u (vsub P0 M0) + x * scross u (vsub P1 M1) + y * scross u (vsub P2 M2)).
    + clear. unspec. ring.
    + rewrite H2, H4, H6. ring.
Qed.

Lemma projection_affine_spec p : lA (pD p) <> lB (pD p) ->
  ~ parallel (vsub (lB (pDelta p)) (lA (pDelta p))) (vsub (lB (pD p)) (lA (pD p))) ->
  proj_regular p (0, 0) -> proj_regular p (1, 0) -> proj_regular p (0, 1) ->
  exists f, projection_as_affine p = Ok f /\ forall M, proj_on p M (affine_transform f M).
Proof.
  intros N NP R0 R1 R2. destruct (project_spec p (0, 0) N NP R0) as (b & Eb & Hb).
  destruct (project_spec p (1, 0) N NP R1) as (c1 & E1 & H1). destruct (project_spec p (0, 1) N NP R2) as (c2 & E2 & H2).
  unfold projection_as_affine, projection_mat3. rewrite Eb, E1, E2. cbn [bind]. eexists. split; [reflexivity|].
  intros [x y]. pose proof (proj_affine_combination p _ _ _ _ _ _ x y Hb H1 H2 N) as K.
  replace (vadd (0, 0) (vadd (vscal x (vsub (1, 0) (0, 0))) (vscal y (vsub (0, 1) (0, 0))))) with (x, y) in K by (unpt; f_equal; ring).
  match goal with |- proj_on _ _ ?Z => match type of K with proj_on _ _ ?Z' => replace Z with Z'; auto end end.
  destruct b, c1, c2. unaff. f_equal; ring.
Qed.

Lemma projection_affine_wrong : exists p f,
  Projection_init (mkLine (0, / 1000000000) (1, / 1000000000) true true) None = Ok p /\
  projection_as_affine p = Ok f /\
  forall x y, y <> 1 -> ~ on_line (lA (pD p)) (lB (pD p)) (affine_transform f (x, y)).
Proof.
  set (h := / 1000000000). assert (Hh : h = / 1000000000) by auto.
  set (D := mkLine (0, h) (1, h) true true).
  set (p := mkProj D (mkLine (0, 0) (- (h - h), 1 - 0) true true) true).
  exists p. 
  assert (EI : Projection_init D None = Ok p).
  { unfold Projection_init, Line_init, D; cbn [lA lB]. clearbody h. replace (allclose (0, h) (1, h)) with false by (symmetry; evalclose). cbn [bind]. unpt.
    replace (allclose (0, 0) (- (h - h), 1 - 0)) with false by (symmetry; evalclose). cbn [bind]. auto. }
  assert (P0 : project p (0, 0) = Ok (0, 0)).
  { unfold project. rewrite includes_nonstrict. rewrite collinear_close; auto. left. unfold p, D; cbn [pD lA]. clearbody h. evalclose. }
  assert (P1 : project p (1, 0) = Ok (1, 0)).
  { unfold project. rewrite includes_nonstrict. rewrite collinear_close; auto. right. unfold p, D; cbn [pD lB]. clearbody h. evalclose. }
  assert (NN : lA (pD p) <> lB (pD p)) by (unfold p, D; cbn [pD lA lB]; intros E; injection E; lra).
  assert (P2 : project p (0, 1) = Ok (0, h)).
  { destruct (project_spec p (0, 1)) as (P & E & K1 & K2); auto.
    - unfold p, D; cbn [pD pDelta lA lB]. rewrite parallel_cross. unspec. lra.
    - right. unfold p, D; cbn [pD lA lB]. clearbody h. apply collinear_not; try evalclose. rewrite collinear_cross. unspec. lra.
    - rewrite E. f_equal. rewrite on_line_cross in K1 by auto. rewrite parallel_cross in K2. unfold p, D in *; cbn [pD pDelta lA lB] in *. destruct P as [a b]. clear - K1 K2. unspec. f_equal; lra. }
  eexists. split; [exact EI|]. split.
  - unfold projection_as_affine, projection_mat3. rewrite P0, P1, P2. cbn [bind]. reflexivity.
  - intros x y Hy K. rewrite on_line_cross in K by auto. unfold p, D in K; cbn [pD lA lB] in K. unaff. unspec. apply Hy.
    assert (h * (y - 1) = 0) by lra. apply Rmult_integral in H. destruct H; [lra|lra].
Qed.

(** ** Rotation *)

Lemma rot_angle_eq r : rot_angle r = radians (rdeg r) (rtheta r).
Proof. unfold rot_angle, radians, deg. destruct (rdeg r); auto. field. Qed.

Lemma rotate_rot r M : rotate r M = rot (radians (rdeg r) (rtheta r)) (rO r) M.
Proof. unfold rotate. rewrite rot_angle_eq. unfold rot. unpt. f_equal; ring. Qed.

Lemma rotate_affine r M : affine_transform (rotation_as_affine r) M = rot (radians (rdeg r) (rtheta r)) (rO r) M.
Proof.
  unfold rotation_as_affine, rotation_mat3. rewrite rot_angle_eq. destruct (rO r) as [x y]. unfold rot. unaff. f_equal; ring.
Qed.

Lemma rot_center th O : rot th O O = O.
Proof. unfold rot. destruct O. cbn [fst snd]. f_equal; ring. Qed.

Lemma rotate_circle_spec r c c' : 0 < cr c -> rotate_circle r c = Ok c' ->
  cr c' = cr c /\ forall M, on_circle (cO c) (cr c) M <-> on_circle (cO c') (cr c') (rot (radians (rdeg r) (rtheta r)) (rO r) M).
Proof.
  intros Hr E. unfold rotate_circle in E. apply Circle_init_Ok in E. destruct E as [_ ->]. cbn [cO cr]. rewrite rotate_rot.
  split; auto. intros M. unfold on_circle. rewrite rot_isometry. tauto.
Qed.

Lemma rotate_circle_total r c : 0 < cr c -> exists c', rotate_circle r c = Ok c'.
Proof. intros H. unfold rotate_circle. rewrite Circle_init_pos by auto. eauto. Qed.

Lemma rotate_line_image r l l' : rotate_line r l = Ok l' ->
  lextA l' = lextA l /\ lextB l' = lextB l /\
  forall t, at_line (lA l') (lB l') t = rot (radians (rdeg r) (rtheta r)) (rO r) (at_line (lA l) (lB l) t).
Proof.
  intros E. unfold rotate_line in E. apply Line_init_Ok in E. destruct E as [_ ->]. cbn [lA lB lextA lextB]. rewrite !rotate_rot.
  split; auto. split; auto. intros. symmetry. apply rot_at_line.
Qed.

Lemma fx_rot th b O C M : fx (rot th C O) (b + th) (rot th C M) = fx O b M.
Proof.
  unfold fx, rot; cbn [fst snd]. rewrite cos_plus, sin_plus. pose proof (cs1 th) as H.
  set (c := cos th) in *. set (s := sin th) in *.
  transitivity ((c * c + s * s) * (cos b * (fst M - fst O) + sin b * (snd M - snd O))); [ring|rewrite H; ring].
Qed.

Lemma fy_rot th b O C M : fy (rot th C O) (b + th) (rot th C M) = fy O b M.
Proof.
  unfold fy, rot; cbn [fst snd]. rewrite cos_plus, sin_plus. pose proof (cs1 th) as H.
  set (c := cos th) in *. set (s := sin th) in *.
  transitivity ((c * c + s * s) * (- sin b * (fst M - fst O) + cos b * (snd M - snd O))); [ring|rewrite H; ring].
Qed.

Definition ell_on (e : ellipse) (M : pt) : Prop :=
  on_ellipse (eO e) (ea e) (eb e) (radians (edeg e) (ealpha e)) M.

Lemma rotate_ellipse_spec r e e' : rotate_ellipse r e = Ok e' ->
  ea e' = ea e /\ eb e' = eb e /\ edeg e' = edeg e /\
  forall M, ell_on e M <-> ell_on e' (rot (radians (rdeg r) (rtheta r)) (rO r) M).
Proof.
  intros E. unfold rotate_ellipse, Ellipse_init in E.
  destruct (leb (ea e) 0); [discriminate|]. destruct (leb (eb e) 0); [discriminate|]. injection E as <-.
  unfold ell_on; cbn [eO ea eb ealpha edeg]. do 3 (split; auto). rewrite rotate_rot. intros M. unfold on_ellipse, ell_form.
  set (th := radians (rdeg r) (rtheta r)).
  replace (radians (edeg e) (ealpha e + _)) with (radians (edeg e) (ealpha e) + th).
  - rewrite fx_rot, fy_rot. tauto.
  - unfold th, radians, deg. pose proof PI_neq0. destruct (edeg e), (rdeg r); cbn [andb negb]; field; auto.
Qed.

Lemma rotate_ellipse_total r e : 0 < ea e -> 0 < eb e -> exists e', rotate_ellipse r e = Ok e'.
Proof.
  intros H1 H2. unfold rotate_ellipse, Ellipse_init. rewrite !(proj2 (leb_false _ _)) by lra. eauto.
Qed.

(** ** Shear *)

Lemma shear_init_spec Q w k a d s : Shear_init Q w k a d = Ok s ->
  s = mkShear Q w k a d /\ 0 < k /\ - (PI / 2) < radians d a < PI / 2.
Proof.
  unfold Shear_init. destruct (leb k 0) eqn:E1; [discriminate|]. apply leb_false in E1. pose proof PI_RGT_0.
  destruct d; destruct (_ || _) eqn:E2; try discriminate; intros E; injection E as <-; apply orb_false_iff in E2; rewrite !leb_false in E2;
    (split; [reflexivity|]; split; [lra|]); unfold radians, deg; nra.
Qed.

Lemma shear_angle_eq s : shear_angle s = radians (sdeg s) (sangle s).
Proof. unfold shear_angle, radians, deg. destruct (sdeg s); auto. field. Qed.

(** what the code computes: P + t (w.P) n - t (Q.n) w with n = J w / (k |w|^2) *)
Lemma shear_formula s P : sw s <> (0, 0) -> 0 < sratio s ->
  let t := tan (radians (sdeg s) (sangle s)) in
  let w := sw s in
  let n := vscal (/ (sratio s * sdot w w)) (- snd w, fst w) in
  shear_transform s P = Ok (vsub (vadd P (vscal (t * sdot w P) n)) (vscal (t * sdot (sQ s) n) w)) /\
  exists f, shear_as_affine s = Ok f /\ shear_transform s P = Ok (affine_transform f P).
Proof.
  intros Hw Hk t w n. pose proof (shear_angle_eq s) as HA. destruct s as [Q w0 k a d]; cbn [sQ sw sratio sangle sdeg] in *. destruct w0 as [p q].
  pose proof (sum_sq_pos p q Hw) as Hp.
  unfold shear_transform, shear_as_affine, shear_mat3. cbn [sQ sw sratio sangle sdeg]. rewrite HA. fold t. clearbody t.
  unfold inv3, det3, rows3. unpt. unaff.
  match goal with |- context [eqb ?e 0] => assert (D : e = k * (p * p + q * q)) by ring; rewrite D end.
  rewrite (proj2 (eqb_false _ _)) by nra. cbn [bind]. unfold mat3_apply, move_row, mm3. cbn [n11 n12 n13 n21 n22 n23 n31 n32 n33]. split.
  - subst n w. f_equal. unfold sdot. unpt. destruct Q, P. cbn [fst snd]. f_equal; field; nra.
  - eexists. split; [reflexivity|]. unaff. f_equal. f_equal; ring.
Qed.

Lemma shear_zero_vector s P : sw s = (0, 0) -> shear_transform s P = Raise LinAlgError /\ shear_as_affine s = Raise LinAlgError.
Proof.
  intros H. unfold shear_transform, shear_as_affine, shear_mat3. rewrite H. unfold inv3, det3, rows3. unpt. unaff.
  rewrite (proj2 (eqb_true _ _)) by ring. auto.
Qed.

Lemma shear_vertex_fixed s : sw s <> (0, 0) -> 0 < sratio s ->
  (shear_transform s (sQ s) = Ok (sQ s) <-> tan (radians (sdeg s) (sangle s)) = 0 \/ sQ s = (0, 0)).
Proof.
  intros Hw Hk. destruct (shear_formula s (sQ s) Hw Hk) as [E _]. rewrite E. clear E.
  set (t := tan (radians (sdeg s) (sangle s))). destruct s as [[x y] [p q] k a d]; cbn [sQ sw sratio sangle sdeg] in *.
  pose proof (sum_sq_pos p q Hw) as Hp. unfold sdot. unpt. clearbody t.
  set (m := / (k * (p * p + q * q))). assert (Hm : 0 < m) by (apply Rinv_0_lt_compat; nra). clearbody m.
  split.
  - intros E. injection E as E1 E2.
    assert (F1 : t * m * (- (p * x + q * y) * q - (x * - q + y * p) * p) = 0) by lra.
    assert (F2 : t * m * ((p * x + q * y) * p - (x * - q + y * p) * q) = 0) by lra.
    destruct (Req_dec t 0) as [Z|Z]; auto. right.
    assert (tm : t * m <> 0) by nra.
    apply Rmult_integral in F1. apply Rmult_integral in F2. destruct F1 as [F1|F1]; [contradiction|]. destruct F2 as [F2|F2]; [contradiction|].
    assert (G1 : (p * p + q * q) * y = 0) by lra.
    assert (G2 : (p * p + q * q) * x = 0) by lra.
    apply Rmult_integral in G1. apply Rmult_integral in G2. f_equal; lra.
  - intros [Z|Z].
    + rewrite Z. f_equal. f_equal; ring.
    + injection Z as -> ->. f_equal. f_equal; ring.
Qed.

(** the action on vectors: the component along w is sheared in the direction
    orthogonal to w, and w is fixed only if the angle is 0 *)
Lemma shear_vectors s P Q P' Q' : sw s <> (0, 0) -> 0 < sratio s ->
  shear_transform s P = Ok P' -> shear_transform s Q = Ok Q' ->
  let w := sw s in
  let t := tan (radians (sdeg s) (sangle s)) in
  vsub Q' P' = vadd (vsub Q P) (vscal (t * sdot w (vsub Q P) / (sratio s * sdot w w)) (- snd w, fst w)).
Proof.
  intros Hw Hk E1 E2 w t. destruct (shear_formula s P Hw Hk) as [F1 _]. destruct (shear_formula s Q Hw Hk) as [F2 _].
  rewrite E1 in F1. rewrite E2 in F2. injection F1 as ->. injection F2 as ->. fold w t. unfold sdot. unpt. f_equal; unfold Rdiv; ring.
Qed.

Lemma shear_vector_w s P P' W : sw s <> (0, 0) -> 0 < sratio s ->
  shear_transform s P = Ok P' -> shear_transform s (vadd P (sw s)) = Ok W ->
  vsub W P' = vadd (sw s) (vscal (tan (radians (sdeg s) (sangle s)) / sratio s) (- snd (sw s), fst (sw s))).
Proof.
  intros Hw Hk E1 E2. rewrite (shear_vectors s P (vadd P (sw s)) P' W Hw Hk E1 E2).
  destruct (sw s) as [p q]. pose proof (sum_sq_pos p q Hw). unfold sdot. unpt. f_equal; field; nra.
Qed.

Lemma shear_wrong : exists s, Shear_init (1, 1) (1, 0) 1 45 true = Ok s /\
  shear_transform s (1, 1) = Ok (0, 2).
Proof.
  exists (mkShear (1, 1) (1, 0) 1 45 true). split.
  - unfold Shear_init. evalb. auto.
  - destruct (shear_formula (mkShear (1, 1) (1, 0) 1 45 true) (1, 1)) as [E _]; cbn [sw sratio]; try lra; [intros E; injection E; lra|].
    rewrite E. cbn [sw sQ sratio sangle sdeg]. unfold radians, deg. replace (45 * PI / 180) with (PI / 4) by field. rewrite tan_PI4.
    unfold sdot. unpt. f_equal. f_equal; field.
Qed.

(** ** ScalingXY, Homothety *)

Lemma scalingxy_spec s M :
  scalingxy_transform s M = (fst (xyO s) + xysx s * (fst M - fst (xyO s)), snd (xyO s) + xysy s * (snd M - snd (xyO s))) /\
  affine_transform (scalingxy_as_affine s) M = scalingxy_transform s M.
Proof.
  destruct s as [[x y] sx sy], M as [u v]. unfold scalingxy_transform, scalingxy_as_affine, scalingxy_mat3, scalingxy_transform. cbn [xyO xysx xysy]. split.
  - unpt. f_equal; ring.
  - unpt. unaff. cbn [xyO xysx xysy afA afb m11 m12 m21 m22 n11 n12 n13 n21 n22 n23 fst snd]. f_equal; ring.
Qed.

Lemma homothety_spec h M :
  homothety_transform h M = vadd (hO h) (vscal (hscale h) (vsub M (hO h))) /\
  affine_transform (homothety_as_affine h) M = homothety_transform h M.
Proof.
  destruct h as [[x y] s], M as [u v]. unfold homothety_transform, homothety_as_affine, homothety_mat3. cbn [hO hscale]. split.
  - unpt. f_equal; ring.
  - unpt. unaff. cbn [hO hscale afA afb m11 m12 m21 m22 n11 n12 n13 n21 n22 n23 fst snd]. f_equal; ring.
Qed.

Lemma homothety_circle h c : 0 < cr c ->
  (hscale h = 0 -> homothety_transform_circle h c = Raise ValueError) /\
  (hscale h <> 0 -> exists c', homothety_transform_circle h c = Ok c' /\ 0 < cr c' /\
     forall M, on_circle (cO c) (cr c) M <-> on_circle (cO c') (cr c') (homothety_transform h M)).
Proof.
  intros Hr. unfold homothety_transform_circle, Circle_init. split; intros H.
  - rewrite H, Rabs_R0. rewrite (proj2 (leb_true _ _)) by lra. auto.
  - pose proof (Rabs_pos_lt _ H) as Ha. rewrite (proj2 (leb_false _ _)) by nra. eexists. split; [reflexivity|]. cbn [cO cr]. split; [nra|].
    intros M. rewrite !on_circle_sq by nra.
    assert (E : dist2 (homothety_transform h (cO c)) (homothety_transform h M) = hscale h * hscale h * dist2 (cO c) M).
    { unfold homothety_transform. unspec. ring. }
    rewrite E. pose proof (Rabs_sq (hscale h)) as Hs. pose proof (sqpos _ H).
    replace (Rabs (hscale h) * cr c * (Rabs (hscale h) * cr c)) with (Rabs (hscale h) * Rabs (hscale h) * (cr c * cr c)) by ring. rewrite Hs.
    split; intros K; [rewrite K; auto|]. apply Rmult_eq_reg_l in K; [auto|lra].
Qed.

(** ** Scaling *)

(** unit vector along the direction; (1,0) for the zero vector *)
Definition sc_dir (S : scaling) : pt := let th := atan2 (snd (scw S)) (fst (scw S)) in (cos th, sin th).

Lemma scaling_eq S M :
  scaling_transform S M =
  vadd M (vscal ((scs S - 1) * sdot (sc_dir S) (vsub M (scO S))) (sc_dir S)).
Proof.
  unfold scaling_transform, sc_dir. rewrite cos_neg, sin_neg. set (th := atan2 _ _). pose proof (cs1 th) as H.
  set (c := cos th) in *. set (s := sin th) in *. set (k := scs S). destruct (scO S) as [x y], M as [u v]. unfold sdot. unpt. f_equal.
  - transitivity (u + (k - 1) * (c * (u - x) + s * (v - y)) * c + (c * c + s * s - 1) * (u - x)); [ring|rewrite H; ring].
  - transitivity (v + (k - 1) * (c * (u - x) + s * (v - y)) * s + (c * c + s * s - 1) * (v - y)); [ring|rewrite H; ring].
Qed.

Lemma sc_dir_unit S : scw S <> (0, 0) -> sc_dir S = vscal (/ sqrt (sdot (scw S) (scw S))) (scw S).
Proof.
  intros H. unfold sc_dir. destruct (scw S) as [p q]. cbn [fst snd]. destruct (cos_sin_atan2 q p) as [E1 E2]; auto. rewrite E1, E2.
  unfold sdot. unpt. f_equal; unfold Rdiv; ring.
Qed.

(** component along the direction multiplied by the scale, orthogonal component kept *)
Lemma scaling_spec S M : scw S <> (0, 0) ->
  let w := scw S in
  let d := vsub M (scO S) in
  let d' := vsub (scaling_transform S M) (scO S) in
  sdot d' w = scs S * sdot d w /\ scross w d' = scross w d /\
  exists f, scaling_as_affine S = Ok f /\ affine_transform f M = scaling_transform S M.
Proof.
  intros H w d d'.
  assert (HE : scaling_transform S M = vadd M (vscal ((scs S - 1) * sdot w d / sdot w w) w)).
  { rewrite scaling_eq, (sc_dir_unit S H). fold w d. assert (Hp : 0 < sdot w w).
    { unfold w, sdot. destruct (scw S). apply sum_sq_pos; auto. }
    assert (HS : forall k, sdot (vscal k w) d = k * sdot w d) by (intros; unfold sdot; cbn [vscal fst snd]; ring). rewrite HS.
    pose proof (sqrt_sq (sdot w w) (Rlt_le _ _ Hp)) as Hs. pose proof (sqrt_lt_R0 _ Hp) as Hs0. set (r := sqrt (sdot w w)) in *. rewrite <- Hs.
    generalize (sdot w d). intros z. unpt. f_equal; field; lra. }
  assert (Hp : 0 < sdot w w). { unfold w, sdot. destruct (scw S). apply sum_sq_pos; auto. }
  unfold d'. rewrite HE. unfold d in *. clear d d' HE. unfold w in *. clear w. destruct S as [[x y] [p q] s]; cbn [scw scO scs] in *. destruct M as [u v].
  unfold sdot in Hp; cbn [fst snd] in Hp. split; [|split].
  - unfold sdot. unpt. field. lra.
  - unfold scross, sdot. unpt. ring.
  - unfold scaling_as_affine, scaling_mat3, inv3, det3, rows3. cbn [scw scO scs]. unpt. unaff.
    match goal with |- context [eqb ?e 0] => assert (D : e = p * p + q * q) by ring; rewrite D end.
    rewrite (proj2 (eqb_false _ _)) by lra. cbn [bind]. eexists. split; [reflexivity|]. unfold move_row, mm3. unaff. unfold sdot. unpt.
    f_equal; field; lra.
Qed.

Lemma scaling_zero_direction S : scw S = (0, 0) ->
  scaling_as_affine S = Raise LinAlgError /\
  forall M, scaling_transform S M = (fst (scO S) + scs S * (fst M - fst (scO S)), snd M).
Proof.
  intros H. split.
  - unfold scaling_as_affine, scaling_mat3. rewrite H. unfold inv3, det3, rows3. unpt. unaff. rewrite (proj2 (eqb_true _ _)) by ring. auto.
  - intros M. rewrite scaling_eq. unfold sc_dir. rewrite H. cbn [fst snd]. unfold atan2.
    destruct (Rlt_dec 0 0) as [K|_]; [lra|]. rewrite cos_0, sin_0. destruct (scO S), M. unfold sdot. unpt. f_equal; ring.
Qed.

Lemma atan2_unit k p q : 0 < k -> p * p + q * q = 1 -> cos (atan2 (k * q) (k * p)) = p /\ sin (atan2 (k * q) (k * p)) = q.
Proof.
  intros Hk H. assert (Hss : sqrt (k * p * (k * p) + k * q * (k * q)) = k).
  { apply sqrt_eq; [lra|]. transitivity (k * k * (p * p + q * q)); [rewrite H; ring|ring]. }
  destruct (cos_sin_atan2 (k * q) (k * p)) as [C1 C2].
  - intros E. injection E as E1 E2. apply Rmult_integral in E1. apply Rmult_integral in E2.
    assert (p = 0) by lra. assert (q = 0) by lra. subst. lra.
  - rewrite Hss in C1, C2. rewrite C1, C2. split; field; lra.
Qed.

Lemma scale_circle_spec S c : scw S <> (0, 0) -> 0 < cr c ->
  (scs S = 0 -> scale_circle S c = Raise ValueError) /\
  (scs S <> 0 -> exists e, scale_circle S c = Ok e /\ 0 < ea e /\ 0 < eb e /\
     (forall M, on_circle (cO c) (cr c) M <-> ell_on e (scaling_transform S M)) /\
     (eb e <= ea e <-> -1 <= scs S)).
Proof.
  intros Hw Hr.
  pose proof (sc_dir_unit S Hw) as Hu.
  assert (Hl : vlength_ (scw S) = sqrt (sdot (scw S) (scw S))) by reflexivity.
  assert (Hp : 0 < sdot (scw S) (scw S)) by (destruct (scw S); apply sum_sq_pos; auto).
  pose proof (sqrt_lt_R0 _ Hp) as Hs0.
  set (u := sc_dir S) in *.
  assert (Hu1 : fst u * fst u + snd u * snd u = 1) by (unfold u, sc_dir; cbn [fst snd]; apply cs1).
  set (O := scaling_transform S (cO c)).
  set (w := scw S) in *.
  assert (HA1 : scaling_transform S (vadd (cO c) (vscal (/ vlength_ w) (vscal (cr c) w))) = vadd O (vscal (scs S * cr c) u)).
  { unfold O. rewrite !scaling_eq. fold u. replace (vscal (/ vlength_ w) (vscal (cr c) w)) with (vscal (cr c) u).
    - revert Hu1. clear. destruct u as [p q], (cO c) as [x y], (scO S) as [a b]. unfold sdot. unpt. generalize (scs S) (cr c). intros s r H.
      f_equal.
      + transitivity (x + r * p + (s - 1) * (p * (x - a) + q * (y - b)) * p + (s - 1) * r * (p * p + q * q) * p); [ring|rewrite H; ring].
      + transitivity (y + r * q + (s - 1) * (p * (x - a) + q * (y - b)) * q + (s - 1) * r * (p * p + q * q) * q); [ring|rewrite H; ring].
    - rewrite Hu, Hl. unpt. f_equal; ring. }
  assert (HA2 : scaling_transform S (vadd (cO c) (vscal (/ vlength_ w) (vscal (cr c) (- snd w, fst w)))) = vadd O (vscal (cr c) (- snd u, fst u))).
  { unfold O. rewrite !scaling_eq. fold u. replace (vscal (/ vlength_ w) (vscal (cr c) (- snd w, fst w))) with (vscal (cr c) (- snd u, fst u)).
    - clear. destruct u as [p q], (cO c) as [x y], (scO S) as [a b]. unfold sdot. unpt. f_equal; ring.
    - rewrite Hu, Hl. unpt. f_equal; ring. }
  assert (HD1 : forall k z, z * z = 1 -> distance_ (vadd O (vscal k (z * fst u, z * snd u))) O = Rabs k).
  { intros k z Hz. unfold distance_, vlength_. apply sqrt_eq; [apply Rabs_pos|]. rewrite Rabs_sq. unpt.
    transitivity (k * k * (z * z) * (fst u * fst u + snd u * snd u)); [rewrite Hz, Hu1; ring|ring]. }
  assert (HD2 : forall k, distance_ (vadd O (vscal k u)) O = Rabs k).
  { intros k. rewrite <- (HD1 k 1) by ring. do 3 f_equal. destruct u; cbn [fst snd]; f_equal; ring. }
  assert (HD3 : forall k, distance_ (vadd O (vscal k (- snd u, fst u))) O = Rabs k).
  { intros k. unfold distance_, vlength_. apply sqrt_eq; [apply Rabs_pos|]. rewrite Rabs_sq. unpt.
    transitivity (k * k * (fst u * fst u + snd u * snd u)); [rewrite Hu1; ring|ring]. }
  unfold scale_circle. fold w. fold O. rewrite HA1, HA2. 
  rewrite (proj2 (eqb_false (vlength_ w) 0)) by lra.
  rewrite HD2, HD3. rewrite Rabs_mult, (Rabs_right (cr c)) by lra.
  assert (HX : forall M, vsub (scaling_transform S M) O = vadd (vsub M (cO c)) (vscal ((scs S - 1) * sdot u (vsub M (cO c))) u)).
  { intros M. unfold O. rewrite !scaling_eq. fold u. clear. destruct u as [p q], (cO c) as [x y], (scO S) as [a b], M as [m n]. unfold sdot. unpt. f_equal; ring. }
  assert (HXu : forall M, sdot u (vsub (scaling_transform S M) O) = scs S * sdot u (vsub M (cO c))).
  { intros M. rewrite HX. revert Hu1. clear. destruct u as [p q], (vsub M (cO c)) as [x y]. unfold sdot. unpt. intros H.
    transitivity (p * x + q * y + (scs S - 1) * (p * x + q * y) * (p * p + q * q)); [ring|rewrite H; ring]. }
  assert (HXv : forall M, scross u (vsub (scaling_transform S M) O) = scross u (vsub M (cO c))).
  { intros M. rewrite HX. clear. destruct u as [p q], (vsub M (cO c)) as [x y]. unfold scross. unpt. ring. }
  assert (HC : forall M, on_circle (cO c) (cr c) M <-> sdot u (vsub M (cO c)) ^ 2 + scross u (vsub M (cO c)) ^ 2 = cr c * cr c).
  { intros M. rewrite on_circle_sq by lra. unfold dist2. replace (sdot u (vsub M (cO c)) ^ 2 + _) with (sdot (vsub M (cO c)) (vsub M (cO c))); [tauto|].
    transitivity ((fst u * fst u + snd u * snd u) * sdot (vsub M (cO c)) (vsub M (cO c))); [rewrite Hu1; ring|]. unfold sdot, scross. ring. }
  split.
  - intros Z. rewrite Z, Rabs_R0. replace (0 * cr c) with 0 by ring.
    rewrite (proj2 (leb_false 1 0)) by lra. unfold Ellipse_init. rewrite (proj2 (leb_false (cr c) 0)) by lra. rewrite (proj2 (leb_true 0 0)) by lra. auto.
  - intros Z. pose proof (Rabs_pos_lt _ Z) as Ha. 
    assert (Hsq : Rabs (scs S) * Rabs (scs S) = scs S * scs S) by apply Rabs_sq.
    destruct (leb 1 (scs S)) eqn:E1.
    + apply leb_true in E1. assert (Hab : Rabs (scs S) = scs S) by (apply Rabs_right; lra). rewrite Hab in *.
      unfold Ellipse_init. rewrite !(proj2 (leb_false _ 0)) by nra. eexists. split; [reflexivity|]. cbn [ea eb]. split; [nra|]. split; [nra|]. split; [|split; intros; nra].
      intros M. rewrite HC. unfold ell_on, on_ellipse, ell_form; cbn [eO ea eb ealpha edeg].
      set (al := radians true _).
      assert (Hal : cos al = fst u /\ sin al = snd u).
      { unfold al, radians, deg. replace (_ * 180 / PI * PI / 180) with (atan2 (snd (vadd O (vscal (scs S * cr c) u)) - snd O) (fst (vadd O (vscal (scs S * cr c) u)) - fst O)) by (field; apply PI_neq0).
        set (k := scs S * cr c). assert (0 < k) by (unfold k; nra). clearbody k.
        replace (snd (vadd O (vscal k u)) - snd O) with (k * snd u) by (unpt; ring). replace (fst (vadd O (vscal k u)) - fst O) with (k * fst u) by (unpt; ring).
        apply atan2_unit; auto. }
      destruct Hal as [Hc Hs]. unfold fx, fy. rewrite Hc, Hs.
      specialize (HXu M). specialize (HXv M). unfold sdot, scross in *. cbn [vsub fst snd] in HXu, HXv.
      replace (fst u * (fst (scaling_transform S M) - fst O) + snd u * (snd (scaling_transform S M) - snd O)) with (scs S * (fst u * fst (vsub M (cO c)) + snd u * snd (vsub M (cO c)))) by (symmetry; exact HXu).
      replace (- snd u * (fst (scaling_transform S M) - fst O) + fst u * (snd (scaling_transform S M) - snd O)) with (fst u * snd (vsub M (cO c)) - snd u * fst (vsub M (cO c))) by (cbn [vsub fst snd]; lra).
      set (X := fst u * fst (vsub M (cO c)) + snd u * snd (vsub M (cO c))). set (Y := fst u * snd (vsub M (cO c)) - snd u * fst (vsub M (cO c))).
      replace ((scs S * X / (scs S * cr c)) ^ 2 + (Y / cr c) ^ 2) with ((X ^ 2 + Y ^ 2) / (cr c * cr c)) by (field; nra).
      split; intros K; [rewrite K; field; lra|]. apply (Rmult_eq_compat_r (cr c * cr c)) in K. replace ((X ^ 2 + Y ^ 2) / (cr c * cr c) * (cr c * cr c)) with (X ^ 2 + Y ^ 2) in K by (field; lra). lra.
    + apply leb_false in E1.
      unfold Ellipse_init. rewrite !(proj2 (leb_false _ 0)) by nra. eexists. split; [reflexivity|]. cbn [ea eb]. split; [nra|]. split; [nra|]. split.
      * intros M. rewrite HC. unfold ell_on, on_ellipse, ell_form; cbn [eO ea eb ealpha edeg].
        set (al := radians true _).
        assert (Hal : cos al = - snd u /\ sin al = fst u).
        { unfold al, radians, deg. replace (_ * 180 / PI * PI / 180) with (atan2 (snd (vadd O (vscal (cr c) (- snd u, fst u))) - snd O) (fst (vadd O (vscal (cr c) (- snd u, fst u))) - fst O)) by (field; apply PI_neq0).
          set (k := cr c) in *. 
          replace (snd (vadd O (vscal k (- snd u, fst u))) - snd O) with (k * fst u) by (unpt; ring). replace (fst (vadd O (vscal k (- snd u, fst u))) - fst O) with (k * - snd u) by (unpt; ring).
          apply atan2_unit; auto. lra. }
        destruct Hal as [Hc Hs]. unfold fx, fy. rewrite Hc, Hs.
        specialize (HXu M). specialize (HXv M). unfold sdot, scross in *. cbn [vsub fst snd] in HXu, HXv.
        replace (- snd u * (fst (scaling_transform S M) - fst O) + fst u * (snd (scaling_transform S M) - snd O)) with (fst u * snd (vsub M (cO c)) - snd u * fst (vsub M (cO c))) by (cbn [vsub fst snd]; lra).
        replace (- fst u * (fst (scaling_transform S M) - fst O) + - snd u * (snd (scaling_transform S M) - snd O)) with (- (scs S * (fst u * fst (vsub M (cO c)) + snd u * snd (vsub M (cO c))))) by (cbn [vsub fst snd]; lra).
        set (X := fst u * fst (vsub M (cO c)) + snd u * snd (vsub M (cO c))). set (Y := fst u * snd (vsub M (cO c)) - snd u * fst (vsub M (cO c))).
        replace ((Y / cr c) ^ 2 + (- (scs S * X) / (Rabs (scs S) * cr c)) ^ 2) with ((X ^ 2 + Y ^ 2) / (cr c * cr c)).
        2:{ replace ((- (scs S * X) / (Rabs (scs S) * cr c)) ^ 2) with ((scs S * scs S) * (X * X) / ((Rabs (scs S) * Rabs (scs S)) * (cr c * cr c))) by (field; nra).
            rewrite Hsq. field; nra. }
        split; intros K; [rewrite K; field; lra|]. apply (Rmult_eq_compat_r (cr c * cr c)) in K. replace ((X ^ 2 + Y ^ 2) / (cr c * cr c) * (cr c * cr c)) with (X ^ 2 + Y ^ 2) in K by (field; lra). lra.
      * unfold Rabs in *. destruct (Rcase_abs (scs S)); split; intros; nra.
Qed.
