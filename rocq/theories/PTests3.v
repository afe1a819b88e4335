(** * The unit tests of the repository: ellipses, rotations, scalings, triangles, intersections. *)

From Coq Require Import Reals List Bool ZArith Lra Lia Psatz.
From Verif Require Import Base BaseLemmas Spec SpecLemmas SpecTriangle ModelInternal ModelLine ModelCircle ModelAffine ModelEllipse ModelTriangle ModelInversion ModelTransfo ModelTests.
From Verif Require PTriangle PEllUnique PEllUnique2 SpecArea PArea.
From Verif Require Import PLine PCircle PAffine PEllipse PEllipse2 PEllipse3 PEllipse4 PEllipse6 PEllipseEx PTriangle2 PTriangle4 PTriangle5 PTriangle6 PTransfo PInterWhich PExample1.
Import ListNotations.
Local Open Scope R_scope.

(** ** Ellipses *)
Lemma same_double u v : cos (2 * u) = cos (2 * v) -> sin (2 * u) = sin (2 * v) -> exists m : Z, u = v + IZR m * PI.
Proof.
  intros C S. assert (K : cos (2 * (u - v)) = 1). { replace (2 * (u - v)) with (2 * u - 2 * v) by ring. rewrite cos_minus, C, S. pose proof (sin2_cos2 (2 * v)) as T. unfold Rsqr in T. lra. }
  rewrite cos_2a_sin in K. assert (Z : sin (u - v) = 0) by nra. destruct (sin_eq_0_0 _ Z) as (m & Hm). exists m. lra.
Qed.

Lemma same_ellipse_equal e1 e2 : 0 < eb e1 < ea e1 -> 0 < eb e2 <= ea e2 ->
  (forall M, on_ellipse (eO e1) (ea e1) (eb e1) (ell_th e1) M -> on_ellipse (eO e2) (ea e2) (eb e2) (ell_th e2) M) -> ellipse_is_equal e1 e2 = true.
Proof.
  intros H1 H2 K. destruct (PEllUnique.ellipse_unique _ _ _ _ _ _ _ _ (conj (proj1 H1) (Rlt_le _ _ (proj2 H1))) H2 K) as (A & B & C & _ & D). destruct (D (proj2 H1)) as [D1 D2].
  destruct (same_double _ _ D1 D2) as (m & Hm). apply (ellipse_is_equal_complete e1 e2 m); auto.
Qed.

Lemma ellipse_equation_test ev ell : (forall M, is_eigvals M (ev M)) -> 0 < eb ell < ea ell ->
  (ea ell ^ 2 + eb ell ^ 2 <= dist2 (0, 0) (eO ell) -> test_ellipse_equation ev ell = Raise ValueError) /\
  (dist2 (0, 0) (eO ell) < ea ell ^ 2 + eb ell ^ 2 -> cos (2 * ell_th ell) <> 0 -> test_ellipse_equation ev ell = Ok true).
Proof.
  intros He H. assert (Ha : 0 < ea ell) by lra. assert (Hb : 0 < eb ell) by lra. destruct (own_equation_ok ev ell He Ha Hb) as (K1 & K2). unfold test_ellipse_equation. split.
  - intros F. apply (proj2 K2) in F. unfold feq in F. destruct (ellipse_equation ell) as [[[[[A B] C] D] E] F']. rewrite F. reflexivity.
  - intros F Hc. destruct (proj2 K1 F) as (e' & E). destruct (own_equation_same ev ell e' He Ha Hb E (or_intror Hc)) as (P & Q). unfold feq in E. destruct (ellipse_equation ell) as [[[[[A B] C] D] E'] F']. rewrite E. cbn [bind]. f_equal.
    apply same_ellipse_equal; auto. intros M. unfold on_ellipse. rewrite Q. auto.
Qed.

Lemma affine_ellipse_test f ell0 n : 0 < ea ell0 -> 0 < eb ell0 -> (0 < n)%Z ->
  (det2 (afA f) <> 0 -> test_affine_ellipse f ell0 n = Ok true) /\ (det2 (afA f) = 0 -> test_affine_ellipse f ell0 n = Raise AttributeError).
Proof.
  intros Ha Hb Hn. destruct (ellipse_path_spec ell0 n Ha Hb Hn) as (path & EP & _ & HP & _). unfold test_affine_ellipse. split; intros HD.
  - destruct (transform_ellipse_spec f (AEllipse ell0) (conj Ha Hb) HD) as (e & E & He & _ & _ & K). rewrite E. cbn [bind]. rewrite EP. cbn [bind]. f_equal. apply forallb_forall. intros P HI. rewrite Forall_forall in HP.
    apply ellipse_includes_spec; try lra. apply (K P). apply HP; auto.
  - rewrite (transform_ellipse_singular f _ HD). cbn [bind]. rewrite EP. reflexivity.
Qed.

Lemma random_on_test ell n draws : 0 < ea ell -> 0 < eb ell -> Forall (fun d => 0 <= fst d < 1) draws ->
  (forall b, test_ellipse_random_on ell n draws = Ok b -> b = true) /\ (forall b, test_ellipse_random_in ell n draws = Ok b -> b = true) /\
  ((0 < n)%Z -> Forall (fun d => snd d <> (0, 0)) draws -> test_ellipse_random_on ell n draws = Ok true /\ test_ellipse_random_in ell n draws = Ok true).
Proof.
  intros Ha Hb HF. unfold test_ellipse_random_on, test_ellipse_random_in.
  assert (K1 : forall b, (let! rpoints := ellipse_random_points ell n WhereOn draws in Ok (forallb (ellipse_includes ell) rpoints)) = Ok b -> b = true).
  { intros b. destruct (ellipse_random_points ell n WhereOn draws) as [ps|] eqn:E; cbn [bind]; [|discriminate]. intros X. injection X as <-. destruct (ellipse_random_spec ell n WhereOn draws ps Ha Hb HF E) as (_ & K). apply forallb_forall. intros P HI. rewrite Forall_forall in K. apply ellipse_includes_spec; auto. }
  assert (K2 : forall b, (let! rpoints := ellipse_random_points ell n WhereIn draws in Ok (forallb (ellipse_contains ell) rpoints)) = Ok b -> b = true).
  { intros b. destruct (ellipse_random_points ell n WhereIn draws) as [ps|] eqn:E; cbn [bind]; [|discriminate]. intros X. injection X as <-. destruct (ellipse_random_spec ell n WhereIn draws ps Ha Hb HF E) as (_ & K). apply forallb_forall. intros P HI. rewrite Forall_forall in K. apply ellipse_contains_spec; auto. }
  split; [exact K1|]. split; [exact K2|]. intros Hn HZ.
  destruct (ellipse_random_total ell n WhereOn draws Ha Hb Hn ltac:(discriminate) HZ) as (p1 & E1). destruct (ellipse_random_total ell n WhereIn draws Ha Hb Hn ltac:(discriminate) HZ) as (p2 & E2).
  rewrite E1 in *. rewrite E2 in *. cbn [bind] in *. split; f_equal; [apply K1|apply K2]; reflexivity.
Qed.

Lemma five_points_test ev ell d1 d2 d3 d4 d5 : (forall M, is_eigvals M (ev M)) -> 0 < eb ell < ea ell -> cos (2 * ell_th ell) <> 0 ->
  Forall (fun d => 0 <= fst d < 1) [d1; d2; d3; d4; d5] ->
  forall P1 P2 P3 P4 P5, ellipse_random_points ell 5 WhereOn [d1; d2; d3; d4; d5] = Ok [P1; P2; P3; P4; P5] -> NoDup [P1; P2; P3; P4; P5] ->
  (forall b, test_ellipse_five_points ev ell d1 d2 d3 d4 d5 = Ok b -> b = true) /\
  (test_ellipse_five_points ev ell d1 d2 d3 d4 d5 = Ok true <-> dist2 (0, 0) (eO ell) < ea ell ^ 2 + eb ell ^ 2).
Proof.
  intros He H Hc HF P1 P2 P3 P4 P5 EP ND. assert (Ha : 0 < ea ell) by lra. assert (Hb : 0 < eb ell) by lra. destruct (ellipse_random_spec ell 5 WhereOn _ _ Ha Hb HF EP) as (_ & ON).
  destruct (from_five_complete ev ell P1 P2 P3 P4 P5 He Ha Hb ND ON) as (K1 & K2). unfold test_ellipse_five_points. rewrite EP. cbn [bind].
  assert (K : forall e', ellipse_from_five_points ev P1 P2 P3 P4 P5 = Ok e' -> ellipse_is_equal ell e' = true).
  { intros e' E. assert (K3 := K2 e' (or_intror Hc) E). apply same_ellipse_equal; auto; [|intros M; apply K3].
    unfold ellipse_from_five_points in E. destruct (equation_from_five_points P1 P2 P3 P4 P5) as [[[[[[A B] C] D] E'] F']|]; cbn [bind] in E; [|discriminate]. apply (from_equation_Ok ev A B C D E' F' e' He E). }
  destruct (ellipse_from_five_points ev P1 P2 P3 P4 P5) as [e'|x] eqn:E; cbn [bind].
  - rewrite (K e' eq_refl). split; [congruence|]. split; auto. intros _. apply K1. exists e'. auto.
  - split; [discriminate|]. split; [discriminate|]. intros F. apply K1 in F. destruct F as (e' & F). discriminate.
Qed.

Lemma ellipse_matrix_test eigh ell : (forall Sm, is_eigh Sm (eigh Sm)) -> 0 < eb ell < ea ell -> test_ellipse_matrix eigh ell = Ok true.
Proof.
  intros He H. destruct (shape_matrix_roundtrip eigh ell He ltac:(lra) ltac:(lra)) as (Sm & e' & E1 & E2 & _ & P & Q). unfold test_ellipse_matrix. rewrite E1. cbn [bind]. rewrite E2. cbn [bind]. f_equal.
  apply same_ellipse_equal; auto. intros M. unfold on_ellipse. rewrite Q. auto.
Qed.

Lemma frame_dot O th P Q : sdot (vsub P O) (vsub Q O) = fx O th P * fx O th Q + fy O th P * fy O th Q.
Proof.
  pose proof (sin2_cos2 th) as T. unfold Rsqr in T. destruct O, P, Q. unfold fx, fy, sdot. unpt.
  match goal with |- ?l = _ => transitivity ((sin th * sin th + cos th * cos th) * l); [rewrite T; ring|ring] end.
Qed.

Lemma half_vec A B O : midpoint A B = O -> vsub B A = vscal (-2) (vsub A O).
Proof. intros <-. destruct A, B. unfold midpoint. unpt. apply pair_eq; field. Qed.

Lemma ellipse_diameter_test ell : 0 < ea ell -> 0 < eb ell ->
  (forall b, test_ellipse_diameter ell = Ok b -> b = true) /\
  (forall l1 l2, ellipse_diameter ell 0 false = Ok l1 -> ellipse_diameter ell (PI / 2) false = Ok l2 -> test_ellipse_diameter ell = Ok true).
Proof.
  intros Ha Hb. assert (K : forall l1 l2, ellipse_diameter ell 0 false = Ok l1 -> ellipse_diameter ell (PI / 2) false = Ok l2 -> test_ellipse_diameter ell = Ok true).
  { intros l1 l2 E1 E2. destruct (ellipse_diameter_spec ell 0 false l1 Ha Hb E1) as (m & r1 & -> & _ & _ & M1 & _ & _ & X1 & Y1 & ->). destruct (ellipse_diameter_spec ell (PI / 2) false l2 Ha Hb E2) as (n & r2 & -> & _ & _ & M2 & _ & _ & X2 & Y2 & ->).
    unfold test_ellipse_diameter. rewrite E1, E2. cbn [bind]. rewrite cos_0, sin_0 in *. rewrite cos_PI2, sin_PI2 in *. apply half_vec in M1. apply half_vec in M2.
    assert (D : forall l r, vsub (lB l) (lA l) = vscal (-2) (vsub (lA l) (eO ell)) -> 0 < r -> sdot (vsub (lA l) (eO ell)) (vsub (lA l) (eO ell)) = r * r -> distance_ (lA l) (lB l) = 2 * r).
    { intros l r E Hr F. unfold distance_, vlength_. rewrite E. apply sqrt_eq; [lra|]. unfold sdot in F. cbn [vscal fst snd]. match type of F with ?a = _ => transitivity (4 * a); [rewrite F; ring|ring] end. }
    rewrite (D m (ea ell)), (D n (eb ell)); auto; [|rewrite (frame_dot _ (ell_th ell)), X2, Y2; ring|rewrite (frame_dot _ (ell_th ell)), X1, Y1; ring]. rewrite !approx_equal_refl.
    rewrite is_perpendicular_complete; [reflexivity|]. rewrite M1, M2. unfold orthogonal.
    transitivity (4 * sdot (vsub (lA m) (eO ell)) (vsub (lA n) (eO ell))); [unfold sdot; cbn [vscal fst snd]; ring|]. rewrite (frame_dot _ (ell_th ell)), X1, Y1, X2, Y2. ring. }
  split; [|exact K]. intros b. unfold test_ellipse_diameter in *. destruct (ellipse_diameter ell 0 false) as [l1|]; cbn [bind] in *; [|discriminate].
  destruct (ellipse_diameter ell (PI / 2) false) as [l2|]; cbn [bind] in *; [|discriminate]. rewrite (K l1 l2 eq_refl eq_refl). congruence.
Qed.

(** ** Rotation and scaling *)
Lemma rotate_ellipse_test r ell : 0 < eb ell < ea ell -> test_rotate_ellipse r ell = Ok true.
Proof.
  intros H. destruct (PEllUnique2.ellipse_rotation r ell ltac:(lra) ltac:(lra)) as (e1 & e2 & E1 & E2 & _ & _ & A & B & K). unfold test_rotate_ellipse. rewrite E1. cbn [bind]. rewrite E2. cbn [bind]. f_equal.
  destruct (rotate_ellipse_spec r ell e1 E1) as (A1 & B1 & _). rewrite A1, B1 in A, B. rewrite Rmax_left in A by lra. rewrite Rmin_right in B by lra.
  apply same_ellipse_equal; [lra|lra|]. intros M. apply (K M).
Qed.

Lemma scale_circle_radii S c e : scw S <> (0, 0) -> 0 < cr c -> scale_circle S c = Ok e ->
  (1 <= scs S -> ea e = scs S * cr c /\ eb e = cr c) /\ (scs S < 1 -> ea e = cr c /\ eb e = Rabs (scs S) * cr c).
Proof.
  intros Hw Hr.
  pose proof (sc_dir_unit S Hw) as Hu.
  assert (Hl : vlength_ (scw S) = sqrt (sdot (scw S) (scw S))) by reflexivity.
  assert (Hp : 0 < sdot (scw S) (scw S)) by (destruct (scw S); apply sum_sq_pos; auto).
  pose proof (sqrt_lt_R0 _ Hp) as Hs0.
  set (u := sc_dir S) in *.
  assert (Hu1 : fst u * fst u + snd u * snd u = 1) by (unfold u, sc_dir; cbn [fst snd]; apply cs1).
  set (O := scaling_transform S (cO c)).
  set (w := scw S) in *.
  assert (HA1 : scaling_transform S (vadd (cO c) (vscal (/ vlength_ w) (vscal (cr c) w))) = vadd O (vscal (scs S * cr c) u)).
  { unfold O. rewrite !scaling_eq. fold u. replace (vscal (/ vlength_ w) (vscal (cr c) w)) with (vscal (cr c) u).
    - revert Hu1. clear. destruct u as [p q], (cO c) as [x y], (scO S) as [a b]. unfold sdot. unpt. generalize (scs S) (cr c). intros s r H.
      f_equal.
      + transitivity (x + r * p + (s - 1) * (p * (x - a) + q * (y - b)) * p + (s - 1) * r * (p * p + q * q) * p); [ring|rewrite H; ring].
      + transitivity (y + r * q + (s - 1) * (p * (x - a) + q * (y - b)) * q + (s - 1) * r * (p * p + q * q) * q); [ring|rewrite H; ring].
    - rewrite Hu, Hl. unpt. f_equal; ring. }
  assert (HA2 : scaling_transform S (vadd (cO c) (vscal (/ vlength_ w) (vscal (cr c) (- snd w, fst w)))) = vadd O (vscal (cr c) (- snd u, fst u))).
  { unfold O. rewrite !scaling_eq. fold u. replace (vscal (/ vlength_ w) (vscal (cr c) (- snd w, fst w))) with (vscal (cr c) (- snd u, fst u)).
    - clear. destruct u as [p q], (cO c) as [x y], (scO S) as [a b]. unfold sdot. unpt. f_equal; ring.
    - rewrite Hu, Hl. unpt. f_equal; ring. }
  assert (HD2 : forall k, distance_ (vadd O (vscal k u)) O = Rabs k).
  { intros k. unfold distance_, vlength_. apply sqrt_eq; [apply Rabs_pos|]. rewrite Rabs_sq. unpt.
    transitivity (k * k * (fst u * fst u + snd u * snd u)); [rewrite Hu1; ring|ring]. }
  assert (HD3 : forall k, distance_ (vadd O (vscal k (- snd u, fst u))) O = Rabs k).
  { intros k. unfold distance_, vlength_. apply sqrt_eq; [apply Rabs_pos|]. rewrite Rabs_sq. unpt.
    transitivity (k * k * (fst u * fst u + snd u * snd u)); [rewrite Hu1; ring|ring]. }
  unfold scale_circle. fold w. fold O. rewrite HA1, HA2. 
  rewrite (proj2 (eqb_false (vlength_ w) 0)) by lra.
  rewrite HD2, HD3. rewrite Rabs_mult, (Rabs_right (cr c)) by lra.
  destruct (leb 1 (scs S)) eqn:E1; [apply leb_true in E1|apply leb_false in E1]; intros X; apply Ellipse_init_Ok in X; destruct X as (_ & _ & ->); cbn [ea eb]; (split; intros; [|try lra]); try lra.
  rewrite Rabs_right by lra. auto.
Qed.

Lemma scale_circle_test S c : scw S <> (0, 0) -> 0 < cr c ->
  (scs S = 0 -> test_scale_circle S c = Raise ValueError) /\
  (-1 < scs S -> scs S <> 0 -> scs S <> 1 -> test_scale_circle S c = Ok true) /\
  (scs S < -1 -> allclose1 (cr c) (- scs S * cr c) = false -> test_scale_circle S c = Ok false).
Proof.
  intros Hw Hr. destruct (scale_circle_spec S c Hw Hr) as (Z & K). destruct (scaling_spec S (0, 0) Hw) as (_ & _ & f & Ef & _). unfold test_scale_circle. rewrite Ef. cbn [bind].
  assert (Et : forall M, affine_transform f M = scaling_transform S M). { intros M. destruct (scaling_spec S M Hw) as (_ & _ & f' & Ef' & H). rewrite Ef in Ef'. injection Ef' as <-. auto. }
  split; [intros X; rewrite (Z X); reflexivity|].
  assert (HD : scs S <> 0 -> det2 (afA f) <> 0).
  { intros Hs Hd. pose proof (PArea.affine_area f (0, 0) (1, 0) (0, 1)) as A1. pose proof (PArea.scaling_area S (0, 0) (1, 0) (0, 1)) as A2. rewrite !Et in A1. rewrite A1, Hd in A2. unfold SpecArea.area, scross in A2. unpt. lra. }
  assert (Main : scs S <> 0 -> exists e1 e2, scale_circle S c = Ok e1 /\ affine_transform_ellipse f (ACircle c) = Ok (Some e2) /\ 0 < ea e1 /\ 0 < eb e1 /\ 0 < eb e2 <= ea e2 /\ (forall M, ell_on e1 M <-> ell_on e2 M)).
  { intros Hs. destruct (K Hs) as (e1 & E1 & A1 & B1 & C1 & _). destruct (transform_ellipse_spec f (ACircle c) Hr (HD Hs)) as (e2 & E2 & A2 & _ & _ & C2). exists e1, e2. do 5 (split; auto). intros M.
    destruct (PEllUnique2.onto f (HD Hs) M) as (N & ->). rewrite (Et N) at 1. rewrite <- (C1 N). unfold ell_on. fold (ell_th e2). rewrite <- (C2 N). cbn [on_ce]. tauto. }
  split.
  - intros H1 H0 H2. destruct (Main H0) as (e1 & e2 & E1 & E2 & A1 & B1 & A2 & KK). rewrite E1. cbn [bind]. rewrite E2. cbn [bind]. f_equal. apply same_ellipse_equal; auto; [|apply KK].
    destruct (scale_circle_radii S c e1 Hw Hr E1) as (R1 & R2). destruct (Rle_dec 1 (scs S)) as [G|G].
    + destruct (R1 G) as [-> ->]. nra.
    + destruct (R2 ltac:(lra)) as [-> ->]. assert (0 < Rabs (scs S) < 1) by (split; [apply Rabs_pos_lt; auto|apply Rabs_def1; lra]). nra.
  - intros H1 Hc. destruct (Main ltac:(lra)) as (e1 & e2 & E1 & E2 & A1 & B1 & A2 & KK). rewrite E1. cbn [bind]. rewrite E2. cbn [bind]. f_equal.
    destruct (scale_circle_radii S c e1 Hw Hr E1) as (_ & R2). destruct (R2 ltac:(lra)) as [Ra Rb]. rewrite Rabs_left in Rb by lra.
    assert (Sw : forall M, on_ellipse (eO e1) (eb e1) (ea e1) (ell_th e1 + PI / 2) M -> on_ellipse (eO e2) (ea e2) (eb e2) (ell_th e2) M).
    { intros M HM. apply (KK M). unfold ell_on, on_ellipse in *. fold (ell_th e1). rewrite <- HM. unfold ell_form, fx, fy. rewrite cos_plus, sin_plus, cos_PI2, sin_PI2. unfold Rdiv. ring. }
    destruct (PEllUnique.ellipse_unique _ _ _ _ _ _ _ _ (conj A1 (ltac:(rewrite Ra, Rb; nra) : ea e1 <= eb e1)) A2 Sw) as (_ & A & _). unfold ellipse_is_equal. rewrite <- A, Ra, Rb, Hc, andb_false_r. reflexivity.
Qed.

(** ** Triangles and intersections *)
Lemma contains_test t n draws : ~ collinear (tA t) (tB t) (tC t) -> (0 < n)%Z -> Forall (fun d => 0 < fst d < 1 /\ 0 < snd d < 1) draws -> test_contains t n draws = Ok true.
Proof.
  intros N Hn HF. unfold test_contains, triangle_random_points. destruct (n <=? 0)%Z eqn:Z; [apply Z.leb_le in Z; lia|]. cbn [bind]. f_equal. apply forallb_forall. intros P HI. apply in_map_iff in HI. destruct HI as (d & <- & HI).
  rewrite Forall_forall in HF. destruct (HF d HI) as (H1 & H2). apply PTriangle.contains_spec. split; [auto|]. unfold runif_in_triangle1_. set (s := sqrt (snd d)). assert (0 < s) by (apply sqrt_lt_R0; lra).
  assert (s < 1) by (rewrite <- sqrt_1; apply sqrt_lt_1; lra). exists (1 - s), (s * (1 - fst d)), (fst d * s). repeat split; try (apply Rmult_lt_0_compat; lra); try lra; try ring. unfold bary. f_equal; ring.
Qed.

(** a uniform number of [0,1) may be 0: the point is then on a side *)
Lemma contains_test_refuted t n q : (0 < n)%Z -> test_contains t n [(0, q)] = Ok false.
Proof.
  intros Hn. unfold test_contains, triangle_random_points. destruct (n <=? 0)%Z eqn:Z; [apply Z.leb_le in Z; lia|]. cbn [bind map fst snd forallb]. rewrite andb_true_r. f_equal.
  destruct (triangle_contains t _) eqn:E; auto. exfalso. apply PTriangle.contains_spec in E. destruct E as (N & u & v & w & Hu & Hv & Hw & Hs & E). rewrite collinear_cross in N. apply N.
  destruct t as [[ax ay] [bx by_] [cx cy]]. cbn [tA tB tC] in *. unfold runif_in_triangle1_, bary in E. unfold scross. unpt. injection E as E1 E2. set (s := sqrt q) in *.
  assert (F : w * ((bx - ax) * (cy - ay) - (by_ - ay) * (cx - ax)) = 0).
  { assert (u = 1 - v - w) by lra. subst u. assert (X : w * (cx - ax) = (s - v) * (bx - ax)) by lra. assert (Y : w * (cy - ay) = (s - v) * (by_ - ay)) by lra.
    transitivity ((bx - ax) * (w * (cy - ay)) - (by_ - ay) * (w * (cx - ax))); [ring|]. rewrite X, Y. ring. }
  apply Rmult_integral in F. destruct F; lra.
Qed.

Lemma tangent_one_point c1 c2 M N : 0 < cr c1 -> 0 < cr c2 -> ext_tangent (cO c1) (cr c1) (cO c2) (cr c2) ->
  on_circle (cO c1) (cr c1) M -> on_circle (cO c2) (cr c2) M -> on_circle (cO c1) (cr c1) N -> on_circle (cO c2) (cr c2) N -> M = N.
Proof.
  intros H1 H2 T. assert (D2 : dist2 (cO c1) (cO c2) = (cr c1 + cr c2) ^ 2). { unfold ext_tangent in T. rewrite <- T. rewrite <- (dist_sq (cO c1) (cO c2)). ring. }
  assert (K : forall P, on_circle (cO c1) (cr c1) P -> on_circle (cO c2) (cr c2) P -> P = vadd (cO c1) (vscal (cr c1 / (cr c1 + cr c2)) (vsub (cO c2) (cO c1)))).
  { intros P P1 P2. apply on_circle_sq in P1; [|lra]. apply on_circle_sq in P2; [|lra]. set (k := cr c1 / (cr c1 + cr c2)). assert (Hk : k * (cr c1 + cr c2) = cr c1) by (unfold k; field; lra). clearbody k.
    set (a := cr c1) in *. set (b := cr c2) in *. destruct (cO c1) as [x y], (cO c2) as [u v], P as [p q]. unfold dist2, sdot in *. unpt.
    assert (Z : (p - x - k * (u - x)) * (p - x - k * (u - x)) + (q - y - k * (v - y)) * (q - y - k * (v - y)) = 0).
    { assert (P3 : 2 * ((p - x) * (u - x) + (q - y) * (v - y)) = a * a + (a + b) ^ 2 - b * b) by lra.
      transitivity (((p - x) * (p - x) + (q - y) * (q - y)) - k * (2 * ((p - x) * (u - x) + (q - y) * (v - y))) + k * k * ((u - x) * (u - x) + (v - y) * (v - y))); [ring|]. rewrite P3, P1, D2.
      transitivity (a * a - 2 * a * (k * (a + b)) + (k * (a + b)) * (k * (a + b))); [ring|]. rewrite Hk. ring. }
    pose proof (Rle_0_sqr (p - x - k * (u - x))) as Q1. pose proof (Rle_0_sqr (q - y - k * (v - y))) as Q2. unfold Rsqr in *. apply pair_eq; apply Rminus_diag_uniq; [assert (W : (p - x - k * (u - x)) * (p - x - k * (u - x)) = 0) by lra|assert (W : (q - y - k * (v - y)) * (q - y - k * (v - y)) = 0) by lra]; apply Rmult_integral in W; destruct W; lra. }
  intros M1 M2 N1 N2. rewrite (K M M1 M2), (K N N1 N2). reflexivity.
Qed.

Lemma tangent_intersection c1 c2 T : 0 < cr c1 -> 0 < cr c2 -> ext_tangent (cO c1) (cr c1) (cO c2) (cr c2) -> on_circle (cO c1) (cr c1) T -> on_circle (cO c2) (cr c2) T ->
  circle_is_equal c1 c2 = false -> intersection_circle_circle c1 c2 = Ok (CCPoints (IOne T)).
Proof.
  intros H1 H2 HT T1 T2 N. destruct (circle_circle_which c1 c2 H1 H2 N) as (_ & _ & _ & K). 
  assert (D2 : dist2 (cO c1) (cO c2) = (cr c1 + cr c2) ^ 2). { unfold ext_tangent in HT. rewrite <- HT. rewrite <- (dist_sq (cO c1) (cO c2)). ring. }
  destruct K as (P & E). { rewrite D2. split; [|right; lra]. split; [nra|lra]. }
  pose proof (icc_spec c1 c2 H1 H2) as S. rewrite E in *. destruct S as (S1 & S2). do 3 f_equal. apply (tangent_one_point c1 c2); auto. apply S2. exists T. auto.
Qed.

Lemma malfatti_test t : ~ collinear (tA t) (tB t) (tC t) -> exists c1 c2 c3 T,
  malfatti_circles t = Ok (Some ((c1, c2, c3), T)) /\
  (circle_is_equal c1 c2 = false -> circle_is_equal c1 c3 = false -> circle_is_equal c2 c3 = false -> test_malfatti t = Ok true) /\
  (circle_is_equal c1 c2 = true \/ circle_is_equal c1 c3 = true \/ circle_is_equal c2 c3 = true -> test_malfatti t = Ok false).
Proof.
  intros N. destruct t as [A B C]. cbn [tA tB tC] in N. destruct (malfatti_spec A B C N) as (cA & cB & cC & TA & TB & TC & E & (RA & _) & (RB & _) & (RC & _) & T1 & T2 & T3 & (A1 & A2) & (B1 & B2) & (C1 & C2)). exists cA, cB, cC, (TA, TB, TC). split; [auto|].
  unfold test_malfatti. rewrite E. cbn [bind]. split.
  - intros N1 N2 N3. rewrite (tangent_intersection cA cB TC), (tangent_intersection cA cC TB), (tangent_intersection cB cC TA); auto. cbn [bind one_point]. rewrite !allclose_refl. reflexivity.
  - intros H.
    assert (K : forall c c' T, 0 < cr c -> 0 < cr c' -> ext_tangent (cO c) (cr c) (cO c') (cr c') -> on_circle (cO c) (cr c) T -> on_circle (cO c') (cr c') T ->
      exists i, intersection_circle_circle c c' = Ok i /\ (circle_is_equal c c' = true -> one_point i = None)).
    { intros c c' T H1 H2 HT X Y. destruct (circle_is_equal c c') eqn:Z; [|eexists; split; [apply (tangent_intersection c c' T); auto|discriminate]].
      unfold intersection_circle_circle. rewrite Z. eexists. split; [reflexivity|]. reflexivity. }
    destruct (K cA cB TC) as (i1 & E1 & Z1); auto. destruct (K cA cC TB) as (i2 & E2 & Z2); auto. destruct (K cB cC TA) as (i3 & E3 & Z3); auto. rewrite E1. cbn [bind]. rewrite E2. cbn [bind]. rewrite E3. cbn [bind].
    destruct H as [H|[H|H]]; [rewrite (Z1 H)|rewrite (Z2 H)|rewrite (Z3 H)]; try reflexivity; destruct (one_point i1), (one_point i2); reflexivity.
Qed.

Lemma tangent_line_one c l : lA l <> lB l -> 0 < cr c -> line_tangent (lA l) (lB l) (cO c) (cr c) -> exists P, intersection_circle_line c l = Ok (IOne P).
Proof.
  intros N H (F & F1 & F2 & F3). destruct (projection_nearest l (cO c) N) as (P & EP & P1 & P2 & _ & _ & _).
  assert (PF : P = F). { pose proof (foot_nearest _ _ _ P P1 P2 F F1) as D1. pose proof (foot_nearest _ _ _ F F1 F2 P P1) as D2. assert (Z : dist2 P F = 0). { assert (dist2 F P = dist2 P F) by (unfold dist2, sdot; unpt; ring). lra. }
    destruct P as [p q], F as [x y]. unfold dist2, sdot in Z. unpt. pose proof (Rle_0_sqr (x - p)) as Q1. pose proof (Rle_0_sqr (y - q)) as Q2. unfold Rsqr in *. apply pair_eq; [assert (W : (x - p) * (x - p) = 0) by lra|assert (W : (y - q) * (y - q) = 0) by lra]; apply Rmult_integral in W; destruct W; lra. }
  destruct (icl_which c l P N H EP) as (_ & K & _). exists P. apply K. rewrite PF, <- F3, <- (dist_sq (cO c) F). replace (dist2 (lA l) (lB l) * (dist (cO c) F * dist (cO c) F - dist (cO c) F * dist (cO c) F)) with 0 by ring. pose proof sepsilon_pos. lra.
Qed.

Lemma line_tangent_sym A B O r : A <> B -> line_tangent A B O r -> line_tangent B A O r.
Proof.
  intros N (F & (t & ->) & F2 & F3). exists (at_line A B t). split; [exists (1 - t); unfold at_line; unpt; apply pair_eq; ring|]. split; [|auto]. unfold orthogonal, sdot in *. unpt. lra.
Qed.

Lemma excircles_test t : allclose (tA t) (tB t) = false -> allclose (tA t) (tC t) = false -> allclose (tB t) (tC t) = false -> ~ collinear (tA t) (tB t) (tC t) -> test_excircles t = Ok true.
Proof.
  destruct t as [A B C]. cbn [tA tB tC]. intros N1 N2 N3 N. destruct (excircles_spec A B C N) as (cA & cB & cC & E & (RA & A1 & A2 & (FA & A3 & _) & _) & (RB & B1 & B2 & (FB & B3 & _) & _) & (RC & C1 & C2 & (FC & C3 & _) & _)).
  unfold test_excircles. cbn [tA tB tC]. unfold Line_init. rewrite N1, N2, N3. cbn [bind]. rewrite E. cbn [bind].
  apply allclose_false_neq in N1. apply allclose_false_neq in N2. apply allclose_false_neq in N3.
  destruct (tangent_line_one cA (mkLine A B true true)) as (P1 & ->); auto. cbn [bind].
  destruct (tangent_line_one cA (mkLine A C true true)) as (P2 & ->); auto. { apply line_tangent_sym; auto. } cbn [bind].
  destruct (tangent_line_one cB (mkLine A B true true)) as (P3 & ->); auto. cbn [bind].
  destruct (tangent_line_one cB (mkLine B C true true)) as (P4 & ->); auto. cbn [bind].
  destruct (tangent_line_one cC (mkLine A C true true)) as (P5 & ->); auto. { apply line_tangent_sym; auto. } cbn [bind].
  destruct (tangent_line_one cC (mkLine B C true true)) as (P6 & ->); auto.
Qed.

Lemma circumcircles_test A B C D : ~ collinear A B C -> ~ collinear A B D -> exists c1 c2, circumcircle (mkTri A B C) = Ok (Some c1) /\ circumcircle (mkTri A B D) = Ok (Some c2) /\
  let d2 := dist2 (cO c1) (cO c2) in
  (circle_is_equal c1 c2 = false /\ (cr c1 - cr c2) ^ 2 + / 67108864 <= d2 <= (cr c1 + cr c2) ^ 2 - / 67108864 -> test_circumcircles A B C D = Ok true) /\
  (~ (circle_is_equal c1 c2 = false /\ (cr c1 - cr c2) ^ 2 + / 67108864 <= d2 <= (cr c1 + cr c2) ^ 2 - / 67108864) -> test_circumcircles A B C D = Ok false).
Proof.
  intros N1 N2. destruct (tri_accepted A B C N1) as (_ & (c1 & E1 & _) & _). destruct (tri_accepted A B D N2) as (_ & (c2 & E2 & _) & _). exists c1, c2. split; [auto|]. split; [auto|]. intros d2.
  destruct (circumcircle_spec _ _ E1) as (_ & R1 & A1 & B1 & _). destruct (circumcircle_spec _ _ E2) as (_ & R2 & A2 & B2 & _). cbn [tA tB tC] in *.
  assert (AB : A <> B). { intros <-. apply N1. apply collinear_cross. unfold scross. unpt. ring. }
  unfold test_circumcircles. rewrite E1. cbn [bind]. rewrite E2. cbn [bind]. pose proof (icc_spec c1 c2 R1 R2) as S. split.
  - intros (Z & K). destruct (circle_circle_which c1 c2 R1 R2 Z) as (_ & (_ & W) & _). destruct (W K) as (P & Q & E). rewrite E in *. destruct S as (PQ & _ & _ & _ & _ & U). cbn [bind]. f_equal.
    destruct (U A A1 A2) as [<-|<-], (U B B1 B2) as [<-|<-]; try contradiction; rewrite !allclose_refl, ?orb_true_r; reflexivity.
  - intros K. destruct (circle_is_equal c1 c2) eqn:Z; [unfold intersection_circle_circle; rewrite Z; reflexivity|]. destruct (circle_circle_which c1 c2 R1 R2 Z) as (_ & (W & _) & _).
    destruct (intersection_circle_circle c1 c2) as [[c|[|P|P Q]]|] eqn:E; cbn [bind]; try reflexivity; [|contradiction]. exfalso. apply K. split; auto. apply W. eauto.
Qed.

(** an axis at 45 degrees *)
Lemma ellipse_equation_test_refuted ev : (forall M, is_eigvals M (ev M)) -> test_ellipse_equation ev (mkEllipse (0, 0) 2 1 45 true) = Ok false.
Proof.
  intros Hev. set (e := mkEllipse (0, 0) 2 1 45 true). pose proof (own_equation_ok ev e Hev ltac:(cbn; lra) ltac:(cbn; lra)) as [K _]. destruct (proj2 K) as (e' & He'). { cbn [e ea eb eO]. unspec. lra. }
  destruct (own_equation_diagonal ev e e' Hev ltac:(cbn; lra) ltac:(cbn; lra) He' ltac:(cbn; lra) cos_2_45) as (_ & _ & _ & T & _).
  unfold test_ellipse_equation. unfold feq in He'. destruct (ellipse_equation e) as [[[[[A B] C] D] E] F]. rewrite He'. cbn [bind]. f_equal.
  destruct (from_equation_Ok ev A B C D E F e' Hev He') as (_ & _ & _ & _ & _ & _ & _ & _ & Hd & _).
  assert (Z : ealpha e' = 0). { unfold ell_th, radians, deg in T. rewrite Hd in T. pose proof PI_RGT_0. assert (ealpha e' * PI = 0) by lra. apply Rmult_integral in H0. destruct H0; lra. }
  unfold ellipse_is_equal. rewrite Hd, Z. cbn [edeg ealpha e]. rewrite (pymod_unique 45 180 45 0), (pymod_unique 0 180 0 0) by lra.
  replace (allclose1 45 0) with false by (symmetry; evalclose). apply andb_false_r.
Qed.
