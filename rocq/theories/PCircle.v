(** * Proofs about circles and arcs (C09-C12, C14, C15, C17, C18, C20 (circle), C21). *)

From Coq Require Import Reals Lra Lia Psatz Nsatz List Bool ZArith.
From Verif Require Import Base BaseLemmas Spec SpecLemmas ModelInternal ModelLine ModelCircle PLine.
Import ListNotations.
Local Open Scope R_scope.

Lemma Circle_init_Ok O r c : Circle_init O r = Ok c <-> 0 < r /\ c = mkCircle O r.
Proof.
  unfold Circle_init. destruct (leb r 0) eqn:E.
  - apply leb_true in E. split; [discriminate|]. intros [H _]; lra.
  - apply leb_false in E. split; [intros H; inversion H; auto|]. intros [_ ->]; auto.
Qed.

Lemma Circle_init_pos O r : 0 < r -> Circle_init O r = Ok (mkCircle O r).
Proof. intros. apply Circle_init_Ok. auto. Qed.

Lemma dot_dist2 P O : dot_ (vsub P O) (vsub P O) = dist2 O P.
Proof. reflexivity. Qed.

Lemma dot_dist2' P O : dot_ (vsub O P) (vsub O P) = dist2 O P.
Proof. unfold dot_; unspec. ring. Qed.

(** ** C09 *)

Lemma contains_spec c P : 0 <= cr c -> (circle_contains c P = true <-> in_disk (cO c) (cr c) P).
Proof. intros H. unfold circle_contains. rewrite leb_true, dot_dist2, in_disk_sq by auto. tauto. Qed.

Lemma power_spec c M : 0 <= cr c ->
  power c M = pow_circle (cO c) (cr c) M /\
  (power c M < 0 <-> dist (cO c) M < cr c) /\
  (power c M = 0 <-> on_circle (cO c) (cr c) M) /\
  (0 < power c M <-> cr c < dist (cO c) M).
Proof.
  intros H. unfold power, pow_circle. rewrite dot_dist2, <- dist_sq. pose proof (dist_nonneg (cO c) M).
  unfold on_circle. repeat split; intros; nra.
Qed.

Lemma includes_on_circle c P : 0 <= cr c -> on_circle (cO c) (cr c) P -> circle_includes c P = true.
Proof.
  intros H HP. unfold circle_includes. rewrite dot_dist2. apply on_circle_sq in HP; auto.
  rewrite HP. apply approx_equal_refl.
Qed.

(** the answer is exact outside the tolerance *)
Lemma includes_false c P : 2 / 1000000000 * (1 + cr c * cr c) <= Rabs (dist2 (cO c) P - cr c * cr c) ->
  circle_includes c P = false.
Proof.
  intros H. unfold circle_includes. rewrite dot_dist2. unfold approx_equal_.
  set (d := dist2 (cO c) P) in *. set (s := cr c * cr c) in *.
  assert (0 <= d) by apply dist2_nonneg.
  assert (0 <= s) by (unfold s; nra).
  apply orb_false_iff. unfold isclose. split; apply leb_false.
  - rewrite (Rabs_right d), (Rabs_right s) by lra.
    apply Rmax_case; split_Rabs; lra.
  - replace (d + 1 - (s + 1)) with (d - s) by ring.
    rewrite (Rabs_right (d + 1)), (Rabs_right (s + 1)) by lra.
    apply Rmax_case; split_Rabs; lra.
Qed.

Lemma includes_tiny c : 0 < cr c <= / 100000 -> circle_includes c (cO c) = true.
Proof.
  intros H. unfold circle_includes. rewrite dot_dist2.
  replace (dist2 (cO c) (cO c)) with 0 by (unspec; ring).
  unfold approx_equal_. apply orb_true_iff. right. unfold isclose. apply leb_true.
  assert (0 <= cr c * cr c <= / 10000000000) by nra.
  replace (0 + 1 - (cr c * cr c + 1)) with (- (cr c * cr c)) by ring.
  rewrite Rabs_Ropp, (Rabs_right (cr c * cr c)), (Rabs_right (0 + 1)), (Rabs_right (cr c * cr c + 1)) by lra.
  pose proof (Rmax_l (0 + 1) (cr c * cr c + 1)). lra.
Qed.

(** ** C10 *)

Lemma point_from_angle_eq c alpha degrees :
  circle_point_from_angle c alpha degrees =
  vadd (cO c) (vscal (cr c) (cos (radians degrees alpha), sin (radians degrees alpha))).
Proof.
  unfold circle_point_from_angle, unit_vector_, radians, deg.
  replace (alpha * (PI / 180)) with (alpha * PI / 180) by field. destruct degrees; reflexivity.
Qed.

Lemma polar_on_circle O r t : 0 <= r -> on_circle O r (vadd O (vscal r (cos t, sin t))).
Proof.
  intros H. apply on_circle_sq; auto. unspec.
  transitivity (r * r * (cos t * cos t + sin t * sin t)); [ring|]. rewrite cs1. ring.
Qed.

Lemma on_circle_polar O r M : 0 < r -> on_circle O r M ->
  exists t, - PI < t <= PI /\ M = vadd O (vscal r (cos t, sin t)).
Proof.
  intros H HM. apply on_circle_sq in HM; [|lra].
  set (x := (fst M - fst O) / r). set (y := (snd M - snd O) / r).
  assert (E : x * x + y * y = 1).
  { unfold x, y. apply (Rmult_eq_reg_l (r * r)); [|nra]. transitivity (dist2 O M); [unspec; field; lra|]. lra. }
  destruct (unit_angle x y E) as [Hc Hs].
  exists (atan2 y x). split; [apply atan2_range|]. rewrite Hc, Hs. unfold x, y.
  destruct M, O; unspec. f_equal; field; lra.
Qed.

Lemma point_from_angle_spec c : 0 < cr c ->
  (forall alpha degrees, on_circle (cO c) (cr c) (circle_point_from_angle c alpha degrees)) /\
  (forall M degrees, on_circle (cO c) (cr c) M -> exists alpha, circle_point_from_angle c alpha degrees = M).
Proof.
  intros H. split.
  - intros. rewrite point_from_angle_eq. apply polar_on_circle; lra.
  - intros M degrees HM. destruct (on_circle_polar _ _ _ H HM) as (t & Ht & E).
    pose proof PI_RGT_0.
    exists (if degrees then t * 180 / PI else t). rewrite point_from_angle_eq.
    replace (radians degrees (if degrees then t * 180 / PI else t)) with t; auto.
    unfold radians, deg. destruct degrees; auto. field. lra.
Qed.

(** ** C11 *)

Lemma half_mid A B : vscal (/ 2) (vadd A B) = midpoint A B.
Proof. unspec. f_equal; field. Qed.

Lemma circleAB_spec A B :
  (allclose A B = true -> circleAB A B = Raise ValueError) /\
  (allclose A B = false -> exists c, circleAB A B = Ok c /\ 0 < cr c /\
     cO c = midpoint A B /\ on_circle (cO c) (cr c) A /\ on_circle (cO c) (cr c) B /\
     forall M, on_circle (cO c) (cr c) M <-> orthogonal (vsub M A) (vsub M B)).
Proof.
  unfold circleAB. split; intros E; rewrite E; auto.
  pose proof (allclose_false_neq _ _ E) as Hne. pose proof (dist_pos _ _ Hne) as Hd.
  rewrite distance_dist, half_mid. exists (mkCircle (midpoint A B) (dist A B / 2)).
  rewrite Circle_init_pos by lra. cbn [cO cr].
  assert (K : forall M, on_circle (midpoint A B) (dist A B / 2) M <-> orthogonal (vsub M A) (vsub M B)).
  { intros M. rewrite on_circle_sq by lra.
    replace (dist A B / 2 * (dist A B / 2)) with (dist A B * dist A B / 4) by field.
    rewrite dist_sq. unspec. split; intros; lra. }
  repeat split; auto; try lra; try (apply K; unspec; ring); apply K.
Qed.

Lemma circleOA_spec O A :
  (allclose O A = true -> circleOA O A = Raise ValueError) /\
  (allclose O A = false -> exists c, circleOA O A = Ok c /\ 0 < cr c /\
     cO c = O /\ on_circle (cO c) (cr c) A).
Proof.
  unfold circleOA. split; intros E; rewrite E; auto.
  pose proof (allclose_false_neq _ _ E) as Hne. pose proof (dist_pos _ _ Hne) as Hd.
  rewrite distance_dist. exists (mkCircle O (dist O A)). rewrite Circle_init_pos by auto.
  cbn [cO cr]. repeat split; auto.
Qed.

(** ** C12 *)

Lemma radical_center2_spec c1 c2 : cO c1 <> cO c2 ->
  exists P, radical_center2 c1 c2 = Ok P /\ on_line (cO c1) (cO c2) P /\
    pow_circle (cO c1) (cr c1) P = pow_circle (cO c2) (cr c2) P.
Proof.
  intros H. pose proof (dist2_pos _ _ H) as Hd.
  unfold radical_center2. rewrite dot_dist2.
  rewrite (proj2 (eqb_false _ _)) by lra.
  eexists. split; [reflexivity|]. split.
  - exists (/ 2 + (cr c1 * cr c1 - cr c2 * cr c2) / 2 / dist2 (cO c1) (cO c2)).
    unspec. f_equal; field; lra.
  - unfold pow_circle. unspec. field. lra.
Qed.

Lemma radical_center2_concentric c1 c2 : cO c1 = cO c2 -> radical_center2 c1 c2 = Raise NonFinite.
Proof.
  intros H. unfold radical_center2. rewrite H.
  rewrite (proj2 (eqb_true _ _)); auto. unfold dot_; unspec. ring.
Qed.

(** the locus of equal power is a line orthogonal to the line of centres *)
Lemma equal_power_locus c1 c2 P M :
  pow_circle (cO c1) (cr c1) P = pow_circle (cO c2) (cr c2) P ->
  (pow_circle (cO c1) (cr c1) M = pow_circle (cO c2) (cr c2) M <->
   sdot (vsub M P) (vsub (cO c2) (cO c1)) = 0).
Proof. unfold pow_circle. intros H. unspec. split; intros; lra. Qed.

Lemma radical_axis_spec c1 c2 l : radical_axis c1 c2 = Ok (Some l) ->
  lA l <> lB l /\
  forall M, on_line (lA l) (lB l) M <-> pow_circle (cO c1) (cr c1) M = pow_circle (cO c2) (cr c2) M.
Proof.
  unfold radical_axis. destruct (allclose (cO c1) (cO c2)) eqn:E; [discriminate|].
  pose proof (allclose_false_neq _ _ E) as Hne.
  destruct (vsub (cO c2) (cO c1)) as [x y] eqn:Ev.
  destruct (radical_center2_spec c1 c2 Hne) as (P & -> & _ & HP). cbn [bind].
  destruct (Line_init_cases P (vadd P (- y, x)) true true) as [[Hc ->]|[Hc ->]]; cbn [bind]; [|discriminate].
  intros Eq. inversion Eq; subst l. cbn [lA lB].
  pose proof (allclose_false_neq _ _ Hc) as Hne'. split; auto.
  intros M. rewrite (equal_power_locus c1 c2 P M HP), on_line_cross by auto.
  rewrite Ev. unspec. split; intros; lra.
Qed.

Lemma radical_axis_total c1 c2 :
  (allclose (cO c1) (cO c2) = true -> radical_axis c1 c2 = Ok None) /\
  (allclose (cO c1) (cO c2) = false ->
     (exists l, radical_axis c1 c2 = Ok (Some l)) \/ radical_axis c1 c2 = Raise ValueError).
Proof.
  unfold radical_axis. split; intros E; rewrite E; auto.
  pose proof (allclose_false_neq _ _ E) as Hne.
  destruct (vsub (cO c2) (cO c1)) as [x y] eqn:Ev.
  destruct (radical_center2_spec c1 c2 Hne) as (P & -> & _ & HP). cbn [bind].
  destruct (Line_init_cases P (vadd P (- y, x)) true true) as [[Hc ->]|[Hc ->]]; cbn [bind]; eauto.
Qed.

Lemma radical_center3_spec c1 c2 c3 P : radical_center3 c1 c2 c3 = Ok (Some P) ->
  pow_circle (cO c1) (cr c1) P = pow_circle (cO c2) (cr c2) P /\
  pow_circle (cO c1) (cr c1) P = pow_circle (cO c3) (cr c3) P /\
  forall M, pow_circle (cO c1) (cr c1) M = pow_circle (cO c2) (cr c2) M ->
            pow_circle (cO c1) (cr c1) M = pow_circle (cO c3) (cr c3) M -> M = P.
Proof.
  unfold radical_center3. intros H.
  apply bind_Ok in H. destruct H as (l1 & H1 & H). apply bind_Ok in H. destruct H as (l2 & H2 & H).
  destruct l1 as [l1|]; [|discriminate]. destruct l2 as [l2|]; [|discriminate].
  destruct (radical_axis_spec _ _ _ H1) as [N1 S1]. destruct (radical_axis_spec _ _ _ H2) as [N2 S2].
  inversion H as [E]. pose proof (line_line_intersection_spec (lA l1) (lB l1) (lA l2) (lB l2)) as S.
  rewrite E in S. destruct S as (S0 & SA & SB).
  split; [apply S1, on_line_cross; auto|]. split; [apply S2, on_line_cross; auto|].
  intros M HM1 HM2. apply S1 in HM1. apply S2 in HM2.
  apply on_line_cross in HM1; auto. apply on_line_cross in HM2; auto.
  apply (lli_unique (lA l1) (lB l1) (lA l2) (lB l2)); auto.
Qed.

(** with non-collinear centres and two axes, the radical centre exists *)
Lemma radical_center3_total c1 c2 c3 l1 l2 :
  radical_axis c1 c2 = Ok (Some l1) -> radical_axis c1 c3 = Ok (Some l2) ->
  ~ collinear (cO c1) (cO c2) (cO c3) -> exists P, radical_center3 c1 c2 c3 = Ok (Some P).
Proof.
  intros H1 H2 Hn. unfold radical_center3. rewrite H1, H2. cbn [bind].
  destruct (radical_axis_spec _ _ _ H1) as [N1 S1]. destruct (radical_axis_spec _ _ _ H2) as [N2 S2].
  pose proof (line_line_intersection_spec (lA l1) (lB l1) (lA l2) (lB l2)) as S.
  destruct (line_line_intersection_ _ _ _ _) as [P|]; [eauto|]. exfalso.
  (* directions of the axes are orthogonal to the lines of centres *)
  pose proof (proj1 (S1 _) (on_line_A _ _)) as A1. pose proof (proj1 (S1 _) (on_line_B _ _)) as B1.
  pose proof (proj1 (S2 _) (on_line_A _ _)) as A2. pose proof (proj1 (S2 _) (on_line_B _ _)) as B2.
  apply (equal_power_locus c1 c2 (lA l1) (lB l1) A1) in B1.
  apply (equal_power_locus c1 c3 (lA l2) (lB l2) A2) in B2.
  apply Hn, collinear_cross. pose proof (pt_neq _ _ N1) as P1. pose proof (pt_neq _ _ N2) as P2.
  clear - S B1 B2 P1 P2. unspec.
  set (x := fst (lB l1) - fst (lA l1)) in *. set (y := snd (lB l1) - snd (lA l1)) in *.
  set (z := fst (lB l2) - fst (lA l2)) in *. set (w := snd (lB l2) - snd (lA l2)) in *.
  set (a := fst (cO c2) - fst (cO c1)) in *. set (b := snd (cO c2) - snd (cO c1)) in *.
  set (c := fst (cO c3) - fst (cO c1)) in *. set (d := snd (cO c3) - snd (cO c1)) in *.
  assert (T : (x * x + y * y) * ((z * z + w * w) * (a * d - b * c)) = 0).
  { transitivity ((x * b - y * a) * (z * d - w * c) * (x * w - y * z)
      - (x * b - y * a) * (z * c + w * d) * (x * z + y * w)
      + (x * a + y * b) * (z * d - w * c) * (x * z + y * w)
      + (x * a + y * b) * (z * c + w * d) * (x * w - y * z)); [ring|].
    rewrite S, B1, B2. ring. }
  apply Rmult_integral in T. destruct T as [T|T]; [lra|]. apply Rmult_integral in T. destruct T; lra.
Qed.

(** ** C14 *)

Lemma cli_core (A1 A2 : pt) (r : R) : A1 <> A2 -> 0 <= r ->
  let dx := fst A2 - fst A1 in
  let dy := snd A2 - snd A1 in
  let dr2 := dx * dx + dy * dy in
  let D := fst A1 * snd A2 - fst A2 * snd A1 in
  let Delta := r * r * dr2 - D * D in
  0 < dr2 /\
  match circle_line_intersection_ A1 A2 r with
  | Raise _ => False
  | Ok INone => Delta < 0
  | Ok (IOne P) => 0 <= Delta < sepsilon_ /\ P = (D / dr2 * dy, D / dr2 * (- dx))
  | Ok (ITwo P Q) => sepsilon_ <= Delta /\ exists s, s * s = Delta /\ s <> 0 /\
       P = ((D * dy + s * dx) / dr2, (- D * dx + s * dy) / dr2) /\
       Q = ((D * dy - s * dx) / dr2, (- D * dx - s * dy) / dr2)
  end.
Proof.
  intros Hne Hr dx dy dr2 D Delta. pose proof (pt_neq _ _ Hne) as Hp.
  split; [exact Hp|]. unfold circle_line_intersection_, det2x2_. fold dx dy. fold dr2. fold D. fold Delta.
  destruct (ltb Delta 0) eqn:E1; [apply ltb_true; auto|]. apply ltb_false in E1.
  assert (Hd : dr2 <> 0) by (unfold dr2, dx, dy; lra).
  rewrite (proj2 (eqb_false dr2 0) Hd).
  destruct (ltb Delta sepsilon_) eqn:E2.
  - apply ltb_true in E2. auto.
  - apply ltb_false in E2. split; auto. pose proof sepsilon_pos as He.
    assert (Hs : 0 < sqrt Delta) by (apply sqrt_lt_R0; lra).
    pose proof (sqrt_sqrt Delta E1) as Hss.
    destruct (ltb dy 0) eqn:E3.
    + apply ltb_true in E3. exists (- sqrt Delta). rewrite (Rabs_left dy) by auto.
      repeat split; try lra; f_equal; field; auto.
    + apply ltb_false in E3. exists (sqrt Delta). rewrite (Rabs_right dy) by lra.
      repeat split; try lra; f_equal; field; auto.
Qed.

(** a point of the line through A1 A2 at position t along the direction, from
    the projection of the origin *)
Lemma line_frame (A1 A2 M : pt) : A1 <> A2 -> on_line A1 A2 M ->
  let dx := fst A2 - fst A1 in
  let dy := snd A2 - snd A1 in
  let dr2 := dx * dx + dy * dy in
  let D := fst A1 * snd A2 - fst A2 * snd A1 in
  let t := fst M * dx + snd M * dy in
  M = ((D * dy + t * dx) / dr2, (- D * dx + t * dy) / dr2).
Proof.
  intros Hne H dx dy dr2 D t. pose proof (pt_neq _ _ Hne) as Hp.
  assert (Hd : dr2 <> 0) by (unfold dr2, dx, dy; lra).
  apply on_line_cross in H; auto.
  assert (ED : D = fst M * dy - snd M * dx) by (unfold D, dx, dy; unspec; lra).
  destruct M as [m1 m2]; cbn [fst snd] in *.
  apply pair_eq; apply (Rmult_eq_reg_r dr2); auto; unfold t, Rdiv;
    rewrite Rmult_assoc, Rinv_l, Rmult_1_r, ED by auto; unfold dr2; ring.
Qed.

Lemma line_frame_on (A1 A2 : pt) (t : R) : A1 <> A2 ->
  let dx := fst A2 - fst A1 in
  let dy := snd A2 - snd A1 in
  let dr2 := dx * dx + dy * dy in
  let D := fst A1 * snd A2 - fst A2 * snd A1 in
  let M := ((D * dy + t * dx) / dr2, (- D * dx + t * dy) / dr2) in
  on_line A1 A2 M /\ sdot M M = (D * D + t * t) / dr2.
Proof.
  intros Hne dx dy dr2 D M. pose proof (pt_neq _ _ Hne) as Hp.
  assert (Hd : dr2 <> 0) by (unfold dr2, dx, dy; lra).
  split.
  - apply on_line_cross; auto. unspec. fold dx dy. unfold M; cbn [fst snd].
    transitivity (- (D * (dx * dx + dy * dy)) / dr2 - (dx * snd A1 - dy * fst A1)); [field; auto|].
    fold dr2. transitivity (- D - (dx * snd A1 - dy * fst A1)); [field; auto|].
    unfold D, dx, dy. ring.
  - unfold sdot, M; cbn [fst snd].
    transitivity ((D * D + t * t) * (dx * dx + dy * dy) / (dr2 * dr2)); [field; auto|].
    fold dr2. field; auto.
Qed.

Lemma cli_spec (A1 A2 : pt) (r : R) : A1 <> A2 -> 0 <= r ->
  match circle_line_intersection_ A1 A2 r with
  | Raise _ => False
  | Ok INone => forall M, on_line A1 A2 M -> sdot M M <> r * r
  | Ok (IOne P) => on_line A1 A2 P /\ sdot P (vsub A2 A1) = 0 /\ sdot P P <= r * r /\
       (sdot P P = r * r <-> exists M, on_line A1 A2 M /\ sdot M M = r * r /\ forall N, on_line A1 A2 N -> sdot N N = r * r -> N = M)
  | Ok (ITwo P Q) => P <> Q /\ on_line A1 A2 P /\ on_line A1 A2 Q /\ sdot P P = r * r /\ sdot Q Q = r * r /\
       forall M, on_line A1 A2 M -> sdot M M = r * r -> M = P \/ M = Q
  end.
Proof.
  intros Hne Hr. pose proof (cli_core A1 A2 r Hne Hr) as [Hd K].
  set (dx := fst A2 - fst A1) in *. set (dy := snd A2 - snd A1) in *.
  set (dr2 := dx * dx + dy * dy) in *. set (D := fst A1 * snd A2 - fst A2 * snd A1) in *.
  set (Delta := r * r * dr2 - D * D) in *.
  assert (Hd' : dr2 <> 0) by lra.
  assert (F : forall M, on_line A1 A2 M -> sdot M M = r * r ->
     (fst M * dx + snd M * dy) * (fst M * dx + snd M * dy) = Delta).
  { intros M HM HS. pose proof (line_frame A1 A2 M Hne HM) as E. cbv zeta in E.
    fold dx dy in E. fold dr2 D in E. set (t := fst M * dx + snd M * dy) in *.
    pose proof (line_frame_on A1 A2 t Hne) as [_ G]. fold dx dy in G. fold dr2 D in G.
    rewrite <- E, HS in G. unfold Delta. rewrite G. field. auto. }
  destruct (circle_line_intersection_ A1 A2 r) as [[|P|P Q]|e]; auto.
  - intros M HM HS. specialize (F M HM HS). pose proof (sqnn (fst M * dx + snd M * dy)). lra.
  - destruct K as [K ->].
    pose proof (line_frame_on A1 A2 0 Hne) as [G1 G2]. fold dx dy in G1, G2. fold dr2 D in G1, G2.
    replace ((D * dy + 0 * dx) / dr2, (- D * dx + 0 * dy) / dr2) with (D / dr2 * dy, D / dr2 * - dx) in G1, G2
      by (f_equal; field; auto).
    split; auto. split; [|split].
    + unfold sdot, vsub; cbn [fst snd]. fold dx dy. ring.
    + rewrite G2. apply (Rmult_le_reg_r dr2); auto. unfold Rdiv. rewrite Rmult_assoc, Rinv_l by auto.
      unfold Delta in K. lra.
    + assert (Z : sdot (D / dr2 * dy, D / dr2 * - dx) (D / dr2 * dy, D / dr2 * - dx) = r * r <-> Delta = 0).
      { rewrite G2. unfold Delta. split; intros Q.
        - rewrite <- Q. field; auto.
        - replace (D * D + 0 * 0) with (r * r * dr2) by lra. field; auto. }
      split.
      * intros Q. exists (D / dr2 * dy, D / dr2 * - dx). split; auto. split; auto.
        intros N HN HS. specialize (F N HN HS). apply Z in Q. rewrite Q in F.
        pose proof (line_frame A1 A2 N Hne HN) as E. cbv zeta in E. fold dx dy in E. fold dr2 D in E.
        set (t := fst N * dx + snd N * dy) in *. assert (H : t = 0) by (apply sq0; lra). rewrite H in E. rewrite E.
        f_equal; field; auto.
      * intros (M & HM & HS & HU). apply Z.
        pose proof (F M HM HS) as FM.
        pose proof (line_frame A1 A2 M Hne HM) as E. cbv zeta in E. fold dx dy in E. fold dr2 D in E.
        set (t := fst M * dx + snd M * dy) in *.
        pose proof (line_frame_on A1 A2 (- t) Hne) as [G3 G4]. fold dx dy in G3, G4. fold dr2 D in G3, G4.
        set (N := ((D * dy + - t * dx) / dr2, (- D * dx + - t * dy) / dr2)) in *.
        assert (HNS : sdot N N = r * r).
        { rewrite G4. replace (- t * - t) with Delta by lra. unfold Delta. field; auto. }
        pose proof (HU N G3 HNS) as HNM.
        assert (T1 : fst N * dx + snd N * dy = - t).
        { unfold N; cbn [fst snd]. transitivity (- t * (dx * dx + dy * dy) / dr2); [field; auto|]. fold dr2. field; auto. }
        rewrite HNM in T1. fold t in T1. assert (t = 0) by lra. rewrite H in FM. lra.
  - destruct K as (K & s & Hs & Hs0 & -> & ->).
    pose proof (line_frame_on A1 A2 s Hne) as [G1 G2]. fold dx dy in G1, G2. fold dr2 D in G1, G2.
    pose proof (line_frame_on A1 A2 (- s) Hne) as [G3 G4]. fold dx dy in G3, G4. fold dr2 D in G3, G4.
    replace ((D * dy + - s * dx) / dr2, (- D * dx + - s * dy) / dr2) with
      ((D * dy - s * dx) / dr2, (- D * dx - s * dy) / dr2) in G3, G4 by (f_equal; field; auto).
    assert (X1 : sdot ((D * dy + s * dx) / dr2, (- D * dx + s * dy) / dr2) ((D * dy + s * dx) / dr2, (- D * dx + s * dy) / dr2) = r * r).
    { rewrite G2, Hs. unfold Delta. field; auto. }
    assert (X2 : sdot ((D * dy - s * dx) / dr2, (- D * dx - s * dy) / dr2) ((D * dy - s * dx) / dr2, (- D * dx - s * dy) / dr2) = r * r).
    { rewrite G4. replace (- s * - s) with Delta by lra. unfold Delta. field; auto. }
    split; [|split; [|split; [|split; [|split]]]]; auto.
    + intros E. inversion E as [[E1 E2]].
      apply (f_equal (fun z => z * dr2)) in E1. apply (f_equal (fun z => z * dr2)) in E2.
      unfold Rdiv in E1, E2. rewrite !Rmult_assoc, !Rinv_l, !Rmult_1_r in E1, E2 by auto.
      assert (s * dx = 0) by lra. assert (s * dy = 0) by lra.
      apply Rmult_integral in H. apply Rmult_integral in H0.
      destruct H; [lra|]. destruct H0; [lra|]. unfold dr2 in Hd. rewrite H, H0 in Hd. lra.
    + intros M HM HS. specialize (F M HM HS).
      pose proof (line_frame A1 A2 M Hne HM) as E. cbv zeta in E. fold dx dy in E. fold dr2 D in E.
      set (t := fst M * dx + snd M * dy) in *.
      assert (T : (t - s) * (t + s) = 0) by lra. apply Rmult_integral in T. destruct T as [T|T].
      * left. rewrite E. replace t with s by lra. reflexivity.
      * right. rewrite E. replace t with (- s) by lra. f_equal; field; auto.
Qed.

Lemma on_line_shift A B C M : on_line (vsub A C) (vsub B C) M <-> on_line A B (vadd M C).
Proof.
  split.
  - intros [t ->]. exists t. unspec. f_equal; ring.
  - intros [t Ht]. exists t. destruct M as [m1 m2]. unspec. inversion Ht. f_equal; lra.
Qed.

Lemma vsub_neq A B C : A <> B -> vsub A C <> vsub B C.
Proof. intros H E. apply H. destruct A, B, C; unfold vsub in E; cbn [fst snd] in E; inversion E. f_equal; lra. Qed.

Lemma vadd_vsub M C : vadd (vsub M C) C = M.
Proof. destruct M; unfold vadd, vsub; cbn [fst snd]; f_equal; ring. Qed.

Lemma shift_on_circle C r M : 0 <= r -> (on_circle C r (vadd M C) <-> sdot M M = r * r).
Proof. intros. rewrite on_circle_sq by auto. unspec. split; intros; lra. Qed.

Lemma icl_spec c l : lA l <> lB l -> 0 < cr c ->
  match intersection_circle_line c l with
  | Raise _ => False
  | Ok INone => forall M, on_line (lA l) (lB l) M -> ~ on_circle (cO c) (cr c) M
  | Ok (IOne P) => on_line (lA l) (lB l) P /\ orthogonal (vsub P (cO c)) (vsub (lB l) (lA l)) /\
       in_disk (cO c) (cr c) P /\
       (on_circle (cO c) (cr c) P <->
        exists M, on_line (lA l) (lB l) M /\ on_circle (cO c) (cr c) M /\
          forall N, on_line (lA l) (lB l) N -> on_circle (cO c) (cr c) N -> N = M)
  | Ok (ITwo P Q) => P <> Q /\ on_line (lA l) (lB l) P /\ on_line (lA l) (lB l) Q /\
       on_circle (cO c) (cr c) P /\ on_circle (cO c) (cr c) Q /\
       forall M, on_line (lA l) (lB l) M -> on_circle (cO c) (cr c) M -> M = P \/ M = Q
  end.
Proof.
  intros H Hr. unfold intersection_circle_line.
  pose proof (cli_spec _ _ (cr c) (vsub_neq _ _ (cO c) H) ltac:(lra)) as S.
  set (C := cO c) in *. set (r := cr c) in *.
  assert (SC : forall M, on_circle C r M <-> sdot (vsub M C) (vsub M C) = r * r).
  { intros M. rewrite <- (vadd_vsub M C) at 1. apply shift_on_circle; lra. }
  assert (SL : forall M, on_line (lA l) (lB l) M <-> on_line (vsub (lA l) C) (vsub (lB l) C) (vsub M C)).
  { intros M. rewrite on_line_shift, vadd_vsub. tauto. }
  assert (SV : forall P, vsub (vadd P C) C = P).
  { intros P. destruct P; unfold vadd, vsub; cbn [fst snd]; f_equal; ring. }
  destruct (circle_line_intersection_ (vsub (lA l) C) (vsub (lB l) C) r) as [[|P|P Q]|e]; cbn [bind]; auto.
  - intros M HM HC. apply SL in HM. apply SC in HC. apply (S _ HM HC).
  - destruct S as (S1 & S2 & S3 & S4). rewrite SL, SC, SV. split; auto. split; [|split].
    + clear - S2. unspec. lra.
    + apply in_disk_sq; [lra|]. unspec. lra.
    + rewrite S4. split.
      * intros (M & HM & HS & HU). exists (vadd M C). rewrite SL, SC, SV. repeat split; auto.
        intros N HN HC. apply SL in HN. apply SC in HC. rewrite <- (HU _ HN HC). rewrite vadd_vsub. auto.
      * intros (M & HM & HS & HU). exists (vsub M C). rewrite SL in HM. rewrite SC in HS. repeat split; auto.
        intros N HN HC. rewrite <- (SV N). f_equal. apply HU; [rewrite SL, SV|rewrite SC, SV]; auto.
  - destruct S as (S0 & S1 & S2 & S3 & S4 & S5). rewrite !SL, !SC, !SV. repeat split; auto.
    + intros E. apply S0. rewrite <- (SV P), <- (SV Q), E. auto.
    + intros M HM HC. apply SL in HM. apply SC in HC. destruct (S5 _ HM HC) as [E|E]; [left|right]; rewrite <- E, vadd_vsub; auto.
Qed.

(** which answer is given, in terms of the squared distance [h2] from the centre to
    the line: Delta = |AB|^2 (r^2 - h2) *)
Lemma icl_which c l P : lA l <> lB l -> 0 < cr c -> line_projection l (cO c) = Some P ->
  let Delta := dist2 (lA l) (lB l) * (cr c * cr c - dist2 (cO c) P) in
  (intersection_circle_line c l = Ok INone <-> Delta < 0) /\
  (intersection_circle_line c l = Ok (IOne P) <-> 0 <= Delta < sepsilon_) /\
  ((exists X Y, intersection_circle_line c l = Ok (ITwo X Y)) <-> sepsilon_ <= Delta).
Proof.
  intros H Hr HP Delta.
  destruct (projection_spec l (cO c) H) as (P' & HP' & H1 & H2). rewrite HP' in HP. inversion HP; subst P'. clear HP.
  pose proof (cli_core _ _ (cr c) (vsub_neq _ _ (cO c) H) ltac:(lra)) as [Hd K].
  set (C := cO c) in *. set (r := cr c) in *.
  set (A1 := vsub (lA l) C) in *. set (A2 := vsub (lB l) C) in *.
  set (dx := fst A2 - fst A1) in *. set (dy := snd A2 - snd A1) in *.
  set (dr2 := dx * dx + dy * dy) in *. set (D := fst A1 * snd A2 - fst A2 * snd A1) in *.
  assert (Hd' : dr2 <> 0) by lra.
  assert (E1 : dist2 (lA l) (lB l) = dr2).
  { unfold dr2, dx, dy, A1, A2. unspec. ring. }
  (* the projection, relative to the centre *)
  assert (EP : vsub P C = (D / dr2 * dy, D / dr2 * - dx)).
  { assert (HA : A1 <> A2) by (apply vsub_neq; auto).
    assert (HL : on_line A1 A2 (vsub P C)) by (unfold A1, A2; rewrite on_line_shift, vadd_vsub; auto).
    pose proof (line_frame A1 A2 (vsub P C) HA HL) as E. cbv zeta in E. fold dx dy in E. fold dr2 D in E.
    rewrite E. 
    assert (Z : fst (vsub P C) * dx + snd (vsub P C) * dy = 0).
    { unfold dx, dy, A1, A2. unspec. lra. }
    rewrite Z. f_equal; field; auto. }
  assert (E2 : dist2 C P = D * D / dr2).
  { unfold dist2. rewrite EP. unfold sdot; cbn [fst snd].
    transitivity (D * D * (dx * dx + dy * dy) / (dr2 * dr2)); [field; auto|]. fold dr2. field; auto. }
  assert (ED : Delta = r * r * dr2 - D * D).
  { unfold Delta. rewrite E1, E2. field; auto. }
  rewrite <- ED in K.
  assert (PE : forall X, vsub P C = X -> vadd X C = P) by (intros X <-; apply vadd_vsub).
  unfold intersection_circle_line. fold C r. fold A1 A2.
  pose proof sepsilon_pos as He.
  destruct (circle_line_intersection_ A1 A2 r) as [[|X|X Y]|e]; cbn [bind]; [| | |contradiction].
  - split; [|split]; split; intros J; auto; try discriminate; try (exfalso; lra).
    destruct J as (? & ? & ?); discriminate.
  - destruct K as [K ->]. rewrite (PE _ EP). split; [|split]; split; intros J; auto; try discriminate; try (exfalso; lra).
    destruct J as (? & ? & ?); discriminate.
  - destruct K as [K _]. split; [|split]; split; intros J; eauto; try discriminate; try (exfalso; lra).
Qed.

Lemma icl_tiny u r : sdot u u = 1 -> 0 < r <= 10 ->
  exists l, Line_init (0, 0) (vscal (/ 100000) u) true true = Ok l /\
    on_line (lA l) (lB l) (0, 0) /\
    intersection_circle_line (mkCircle (0, 0) r) l = Ok (IOne (0, 0)) /\
    exists M, on_line (lA l) (lB l) M /\ on_circle (0, 0) r M.
Proof.
  intros Hu Hr. exists (tiny u). split; [apply tiny_valid; auto|].
  assert (Hne : lA (tiny u) <> lB (tiny u)).
  { cbn [tiny lA lB]. intros E. destruct u; unspec. inversion E.
    assert (r0 = 0) by lra. assert (r1 = 0) by lra. subst. lra. }
  assert (HO : on_line (lA (tiny u)) (lB (tiny u)) (0, 0)) by apply on_line_A.
  split; auto.
  assert (HP : line_projection (tiny u) (cO (mkCircle (0, 0) r)) = Some (0, 0)).
  { destruct (projection_spec (tiny u) (0, 0) Hne) as (P & E & E1 & E2). cbn [cO]. rewrite E. f_equal.
    pose proof (foot_nearest _ _ _ _ E1 E2 (0, 0) HO) as F.
    replace (dist2 (0, 0) (0, 0)) with 0 in F by (unspec; ring).
    pose proof (dist2_nonneg (0, 0) P). pose proof (dist2_nonneg P (0, 0)). apply dist2_0. lra. }
  split.
  - apply (icl_which (mkCircle (0, 0) r) (tiny u) (0, 0)); cbn [cr]; auto; try lra.
    cbn [cO tiny lA lB]. 
    replace (dist2 (0, 0) (vscal (/ 100000) u)) with (/ 10000000000 * sdot u u) by (unspec; field).
    replace (dist2 (0, 0) (0, 0)) with 0 by (unspec; ring). rewrite Hu. unfold sepsilon_. nra.
  - exists (vscal r u). split.
    + exists (100000 * r). cbn [tiny lA lB]. unspec. f_equal; field.
    + apply on_circle_sq; [lra|]. transitivity (r * r * sdot u u); [unspec; ring|]. rewrite Hu; ring.
Qed.

(** ** Common points of two circles *)

Lemma dist2_xy O1 O2 : dist2 O1 O2 = (fst O1 - fst O2) * (fst O1 - fst O2) + (snd O1 - snd O2) * (snd O1 - snd O2).
Proof. unspec. ring. Qed.

Lemma common_point_eq O1 O2 r1 r2 M : 0 <= r1 -> 0 <= r2 -> on_circle O1 r1 M -> on_circle O2 r2 M ->
  let x := fst O1 - fst O2 in
  let y := snd O1 - snd O2 in
  let w := vsub M O1 in
  fst w * fst w + snd w * snd w = r1 * r1 /\
  2 * (fst w * x + snd w * y) = r2 * r2 - r1 * r1 - (x * x + y * y).
Proof.
  intros H1 H2 K1 K2 x y w. apply on_circle_sq in K1; auto. apply on_circle_sq in K2; auto.
  unfold w, x, y. unspec. split; lra.
Qed.

Lemma common_point_bound O1 O2 r1 r2 M : 0 <= r1 -> 0 <= r2 -> on_circle O1 r1 M -> on_circle O2 r2 M ->
  (r1 - r2) ^ 2 <= dist2 O1 O2 <= (r1 + r2) ^ 2.
Proof.
  intros H1 H2 K1 K2. destruct (common_point_eq O1 O2 r1 r2 M H1 H2 K1 K2) as [E1 E2].
  rewrite dist2_xy. set (x := fst O1 - fst O2) in *. set (y := snd O1 - snd O2) in *.
  set (w := vsub M O1) in *. remember (x * x + y * y) as L2.
  assert (F : (fst w * x + snd w * y) * (fst w * x + snd w * y) + (fst w * y - snd w * x) * (fst w * y - snd w * x) = r1 * r1 * L2).
  { rewrite <- E1, HeqL2. ring. }
  assert (HL : 0 <= L2) by (rewrite HeqL2; apply sum_sq_nonneg).
  assert (G : (r2 * r2 - r1 * r1 - L2) * (r2 * r2 - r1 * r1 - L2) <= 4 * (r1 * r1 * L2)).
  { rewrite <- E2. pose proof (sqnn (fst w * y - snd w * x)). lra. }
  assert (Q : (L2 - (r1 - r2) ^ 2) * (L2 - (r1 + r2) ^ 2) <= 0) by nra.
  assert ((r1 - r2) ^ 2 <= (r1 + r2) ^ 2) by nra.
  clear - Q H. split; apply Rnot_lt_le; intros N; nra.
Qed.

Lemma common_point_exists O1 r1 O2 r2 : 0 < r1 -> 0 < r2 -> O1 <> O2 ->
  (r1 - r2) ^ 2 <= dist2 O1 O2 <= (r1 + r2) ^ 2 ->
  exists M, on_circle O1 r1 M /\ on_circle O2 r2 M.
Proof.
  intros H1 H2 Hne HB. pose proof (dist2_pos _ _ Hne) as Hd.
  set (d2 := dist2 O1 O2) in *.
  set (k := (r2 * r2 - r1 * r1 - d2) / (2 * d2)).
  set (h2 := r1 * r1 / d2 - k * k).
  assert (Hh : 0 <= h2).
  { unfold h2, k. apply (Rmult_le_reg_r (4 * d2 * d2)); [nra|].
    replace ((r1 * r1 / d2 - (r2 * r2 - r1 * r1 - d2) / (2 * d2) * ((r2 * r2 - r1 * r1 - d2) / (2 * d2))) * (4 * d2 * d2))
      with (- ((d2 - (r1 - r2) ^ 2) * (d2 - (r1 + r2) ^ 2))) by (field; lra).
    nra. }
  pose proof (sqrt_sqrt h2 Hh) as Hs. set (h := sqrt h2) in *.
  set (x := fst O1 - fst O2). set (y := snd O1 - snd O2).
  assert (Exy : x * x + y * y = d2) by (unfold d2, x, y; unspec; ring).
  exists (vadd O1 (k * x - h * y, k * y + h * x)). 
  split; apply on_circle_sq; try lra.
  - unspec. transitivity ((k * k + h * h) * (x * x + y * y)); [ring|]. rewrite Exy, Hs. unfold h2. field. lra.
  - unspec. transitivity ((x + (k * x - h * y)) * (x + (k * x - h * y)) + (y + (k * y + h * x)) * (y + (k * y + h * x))); [unfold x, y; ring|].
    transitivity ((1 + 2 * k + (k * k + h * h)) * (x * x + y * y)); [ring|]. rewrite Exy, Hs. unfold h2, k. field. lra.
Qed.

(** ** C15 *)

Lemma clamp1_range z : -1 <= clamp1 z <= 1.
Proof. unfold clamp1. split; [apply Rmax_r|]. apply Rmax_lub; [apply Rmin_r|lra]. Qed.
Lemma clamp1_id z : -1 <= z <= 1 -> clamp1 z = z.
Proof. intros. unfold clamp1. rewrite Rmin_left, Rmax_left by lra. auto. Qed.

Definition ccpoint (c1 : circle) (th : R) : pt := vadd (cO c1) (vscal (cr c1) (unit_vector_ th)).

Lemma ccpoint_on c1 th : 0 <= cr c1 -> on_circle (cO c1) (cr c1) (ccpoint c1 th).
Proof. intros. apply polar_on_circle; auto. Qed.

(** squared distance from the computed point to the second centre *)
Lemma ccpoint_dist2 c1 O2 th : cO c1 <> O2 ->
  let x := fst (cO c1) - fst O2 in
  let y := snd (cO c1) - snd O2 in
  dist2 O2 (ccpoint c1 th) = x * x + y * y + cr c1 * cr c1
    + 2 * cr c1 * sqrt (x * x + y * y) * cos (th - atan2 y x).
Proof.
  intros Hne x y.
  assert (Hn : (x, y) <> (0, 0)).
  { unfold x, y. intros E. apply Hne. destruct (cO c1), O2; cbn [fst snd] in *. inversion E. f_equal; lra. }
  pose proof (sum_sq_pos x y Hn) as Hp. pose proof (sqrt_lt_R0 _ Hp) as Hs.
  destruct (cos_sin_atan2 y x Hn) as [Ec Es]. rewrite cos_minus, Ec, Es.
  unfold ccpoint, unit_vector_. unspec.
  transitivity ((x + cr c1 * cos th) * (x + cr c1 * cos th) + (y + cr c1 * sin th) * (y + cr c1 * sin th)); [unfold x, y; ring|].
  transitivity (x * x + y * y + cr c1 * cr c1 * (cos th * cos th + sin th * sin th) + 2 * cr c1 * (cos th * x + sin th * y)); [ring|].
  rewrite cs1. field. lra.
Qed.


Lemma icc_spec c1 c2 : 0 < cr c1 -> 0 < cr c2 ->
  match intersection_circle_circle c1 c2 with
  | Raise _ => False
  | Ok (CCSame c) => c = c1 /\ circle_is_equal c1 c2 = true
  | Ok (CCPoints INone) => forall M, on_circle (cO c1) (cr c1) M -> ~ on_circle (cO c2) (cr c2) M
  | Ok (CCPoints (IOne P)) => on_circle (cO c1) (cr c1) P /\
      (on_circle (cO c2) (cr c2) P <-> exists M, on_circle (cO c1) (cr c1) M /\ on_circle (cO c2) (cr c2) M)
  | Ok (CCPoints (ITwo P Q)) =>
      P <> Q /\
      on_circle (cO c1) (cr c1) P /\ on_circle (cO c2) (cr c2) P /\
      on_circle (cO c1) (cr c1) Q /\ on_circle (cO c2) (cr c2) Q /\
      forall M, on_circle (cO c1) (cr c1) M -> on_circle (cO c2) (cr c2) M -> M = P \/ M = Q
  end.
Proof.
  intros H1 H2. unfold intersection_circle_circle.
  destruct (circle_is_equal c1 c2) eqn:Eeq; [auto|].
  rewrite dot_dist2'. set (d2 := dist2 (cO c1) (cO c2)).
  pose proof sepsilon_pos as He.
  destruct (ltb ((cr c1 + cr c2) ^ 2 + sepsilon_) d2 || ltb d2 ((cr c1 - cr c2) ^ 2 - sepsilon_)) eqn:E1.
  { intros M K1 K2.
    pose proof (common_point_bound (cO c1) (cO c2) (cr c1) (cr c2) M ltac:(lra) ltac:(lra) K1 K2) as HB.
    fold d2 in HB.
    apply orb_true_iff in E1. destruct E1 as [E1|E1]; apply ltb_true in E1; lra. }
  destruct (vsub (cO c1) (cO c2)) as [x y] eqn:Exy.
  assert (Ex : x = fst (cO c1) - fst (cO c2)) by (unfold vsub in Exy; inversion Exy; auto).
  assert (Ey : y = snd (cO c1) - snd (cO c2)) by (unfold vsub in Exy; inversion Exy; auto).
  assert (Ed : x * x + y * y = d2) by (unfold d2; rewrite dist2_xy, Ex, Ey; auto).
  rewrite Ed.
  set (num := cr c2 * cr c2 - cr c1 * cr c1 - d2).
  set (den := cr c1 * sqrt (4 * d2)).
  assert (Hd2 : 0 <= d2) by apply dist2_nonneg.
  (* the cosine: some value in [-1,1], exact when the circles meet *)
  assert (HC : exists co, (if eqb den 0 then if ltb 0 num then Ok 1 else if ltb num 0 then Ok (-1) else Raise NonFinite
                else Ok (clamp1 (num / den))) = Ok co /\ -1 <= co <= 1 /\
               (d2 = 0 -> cr c1 <> cr c2) /\
               (d2 <> 0 -> (cr c1 - cr c2) ^ 2 <= d2 <= (cr c1 + cr c2) ^ 2 -> co * (2 * cr c1 * sqrt d2) = num)).
  { assert (Hden : den = 2 * cr c1 * sqrt d2).
    { unfold den. rewrite sqrt_mult by lra. replace (sqrt 4) with 2; [ring|].
      symmetry. apply sqrt_eq; lra. }
    destruct (Req_dec d2 0) as [Hz|Hz].
    - assert (Hneq : cr c1 <> cr c2).
      { intros E. unfold circle_is_equal in Eeq. rewrite E, approx_equal_refl in Eeq. cbn [andb] in Eeq.
        apply dist2_0 in Hz. rewrite Hz, allclose_refl in Eeq. discriminate. }
      assert (den = 0) by (rewrite Hden, Hz, sqrt_0; ring).
      rewrite (proj2 (eqb_true den 0) H). 
      destruct (ltb 0 num) eqn:N1; [eexists; repeat split; eauto; try lra|].
      destruct (ltb num 0) eqn:N2; [eexists; repeat split; eauto; try lra|].
      apply ltb_false in N1. apply ltb_false in N2. unfold num in *. exfalso. apply Hneq. apply sq_inj; lra.
    - assert (Hs : 0 < sqrt d2) by (apply sqrt_lt_R0; lra).
      assert (Hdp : 0 < den) by (rewrite Hden; nra).
      rewrite (proj2 (eqb_false den 0)) by lra.
      eexists. split; [reflexivity|]. split; [apply clamp1_range|]. split; [lra|].
      intros _ HB. rewrite clamp1_id.
      + rewrite <- Hden. field. lra.
      + assert (Hsq : num * num <= den * den).
        { assert (den * den = 4 * (cr c1 * cr c1) * d2).
          { rewrite Hden. pose proof (sqrt_sqrt d2 Hd2). transitivity (4 * (cr c1 * cr c1) * (sqrt d2 * sqrt d2)); [ring|]. rewrite H; ring. }
          rewrite H. unfold num.
          assert ((d2 - (cr c1 - cr c2) ^ 2) * (d2 - (cr c1 + cr c2) ^ 2) <= 0) by nra.
          ring_simplify in H0. ring_simplify. lra. }
        assert (- den <= num <= den) by nra.
        split; apply (Rmult_le_reg_r den); auto; unfold Rdiv; rewrite ?Rmult_assoc, ?Rinv_l; lra. }
  destruct HC as (co & -> & Hco & Hconc & Hexact). cbn [bind].
  assert (Hcos : cos (acos co) = co) by (apply cos_acos; lra).
  assert (HP : forall sg, sg = 1 \/ sg = -1 -> cO c1 <> cO c2 ->
     dist2 (cO c2) (ccpoint c1 (atan2 y x + sg * acos co)) = d2 + cr c1 * cr c1 + 2 * cr c1 * sqrt d2 * co).
  { intros sg Hsg Hne. rewrite ccpoint_dist2 by auto. rewrite <- Ex, <- Ey, Ed.
    replace (atan2 y x + sg * acos co - atan2 y x) with (sg * acos co) by ring.
    replace (cos (sg * acos co)) with co; auto.
    destruct Hsg as [->| ->]; rewrite <- Hcos; [f_equal; rewrite Hcos; ring|].
    replace (-1 * acos (cos (acos co))) with (- acos (cos (acos co))) by ring. rewrite cos_neg, Hcos; auto. }
  destruct (ltb ((cr c1 + cr c2) ^ 2 - d2) sepsilon_ || ltb (d2 - (cr c1 - cr c2) ^ 2) sepsilon_) eqn:E2.
  - fold (ccpoint c1 (atan2 y x + acos co)).
    assert (ON : on_circle (cO c1) (cr c1) (ccpoint c1 (atan2 y x + acos co))) by (apply ccpoint_on; lra).
    split; auto. split.
    + intros K. eauto.
    + intros (M & K1 & K2).
      pose proof (common_point_bound (cO c1) (cO c2) (cr c1) (cr c2) M ltac:(lra) ltac:(lra) K1 K2) as HB.
      fold d2 in HB.
      assert (Hz : d2 <> 0).
      { intros Z. rewrite Z in HB. specialize (Hconc Z). assert (0 < (cr c1 - cr c2) ^ 2); [|lra].
        replace ((cr c1 - cr c2) ^ 2) with (Rsqr (cr c1 - cr c2)) by (unfold Rsqr; ring). apply Rsqr_pos_lt. lra. }
      apply on_circle_sq; [lra|].
      pose proof (HP 1 (or_introl eq_refl)) as HP1. rewrite Rmult_1_l in HP1. rewrite HP1.
      * pose proof (Hexact Hz HB). unfold num in *. lra.
      * intros E. apply Hz. unfold d2. apply dist2_0; auto.
  - apply orb_false_iff in E2. destruct E2 as [E2 E3]. apply ltb_false in E2. apply ltb_false in E3.
    assert (Hz : d2 <> 0).
    { intros Z. rewrite Z in E3. pose proof (pow2_ge_0 (cr c1 - cr c2)). lra. }
    assert (Hne : cO c1 <> cO c2).
    { intros E. apply Hz. unfold d2. apply dist2_0; auto. }
    assert (HB : (cr c1 - cr c2) ^ 2 <= d2 <= (cr c1 + cr c2) ^ 2) by lra.
    pose proof (Hexact Hz HB) as Hx.
    assert (Hs : 0 < sqrt d2) by (apply sqrt_lt_R0; lra).
    pose proof (sqrt_sqrt d2 Hd2) as Hss. remember (sqrt d2) as sq eqn:Hsq.
    assert (Hlt : -1 < co < 1).
    { assert (co * co < 1).
      { assert (Hq : co * co * (4 * (cr c1 * cr c1) * d2) = num * num) by (rewrite <- Hx, <- Hss; ring).
        assert (num * num < 4 * (cr c1 * cr c1) * d2).
        { unfold num. assert (0 < (d2 - (cr c1 - cr c2) ^ 2) * ((cr c1 + cr c2) ^ 2 - d2)) by (apply Rmult_lt_0_compat; lra).
          ring_simplify in H. ring_simplify. lra. }
        assert (0 < 4 * (cr c1 * cr c1) * d2) by (apply Rmult_lt_0_compat; nra).
        nra. }
      nra. }
    fold (ccpoint c1 (atan2 y x + acos co)). fold (ccpoint c1 (atan2 y x - acos co)).
    pose proof (HP 1 (or_introl eq_refl) Hne) as HP1. rewrite Rmult_1_l in HP1.
    pose proof (HP (-1) (or_intror eq_refl) Hne) as HP2.
    replace (atan2 y x + -1 * acos co) with (atan2 y x - acos co) in HP2 by ring.
    assert (Hn : (x, y) <> (0, 0)).
    { intros E. inversion E. subst x y. rewrite H0, H3 in Ed. lra. }
    destruct (cos_sin_atan2 y x Hn) as [Ec Es]. rewrite Ed, <- Hsq in Ec, Es. clear Hsq.
    set (si := sin (acos co)).
    assert (Hsi : si * si = 1 - co * co).
    { pose proof (cs1 (acos co)) as Hq. rewrite Hcos in Hq. fold si in Hq. lra. }
    assert (Hsp : 0 < si).
    { apply sin_gt_0; [|]. 
      - destruct (acos_bound co). destruct (Req_dec (acos co) 0) as [Z|Z]; [|lra].
        rewrite Z, cos_0 in Hcos. lra.
      - destruct (acos_bound co). destruct (Req_dec (acos co) PI) as [Z|Z]; [|lra].
        rewrite Z, cos_PI in Hcos. lra. }
    (* coordinates of the two points relative to O1 *)
    assert (C1 : ccpoint c1 (atan2 y x + acos co) = vadd (cO c1) (cr c1 / sq * (x * co - y * si), cr c1 / sq * (y * co + x * si))).
    { unfold ccpoint, unit_vector_. rewrite cos_plus, sin_plus, Hcos, Ec, Es. fold si. unpt. f_equal; field; lra. }
    assert (C2 : ccpoint c1 (atan2 y x - acos co) = vadd (cO c1) (cr c1 / sq * (x * co + y * si), cr c1 / sq * (y * co - x * si))).
    { unfold ccpoint, unit_vector_. rewrite cos_minus, sin_minus, Hcos, Ec, Es. fold si. unpt. f_equal; field; lra. }
    split; [|split; [apply ccpoint_on; lra|]].
    { rewrite C1, C2. unfold vadd; cbn [fst snd]. intros E. inversion E as [[E4 E5]].
      assert (K4 : cr c1 / sq * si * y = 0) by lra.
      assert (K5 : cr c1 / sq * si * x = 0) by lra.
      assert (Kp : 0 < cr c1 / sq * si).
      { apply Rmult_lt_0_compat; auto. apply Rdiv_lt_0_compat; auto. }
      apply Rmult_integral in K4. apply Rmult_integral in K5.
      destruct K4; [lra|]. destruct K5; [lra|]. apply Hn. congruence. }
    split; [apply on_circle_sq; [lra|]; rewrite HP1; unfold num in Hx; lra|].
    split; [apply ccpoint_on; lra|].
    split; [apply on_circle_sq; [lra|]; rewrite HP2; unfold num in Hx; lra|].
    intros M K1 K2.
    destruct (common_point_eq (cO c1) (cO c2) (cr c1) (cr c2) M ltac:(lra) ltac:(lra) K1 K2) as [Q1 Q2].
    rewrite <- Ex, <- Ey, Ed in Q2.
    set (w := vsub M (cO c1)) in *. fold num in Q2.
    (* dot = r1 sq co, cross^2 = (r1 sq si)^2 *)
    assert (Q3 : fst w * x + snd w * y = cr c1 * sq * co) by lra.
    assert (Q4 : (x * snd w - y * fst w - cr c1 * sq * si) * (x * snd w - y * fst w + cr c1 * sq * si) = 0).
    { assert ((fst w * x + snd w * y) * (fst w * x + snd w * y) + (x * snd w - y * fst w) * (x * snd w - y * fst w) = cr c1 * cr c1 * d2).
      { rewrite <- Q1, <- Ed. ring. }
      rewrite Q3 in H. rewrite <- Hss in H.
      transitivity ((x * snd w - y * fst w) * (x * snd w - y * fst w) - cr c1 * cr c1 * (sq * sq) * (si * si)); [ring|].
      rewrite Hsi. lra. }
    assert (HM : M = vadd (cO c1) w) by (unfold w; destruct M; unpt; f_equal; ring).
    assert (Hsol : forall cr', x * snd w - y * fst w = cr' ->
       w = ((x * (cr c1 * sq * co) - y * cr') / d2, (y * (cr c1 * sq * co) + x * cr') / d2)).
    { intros cr' <-. rewrite <- Q3. rewrite <- Ed in *. destruct w as [w1 w2]; cbn [fst snd] in *. f_equal; field; auto. }
    apply Rmult_integral in Q4. destruct Q4 as [Q4|Q4].
    + left. rewrite HM, C1. f_equal. rewrite (Hsol (cr c1 * sq * si)) by lra.
      rewrite <- Hss. f_equal; field; lra.
    + right. rewrite HM, C2. f_equal. rewrite (Hsol (- (cr c1 * sq * si))) by lra.
      rewrite <- Hss. f_equal; field; lra.
Qed.

Lemma icc_concentric c1 c2 : 0 < cr c1 -> 0 < cr c2 -> cO c1 = cO c2 ->
  approx_equal_ (cr c1) (cr c2) = false -> (cr c1 - cr c2) ^ 2 <= sepsilon_ ->
  (exists P, intersection_circle_circle c1 c2 = Ok (CCPoints (IOne P))) /\
  forall M, on_circle (cO c1) (cr c1) M -> ~ on_circle (cO c2) (cr c2) M.
Proof.
  intros H1 H2 HO Ha Hs.
  assert (Hneq : cr c1 <> cr c2) by (intros E; rewrite E, approx_equal_refl in Ha; discriminate).
  split.
  - unfold intersection_circle_circle, circle_is_equal. rewrite Ha. cbn [andb].
    rewrite HO, dot_dist2'. replace (dist2 (cO c2) (cO c2)) with 0 by (unspec; ring).
    pose proof sepsilon_pos as He. pose proof (pow2_ge_0 (cr c1 + cr c2)). pose proof (pow2_ge_0 (cr c1 - cr c2)).
    rewrite (proj2 (ltb_false _ 0)) by lra. rewrite (proj2 (ltb_false 0 _)) by lra. cbn [orb].
    replace (vsub (cO c2) (cO c2)) with (0, 0) by (unpt; f_equal; ring).
    replace (0 * 0 + 0 * 0) with 0 by ring. rewrite Rmult_0_r, sqrt_0, Rmult_0_r, Rminus_0_r.
    rewrite (proj2 (eqb_true 0 0)) by auto.
    replace (ltb (0 - (cr c1 - cr c2) ^ 2) sepsilon_) with true by (symmetry; apply ltb_true; lra).
    rewrite orb_true_r.
    assert (cr c2 * cr c2 - cr c1 * cr c1 <> 0).
    { intros E. apply Hneq. apply sq_inj; lra. }
    destruct (ltb 0 (cr c2 * cr c2 - cr c1 * cr c1)) eqn:N1; [cbn [bind]; eauto|].
    destruct (ltb (cr c2 * cr c2 - cr c1 * cr c1) 0) eqn:N2; [cbn [bind]; eauto|].
    apply ltb_false in N1. apply ltb_false in N2. lra.
  - unfold on_circle. rewrite HO. intros M K1 K2. apply Hneq. congruence.
Qed.

(** ** C17 *)

Definition cos_angle (c1 c2 : circle) : R :=
  (dist2 (cO c1) (cO c2) - cr c1 * cr c1 - cr c2 * cr c2) / (2 * cr c1 * cr c2).

Lemma circle_angle_eq c1 c2 : 0 < cr c1 -> 0 < cr c2 ->
  circle_angle c1 c2 =
  if ltb ((cr c1 + cr c2) ^ 2 + sepsilon_) (dist2 (cO c1) (cO c2)) ||
     ltb (dist2 (cO c1) (cO c2)) ((cr c1 - cr c2) ^ 2 - sepsilon_) then Ok None
  else let! t := py_acos (cos_angle c1 c2) in Ok (Some t).
Proof.
  intros H1 H2. unfold circle_angle. rewrite dot_dist2'.
  destruct (_ || _); auto.
  replace (1 / cr c1 * (cr c2 * (dot_ (vscal (1 / cr c2) (cO c2)) (vscal (1 / cr c2) (cO c2)) - 1)) / 2 +
   1 / cr c2 * (cr c1 * (dot_ (vscal (1 / cr c1) (cO c1)) (vscal (1 / cr c1) (cO c1)) - 1)) / 2 -
   dot_ (vscal (1 / cr c1) (cO c1)) (vscal (1 / cr c2) (cO c2))) with (cos_angle c1 c2); auto.
  unfold cos_angle, dot_. unspec. field. lra.
Qed.

Lemma cos_angle_bound c1 c2 : 0 < cr c1 -> 0 < cr c2 ->
  (cos_angle c1 c2 <= 1 <-> dist2 (cO c1) (cO c2) <= (cr c1 + cr c2) ^ 2) /\
  (-1 <= cos_angle c1 c2 <-> (cr c1 - cr c2) ^ 2 <= dist2 (cO c1) (cO c2)).
Proof.
  intros H1 H2. set (D := 2 * cr c1 * cr c2). assert (HD : 0 < D) by (unfold D; nra).
  assert (E : cos_angle c1 c2 * D = dist2 (cO c1) (cO c2) - cr c1 * cr c1 - cr c2 * cr c2).
  { unfold cos_angle. fold D. field. lra. }
  split; split; intros K.
  - apply (Rmult_le_compat_r D) in K; [|lra]. rewrite E in K. unfold D in K. nra.
  - apply (Rmult_le_reg_r D); auto. rewrite E. unfold D. nra.
  - apply (Rmult_le_compat_r D) in K; [|lra]. rewrite E in K. unfold D in K. nra.
  - apply (Rmult_le_reg_r D); auto. rewrite E. unfold D. nra.
Qed.

Lemma angle_spec c1 c2 : 0 < cr c1 -> 0 < cr c2 ->
  (cr c1 - cr c2) ^ 2 <= dist2 (cO c1) (cO c2) <= (cr c1 + cr c2) ^ 2 ->
  exists t, circle_angle c1 c2 = Ok (Some t) /\ 0 <= t <= PI /\
    cos t = (dist2 (cO c1) (cO c2) - cr c1 ^ 2 - cr c2 ^ 2) / (2 * cr c1 * cr c2) /\
    (forall M, on_circle (cO c1) (cr c1) M -> on_circle (cO c2) (cr c2) M ->
       cos t = - (sdot (vsub M (cO c1)) (vsub M (cO c2)) / (dist (cO c1) M * dist (cO c2) M))) /\
    (t = PI / 2 <-> circ_orthogonal (cO c1) (cr c1) (cO c2) (cr c2)).
Proof.
  intros H1 H2 HB. pose proof sepsilon_pos as He.
  rewrite circle_angle_eq by auto.
  rewrite (proj2 (ltb_false _ _)) by lra. rewrite (proj2 (ltb_false (dist2 _ _) _)) by lra. cbn [orb].
  destruct (cos_angle_bound c1 c2 H1 H2) as [B1 B2].
  assert (B : -1 <= cos_angle c1 c2 <= 1) by tauto.
  unfold py_acos. destruct (Rlt_dec _ _); [lra|]. destruct (Rlt_dec _ _); [lra|]. cbn [bind].
  exists (acos (cos_angle c1 c2)). split; auto. split; [apply acos_bound|].
  rewrite cos_acos by auto. split; [unfold cos_angle; f_equal; ring|]. split.
  - intros M K1 K2. unfold on_circle in *. rewrite K1, K2.
    assert (S1 : dist2 (cO c1) M = cr c1 * cr c1) by (rewrite <- dist_sq, K1; auto).
    assert (S2 : dist2 (cO c2) M = cr c2 * cr c2) by (rewrite <- dist_sq, K2; auto).
    unfold cos_angle.
    replace (dist2 (cO c1) (cO c2)) with (dist2 (cO c1) M + dist2 (cO c2) M - 2 * sdot (vsub M (cO c1)) (vsub M (cO c2))) by (unspec; ring).
    rewrite S1, S2. field. lra.
  - unfold circ_orthogonal.
    assert (Q : acos (cos_angle c1 c2) = PI / 2 <-> cos_angle c1 c2 = 0).
    { split; intros E.
      - rewrite <- (cos_acos (cos_angle c1 c2)), E by auto. apply cos_PI2.
      - rewrite E. apply acos_0. }
    rewrite Q. unfold cos_angle. split; intros E.
    + apply Rmult_integral in E. destruct E as [E|E]; [lra|].
      exfalso. assert (0 < 2 * cr c1 * cr c2) by nra. pose proof (Rinv_0_lt_compat _ H). lra.
    + rewrite E. field. lra.
Qed.

Lemma is_orthogonal_complete c1 c2 :
  circ_orthogonal (cO c1) (cr c1) (cO c2) (cr c2) -> is_orthogonal c1 c2 = true.
Proof.
  intros H. unfold is_orthogonal. rewrite dot_dist2'. unfold circ_orthogonal in H. rewrite H.
  replace (cr c1 ^ 2 + cr c2 ^ 2) with (cr c1 * cr c1 + cr c2 * cr c2) by ring. apply approx_equal_refl.
Qed.

Lemma angle_none c1 c2 : 0 < cr c1 -> 0 < cr c2 ->
  (circle_angle c1 c2 = Ok None <->
   (cr c1 + cr c2) ^ 2 + sepsilon_ < dist2 (cO c1) (cO c2) \/
   dist2 (cO c1) (cO c2) < (cr c1 - cr c2) ^ 2 - sepsilon_).
Proof.
  intros H1 H2. rewrite circle_angle_eq by auto. rewrite <- !ltb_true, <- orb_true_iff.
  destruct (_ || _); [tauto|]. unfold py_acos. split; [|discriminate].
  destruct (Rlt_dec _ _); cbn [bind]; [discriminate|]. destruct (Rlt_dec _ _); cbn [bind]; discriminate.
Qed.

Lemma angle_raises c1 c2 : 0 < cr c1 -> 0 < cr c2 ->
  ((exists e, circle_angle c1 c2 = Raise e) <->
   (cr c1 + cr c2) ^ 2 < dist2 (cO c1) (cO c2) <= (cr c1 + cr c2) ^ 2 + sepsilon_ \/
   (cr c1 - cr c2) ^ 2 - sepsilon_ <= dist2 (cO c1) (cO c2) < (cr c1 - cr c2) ^ 2) /\
  (forall e, circle_angle c1 c2 = Raise e -> e = ValueError).
Proof.
  intros H1 H2. pose proof sepsilon_pos as He.
  destruct (cos_angle_bound c1 c2 H1 H2) as [B1 B2].
  assert (HSD : (cr c1 - cr c2) ^ 2 < (cr c1 + cr c2) ^ 2) by nra.
  rewrite circle_angle_eq by auto.
  destruct (ltb ((cr c1 + cr c2) ^ 2 + sepsilon_) (dist2 (cO c1) (cO c2))) eqn:E1; cbn [orb].
  { apply ltb_true in E1. split; [|discriminate]. split; [intros [e K]; discriminate|]. intros [K|K]; lra. }
  apply ltb_false in E1.
  destruct (ltb (dist2 (cO c1) (cO c2)) ((cr c1 - cr c2) ^ 2 - sepsilon_)) eqn:E2.
  { apply ltb_true in E2. split; [|discriminate]. split; [intros [e K]; discriminate|]. intros [K|K]; lra. }
  apply ltb_false in E2.
  unfold py_acos. destruct (Rlt_dec _ _) as [L1|L1]; cbn [bind].
  { split; [|intros e K; congruence]. split; [|eauto]. intros _. right. split; auto. apply Rnot_le_lt. intros K. apply B2 in K. lra. }
  destruct (Rlt_dec _ _) as [L2|L2]; cbn [bind].
  { split; [|intros e K; congruence]. split; [|eauto]. intros _. left. split; auto. apply Rnot_le_lt. intros K. apply B1 in K. lra. }
  split; [|discriminate]. split; [intros [e K]; discriminate|].
  assert (cos_angle c1 c2 <= 1) by lra. assert (-1 <= cos_angle c1 c2) by lra. apply B1 in H. apply B2 in H0.
  intros [K|K]; lra.
Qed.
