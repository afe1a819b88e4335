(** * Random points are evenly distributed. *)

From Coq Require Import Reals Lra Lia Psatz List Bool ZArith.
From Verif Require Import Base BaseLemmas Spec SpecLemmas SpecTriangle SpecRandom ModelInternal ModelLine ModelCircle ModelAffine ModelEllipse ModelTriangle
  PLine PCircle PInvBase PCircle2 PEllipse PBoundary4b PTriangle2.
Import ListNotations.
Local Open Scope R_scope.

Lemma Forall2_map_r {X Y} (f : X -> Y) (P : X -> Y -> Prop) l : Forall (fun x => P x (f x)) l -> Forall2 P l (map f l).
Proof. induction 1; constructor; auto. Qed.
Lemma Forall2_Forall_l {X Y} (P : X -> Prop) (Q R' : X -> Y -> Prop) l l' : (forall x y, P x -> Q x y -> R' x y) -> Forall P l -> Forall2 Q l l' -> Forall2 R' l l'.
Proof. intros H HP HQ. induction HQ; constructor; inversion_clear HP; auto. Qed.

(** ** In a triangle *)
Lemma affine_coords x y x' y' bx by_ cx cy : bx * cy - by_ * cx <> 0 -> x * bx + y * cx = x' * bx + y' * cx -> x * by_ + y * cy = x' * by_ + y' * cy -> x = x' /\ y = y'.
Proof.
  intros H E1 E2. set (D := bx * cy - by_ * cx) in *.
  assert (F1 : (x - x') * D = 0) by (transitivity ((x * bx + y * cx - (x' * bx + y' * cx)) * cy - (x * by_ + y * cy - (x' * by_ + y' * cy)) * cx); [unfold D; ring|rewrite E1, E2; ring]).
  assert (F2 : (y - y') * D = 0) by (transitivity ((x * by_ + y * cy - (x' * by_ + y' * cy)) * bx - (x * bx + y * cx - (x' * bx + y' * cx)) * by_); [unfold D; ring|rewrite E1, E2; ring]).
  apply Rmult_integral in F1, F2. destruct F1; [|contradiction]. destruct F2; [|contradiction]. lra.
Qed.

Lemma in_triangle_one A B C r1 q s t : ~ collinear A B C -> 0 <= r1 < 1 -> 0 < q < 1 -> 0 < s -> 0 < t ->
  in_closed_triangle A (vadd A (vscal (sqrt s) (vsub B A))) (vadd A (vscal (sqrt s) (vsub (vadd (vscal (1 - t) B) (vscal t C)) A))) (runif_in_triangle1_ A B C r1 q) <->
  r1 <= t /\ q <= s.
Proof.
  intros NC H1 H2 Hs Ht. set (rs := sqrt s). set (r2 := sqrt q). assert (P1 : 0 < rs) by (apply sqrt_lt_R0; auto). assert (P2 : 0 < r2) by (apply sqrt_lt_R0; lra).
  assert (Q1 : rs * rs = s) by (apply sqrt_sqrt; lra). assert (Q2 : r2 * r2 = q) by (apply sqrt_sqrt; lra).
  assert (NX : scross (vsub B A) (vsub C A) <> 0) by (intros K; apply NC, collinear_cross, K).
  destruct A as [ax ay], B as [bx by_], C as [cx cy]. unfold runif_in_triangle1_. fold r2. unfold scross, vsub, vadd, vscal in *. cbn [fst snd] in *.
  split.
  - intros (u & v & w & Hu & Hv & Hw & E & EM). unfold bary in EM. cbn [fst snd] in EM. injection EM as E1 E2.
    assert (Eu : u = 1 - v - w) by lra. subst u.
    destruct (affine_coords (r2 * (1 - r1)) (r1 * r2) (rs * (v + w * (1 - t))) (rs * w * t) (bx - ax) (by_ - ay) (cx - ax) (cy - ay)) as [F1 F2]; [lra|lra|lra|].
    assert (F3 : r2 = rs * (v + w)) by lra. assert (F4 : r2 * (t - r1) = rs * v * t) by (rewrite F3 at 1; nra).
    split.
    + assert (0 <= r2 * (t - r1)) by (rewrite F4; apply Rmult_le_pos; [apply Rmult_le_pos|]; lra). apply Rnot_lt_le. intros L. nra.
    + rewrite <- Q1, <- Q2. assert (r2 <= rs) by nra. nra.
  - intros [L1 L2]. set (w := r1 * r2 / (rs * t)). set (v := r2 * (t - r1) / (rs * t)).
    assert (Pd : 0 < rs * t) by (apply Rmult_lt_0_compat; auto).
    assert (Hw : 0 <= w) by (apply Rmult_le_pos; [nra|left; apply Rinv_0_lt_compat; auto]).
    assert (Hv : 0 <= v) by (apply Rmult_le_pos; [nra|left; apply Rinv_0_lt_compat; auto]).
    assert (L : r2 <= rs). { apply sqrt_le_1; lra. }
    assert (E : v + w = r2 / rs) by (unfold v, w; field; lra).
    assert (F : v + w <= 1). { rewrite E. apply Rmult_le_reg_r with rs; auto. unfold Rdiv. rewrite Rmult_assoc, Rinv_l by lra. lra. }
    exists (1 - v - w), v, w. split; [lra|]. split; [auto|]. split; [auto|]. split; [ring|]. unfold bary. cbn [fst snd]. unfold v, w. f_equal; field; lra.
Qed.

Lemma area_one A B C s t : 0 < s -> 0 < t ->
  triangle_area A (vadd A (vscal (sqrt s) (vsub B A))) (vadd A (vscal (sqrt s) (vsub (vadd (vscal (1 - t) B) (vscal t C)) A))) = s * t * triangle_area A B C.
Proof.
  intros Hs Ht. unfold triangle_area. destruct A as [ax ay], B as [bx by_], C as [cx cy]. unfold scross, vsub, vadd, vscal. cbn [fst snd].
  pose proof (sqrt_sqrt s ltac:(lra)) as Q. set (rs := sqrt s) in *.
  match goal with |- Rabs ?a / 2 = _ => replace a with (s * t * ((bx - ax) * (cy - ay) - (by_ - ay) * (cx - ax))) by (rewrite <- Q; ring) end.
  rewrite Rabs_mult, (Rabs_right (s * t)) by nra. lra.
Qed.

Lemma triangle_in_even A B C n draws ps s t : ~ collinear A B C -> Forall (fun d => 0 <= fst d < 1 /\ 0 < snd d < 1) draws -> 0 < s <= 1 -> 0 < t <= 1 ->
  triangle_random_points (mkTri A B C) n WhereIn draws = Ok ps ->
  let B' := vadd A (vscal (sqrt s) (vsub B A)) in
  let C' := vadd A (vscal (sqrt s) (vsub (vadd (vscal (1 - t) B) (vscal t C)) A)) in
  triangle_area A B' C' = s * t * triangle_area A B C /\
  Forall2 (fun d M => in_closed_triangle A B' C' M <-> fst d <= t /\ snd d <= s) draws ps.
Proof.
  intros NC HD Hs Ht H B' C'. split; [apply area_one; lra|]. unfold triangle_random_points in H. destruct (n <=? 0)%Z; [discriminate|]. injection H as <-. cbn [tA tB tC].
  apply Forall2_map_r. eapply Forall_impl; [|exact HD]. intros [u q] [H1 H2]. cbn [fst snd] in *. apply in_triangle_one; auto; lra.
Qed.

(** ** On a triangle *)
Lemma dist_val P Q l : 0 <= l -> dist2 P Q = l * l -> dist P Q = l.
Proof. intros Hl E. unfold dist. rewrite E. apply sqrt_square. auto. Qed.

Lemma seg_dist P Q s t l : 0 < l -> dist P Q = l -> 0 <= t <= 1 -> s = 1 - t -> on_segment P Q (vadd (vscal s P) (vscal t Q)) /\ dist P (vadd (vscal s P) (vscal t Q)) = t * l.
Proof.
  intros Hl E Ht ->. split; [apply seg_weights; auto|]. apply dist_val; [nra|]. transitivity (t * t * dist2 P Q).
  - destruct P, Q. unfold dist2, vsub, vadd, vscal, sdot; cbn [fst snd]. ring.
  - assert (K : dist2 P Q = l * l). { rewrite <- E. unfold dist. rewrite sqrt_sqrt; [auto|apply dist2_nonneg]. } rewrite K. ring.
Qed.

Lemma triangle_on_even A B C n draws ps : A <> B -> B <> C -> C <> A -> Forall (fun d => 0 <= fst d < 1) draws ->
  triangle_random_points (mkTri A B C) n WhereOn draws = Ok ps ->
  Forall2 (fun d M => along A B C (fst d * (dist A B + dist B C + dist C A)) M) draws ps.
Proof.
  intros N1 N2 N3 HD H. unfold triangle_random_points in H. destruct (n <=? 0)%Z; [discriminate|]. cbn [tA tB tC] in H. apply mapM_Ok_Forall2 in H.
  eapply Forall2_Forall_l; [|exact HD|exact H]. clear H HD. intros [u v] M Hu E. cbn [fst snd] in *.
  rewrite (distance_dist A B), (distance_dist B C), (distance_dist C A) in E. pose proof (dist_pos A B N1) as P1. pose proof (dist_pos B C N2) as P2. pose proof (dist_pos C A N3) as P3.
  assert (HU : 0 <= u * (dist A B + dist B C + dist C A) <= dist A B + dist B C + dist C A) by nra. set (w := u * (dist A B + dist B C + dist C A)) in *. clearbody w.
  unfold runif_on_triangle1_ in E. rewrite (distance_dist A B), (distance_dist B C), (distance_dist C A) in E.
  assert (DV : forall x y, y <> 0 -> np_div x y = Ok (x / y)) by (intros x y Hy; unfold np_div; destruct (Req_EM_T y 0); [contradiction|auto]).
  assert (FR : forall x l, 0 < l -> 0 <= x <= l -> 0 <= x / l <= 1 /\ x / l * l = x).
  { intros x l Hl Hx. split; [split; [apply Rmult_le_pos; [lra|left; apply Rinv_0_lt_compat; auto]|]|field; lra]. apply Rmult_le_reg_r with l; auto. unfold Rdiv. rewrite Rmult_assoc, Rinv_l by lra. lra. }
  destruct (leb w (dist A B)) eqn:E1; [apply leb_true in E1|apply leb_false in E1; destruct (leb w (dist A B + dist B C)) eqn:E2; [apply leb_true in E2|apply leb_false in E2]];
    rewrite !DV in E by lra; cbn [bind] in E; injection E as <-.
  - left. destruct (FR w (dist A B) P1 ltac:(lra)) as [F1 F2]. destruct (seg_dist A B ((dist A B - w) / dist A B) (w / dist A B) (dist A B) P1 eq_refl F1) as [G1 G2]; [field; lra|]. split; [lra|]. split; [auto|]. rewrite G2. auto.
  - right. left. destruct (FR (w - dist A B) (dist B C) P2 ltac:(lra)) as [F1 F2]. destruct (seg_dist B C ((dist B C - w + dist A B) / dist B C) ((w - dist A B) / dist B C) (dist B C) P2 eq_refl F1) as [G1 G2]; [field; lra|]. split; [lra|]. split; [auto|]. rewrite G2. auto.
  - right. right. destruct (FR (w - dist A B - dist B C) (dist C A) P3 ltac:(lra)) as [F1 F2]. destruct (seg_dist C A ((dist C A - w + dist A B + dist B C) / dist C A) ((w - dist A B - dist B C) / dist C A) (dist C A) P3 eq_refl F1) as [G1 G2]; [field; lra|]. split; [lra|]. split; [auto|]. rewrite G2. auto.
Qed.

(** ** In and on a circle *)
Lemma runif_on_dir r g p : runif_on_circle1_ r g = Ok p -> exists k, 0 < k /\ p = vscal (r * k) g /\ sdot p p = r * r.
Proof.
  intros H. pose proof (runif_on_Ok r g p H) as K. unfold runif_on_circle1_ in H. destruct (eqb (vlength_ g) 0) eqn:E; [discriminate|]. apply eqb_false in E. injection H as <-.
  assert (P : 0 < vlength_ g). { assert (0 <= vlength_ g) by (unfold vlength_; apply sqrt_pos). lra. }
  exists (/ vlength_ g). split; [apply Rinv_0_lt_compat; auto|]. split; [unfold vscal; f_equal; field; lra|exact K].
Qed.

Lemma circle_even c n w draws ps s : 0 < cr c -> Forall (fun d => 0 < fst d < 1) draws -> 0 < s <= 1 -> circle_random_points c n w draws = Ok ps ->
  PI * (sqrt s * cr c) ^ 2 = s * (PI * cr c ^ 2) /\
  Forall2 (fun d M => (exists k, 0 < k /\ M = vadd (cO c) (vscal k (snd d))) /\
    match w with WhereIn => in_disk (cO c) (sqrt s * cr c) M <-> fst d <= s | _ => on_circle (cO c) (cr c) M end) draws ps.
Proof.
  intros Hr HD Hs H. pose proof (sqrt_sqrt s ltac:(lra)) as Q. split; [transitivity (sqrt s * sqrt s * (PI * cr c ^ 2)); [ring|rewrite Q; auto]|].
  unfold circle_random_points in H. destruct (n <=? 0)%Z; [discriminate|]. destruct w; [| |discriminate]; apply mapM_Ok_Forall2 in H; (eapply Forall2_Forall_l; [|exact HD|exact H]); clear H HD; intros [u g] M Hu E; cbn [fst snd] in *.
  - apply bind_Ok in E. destruct E as (p & Ep & E). injection E as <-. unfold runif_in_circle1_ in Ep. apply bind_Ok in Ep. destruct Ep as (q & Eq & Ep). injection Ep as <-.
    destruct (runif_on_dir _ _ _ Eq) as (k & Hk & -> & Hq). assert (Pu : 0 < sqrt u) by (apply sqrt_lt_R0; lra). split.
    + exists (cr c * (sqrt u * k)). split; [repeat apply Rmult_lt_0_compat; auto|]. destruct (cO c), g. unfold vadd, vscal; cbn [fst snd]. f_equal; ring.
    + rewrite sqrt_sqrt in Hq by lra. set (q := vscal (sqrt u * k) g) in *.
      assert (ED : dist2 (cO c) (vadd (vscal (cr c) q) (cO c)) = cr c * cr c * u). { rewrite <- Hq. destruct (cO c), q. unfold dist2, vsub, vadd, vscal, sdot; cbn [fst snd]. ring. }
      unfold in_disk. rewrite (dist_val _ _ (cr c * sqrt u)); [|nra|rewrite ED; transitivity (cr c * cr c * (sqrt u * sqrt u)); [rewrite sqrt_sqrt by lra; auto|ring]].
      split; intros L.
      * apply Rnot_lt_le. intros L'. assert (sqrt s < sqrt u) by (apply sqrt_lt_1; lra). nra.
      * assert (sqrt u <= sqrt s) by (apply sqrt_le_1; lra). nra.
  - apply bind_Ok in E. destruct E as (p & Ep & E). injection E as <-. destruct (runif_on_dir _ _ _ Ep) as (k & Hk & -> & Hq). split.
    + exists (cr c * k). split; [apply Rmult_lt_0_compat; auto|]. destruct (cO c), g. unfold vadd, vscal; cbn [fst snd]. f_equal; ring.
    + unfold on_circle. apply dist_val; [lra|]. rewrite <- Hq. destruct (cO c), g. unfold dist2, vsub, vadd, vscal, sdot; cbn [fst snd]. ring.
Qed.

(** ** In and on an ellipse *)
Lemma ellipse_linear e : 0 < ea e -> 0 < eb e -> exists U S L, shape_matrix e = Ok S /\ cholesky S = Ok L /\
  (forall x, solve_ut L x = Ok (mv2 U x)) /\ (forall x, ell_form (eO e) (ea e) (eb e) (ell_th e) (vadd (mv2 U x) (eO e)) = sdot x x) /\
  Rabs (det2 U) = ea e * eb e /\ m21 U = 0 /\ 0 < m11 U /\ 0 < m22 U.
Proof.
  intros Ha Hb. destruct (shape_matrix_spec e Ha Hb) as (S & HS & Hsym & Hq).
  pose proof (shape_posdef e S Ha Hb Hq) as Hpd. destruct (quad2_pos_det S Hsym Hpd) as [Hp1 Hp2].
  destruct (cholesky_spec S Hsym Hp1 Hp2) as (L & HL & L1 & L2 & L3 & _).
  destruct (ellipse_random_one e S Ha Hb HS) as (L' & HL' & Hone & _). rewrite HL in HL'. injection HL' as <-.
  assert (K : 0 < m11 L * m22 L - m21 L * 0) by nra.
  assert (EU : exists U, inv2 (mkM2 (m11 L) (m21 L) (m12 L) (m22 L)) = Ok U /\ m21 U = 0 /\ 0 < m11 U /\ 0 < m22 U).
  { unfold inv2, det2; cbn [m11 m12 m21 m22]. rewrite L3, (proj2 (eqb_false _ _)) by lra. eexists. split; [reflexivity|]. cbn [m11 m12 m21 m22].
    split; [unfold Rdiv; ring|]. split; (apply Rmult_lt_0_compat; [auto|apply Rinv_0_lt_compat; auto]). }
  destruct EU as (U & EU & U1 & U2 & U3). exists U, S, L.
  assert (HU : forall x, solve_ut L x = Ok (mv2 U x)) by (intros x; unfold solve_ut; rewrite EU; reflexivity).
  assert (HF : forall x, ell_form (eO e) (ea e) (eb e) (ell_th e) (vadd (mv2 U x) (eO e)) = sdot x x).
  { intros x. destruct (Hone x) as (y & Hy & E). rewrite HU in Hy. injection Hy as <-. auto. }
  split; [auto|]. split; [auto|]. split; [auto|]. split; [auto|]. split; [|auto].
  destruct (ell_quad (eO e) (ea e) (eb e) (ell_th e) Ha Hb) as (A & B & C & PA & HD & EF).
  pose proof (HF (1, 0)) as G1. pose proof (HF (0, 1)) as G2. pose proof (HF (1, 1)) as G3. rewrite !EF in *. destruct U as [p q r s], (eO e) as [ox oy]. unfold mv2, vadd, sdot, det2 in *. cbn [m11 m12 m21 m22 fst snd] in *. subst r.
  ring_simplify in G1. ring_simplify in G2. ring_simplify in G3.
  set (ab := ea e * eb e) in *. assert (0 < ab) by (apply Rmult_lt_0_compat; auto).
  assert (E : p * p * (s * s) * (A * C - B * B) = 1) by nra.
  assert (0 < p * s) by nra. rewrite Rabs_right by lra.
  assert (E2 : (p * s - ab) * (p * s + ab) * (A * C - B * B) = 0) by lra.
  assert (0 < A * C - B * B) by nra. apply Rmult_integral in E2. destruct E2 as [E2|E2]; [|lra]. apply Rmult_integral in E2. destruct E2; lra.
Qed.

Lemma mapM_bind_map {X Y Z} (f : X -> res Y) (g : X -> res Z) (h : Z -> Y) l ys : (forall x y, f x = Ok y -> exists z, g x = Ok z /\ y = h z) -> mapM f l = Ok ys ->
  exists zs, mapM g l = Ok zs /\ ys = map h zs.
Proof.
  intros H. revert ys. induction l as [|x l IH]; cbn [mapM]; intros ys E.
  - injection E as <-. exists []. auto.
  - apply bind_Ok in E. destruct E as (y & Ey & E). apply bind_Ok in E. destruct E as (ys' & Ey' & E). injection E as <-.
    destruct (H x y Ey) as (z & Ez & ->). destruct (IH _ Ey') as (zs & Ezs & ->). exists (z :: zs). rewrite Ez. cbn [bind]. rewrite Ezs. auto.
Qed.

Lemma ellipse_even e : 0 < ea e -> 0 < eb e -> exists p q r s, Rabs (p * s - q * r) = ea e * eb e /\
  (forall M, ell_form (eO e) (ea e) (eb e) (ell_th e) (fst (eO e) + (p * fst M + q * snd M), snd (eO e) + (r * fst M + s * snd M)) = sdot M M) /\
  forall n w draws ps, ellipse_random_points e n w draws = Ok ps -> exists qs,
    circle_random_points (mkCircle (0, 0) 1) n w draws = Ok qs /\
    ps = map (fun M => (fst (eO e) + (p * fst M + q * snd M), snd (eO e) + (r * fst M + s * snd M))) qs.
Proof.
  intros Ha Hb. destruct (ellipse_linear e Ha Hb) as (U & S & L & HS & HL & HU & HF & HD & _). exists (m11 U), (m12 U), (m21 U), (m22 U). split; [exact HD|].
  assert (EP : forall M, vadd (mv2 U M) (eO e) = (fst (eO e) + (m11 U * fst M + m12 U * snd M), snd (eO e) + (m21 U * fst M + m22 U * snd M))).
  { intros M. destruct (eO e), M. unfold vadd, mv2; cbn [fst snd]. f_equal; ring. }
  split; [intros M; rewrite <- EP; apply HF|].
  intros n w draws ps H. unfold ellipse_random_points in H. unfold circle_random_points. destruct (n <=? 0)%Z; [discriminate|]. rewrite HS in H. cbn [bind cr cO] in *.
  assert (V0 : forall x : pt, vadd x (0, 0) = x) by (intros [x y]; unfold vadd; cbn [fst snd]; f_equal; ring).
  destruct w; [| |discriminate]; (eapply mapM_bind_map; [|exact H]); intros [u g] y E; cbn [fst snd] in *; apply bind_Ok in E; destruct E as (x & Ex & E); rewrite HL in E; cbn [bind] in E; rewrite HU in E; cbn [bind] in E; injection E as <-; rewrite Ex; cbn [bind]; exists x; rewrite V0, EP; auto.
Qed.

(** the ellipse with horizontal axis: the parameter of the point is the angle of the normal pair *)
Lemma ellipse_on_param e u k t : 0 < ea e -> 0 < eb e -> ealpha e = 0 -> 0 < k ->
  ellipse_random_points e 1 WhereOn [(u, (k * cos t, k * sin t))] = Ok [(fst (eO e) + ea e * cos t, snd (eO e) + eb e * sin t)].
Proof.
  intros Ha Hb Hz Hk. destruct (ellipse_linear e Ha Hb) as (U & S & L & HS & HL & HU & HF & _ & U1 & U2 & U3).
  assert (Th : ell_th e = 0) by (unfold ell_th, radians, deg; rewrite Hz; destruct (edeg e); [field|reflexivity]).
  pose proof (HF (1, 0)) as G1. pose proof (HF (0, 1)) as G2. pose proof (HF (1, 1)) as G3. rewrite Th in *. unfold ell_form, fx, fy in G1, G2, G3. rewrite cos_0, sin_0 in G1, G2, G3.
  destruct U as [p q r s], (eO e) as [ox oy] eqn:EO. unfold mv2, vadd, sdot in G1, G2, G3. cbn [m11 m12 m21 m22 fst snd] in *. subst r.
  assert (Sq : forall x l, 0 < l -> (x / l) ^ 2 = x * x / (l * l)) by (intros; field; lra).
  assert (E1 : (p / ea e) ^ 2 = 1) by (rewrite <- (Rplus_0_r ((p / ea e) ^ 2)); transitivity (1 * 1 + 0 * 0); [rewrite <- G1; f_equal; [f_equal; field; lra|field; lra]|ring]).
  assert (E2 : (q / ea e) ^ 2 + (s / eb e) ^ 2 = 1) by (transitivity (0 * 0 + 1 * 1); [rewrite <- G2; f_equal; f_equal; field; lra|ring]).
  assert (E3 : ((p + q) / ea e) ^ 2 + (s / eb e) ^ 2 = 2) by (transitivity (1 * 1 + 1 * 1); [rewrite <- G3; f_equal; f_equal; field; lra|ring]).
  assert (F1 : 0 < p / ea e) by (apply Rmult_lt_0_compat; [auto|apply Rinv_0_lt_compat; auto]). assert (F3 : 0 < s / eb e) by (apply Rmult_lt_0_compat; [auto|apply Rinv_0_lt_compat; auto]).
  replace ((p + q) / ea e) with (p / ea e + q / ea e) in E3 by (field; lra).
  assert (K1 : p / ea e = 1) by nra. assert (K2 : q / ea e = 0) by (rewrite K1 in E3; nra). assert (K3 : s / eb e = 1) by (rewrite K2 in E2; nra).
  assert (p = ea e) by (replace p with (p / ea e * ea e) by (field; lra); rewrite K1; ring). assert (q = 0) by (replace q with (q / ea e * ea e) by (field; lra); rewrite K2; ring). assert (s = eb e) by (replace s with (s / eb e * eb e) by (field; lra); rewrite K3; ring). subst p q s.
  unfold ellipse_random_points. change (1 <=? 0)%Z with false. cbn [mapM fst snd]. rewrite HS. cbn [bind].
  assert (NV : vlength_ (k * cos t, k * sin t) = k).
  { unfold vlength_, dot_; cbn [fst snd]. replace (k * cos t * (k * cos t) + k * sin t * (k * sin t)) with (k * k) by (pose proof (cs1 t); nra). apply sqrt_square. lra. }
  unfold runif_on_circle1_. rewrite NV, (proj2 (eqb_false k 0)) by lra. cbn [bind fst snd]. rewrite HL. cbn [bind]. rewrite HU. cbn [bind]. rewrite EO. unfold vadd, mv2; cbn [fst snd m11 m12 m21 m22]. do 3 f_equal; field; lra.
Qed.

(** the length of a line through points of the arc *)
Lemma dist_le_sum P Q : dist P Q <= Rabs (fst Q - fst P) + Rabs (snd Q - snd P).
Proof.
  unfold dist, dist2, sdot, vsub; cbn [fst snd]. set (x := fst Q - fst P). set (y := snd Q - snd P). pose proof (Rabs_pos x). pose proof (Rabs_pos y).
  rewrite <- (sqrt_square (Rabs x + Rabs y)) by lra. apply sqrt_le_1.
  - nra.
  - nra.
  - assert (Rabs x * Rabs x = x * x) by (rewrite <- Rabs_mult; apply Rabs_right; nra). assert (Rabs y * Rabs y = y * y) by (rewrite <- Rabs_mult; apply Rabs_right; nra). nra.
Qed.

Lemma polyline_arc ox oy a b l : 0 < a -> 0 < b -> forall lo hi, 0 <= lo -> hi <= PI / 2 -> increasing lo hi l ->
  polyline ((ox + a * cos lo, oy + b * sin lo) :: map (fun t => (ox + a * cos t, oy + b * sin t)) l) <= a * (cos lo - cos hi) + b * (sin hi - sin lo).
Proof.
  intros Ha Hb. pose proof PI_RGT_0 as HP.
  assert (M : forall x y, 0 <= x -> x <= y -> y <= PI / 2 -> 0 <= a * (cos x - cos y) /\ 0 <= b * (sin y - sin x)).
  { intros x y H1 H2 H3. assert (cos y <= cos x) by (apply cos_decr_1; lra). assert (sin x <= sin y) by (apply sin_incr_1; lra). split; apply Rmult_le_pos; lra. }
  induction l as [|t l IH]; intros lo hi H0 H1 H; cbn [increasing map] in *.
  - cbn [polyline]. destruct (M lo hi H0 H H1). lra.
  - destruct H as [H2 H3]. assert (H4 : t <= hi). { clear - H3. revert t H3. induction l as [|t' l IH]; intros t H; cbn [increasing] in H; [auto|]. destruct H as [Q1 Q2]. apply IH in Q2. lra. }
    change (polyline ((ox + a * cos lo, oy + b * sin lo) :: (ox + a * cos t, oy + b * sin t) :: map (fun t => (ox + a * cos t, oy + b * sin t)) l)) with (dist (ox + a * cos lo, oy + b * sin lo) (ox + a * cos t, oy + b * sin t) + polyline ((ox + a * cos t, oy + b * sin t) :: map (fun t => (ox + a * cos t, oy + b * sin t)) l)).
    pose proof (IH t hi ltac:(lra) H1 H3) as K. pose proof (dist_le_sum (ox + a * cos lo, oy + b * sin lo) (ox + a * cos t, oy + b * sin t)) as D. cbn [fst snd] in D.
    destruct (M lo t H0 H2 ltac:(lra)) as [M1 M2].
    replace (ox + a * cos t - (ox + a * cos lo)) with (- (a * (cos lo - cos t))) in D by ring. rewrite Rabs_Ropp, (Rabs_right (a * _)) in D by lra. replace (oy + b * sin t - (oy + b * sin lo)) with (b * (sin t - sin lo)) in D by ring. rewrite (Rabs_right (b * _)) in D by lra. lra.
Qed.

Lemma ellipse_on_uneven e l : 0 < eb e -> 2 * eb e <= ea e ->
  increasing 0 (PI / 4) l -> let P t := (fst (eO e) + ea e * cos t, snd (eO e) + eb e * sin t) in
  polyline (map P l) <= 7 / 10 * ea e /\ 7 / 10 * ea e < dist (P (PI / 4)) (P (PI / 2)).
Proof.
  intros Hb Hab H P. pose proof PI_RGT_0 as HP. pose proof sqrt2_neq_0 as S0. assert (S2 : sqrt 2 * sqrt 2 = 2) by (apply sqrt_sqrt; lra). assert (SP : 0 < sqrt 2) by (apply sqrt_lt_R0; lra).
  assert (B1 : 1.41 < sqrt 2 < 1.42) by (split; nra).
  assert (I2 : 1 / sqrt 2 = sqrt 2 / 2) by (field_simplify_eq; [lra|auto]).
  split.
  - destruct l as [|t l]; [cbn [map polyline]; lra|]. cbn [increasing] in H. destruct H as [H1 H2].
    assert (H4 : t <= PI / 4). { clear - H2. revert t H2. induction l as [|t' l IH]; intros t H; cbn [increasing] in H; [auto|]. destruct H as [Q1 Q2]. apply IH in Q2. lra. }
    pose proof (polyline_arc (fst (eO e)) (snd (eO e)) (ea e) (eb e) l ltac:(lra) Hb t (PI / 4) H1 ltac:(lra) H2) as K. cbn [map]. unfold P at 1. eapply Rle_trans; [exact K|].
    assert (cos t <= 1) by (pose proof (COS_bound t); lra). assert (0 <= sin t) by (apply sin_ge_0; lra). rewrite cos_PI4, sin_PI4, I2.
    assert (ea e * (cos t - sqrt 2 / 2) <= ea e * (1 - sqrt 2 / 2)) by (apply Rmult_le_compat_l; lra). assert (eb e * (sqrt 2 / 2 - sin t) <= eb e * (sqrt 2 / 2)) by (apply Rmult_le_compat_l; lra).
    assert (ea e * (1 - sqrt 2 / 2) <= ea e * (295 / 1000)) by (apply Rmult_le_compat_l; lra). assert (eb e * (sqrt 2 / 2) <= eb e * (71 / 100)) by (apply Rmult_le_compat_l; lra). lra.
  - unfold P. rewrite cos_PI4, sin_PI4, cos_PI2, sin_PI2, I2. unfold dist, dist2, sdot, vsub; cbn [fst snd]. apply Rsqr_incrst_0; [|lra|apply sqrt_pos]. unfold Rsqr. rewrite sqrt_sqrt by nra. nra.
Qed.
