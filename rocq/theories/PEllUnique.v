(** * An ellipse is determined by its points. *)

From Coq Require Import Reals Lra Psatz.
From Verif Require Import Base BaseLemmas Spec SpecLemmas ModelInternal ModelLine ModelCircle ModelAffine ModelEllipse ModelTransfo
  PAffine PEllipse PEllipse2 PEllipse3 PEllipse4 PBoundary4b PLowner1 PAffEq PAffEq2.
Local Open Scope R_scope.

(** the quadratic form *)
Lemma ell_quad_full O a b th : 0 < a -> 0 < b -> exists A B C, 0 < A /\ 0 < A * C - B * B /\ A * C - B * B = / (a * a * (b * b)) /\ A + C = / (a * a) + / (b * b) /\
  A - C = cos (2 * th) * (/ (a * a) - / (b * b)) /\ 2 * B = sin (2 * th) * (/ (a * a) - / (b * b)) /\
  forall M, ell_form O a b th M = qf A B C (fst M - fst O) (snd M - snd O).
Proof.
  intros Ha Hb. pose proof (sin2_cos2 th) as E. unfold Rsqr in E. pose proof (cos_2a th) as E2. pose proof (sin_2a th) as E3.
  exists (cos th * cos th / (a * a) + sin th * sin th / (b * b)), (cos th * sin th / (a * a) - cos th * sin th / (b * b)), (sin th * sin th / (a * a) + cos th * cos th / (b * b)).
  rewrite E2, E3. set (c := cos th) in *. set (s := sin th) in *.
  assert (Dt : (c * c / (a * a) + s * s / (b * b)) * (s * s / (a * a) + c * c / (b * b)) - (c * s / (a * a) - c * s / (b * b)) * (c * s / (a * a) - c * s / (b * b)) = / (a * a * (b * b))).
  { transitivity ((s * s + c * c) * (s * s + c * c) / (a * a * (b * b))); [field; lra|rewrite E; field; lra]. }
  split.
  { destruct (Req_dec c 0) as [Z|Z].
    - assert (0 < s * s) by (rewrite Z in E; lra). rewrite Z. assert (0 < s * s / (b * b)) by (apply Rdiv_lt_0_compat; [lra|apply Rmult_lt_0_compat; auto]). unfold Rdiv in *. lra.
    - assert (0 < c * c) by (apply sqpos; auto). assert (0 < c * c / (a * a)) by (apply Rdiv_lt_0_compat; [lra|apply Rmult_lt_0_compat; auto]).
      assert (0 <= s * s / (b * b)). { apply Rmult_le_pos; [apply sqnn|]. left. apply Rinv_0_lt_compat, Rmult_lt_0_compat; auto. } lra. }
  split. { rewrite Dt. apply Rinv_0_lt_compat. repeat apply Rmult_lt_0_compat; auto. }
  split; [exact Dt|]. split. { transitivity ((s * s + c * c) / (a * a) + (s * s + c * c) / (b * b)); [field; lra|rewrite E; field; lra]. }
  split; [field; lra|]. split; [field; lra|]. intros M. unfold ell_form, fx, fy, qf. fold c s. field; lra.
Qed.

Lemma qf_scale A B C k x y : qf A B C (k * x) (k * y) = k * k * qf A B C x y.
Proof. unfold qf. ring. Qed.

(** two positive forms with the same unit conic *)
Lemma same_conic A B C A' B' C' wx wy : 0 < A -> 0 < A * C - B * B -> 0 < A' -> 0 < A' * C' - B' * B' ->
  (forall x y, qf A B C x y = 1 -> qf A' B' C' (x + wx) (y + wy) = 1) -> wx = 0 /\ wy = 0 /\ A = A' /\ B = B' /\ C = C'.
Proof.
  intros HA HD HA' HD' H.
  assert (U : forall x y, (x <> 0 \/ y <> 0) -> exists k, 0 < k /\ qf A B C (k * x) (k * y) = 1).
  { intros x y N. assert (P : 0 < qf A B C x y). { destruct (Rle_or_lt (qf A B C x y) 0) as [K|K]; auto. destruct (qf_zero A B C x y HA HD K). lra. }
    exists (/ sqrt (qf A B C x y)). assert (S : 0 < sqrt (qf A B C x y)) by (apply sqrt_lt_R0; auto). split; [apply Rinv_0_lt_compat; auto|].
    rewrite qf_scale. pose proof (sqrt_sqrt (qf A B C x y)) as E. set (q := qf A B C x y) in *. set (r := sqrt q) in *. clearbody r. rewrite <- E by lra. field. lra. }
  assert (W : wx = 0 /\ wy = 0).
  { destruct (Req_dec wx 0) as [Zx|Zx]; [destruct (Req_dec wy 0) as [Zy|Zy]; [auto|]|]; exfalso.
    all: destruct (U wx wy) as (k & Pk & Ek); [auto|]; pose proof (H _ _ Ek) as H1; assert (Ek' : qf A B C (- (k * wx)) (- (k * wy)) = 1) by (rewrite <- Ek; unfold qf; ring); pose proof (H _ _ Ek') as H2.
    all: assert (P : 0 < qf A' B' C' wx wy) by (destruct (Rle_or_lt (qf A' B' C' wx wy) 0) as [K|K]; auto; destruct (qf_zero A' B' C' wx wy HA' HD' K); lra).
    all: assert (E4 : 4 * k * qf A' B' C' wx wy = qf A' B' C' (k * wx + wx) (k * wy + wy) - qf A' B' C' (- (k * wx) + wx) (- (k * wy) + wy)) by (unfold qf; ring).
    all: rewrite H1, H2 in E4; assert (0 < k * qf A' B' C' wx wy) by (apply Rmult_lt_0_compat; auto); lra. }
  destruct W as [-> ->]. split; [auto|]. split; [auto|].
  assert (Q : forall x y, (x <> 0 \/ y <> 0) -> qf A B C x y = qf A' B' C' x y).
  { intros x y N. destruct (U x y N) as (k & Pk & Ek). pose proof (H _ _ Ek) as H1. rewrite !Rplus_0_r in H1. rewrite qf_scale in Ek, H1. apply Rmult_eq_reg_l with (k * k); [lra|]. assert (0 < k * k) by (apply Rmult_lt_0_compat; auto). lra. }
  pose proof (Q 1 0 (or_introl R1_neq_R0)) as Q1. pose proof (Q 0 1 (or_intror R1_neq_R0)) as Q2. pose proof (Q 1 1 (or_introl R1_neq_R0)) as Q3. unfold qf in *. repeat split; lra.
Qed.

Lemma angle_unique u v : -PI < u - v < PI -> cos (2 * u) = cos (2 * v) -> sin (2 * u) = sin (2 * v) -> u = v.
Proof.
  intros Hr Hc Hs. assert (E : cos (2 * (u - v)) = 1). { replace (2 * (u - v)) with (2 * u - 2 * v) by ring. rewrite cos_minus, Hc, Hs. pose proof (sin2_cos2 (2 * v)) as K. unfold Rsqr in K. lra. }
  rewrite cos_2a_sin in E. assert (S : sin (u - v) * sin (u - v) = 0) by lra. apply Rmult_integral in S. assert (Z : sin (u - v) = 0) by tauto.
  destruct (Rtotal_order (u - v) 0) as [L|[L|L]]; [|lra|].
  - pose proof (sin_gt_0 (- (u - v))) as K. rewrite sin_neg in K. lra.
  - pose proof (sin_gt_0 (u - v)) as K. lra.
Qed.

Lemma ellipse_unique O a b th O' a' b' th' : 0 < b <= a -> 0 < b' <= a' -> (forall M, on_ellipse O a b th M -> on_ellipse O' a' b' th' M) ->
  O = O' /\ a = a' /\ b = b' /\ (forall M, ell_form O a b th M = ell_form O' a' b' th' M) /\ (b < a -> cos (2 * th) = cos (2 * th') /\ sin (2 * th) = sin (2 * th')).
Proof.
  intros H1 H2 H. destruct (ell_quad_full O a b th) as (A & B & C & PA & PD & ED & ET & EC & ES & EF); try lra. destruct (ell_quad_full O' a' b' th') as (A' & B' & C' & PA' & PD' & ED' & ET' & EC' & ES' & EF'); try lra.
  destruct (same_conic A B C A' B' C' (fst O - fst O') (snd O - snd O') PA PD PA' PD') as (W1 & W2 & -> & -> & ->).
  { intros x y Q. specialize (H (fst O + x, snd O + y)). unfold on_ellipse in H. rewrite EF, EF' in H. cbn [fst snd] in H. rewrite <- H; [f_equal; ring|]. rewrite <- Q. f_equal; ring. }
  assert (EO : O = O') by (destruct O, O'; cbn [fst snd] in *; f_equal; lra). subst O'.
  assert (EM : forall M, ell_form O a b th M = ell_form O a' b' th' M) by (intros M; rewrite EF, EF'; auto).
  assert (P1 : a * a * (b * b) = a' * a' * (b' * b')). { rewrite <- (Rinv_inv (a * a * (b * b))), <- (Rinv_inv (a' * a' * (b' * b'))). f_equal. lra. }
  assert (P2 : a * a + b * b = a' * a' + b' * b').
  { transitivity (a * a * (b * b) * (/ (a * a) + / (b * b))); [field; lra|]. transitivity (a' * a' * (b' * b') * (/ (a' * a') + / (b' * b'))); [|field; lra]. rewrite P1, <- ET, <- ET'. auto. }
  destruct (axes_unique a b a' b' H1 H2 P2 P1) as [-> ->]. split; [auto|]. split; [auto|]. split; [auto|]. split; [auto|].
  intros Hlt. assert (N : / (a' * a') - / (b' * b') <> 0). { assert (/ (a' * a') < / (b' * b')) by (apply Rinv_lt_contravar; [repeat apply Rmult_lt_0_compat; lra|nra]). lra. }
  split; apply Rmult_eq_reg_r with (/ (a' * a') - / (b' * b')); lra.
Qed.

(** ** Objects *)
Lemma object_unique e e' : 0 < eb e <= ea e -> 0 < eb e' <= ea e' -> edeg e = edeg e' ->
  0 <= ealpha e < (if edeg e then 180 else PI) -> 0 <= ealpha e' < (if edeg e' then 180 else PI) ->
  (forall M, on_e e M -> on_e e' M) -> (ea e = eb e -> ealpha e = 0) -> (ea e' = eb e' -> ealpha e' = 0) -> e = e'.
Proof.
  intros H1 H2 Hd R1 R2 H C1 C2. destruct (ellipse_unique _ _ _ _ _ _ _ _ H1 H2 H) as (EO & Ea & Eb & _ & HT).
  assert (Eal : ealpha e = ealpha e').
  { destruct (Rle_lt_or_eq_dec (eb e) (ea e) (proj2 H1)) as [L|L]; [|rewrite C1, C2; auto; lra]. destruct (HT L) as [T1 T2].
    unfold ell_th in T1, T2. rewrite <- Hd in *. pose proof PI_RGT_0 as HP. destruct (edeg e).
    - assert (E : radians true (ealpha e) = radians true (ealpha e')). { apply angle_unique; auto. assert (P180 : 0 < PI / 180) by lra. replace (radians true (ealpha e) - radians true (ealpha e')) with ((ealpha e - ealpha e') * (PI / 180)) by (unfold radians, deg; field).
        assert (X1 : -180 * (PI / 180) < (ealpha e - ealpha e') * (PI / 180)) by (apply Rmult_lt_compat_r; lra). assert (X2 : (ealpha e - ealpha e') * (PI / 180) < 180 * (PI / 180)) by (apply Rmult_lt_compat_r; lra). lra. }
      unfold radians, deg in E. apply Rmult_eq_reg_r with (PI / 180); [lra|]. intros K. apply Rmult_integral in K. destruct K; lra.
    - apply angle_unique; auto. lra. }
  destruct e as [o a b al d], e' as [o' a' b' al' d']. cbn [eO ea eb ealpha edeg] in *. subst. auto.
Qed.

Lemma ell_of_conic_round k d e : ell_of_conic k d = Ok (Some e) -> ea e = eb e -> ealpha e = 0.
Proof.
  destruct k as [[[[[A B] C] D] E] F]. unfold ell_of_conic, py_sqrt, np_sqrt, np_div. set (k := 2 * (A * E * E + C * D * D - B * D * E + (B * B - 4 * A * C) * F)). clearbody k.
  destruct (Rlt_dec ((A - C) ^ 2 + B * B) 0) as [|N0]; [discriminate|]. cbn [bind].
  pose proof (sqrt_pos ((A - C) ^ 2 + B * B)) as Hs. pose proof (sqrt_sqrt ((A - C) ^ 2 + B * B)) as Hss. set (s := sqrt ((A - C) ^ 2 + B * B)) in *.
  destruct (Rlt_dec (k * (A + C + s)) 0) as [|N1]; [discriminate|]. cbn [bind]. destruct (Rlt_dec (k * (A + C + - s)) 0) as [|N2]; [discriminate|]. cbn [bind].
  destruct (Req_EM_T (B * B - 4 * A * C) 0) as [|N3]; [discriminate|]. cbn [bind]. set (Dl := B * B - 4 * A * C) in *.
  destruct (Ellipse_init _ _ _ _ _) as [e0|] eqn:EI; [|discriminate]. cbn [bind]. intros X. injection X as <-.
  unfold Ellipse_init in EI. destruct (leb (- sqrt (k * (A + C + s)) / Dl) 0) eqn:L1; [discriminate|]. destruct (leb (- sqrt (k * (A + C + - s)) / Dl) 0); [discriminate|]. injection EI as <-. cbn [ea eb ealpha].
  intros Eab. apply leb_false in L1. assert (Es : sqrt (k * (A + C + s)) = sqrt (k * (A + C + - s))).
  { apply Rmult_eq_reg_r with (- / Dl); [unfold Rdiv in *; lra|]. intros Z. assert (/ Dl <> 0) by (apply Rinv_neq_0_compat; auto). lra. }
  apply sqrt_inj in Es; try lra. assert (Z : k * s = 0) by lra. apply Rmult_integral in Z. destruct Z as [Z|Z].
  { rewrite Z, Rmult_0_l, sqrt_0 in L1. unfold Rdiv in L1. lra. }
  rewrite Z in *. assert (Q : (A - C) * (A - C) + B * B = 0) by lra. assert (B = 0 /\ A - C = 0) by (pose proof (sqnn (A - C)); pose proof (sqnn B); split; nra). destruct H as [-> H].
  replace (C - A - 0) with 0 by lra. rewrite atan2_00. destruct d; [rewrite (pymod_unique _ 180 0 0)|rewrite (pymod_unique _ PI 0 0)]; auto; try lra; pose proof PI_RGT_0 as HP; try (split; lra); try (field; lra); apply HP.
Qed.
