(** * The steps of from_boundary4. *)

From Coq Require Import Reals Lra Lia Psatz List Bool.
From Verif Require Import Base BaseLemmas Spec SpecLemmas ModelInternal ModelLine ModelCircle ModelAffine ModelEllipse ModelBoundary4
  PLine PTransfo PEllipse PEllipse5 PEllipse6 PBoundary4a PBoundary4b.
Import ListNotations.
Local Open Scope R_scope.

Ltac pteq := apply injective_projections; cbn [fst snd].

Lemma solve2_ok M x b : det2 M <> 0 -> mv2 M x = b -> solve2 M b = Ok x.
Proof.
  intros Hd <-. unfold solve2, inv2. unfold eqb. destruct (Req_EM_T (det2 M) 0) as [Z|_]; [contradiction|]. cbn [bind]. f_equal.
  destruct M as [a b c d], x as [x y]. unfold mv2, det2 in *; cbn [m11 m12 m21 m22 fst snd] in *. pteq; field; auto.
Qed.

Lemma solve2_sing M b : det2 M = 0 -> solve2 M b = Raise LinAlgError.
Proof. intros H. unfold solve2, inv2, eqb. rewrite H. destruct (Req_EM_T 0 0); [reflexivity|contradiction]. Qed.

Lemma solve3_ok M b1 b2 b3 : det3 M <> 0 -> exists x y z, solve3 M b1 b2 b3 = Ok (x, y, z) /\
  n11 M * x + n12 M * y + n13 M * z = b1 /\ n21 M * x + n22 M * y + n23 M * z = b2 /\ n31 M * x + n32 M * y + n33 M * z = b3.
Proof.
  intros Hd. unfold solve3, inv3, eqb. destruct (Req_EM_T (det3 M) 0) as [Z|_]; [contradiction|]. cbn [bind].
  do 3 eexists. split; [reflexivity|]. destruct M as [a b c d e f g h i]. unfold det3 in *; cbn [n11 n12 n13 n21 n22 n23 n31 n32 n33] in *.
  repeat split; field; auto.
Qed.

Lemma circle_ok z0 z1 z2 : br z0 z1 z2 <> 0 -> exists c r, b4_circle z0 z1 z2 = Ok (c, r) /\ 0 < r /\
  dist2 c z0 = r * r /\ dist2 c z1 = r * r /\ dist2 c z2 = r * r.
Proof.
  intros Hb. unfold b4_circle.
  destruct (solve3_ok (mkM3 (-2 * fst z0) (-2 * snd z0) 1 (-2 * fst z1) (-2 * snd z1) 1 (-2 * fst z2) (-2 * snd z2) 1)
     (- (fst z0 ^ 2 + snd z0 ^ 2)) (- (fst z1 ^ 2 + snd z1 ^ 2)) (- (fst z2 ^ 2 + snd z2 ^ 2))) as (c1 & c2 & s & E & E0 & E1 & E2).
  { replace (det3 _) with (4 * br z0 z1 z2); [lra|]. unfold det3, br, scross, vsub; cbn [n11 n12 n13 n21 n22 n23 n31 n32 n33 fst snd]. ring. }
  rewrite E. cbn [bind]. cbn [n11 n12 n13 n21 n22 n23 n31 n32 n33] in E0, E1, E2.
  assert (D : forall z, -2 * fst z * c1 + -2 * snd z * c2 + 1 * s = - (fst z ^ 2 + snd z ^ 2) -> dist2 (c1, c2) z = c1 ^ 2 + c2 ^ 2 - s).
  { intros z Hz. unfold dist2, sdot, vsub; cbn [fst snd]. lra. }
  apply D in E0, E1, E2. set (v := c1 ^ 2 + c2 ^ 2 - s) in *. clearbody v.
  assert (Hv : 0 < v).
  { destruct (Rlt_dec 0 v) as [|N]; auto. exfalso. apply Hb.
    assert (P : forall z, dist2 (c1, c2) z = v -> z = (c1, c2)).
    { intros z Hz. unfold dist2, sdot, vsub in Hz; cbn [fst snd] in Hz. pose proof (sqnn (fst z - c1)) as S1. pose proof (sqnn (snd z - c2)) as S2. pteq.
      - assert (Q : (fst z - c1) * (fst z - c1) = 0) by lra. apply Rmult_integral in Q. lra.
      - assert (Q : (snd z - c2) * (snd z - c2) = 0) by lra. apply Rmult_integral in Q. lra. }
    rewrite (P z0 E0), (P z1 E1), (P z2 E2). unfold br, scross, vsub; cbn [fst snd]. ring. }
  exists (c1, c2), (sqrt v). unfold py_sqrt. destruct (Rlt_dec v 0); [lra|]. cbn [bind]. split; [reflexivity|]. split; [apply sqrt_lt_R0; auto|].
  rewrite sqrt_sqrt by lra. auto.
Qed.

Lemma norm_x x : norm_row (x, 0) = Rabs x.
Proof. unfold norm_row; cbn [fst snd]. replace (x ^ 2 + 0 ^ 2) with (Rsqr x) by (unfold Rsqr; ring). apply sqrt_Rsqr_abs. Qed.
Lemma norm_y y : norm_row (0, y) = Rabs y.
Proof. unfold norm_row; cbn [fst snd]. replace (0 ^ 2 + y ^ 2) with (Rsqr y) by (unfold Rsqr; ring). apply sqrt_Rsqr_abs. Qed.

Definition bK (a0 a2 : R) : R := a0 * a2.
Definition bU (a0 a2 : R) : R := (a2 - a0) / 2.
Definition bW (a0 a1 a2 : R) : R := (a1 - a0 * a2 / a1) / 2.

Definition swing_mat (z : R) : mat2 := mkM2 (/ sqrt (sqrt (1 - z * z))) (z * / sqrt (sqrt (1 - z * z))) 0 (sqrt (sqrt (1 - z * z))).

Lemma swing_ok roots a0 a1 a2 : is_roots roots -> 0 < a0 -> 0 < a1 -> 0 < a2 -> exists z p q,
  b4_swing roots a0 a1 a2 = Ok (swing_mat z) /\ -1 < z < 1 /\ p <= -1 /\ 1 <= q /\
  forall x, gcub (bK a0 a2) (bU a0 a2) (bW a0 a1 a2) x = - (bK a0 a2) * (x - p) * (x - q) * (x - z).
Proof.
  intros HR H0 H1 H2. set (K := bK a0 a2). set (U := bU a0 a2). set (W := bW a0 a1 a2).
  assert (HK : 0 < K) by (unfold K, bK; apply Rmult_lt_0_compat; auto).
  unfold b4_swing, b4_coeff. cbv beta iota zeta.
  assert (G : forall x, -4 * a1 ^ 2 * a2 * a0 * x ^ 3 + -4 * a1 * (a2 - a0) * (a1 ^ 2 - a2 * a0) * x ^ 2 +
     (3 * a1 ^ 2 * (a1 ^ 2 + a2 ^ 2) - 8 * a1 ^ 2 * a2 * a0 + 3 * (a1 ^ 2 + a2 ^ 2) * a0 ^ 2) * x + -4 * a1 * (a2 - a0) * (a1 ^ 2 - a2 * a0) / 2
     = 4 * a1 ^ 2 * gcub K U W x) by (intros x; unfold gcub, K, U, W, bK, bU, bW; field; lra).
  assert (A1 : 0 < a1 ^ 2) by (apply pow_lt; auto).
  destruct (HR (-4 * a1 ^ 2 * a2 * a0) (-4 * a1 * (a2 - a0) * (a1 ^ 2 - a2 * a0)) (3 * a1 ^ 2 * (a1 ^ 2 + a2 ^ 2) - 8 * a1 ^ 2 * a2 * a0 + 3 * (a1 ^ 2 + a2 ^ 2) * a0 ^ 2) (-4 * a1 * (a2 - a0) * (a1 ^ 2 - a2 * a0) / 2)) as (r1 & r2 & r3 & E & F).
  { assert (0 < a1 ^ 2 * a2 * a0); [|lra]. apply pos3; auto. }
  { destruct (three_roots K U W HK) as (r1 & r2 & r3 & F). exists r1, r2, r3. intros x. rewrite G, F. unfold K, bK. ring. }
  rewrite E. destruct (roots_place K U W HK r1 r2 r3) as (z & p & q & Ef & Hz & Hp & Hq & Hg).
  { intros x. specialize (F x). rewrite G in F. apply Rmult_eq_reg_l with (4 * a1 ^ 2); [|lra]. rewrite F. unfold K, bK. ring. }
  rewrite Ef. exists z, p, q. split; [|auto]. unfold swing_mat. rewrite sin_asin, cos_asin by lra. reflexivity.
Qed.

Section sorted.
Variables (X u v : pt) (s t : R).
Hypothesis Hk : scross u v <> 0.
Let p0 := vsub X (vscal s u).
Let p2 := vadd X (vscal (1 - s) u).
Let p1 := vsub X (vscal t v).
Let p3 := vadd X (vscal (1 - t) v).
Let l := sqrt (fst u * fst u + snd u * snd u).
Let k := scross u v / l.
Let e := sdot u v / l.
Let d := Rabs (- t * k) * Rabs ((1 - t) * k) / (Rabs ((1 - s) * l) * Rabs (- s * l)).
Let q := sqrt (sqrt d).

Lemma diag_ok : b4_diag p0 p1 p2 p3 = Ok X.
Proof.
  unfold b4_diag. rewrite (solve2_ok _ (s, t)).
  - cbn [bind fst]. f_equal. unfold p0, p2. destruct X, u. unfold vadd, vsub, vscal; cbn [fst snd]. pteq; ring.
  - replace (det2 _) with (- scross u v); [lra|]. unfold p0, p1, p2, p3. destruct X, u, v. unfold det2, cols, scross, vadd, vsub, vscal; cbn [m11 m12 m21 m22 fst snd]. ring.
  - unfold p0, p1, p2, p3. destruct X, u, v. unfold mv2, cols, scross, vadd, vsub, vscal; cbn [m11 m12 m21 m22 fst snd]. pteq; ring.
Qed.

Lemma u_nz : (fst u, snd u) <> (0, 0).
Proof. intros Z. injection Z as Z1 Z2. apply Hk. unfold scross. rewrite Z1, Z2. ring. Qed.

Lemma l_pos : 0 < l.
Proof.
  unfold l. apply sqrt_lt_R0. destruct (Req_dec (fst u) 0) as [Z|Z].
  - assert (snd u <> 0) by (intros Z2; apply u_nz; rewrite Z, Z2; auto). pose proof (sqpos _ H). pose proof (sqnn (fst u)). lra.
  - pose proof (sqpos _ Z). pose proof (sqnn (snd u)). lra.
Qed.
Lemma l_sq : l * l = fst u * fst u + snd u * snd u.
Proof. unfold l. apply sqrt_sqrt. pose proof (sqnn (fst u)). pose proof (sqnn (snd u)). lra. Qed.

Let rotm := mkM2 (fst u / l) (snd u / l) (- (snd u / l)) (fst u / l).

Lemma q0_eq : vsub p0 X = vscal (- s) u. Proof. unfold p0. destruct X, u. unfold vsub, vscal; cbn [fst snd]. pteq; ring. Qed.
Lemma q1_eq : vsub p1 X = vscal (- t) v. Proof. unfold p1. destruct X, v. unfold vsub, vscal; cbn [fst snd]. pteq; ring. Qed.
Lemma q2_eq : vsub p2 X = vscal (1 - s) u. Proof. unfold p2. destruct X, u. unfold vadd, vsub, vscal; cbn [fst snd]. pteq; ring. Qed.
Lemma q3_eq : vsub p3 X = vscal (1 - t) v. Proof. unfold p3. destruct X, v. unfold vadd, vsub, vscal; cbn [fst snd]. pteq; ring. Qed.

Lemma rot_ok : b4_rot (vscal (- s) u) (vscal (1 - s) u) = rotm.
Proof.
  unfold b4_rot, rotm. replace (vsub (vscal (1 - s) u) (vscal (- s) u)) with (fst u, snd u) by (destruct u; unfold vsub, vscal; cbn [fst snd]; pteq; ring).
  cbn [fst snd]. destruct (cos_sin_atan2 (snd u) (fst u) u_nz) as [C S]. rewrite C, S. reflexivity.
Qed.

Lemma rot_u x : mv2 rotm (vscal x u) = (x * l, 0).
Proof.
  pose proof l_pos as L. pose proof l_sq as LL. unfold mv2, rotm, vscal; cbn [m11 m12 m21 m22 fst snd]. pteq.
  - transitivity (x * (fst u * fst u + snd u * snd u) / l); [field; lra|]. rewrite <- LL. field. lra.
  - field. lra.
Qed.
Lemma rot_v x : mv2 rotm (vscal x v) = (x * e, x * k).
Proof. pose proof l_pos as L. unfold mv2, rotm, vscal, e, k, sdot, scross; cbn [m11 m12 m21 m22 fst snd]. pteq; field; lra. Qed.

Lemma k_nz : k <> 0.
Proof. pose proof l_pos. unfold k. intros Z. apply Hk. replace (scross u v) with (scross u v / l * l) by (field; lra). rewrite Z. ring. Qed.

Let shearm := mkM2 1 (- e / k) 0 1.

Lemma shear_ok npfloat : b4_shear npfloat (- t * e, - t * k) ((1 - t) * e, (1 - t) * k) = if npfloat then Ok shearm else Raise AttributeError.
Proof.
  pose proof k_nz as K. unfold b4_shear, np_div; cbn [fst snd]. destruct (Req_EM_T _ 0) as [Z|_]; [exfalso; apply K; lra|]. cbn [bind].
  destruct npfloat; auto. unfold shearm. do 2 f_equal. field. replace ((1 - t) * k - - t * k) with k by ring. auto.
Qed.

Lemma shear_u x : mv2 shearm (x * l, 0) = (x * l, 0).
Proof. unfold mv2, shearm; cbn [m11 m12 m21 m22 fst snd]. pteq; ring. Qed.
Lemma shear_v x : mv2 shearm (x * e, x * k) = (0, x * k).
Proof. pose proof k_nz. unfold mv2, shearm; cbn [m11 m12 m21 m22 fst snd]. pteq; field; auto. Qed.

Lemma sorted_new roots eigh : boundary4_sorted false roots eigh p0 p1 p2 p3 = Raise AttributeError.
Proof. unfold boundary4_sorted. rewrite diag_ok. cbn [bind]. rewrite q0_eq, q1_eq, q2_eq, q3_eq, rot_ok, !rot_u, !rot_v, shear_ok. reflexivity. Qed.

Hypothesis Hs0 : s <> 0. Hypothesis Hs1 : s <> 1. Hypothesis Ht0 : t <> 0. Hypothesis Ht1 : t <> 1.

Lemma abs_mul_pos x y : x <> 0 -> y <> 0 -> 0 < Rabs (x * y).
Proof. intros. apply Rabs_pos_lt. intros Z. apply Rmult_integral in Z. tauto. Qed.

Lemma d_pos : 0 < d.
Proof.
  pose proof k_nz. pose proof l_pos. unfold d. apply Rdiv_lt_0_compat; apply Rmult_lt_0_compat; apply abs_mul_pos; lra.
Qed.
Lemma q_pos : 0 < q.
Proof. pose proof d_pos. unfold q. apply sqrt_lt_R0, sqrt_lt_R0. auto. Qed.
Lemma q_4 : q * q * (q * q) = d.
Proof. pose proof d_pos as P. unfold q. assert (0 < sqrt d) by (apply sqrt_lt_R0; auto). rewrite !sqrt_sqrt; lra. Qed.

Let stretchm := mkM2 q 0 0 (/ q).

Lemma stretch_ok : b4_stretch (- s * l, 0) (0, - t * k) ((1 - s) * l, 0) (0, (1 - t) * k) = Ok stretchm.
Proof.
  pose proof k_nz. pose proof l_pos. unfold b4_stretch. rewrite !norm_x, !norm_y. unfold np_div. destruct (Req_EM_T _ 0) as [Z|_].
  - exfalso. assert (0 < Rabs ((1 - s) * l) * Rabs (- s * l)); [|lra]. apply Rmult_lt_0_compat; apply abs_mul_pos; lra.
  - cbn [bind]. fold d. pose proof d_pos. unfold eqb. destruct (Req_EM_T d 0); [lra|]. reflexivity.
Qed.

Lemma stretch_u x : mv2 stretchm (x * l, 0) = (x * l * q, 0).
Proof. unfold mv2, stretchm; cbn [m11 m12 m21 m22 fst snd]. pteq; ring. Qed.
Lemma stretch_v y : mv2 stretchm (0, y) = (0, y / q).
Proof. pose proof q_pos. unfold mv2, stretchm; cbn [m11 m12 m21 m22 fst snd]. pteq; field; lra. Qed.

(** the frame in which the quadrilateral becomes the one of the code *)
Definition fi : pt := vscal (/ (l * q)) u.
Definition fj : pt := vscal (q / k) v.

Lemma fij : scross fi fj = 1.
Proof.
  pose proof q_pos. pose proof l_pos. pose proof k_nz as K. unfold fi, fj. replace (scross _ _) with (scross u v / l / k).
  - fold k. field. auto.
  - unfold scross, vscal; cbn [fst snd]. field. repeat split; auto; lra.
Qed.

Lemma p0_frame : p0 = inframe X fi fj (- (s * l * q)) 0.
Proof. pose proof q_pos. pose proof l_pos. pose proof k_nz as K. unfold p0, inframe, fi, fj. destruct X, u, v. unfold vsub, vadd, vscal; cbn [fst snd]. pteq; field; repeat split; auto; lra. Qed.
Lemma p2_frame : p2 = inframe X fi fj ((1 - s) * l * q) 0.
Proof. pose proof q_pos. pose proof l_pos. pose proof k_nz as K. unfold p2, inframe, fi, fj. destruct X, u, v. unfold vsub, vadd, vscal; cbn [fst snd]. pteq; field; repeat split; auto; lra. Qed.
Lemma p1_frame : p1 = inframe X fi fj 0 (- (t * k / q)).
Proof. pose proof q_pos. pose proof l_pos. pose proof k_nz as K. unfold p1, inframe, fi, fj. destruct X, u, v. unfold vsub, vadd, vscal; cbn [fst snd]. pteq; field; repeat split; auto; lra. Qed.
Lemma p3_frame : p3 = inframe X fi fj 0 ((1 - t) * k / q).
Proof. pose proof q_pos. pose proof l_pos. pose proof k_nz as K. unfold p3, inframe, fi, fj. destruct X, u, v. unfold vsub, vadd, vscal; cbn [fst snd]. pteq; field; repeat split; auto; lra. Qed.

Lemma mv2_add M a b : mv2 M (vadd a b) = vadd (mv2 M a) (mv2 M b).
Proof. unfold mv2, vadd; cbn [fst snd]. pteq; ring. Qed.
Lemma mv2_scal M c a : mv2 M (vscal c a) = vscal c (mv2 M a).
Proof. unfold mv2, vscal; cbn [fst snd]. pteq; ring. Qed.
Lemma mv2_mm M N a : mv2 (mm2 M N) a = mv2 M (mv2 N a).
Proof. unfold mv2, mm2; cbn [m11 m12 m21 m22 fst snd]. pteq; ring. Qed.
Lemma det_mm M N : det2 (mm2 M N) = det2 M * det2 N.
Proof. unfold det2, mm2; cbn [m11 m12 m21 m22]. ring. Qed.

Lemma frame_map x y : mv2 stretchm (mv2 shearm (mv2 rotm (vadd (vscal x fi) (vscal y fj)))) = (x, y).
Proof.
  pose proof q_pos as Q. pose proof l_pos as L. pose proof k_nz as K.
  replace (vscal x fi) with (vscal (x / (l * q)) u) by (unfold fi, vscal; cbn [fst snd]; pteq; field; lra).
  replace (vscal y fj) with (vscal (y * q / k) v) by (unfold fj, vscal; cbn [fst snd]; pteq; field; lra).
  rewrite !mv2_add, rot_u, rot_v, shear_u, shear_v, stretch_u, stretch_v. unfold vadd; cbn [fst snd]. pteq; field; lra.
Qed.

(** what the program computes *)
Lemma sorted_ok roots eigh : is_roots roots -> (forall S, is_eigh S (eigh S)) ->
  let a0 := Rabs (s * l * q) in let a1 := Rabs (t * k / q) in let a2 := Rabs ((1 - s) * l * q) in
  exists z p q' c r e, boundary4_sorted true roots eigh p0 p1 p2 p3 = Ok e /\
  -1 < z < 1 /\ p <= -1 /\ 1 <= q' /\
  (forall x, gcub (bK a0 a2) (bU a0 a2) (bW a0 a1 a2) x = - (bK a0 a2) * (x - p) * (x - q') * (x - z)) /\
  0 < r /\ dist2 c (mv2 (swing_mat z) (- s * l * q, 0)) = r * r /\ dist2 c (mv2 (swing_mat z) (0, - t * k / q)) = r * r /\
  dist2 c (mv2 (swing_mat z) ((1 - s) * l * q, 0)) = r * r /\
  0 < eb e <= ea e /\
  forall x y, ell_form (eO e) (ea e) (eb e) (ell_th e) (inframe X fi fj x y) = dist2 c (mv2 (swing_mat z) (x, y)) / (r * r).
Proof.
  intros HR HE a0 a1 a2. pose proof q_pos as Q. pose proof l_pos as L. pose proof k_nz as K.
  assert (A0 : 0 < a0) by (unfold a0; apply abs_mul_pos; [intros Z; apply Rmult_integral in Z; lra|lra]).
  assert (A1 : 0 < a1) by (unfold a1, Rdiv; apply abs_mul_pos; [intros Z; apply Rmult_integral in Z; lra|apply Rinv_neq_0_compat; lra]).
  assert (A2 : 0 < a2) by (unfold a2; apply abs_mul_pos; [intros Z; apply Rmult_integral in Z; lra|lra]).
  destruct (swing_ok roots a0 a1 a2 HR A0 A1 A2) as (z & p & q' & ES & Hz & Hp & Hq' & Hg).
  set (D := swing_mat z) in *.
  assert (Hzz : 0 < 1 - z * z) by (clear - Hz; nra).
  assert (W0 : 0 < sqrt (sqrt (1 - z * z))) by (apply sqrt_lt_R0, sqrt_lt_R0; auto).
  assert (DD : det2 D = 1). { unfold D, swing_mat, det2; cbn [m11 m12 m21 m22]. field. lra. }
  destruct (circle_ok (mv2 D (- s * l * q, 0)) (mv2 D (0, - t * k / q)) (mv2 D ((1 - s) * l * q, 0))) as (c & r & EC & Hr & C0 & C1 & C2).
  { replace (br _ _ _) with (det2 D * (t * k / q * (l * q))).
    - rewrite DD. replace (1 * (t * k / q * (l * q))) with (t * (k * l)) by (field; lra). intros Z. apply Rmult_integral in Z. destruct Z as [Z|Z]; [lra|]. apply Rmult_integral in Z. lra.
    - unfold br, scross, vsub, mv2, det2; cbn [fst snd]. field. lra. }
  set (T := mm2 (mm2 (mm2 D stretchm) shearm) rotm).
  assert (DT : det2 T = 1).
  { unfold T. rewrite !det_mm, DD. unfold stretchm, shearm, rotm, det2; cbn [m11 m12 m21 m22]. pose proof l_sq as LL.
    transitivity ((fst u * fst u + snd u * snd u) / (l * l)); [field; lra|]. rewrite <- LL. field. lra. }
  assert (TF : forall x y, mv2 T (vadd (vscal x fi) (vscal y fj)) = mv2 D (x, y)). { intros x y. unfold T. rewrite !mv2_mm, frame_map. reflexivity. }
  set (c' := mkM2 (m22 T) (- m12 T) (- m21 T) (m11 T)).
  assert (Ec : mv2 T (mv2 c' c) = c).
  { unfold mv2, c'; cbn [m11 m12 m21 m22 fst snd]. unfold det2 in DT. pteq.
    - transitivity ((m11 T * m22 T - m12 T * m21 T) * fst c); [ring|rewrite DT; ring].
    - transitivity ((m11 T * m22 T - m12 T * m21 T) * snd c); [ring|rewrite DT; ring]. }
  set (F := mkM2 (m11 (mm2 (tr2 T) T) / r ^ 2) (m12 (mm2 (tr2 T) T) / r ^ 2) (m21 (mm2 (tr2 T) T) / r ^ 2) (m22 (mm2 (tr2 T) T) / r ^ 2)).
  assert (EB : boundary4_sorted true roots eigh p0 p1 p2 p3 = from_center_and_matrix eigh (vadd (mv2 c' c) X) F).
  { unfold boundary4_sorted. rewrite diag_ok. cbn [bind]. rewrite q0_eq, q1_eq, q2_eq, q3_eq, rot_ok, !rot_u, !rot_v, shear_ok. cbn [bind].
    rewrite !shear_u, !shear_v, stretch_ok. cbn [bind]. rewrite !stretch_u, !stretch_v, !norm_x, !norm_y.
    replace (Rabs (- s * l * q)) with a0 by (unfold a0; rewrite <- Rabs_Ropp; f_equal; ring).
    replace (Rabs (- t * k / q)) with a1 by (unfold a1; rewrite <- Rabs_Ropp; f_equal; field; lra). fold a2.
    rewrite ES. cbn [bind]. rewrite EC. cbn [bind]. rewrite (solve2_ok _ (mv2 c' c)); [|fold T; lra|exact Ec]. cbn [bind].
    unfold eqb. destruct (Req_EM_T (r ^ 2) 0) as [Z|_]; [exfalso; assert (0 < r ^ 2) by (apply pow_lt; auto); lra|]. reflexivity. }
  assert (LF : forall w, lowq F w = sdot (mv2 T w) (mv2 T w) / (r * r)).
  { intros w. unfold lowq, F, mm2, tr2, sdot, mv2; cbn [m11 m12 m21 m22 fst snd]. field. lra. }
  assert (Hrr : 0 < r * r) by (apply Rmult_lt_0_compat; auto).
  destruct (proj2 (proj1 (from_cm_iff eigh (vadd (mv2 c' c) X) F (HE F)))) as (el & Eel).
  { intros w Hw. rewrite LF. apply Rdiv_lt_0_compat; auto. unfold sdot. set (g := mv2 T w).
    destruct (Req_dec (fst g) 0) as [Z|Z]; [destruct (Req_dec (snd g) 0) as [Z2|Z2]|].
    - exfalso. apply Hw. unfold g, mv2 in Z, Z2; cbn [fst snd] in Z, Z2. unfold det2 in DT. pteq.
      + transitivity ((m11 T * m22 T - m12 T * m21 T) * fst w); [rewrite DT; ring|]. transitivity (m22 T * (m11 T * fst w + m12 T * snd w) - m12 T * (m21 T * fst w + m22 T * snd w)); [ring|]. rewrite Z, Z2. ring.
      + transitivity ((m11 T * m22 T - m12 T * m21 T) * snd w); [rewrite DT; ring|]. transitivity (m11 T * (m21 T * fst w + m22 T * snd w) - m21 T * (m11 T * fst w + m12 T * snd w)); [ring|]. rewrite Z, Z2. ring.
    - pose proof (sqpos _ Z2). pose proof (sqnn (fst g)). lra.
    - pose proof (sqpos _ Z). pose proof (sqnn (snd g)). lra. }
  destruct (from_cm_spec eigh _ F el (HE F) Eel) as (_ & Hax & _ & _ & HF).
  exists z, p, q', c, r, el. rewrite EB. repeat split; auto; try lra.
  intros x y. rewrite <- HF, LF. f_equal. unfold dist2, inframe.
  replace (vsub (vadd X (vadd (vscal x fi) (vscal y fj))) (vadd (mv2 c' c) X)) with (vadd (vadd (vscal x fi) (vscal y fj)) (vscal (-1) (mv2 c' c))) by (unfold vsub, vadd, vscal; cbn [fst snd]; pteq; ring).
  rewrite mv2_add, mv2_scal, TF, Ec. fold D. unfold sdot, vadd, vsub, vscal; cbn [fst snd]. ring.
Qed.

Lemma sorted_frame roots eigh : is_roots roots -> (forall S, is_eigh S (eigh S)) ->
  exists i j al be z p q' c r e, scross i j = 1 /\ 0 < al /\ be <> 0 /\ (scross u v < 0 -> 0 < be) /\
  p0 = inframe X i j (- (s * al)) 0 /\ p1 = inframe X i j 0 (t * be) /\ p2 = inframe X i j ((1 - s) * al) 0 /\ p3 = inframe X i j 0 (- ((1 - t) * be)) /\
  Rabs (s * al) * Rabs ((1 - s) * al) = Rabs (t * be) * Rabs ((1 - t) * be) /\
  boundary4_sorted true roots eigh p0 p1 p2 p3 = Ok e /\
  -1 < z < 1 /\ p <= -1 /\ 1 <= q' /\
  (let a0 := Rabs (s * al) in let a1 := Rabs (t * be) in let a2 := Rabs ((1 - s) * al) in
   forall x, gcub (bK a0 a2) (bU a0 a2) (bW a0 a1 a2) x = - (bK a0 a2) * (x - p) * (x - q') * (x - z)) /\
  0 < r /\ dist2 c (mv2 (swing_mat z) (- (s * al), 0)) = r * r /\ dist2 c (mv2 (swing_mat z) (0, t * be)) = r * r /\
  dist2 c (mv2 (swing_mat z) ((1 - s) * al, 0)) = r * r /\
  0 < eb e <= ea e /\
  forall x y, ell_form (eO e) (ea e) (eb e) (ell_th e) (inframe X i j x y) = dist2 c (mv2 (swing_mat z) (x, y)) / (r * r).
Proof.
  intros HR HE. pose proof q_pos as Q. pose proof l_pos as L. pose proof k_nz as K. pose proof q_4 as Q4.
  destruct (sorted_ok roots eigh HR HE) as (z & p & q' & c & r & el & Ee & Hz & Hp & Hq' & Hg & Hr & C0 & C1 & C2 & Hax & HF).
  exists fi, fj, (l * q), (- (k / q)), z, p, q', c, r, el.
  assert (E0 : s * (l * q) = s * l * q) by ring. assert (E2 : (1 - s) * (l * q) = (1 - s) * l * q) by ring.
  assert (E1 : t * - (k / q) = - (t * k / q)) by (field; lra). assert (E3 : - ((1 - t) * - (k / q)) = (1 - t) * k / q) by (field; lra).
  rewrite E0, E1, E2, E3. split; [apply fij|]. split; [apply Rmult_lt_0_compat; auto|]. split.
  { intros Z. apply K. replace k with (- - (k / q) * q) by (field; lra). rewrite Z. ring. }
  split.
  { intros Hn. assert (k < 0). { unfold k, Rdiv. pose proof (Rinv_0_lt_compat l L). clear - Hn H. nra. }
    unfold Rdiv. pose proof (Rinv_0_lt_compat q Q). clear - H H0. nra. }
  split; [apply p0_frame|]. split; [apply p1_frame|]. split; [apply p2_frame|]. split; [apply p3_frame|]. split.
  { replace ((1 - t) * - (k / q)) with (- ((1 - t) * k / q)) by lra. rewrite <- E0, <- E2. unfold Rdiv. rewrite !Rabs_Ropp, !Rabs_mult, (Rabs_right l), (Rabs_right q), (Rabs_right (/ q)) by (try lra; apply Rle_ge, Rlt_le, Rinv_0_lt_compat; auto).
    apply Rmult_eq_reg_r with (q * q); [|apply Rgt_not_eq, Rmult_lt_0_compat; auto].
    transitivity (Rabs s * Rabs (1 - s) * (l * l) * (q * q * (q * q))); [ring|]. rewrite Q4. unfold d. rewrite !Rabs_mult, !Rabs_Ropp, (Rabs_right l) by lra. field.
    repeat split; try lra; apply Rabs_no_R0; lra. }
  split; [exact Ee|]. rewrite Rabs_Ropp. repeat split; auto; try lra.
  - rewrite <- C0. do 2 f_equal. pteq; ring.
  - rewrite <- C1. do 2 f_equal. pteq; [auto|field; lra].
Qed.

End sorted.
