(** * Proofs about the Malfatti gasket: the outer Soddy circle surrounds the Malfatti circles. *)

From Coq Require Import Reals Lra Lia Psatz List Bool.
From Verif Require Import Base BaseLemmas Spec SpecLemmas SpecTriangle SpecGasket SpecApollonian ModelInternal ModelLine ModelCircle ModelTriangle ModelInversion ModelApollonian PTriangle PTriangle2 PTriangle3 PTriangle4 PTriangle5 PSteiner PGasket1 PGasket5 PGasket6 PGasket8 PApo1 PApo2 PMalApo1.
Import ListNotations.
Local Open Scope R_scope.

(** a line tangent to two of three circles in mutual contact, away from the third *)
Lemma line_curvatures c1 c2 c3 S l : Ravi (cO c1) (cO c2) (cO c3) (cr c1) (cr c2) (cr c3) S ->
  vb l = 0 -> kap l l = -1 -> kap l (vc c1) = 1 -> kap l (vc c2) = 1 -> 1 < kap l (vc c3) ->
  / cr c1 + / cr c2 - 2 * sqrt (/ cr c1 * / cr c2) < / cr c3.
Proof.
  intros H L0 L1 K1 K2 K3. destruct (orthc_frame c1 c2 c3 S H) as (PD & F). pose proof (frame_expand _ _ _ _ l F) as E. pose proof (frame_norm _ _ _ _ l F L1) as Nm. apply (f_equal vb) in E. rewrite L0 in E.
  destruct H as (Hx & Hy & Hz & HS & S2 & _). set (g := kap l (vc (orthc c1 c2 c3 S))) in *. set (t := kap l (vc c3)) in *. rewrite K1, K2 in *.
  assert (E' : 0 = (1 + t) / 2 * / cr c1 + (1 + t) / 2 * / cr c2 + / cr c3 - g * ((cr c1 + cr c2 + cr c3) / S)).
  { rewrite E. unfold v4add, v4scal, vc, orthc, vb. cbn [fst snd cr]. field. repeat split; lra. }
  clear E F. set (kd := (cr c1 + cr c2 + cr c3) / S) in *.
  assert (Pd : 0 < kd) by (unfold kd; apply Rdiv_lt_0_compat; lra).
  assert (Ed : kd * kd = / cr c1 * / cr c2 + / cr c3 * (/ cr c1 + / cr c2)).
  { apply (Rmult_eq_reg_r (S * S)); [|nra]. replace (kd * kd * (S * S)) with ((cr c1 + cr c2 + cr c3) * (cr c1 + cr c2 + cr c3)) by (unfold kd; field; lra). rewrite S2. field. repeat split; lra. }
  pose proof (Rinv_0_lt_compat _ Hx) as Px. pose proof (Rinv_0_lt_compat _ Hy) as Py. pose proof (Rinv_0_lt_compat _ Hz) as Pz. set (k1 := / cr c1) in *. set (k2 := / cr c2) in *. set (k3 := / cr c3) in *. clearbody k1 k2 k3 kd g t. clear - E' Ed Pd Px Py Pz Nm K3.
  assert (P12 : 0 < k1 * k2) by (apply Rmult_lt_0_compat; auto). pose proof (sqrt_lt_R0 _ P12) as Pp. pose proof (sqrt_def _ (Rlt_le _ _ P12)) as Ep. set (p := sqrt (k1 * k2)) in *. clearbody p.
  assert (Pg : 0 < g). { destruct (Rlt_le_dec 0 g) as [|N]; [auto|]. exfalso. assert (0 < (1 + t) / 2 * k1) by (apply Rmult_lt_0_compat; lra). assert (0 < (1 + t) / 2 * k2) by (apply Rmult_lt_0_compat; lra). assert (0 <= (- g) * kd) by (apply Rmult_le_pos; lra). lra. }
  set (tau := g / 2). assert (G1 : 1 < tau) by (unfold tau; nra). assert (G2 : tau * tau = (1 + t) / 2) by (unfold tau; lra).
  assert (Q : tau * tau * (k1 + k2) + k3 = 2 * tau * kd) by (rewrite G2; unfold tau; lra). clearbody tau. clear E' Nm G2 Pg.
  assert (Sq : (tau * (k1 + k2) - kd) * (tau * (k1 + k2) - kd) = p * p).
  { transitivity ((k1 + k2) * (tau * tau * (k1 + k2) - 2 * tau * kd) + kd * kd); [ring|]. replace (tau * tau * (k1 + k2) - 2 * tau * kd) with (- k3) by lra. rewrite Ed, Ep. ring. }
  assert (Le : tau * (k1 + k2) - kd <= p) by (destruct (Rle_lt_dec (tau * (k1 + k2) - kd) p) as [|N]; [auto|]; exfalso; nra).
  assert (Lt : k1 + k2 - p < kd) by nra. assert (Pm : 0 < k1 + k2 - p) .
  { destruct (Rlt_le_dec 0 (k1 + k2 - p)) as [|N]; [auto|]. exfalso. assert ((k1 + k2) * (k1 + k2) <= p * p) by (apply Rmult_le_compat; lra). pose proof (Rle_0_sqr (k1 - k2)) as D. unfold Rsqr in D. clear - H D Ep P12. nra. }
  assert (Sq2 : (k1 + k2 - p) * (k1 + k2 - p) < kd * kd) by (apply Rmult_le_0_lt_compat; lra). rewrite Ed, <- Ep in Sq2.
  apply (Rmult_lt_reg_l (k1 + k2)); [lra|]. lra.
Qed.

(** square roots of curvatures that are the sides of a triangle *)
Lemma curvature_neg k1 k2 k3 : 0 < k1 -> 0 < k2 -> 0 < k3 ->
  k1 + k2 - 2 * sqrt (k1 * k2) < k3 -> k2 + k3 - 2 * sqrt (k2 * k3) < k1 -> k3 + k1 - 2 * sqrt (k3 * k1) < k2 -> k1 + k2 + k3 - 2 * sqrt (k1 * k2 + k2 * k3 + k1 * k3) < 0.
Proof.
  intros P1 P2 P3. rewrite !sqrt_mult by lra. pose proof (sqrt_lt_R0 _ P1) as Q1. pose proof (sqrt_lt_R0 _ P2) as Q2. pose proof (sqrt_lt_R0 _ P3) as Q3.
  pose proof (sqrt_def _ (Rlt_le _ _ P1)) as E1. pose proof (sqrt_def _ (Rlt_le _ _ P2)) as E2. pose proof (sqrt_def _ (Rlt_le _ _ P3)) as E3.
  set (a := sqrt k1) in *. set (b := sqrt k2) in *. set (c := sqrt k3) in *. clearbody a b c. subst k1 k2 k3. intros H1 H2 H3.
  set (u := b + c - a). set (v := a + c - b). set (w := a + b - c).
  assert (UV : 0 < u * v) by (unfold u, v; lra). assert (VW : 0 < v * w) by (unfold v, w; lra). assert (WU : 0 < w * u) by (unfold w, u; lra).
  assert (Pu : 0 < u). { destruct (Rlt_le_dec 0 u) as [|N]; [auto|]. exfalso. assert (v <= 0) by (destruct (Rle_lt_dec v 0); [auto|nra]). assert (w <= 0) by (destruct (Rle_lt_dec w 0); [auto|nra]). unfold u, v, w in *. lra. }
  assert (Pv : 0 < v) by nra. assert (Pw : 0 < w) by nra.
  assert (A : 0 < (a + b + c) * u * v * w) by (repeat apply Rmult_lt_0_compat; lra).
  assert (B : (a * a + b * b + c * c) * (a * a + b * b + c * c) < 4 * (a * a * (b * b) + b * b * (c * c) + a * a * (c * c))) by (unfold u, v, w in A; lra).
  set (m := a * a * (b * b) + b * b * (c * c) + a * a * (c * c)) in *. assert (Pm : 0 <= m) by (unfold m; nra). pose proof (sqrt_pos m) as Sm. pose proof (sqrt_def m Pm) as Em. set (q := sqrt m) in *.
  assert (0 < a * a + b * b + c * c) by nra. destruct (Rlt_le_dec (a * a + b * b + c * c - 2 * q) 0) as [|N]; [auto|]. exfalso. rewrite <- Em in B. nra.
Qed.

Lemma malfatti_side A B C P x y z r e k1 k2 k3 : mconf A B C P x y z r e k1 k2 k3 ->
  / (k1 * r) + / (k2 * r) - 2 * sqrt (/ (k1 * r) * / (k2 * r)) < / (k3 * r).
Proof.
  intros M. destruct (mc_tangs _ _ _ _ _ _ _ _ _ _ _ _ M) as (P1 & P2 & P3 & T12 & T23 & T13). destruct (tangent_Ravi _ _ _ P1 P2 P3 T12 T23 T13) as (S & H).
  pose proof (mc_touch _ _ _ _ _ _ _ _ _ _ _ _ M) as (Ta & Tb). pose proof (mc_third _ _ _ _ _ _ _ _ _ _ _ _ M) as Th. pose proof (mc_AB _ _ _ _ _ _ _ _ _ _ _ _ M) as AB.
  destruct M as ((Hx & Hy & Hz & Hr & He) & (K1 & K2 & K3) & _).
  assert (NAB : A <> B) by (intros Z; apply dist_0 in Z; lra).
  apply (line_curvatures (mc A P r k1) (mc B P r k2) (mc C P r k3) S (vl (lnormal e A B) A) H).
  - reflexivity.
  - rewrite kap_ll, lnormal_unit by auto. reflexivity.
  - apply kap_touch; auto.
  - apply kap_touch; auto.
  - rewrite kap_lc by (unfold posc in P3; lra). assert (EQ : sdot (lnormal e A B) (vsub (cO (mc C P r k3)) A) = (e * scross (vsub B A) (vsub (cO (mc C P r k3)) A)) / dist A B).
    { rewrite lnormal_cross by auto. reflexivity. }
    rewrite EQ, Th, AB. cbn [cr mc].
    apply (Rmult_lt_reg_r (k3 * r * (x + y))); [repeat apply Rmult_lt_0_compat; lra|]. replace (((1 - k3) * (2 * r * (x + y + z)) + k3 * r * (x + y)) / (x + y) / (k3 * r) * (k3 * r * (x + y))) with ((1 - k3) * (2 * r * (x + y + z)) + k3 * r * (x + y)) by (field; repeat split; nra).
    assert (0 < (1 - k3) * (2 * r * (x + y + z))) by (repeat apply Rmult_lt_0_compat; lra). lra.
Qed.

Lemma malfatti_outer_neg A B C P x y z r e k1 k2 k3 : mconf A B C P x y z r e k1 k2 k3 -> outer_curvature (k1 * r) (k2 * r) (k3 * r) < 0.
Proof.
  intros M. pose proof (mconf_perm _ _ _ _ _ _ _ _ _ _ _ _ M) as M2. pose proof (mconf_perm _ _ _ _ _ _ _ _ _ _ _ _ M2) as M3.
  pose proof (malfatti_side _ _ _ _ _ _ _ _ _ _ _ _ M) as L1. pose proof (malfatti_side _ _ _ _ _ _ _ _ _ _ _ _ M2) as L2. pose proof (malfatti_side _ _ _ _ _ _ _ _ _ _ _ _ M3) as L3.
  destruct M as ((Hx & Hy & Hz & Hr & He) & (K1 & K2 & K3) & _).
  assert (P1 : 0 < k1 * r) by (apply Rmult_lt_0_compat; lra). assert (P2 : 0 < k2 * r) by (apply Rmult_lt_0_compat; lra). assert (P3 : 0 < k3 * r) by (apply Rmult_lt_0_compat; lra).
  unfold outer_curvature. rewrite !Rinv_mult. rewrite !Rinv_mult in L1, L2, L3.
  assert (I : forall k, 0 < k * r -> 0 < / k * / r) by (intros k Hk; rewrite <- Rinv_mult; apply Rinv_0_lt_compat; auto).
  pose proof (I k1 P1) as I1. pose proof (I k2 P2) as I2. pose proof (I k3 P3) as I3. apply curvature_neg; auto.
Qed.
