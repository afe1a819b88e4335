(** * Proofs about examples/triangularCircularGasket.py: circles through points of contact. *)

From Coq Require Import Reals Lra Lia Psatz List Bool.
From Verif Require Import Base BaseLemmas Spec SpecLemmas ModelInternal ModelLine ModelCircle ModelTriangle ModelInversion ModelTangentCircles ModelApollonian ModelCircular PInvBase PInversion PInversion2 PTriangle PTriangle2 PTriangle3 PTriangle4 PTriangle5 PSteiner PGasket1 PGasket5 PApo1 PApo2 PApo4.
Import ListNotations.
Local Open Scope R_scope.

Definition contact (A : pt) (r : R) (B : pt) : pt := vadd A (vscal (r / dist A B) (vsub B A)).

Lemma towards_eq A r B J : towards A r B = Ok J -> A <> B /\ J = contact A r B.
Proof.
  unfold towards, np_div. change (distance_ A B) with (dist A B). destruct (Req_EM_T (dist A B) 0) as [E|E]; cbn [bind]; [discriminate|]. intros H. injection H as <-. split.
  - intros Q. apply E. apply dist_0. auto.
  - unfold contact. destruct A, B. unfold vadd, vscal, vsub. cbn [fst snd]. f_equal; field; auto.
Qed.
Lemma towards_ok A r B : A <> B -> towards A r B = Ok (contact A r B).
Proof.
  intros H. assert (E : dist A B <> 0) by (intros E; apply H, dist_0; auto). unfold towards, np_div. change (distance_ A B) with (dist A B). destruct (Req_EM_T (dist A B) 0); [contradiction|]. cbn [bind].
  f_equal. unfold contact. destruct A, B. unfold vadd, vscal, vsub. cbn [fst snd]. f_equal; field; auto.
Qed.

(** the distance to the point of contact of two circles *)
Lemma contact_ext c1 c2 P : posc c1 -> posc c2 -> tang c1 c2 ->
  (cr c1 + cr c2) * dist2 P (contact (cO c2) (cr c2) (cO c1)) = cr c1 * pow_circle (cO c2) (cr c2) P + cr c2 * pow_circle (cO c1) (cr c1) P.
Proof.
  unfold posc, tang. intros H1 H2 T. unfold contact. rewrite (dist_sym (cO c2)), T. pose proof (dist_sq (cO c1) (cO c2)) as Q. rewrite T in Q.
  destruct c1 as [[x1 y1] r1], c2 as [[x2 y2] r2], P as [p q]. cbn [cO cr] in *. unfold pow_circle, dist2, vsub, sdot, vadd, vscal in *. cbn [fst snd] in *.
  assert (E : (x2 - x1) * (x2 - x1) + (y2 - y1) * (y2 - y1) = (r1 + r2) * (r1 + r2)) by lra. clear Q T.
  assert (Z : forall u v w, (r1 + r2) * ((u + r2 / (r1 + r2) * v - w) * (u + r2 / (r1 + r2) * v - w)) = (r1 + r2) * ((u - w) * (u - w)) + 2 * r2 * (u - w) * v + r2 * r2 / (r1 + r2) * (v * v)) by (intros; field; lra).
  rewrite Rmult_plus_distr_l, !Z.
  assert (E' : r2 * r2 / (r1 + r2) * ((x1 - x2) * (x1 - x2)) + r2 * r2 / (r1 + r2) * ((y1 - y2) * (y1 - y2)) = r2 * r2 * (r1 + r2)).
  { rewrite <- Rmult_plus_distr_l. replace ((x1 - x2) * (x1 - x2) + (y1 - y2) * (y1 - y2)) with ((r1 + r2) * (r1 + r2)) by lra. field. lra. }
  nra.
Qed.

Lemma contact_int c0 c1 K P : posc c0 -> posc c1 -> dist (cO c0) (cO c1) = cr c0 - cr c1 -> dist (cO c0) K = cr c0 -> dist (cO c1) K = cr c1 ->
  (cr c0 - cr c1) * dist2 P K = cr c0 * pow_circle (cO c1) (cr c1) P - cr c1 * pow_circle (cO c0) (cr c0) P.
Proof.
  unfold posc. intros H0 H1 T K0 K1. pose proof (dist_sq (cO c0) (cO c1)) as Q. pose proof (dist_sq (cO c0) K) as Q0. pose proof (dist_sq (cO c1) K) as Q1. rewrite T in Q. rewrite K0 in Q0. rewrite K1 in Q1. clear T K0 K1.
  destruct c0 as [[x0 y0] r0], c1 as [[x1 y1] r1], P as [p q], K as [k l]. cbn [cO cr] in *. unfold pow_circle, dist2, vsub, sdot in *. cbn [fst snd] in *.
  assert (D : (k - x1) * (k - x0) + (l - y1) * (l - y0) = r0 * r1) by lra.
  assert (N : (r0 * (k - x1) - r1 * (k - x0)) * (r0 * (k - x1) - r1 * (k - x0)) + (r0 * (l - y1) - r1 * (l - y0)) * (r0 * (l - y1) - r1 * (l - y0)) = 0).
  { transitivity (r0 * r0 * ((k - x1) * (k - x1) + (l - y1) * (l - y1)) + r1 * r1 * ((k - x0) * (k - x0) + (l - y0) * (l - y0)) - 2 * r0 * r1 * ((k - x1) * (k - x0) + (l - y1) * (l - y0))); [ring|].
    rewrite D, <- Q0, <- Q1. ring. }
  apply Rplus_sqr_eq_0 in N. destruct N as (Ex & Ey).
  assert (Z : r1 * ((x1 - x0) * (k - x0) + (y1 - y0) * (l - y0)) = r1 * (r0 * r0 - r0 * r1)) by (f_equal; lra).
  transitivity (r0 * (((k - x1) * (k - x1) + (l - y1) * (l - y1)) + ((p - x1) * (p - x1) + (q - y1) * (q - y1))) - r1 * (((k - x0) * (k - x0) + (l - y0) * (l - y0)) + ((p - x0) * (p - x0) + (q - y0) * (q - y0)))
    + 2 * (r1 * ((x1 - x0) * (k - x0) + (y1 - y0) * (l - y0))) - 2 * ((p - x1) * (r0 * (k - x1) - r1 * (k - x0)) + (q - y1) * (r0 * (l - y1) - r1 * (l - y0)))); [ring|].
  rewrite Z, Ex, Ey, <- Q0, <- Q1. ring.
Qed.

(** the circle through the three points of contact is orthogonal to the three circles *)
Lemma wall_fixes c0 c1 c2 K1 K2 w : posc c0 -> posc c1 -> posc c2 -> dist (cO c0) (cO c1) = cr c0 - cr c1 -> dist (cO c0) (cO c2) = cr c0 - cr c2 -> tang c1 c2 ->
  dist (cO c0) K1 = cr c0 -> dist (cO c1) K1 = cr c1 -> dist (cO c0) K2 = cr c0 -> dist (cO c2) K2 = cr c2 ->
  dist (cO w) (contact (cO c2) (cr c2) (cO c1)) = cr w -> dist (cO w) K1 = cr w -> dist (cO w) K2 = cr w ->
  let k := cr w ^ 2 in k = pow_circle (cO c0) (cr c0) (cO w) /\ k = pow_circle (cO c1) (cr c1) (cO w) /\ k = pow_circle (cO c2) (cr c2) (cO w).
Proof.
  intros P0 P1 P2 T1 T2 T A1 B1 A2 B2 WJ W1 W2 k. pose proof (contact_ext c1 c2 (cO w) P1 P2 T) as E. pose proof (contact_int c0 c1 K1 (cO w) P0 P1 T1 A1 B1) as E1. pose proof (contact_int c0 c2 K2 (cO w) P0 P2 T2 A2 B2) as E2.
  rewrite <- dist_sq, WJ in E. rewrite <- dist_sq, W1 in E1. rewrite <- dist_sq, W2 in E2. unfold posc in *. subst k.
  set (q0 := pow_circle (cO c0) _ _) in *. set (q1 := pow_circle (cO c1) _ _) in *. set (q2 := pow_circle (cO c2) _ _) in *. set (r0 := cr c0) in *. set (r1 := cr c1) in *. set (r2 := cr c2) in *. set (k := cr w ^ 2).
  replace (cr w * cr w) with k in * by (unfold k; ring). clearbody q0 q1 q2 r0 r1 r2 k. clear - P0 P1 P2 E E1 E2.
  assert (F1 : r0 * (q1 - k) = r1 * (q0 - k)) by lra. assert (F2 : r0 * (q2 - k) = r2 * (q0 - k)) by lra. assert (F : r1 * (q2 - k) + r2 * (q1 - k) = 0) by lra.
  assert (Z : (2 * r1 * r2) * (q0 - k) = 0).
  { transitivity (r1 * (r2 * (q0 - k)) + r2 * (r1 * (q0 - k))); [ring|]. rewrite <- F1, <- F2. transitivity (r0 * (r1 * (q2 - k) + r2 * (q1 - k))); [ring|]. rewrite F. ring. }
  assert (q0 - k = 0) by (apply Rmult_integral in Z; destruct Z as [Z|Z]; [exfalso|exact Z]; assert (0 < r1 * r2) by (apply Rmult_lt_0_compat; auto); lra).
  rewrite H in F1, F2. rewrite Rmult_0_r in F1, F2. apply Rmult_integral in F1. apply Rmult_integral in F2. repeat split; lra.
Qed.

(** a circle orthogonal to two tangent circles goes through their point of contact *)
Lemma contact_on c1 c2 iota : posc c1 -> posc c2 -> tang c1 c2 -> 0 < ipower iota ->
  kap (vc c1) (wv iota) = 0 -> kap (vc c2) (wv iota) = 0 -> dist (ipole iota) (contact (cO c2) (cr c2) (cO c1)) = sqrt (ipower iota).
Proof.
  intros P1 P2 T Pk K1 K2. pose proof (contact_ext c1 c2 (ipole iota) P1 P2 T) as E. rewrite kap_wv in K1, K2 by auto. pose proof (sqrt_lt_R0 _ Pk) as S. unfold posc in *.
  assert (Z : forall q r, 0 < r -> (q - ipower iota) / (2 * r * sqrt (ipower iota)) = 0 -> q = ipower iota).
  { intros q r Hr H. unfold Rdiv in H. apply Rmult_integral in H. destruct H as [H|H]; [lra|]. exfalso. revert H. apply Rinv_neq_0_compat. assert (0 < r * sqrt (ipower iota)) by (apply Rmult_lt_0_compat; auto). lra. }
  apply Z in K1; auto. apply Z in K2; auto. rewrite K1, K2 in E.
  assert (D : dist2 (ipole iota) (contact (cO c2) (cr c2) (cO c1)) = ipower iota) by (apply (Rmult_eq_reg_l (cr c1 + cr c2)); lra).
  unfold dist. rewrite D. reflexivity.
Qed.

(** the outer circle is kept by the inversion *)
Lemma keep_circle O r I k M : dist O M = r -> dist2 O I = r * r + k -> M <> I -> dist O (inv_pt I k M) = r.
Proof.
  intros H D N. pose proof (dist_nonneg O M) as Pr. rewrite H in Pr. pose proof (dist_sq O M) as Q. rewrite H in Q. pose proof (dist2_pos I M ltac:(auto)) as Hd.
  apply Rsqr_inj; [apply dist_nonneg|auto|]. unfold Rsqr. rewrite dist_sq. unfold inv_pt. set (d := dist2 I M) in *.
  assert (Ed : d = dist2 I M) by auto. clearbody d. destruct O as [a b], I as [x y], M as [u v]. unfold dist2, vsub, sdot, vadd, vscal in *. cbn [fst snd] in *.
  assert (C : 2 * ((x - a) * (u - x) + (y - b) * (v - y)) = - d - k) by lra.
  transitivity ((x - a) * (x - a) + (y - b) * (y - b) + k / d * (2 * ((x - a) * (u - x) + (y - b) * (v - y))) + k / d * (k / d) * ((u - x) * (u - x) + (v - y) * (v - y))); [ring|].
  rewrite C. rewrite <- Ed. rewrite D. field. lra.
Qed.
