(** * Proofs about Ellipse: from_equation, from_five_points,
    from_center_and_matrix, from_boundary3. *)

From Coq Require Import Reals Lra Lia Psatz List Bool ZArith.
From Verif Require Import Base BaseLemmas Spec SpecLemmas ModelInternal ModelLine ModelCircle ModelAffine ModelEllipse ModelTransfo
  PLine PCircle PInvBase PCircle2 PAffine PTransfo PEllipse PEllipse2 PEllipse3.
Import ListNotations.
Local Open Scope R_scope.

Lemma pos_pair x y : 0 < x * y -> 0 < x + y -> 0 < x /\ 0 < y.
Proof. intros. nra. Qed.
Lemma mul_pos_l x y : 0 < x * y -> 0 < x -> 0 < y.
Proof. intros. nra. Qed.
Lemma mul_neg_l x y : 0 < x * y -> x < 0 -> y < 0.
Proof. intros. nra. Qed.

(** the roots of the characteristic polynomial are determined *)
Lemma eig_pair l0 l1 l t d : l0 + l1 = t -> l0 * l1 = d -> l * (t - l) = d -> (l0 = l /\ l1 = t - l) \/ (l1 = l /\ l0 = t - l).
Proof.
  intros H1 H2 H3. assert (E : (l - l0) * (l - l1) = 0) by (rewrite <- H1 in H3; nra).
  apply Rmult_integral in E. destruct E; [left|right]; split; lra.
Qed.

Definition fe_phi (A B C : R) : R :=
  if eqb A C then 0 else if ltb (Rabs A) (Rabs C) then atan (B / (A - C)) / 2 else PI / 2 - atan (- B / (A - C)) / 2.

(** the angle is a direction of the eigenvalue of smaller absolute value *)
Lemma half_atan_eig A B C : A <> C -> exists w, (A - C) * w > 0 /\
  let f := atan (B / (A - C)) / 2 in
  A * cos f + B / 2 * sin f = ((A + C) / 2 + w) * cos f /\ B / 2 * cos f + C * sin f = ((A + C) / 2 + w) * sin f /\
  ((A + C) / 2 + w) * ((A + C) - ((A + C) / 2 + w)) = A * C - B * B / 4.
Proof.
  intros H. set (t := B / (A - C)). set (p := atan t). assert (Hc : 0 < cos p) by (pose proof (atan_bound t); fold p in H0; apply cos_gt_0; lra).
  assert (Ht : sin p = t * cos p). { unfold p. rewrite <- (tan_atan t) at 2. unfold tan. field. fold p. lra. }
  exists ((A - C) / (2 * cos p)). split.
  { replace ((A - C) * ((A - C) / (2 * cos p))) with ((A - C) * (A - C) / (2 * cos p)) by (field; lra). apply Rdiv_lt_0_compat; [apply sqpos; lra|lra]. }
  set (f := p / 2). set (w := (A - C) / (2 * cos p)).
  assert (EA : (A - C) / 2 = w * cos p) by (unfold w; field; lra).
  assert (EB : B / 2 = w * sin p) by (rewrite Ht; unfold w, t; field; lra).
  assert (Hf1 : cos p * cos f + sin p * sin f = cos f). { rewrite <- cos_minus. f_equal. unfold f. field. }
  assert (Hf2 : sin p * cos f - cos p * sin f = sin f). { rewrite <- sin_minus. f_equal. unfold f. field. }
  cbv zeta. split; [|split].
  - transitivity ((A + C) / 2 * cos f + ((A - C) / 2 * cos f + B / 2 * sin f)); [field|]. rewrite EA, EB.
    transitivity ((A + C) / 2 * cos f + w * (cos p * cos f + sin p * sin f)); [ring|]. rewrite Hf1. ring.
  - transitivity ((A + C) / 2 * sin f + (B / 2 * cos f - (A - C) / 2 * sin f)); [field|]. rewrite EA, EB.
    transitivity ((A + C) / 2 * sin f + w * (sin p * cos f - cos p * sin f)); [ring|]. rewrite Hf2. ring.
  - transitivity ((A + C) / 2 * ((A + C) / 2) - w * w); [field|]. pose proof (cs1 p) as Hp.
    transitivity ((A + C) / 2 * ((A + C) / 2) - w * w * (cos p * cos p + sin p * sin p)); [rewrite Hp; ring|].
    transitivity ((A + C) / 2 * ((A + C) / 2) - (w * cos p) * (w * cos p) - (w * sin p) * (w * sin p)); [ring|]. rewrite <- EA, <- EB. field.
Qed.

Lemma fe_phi_eig A B C : 0 < A * C -> B * B - 4 * A * C < 0 -> A <> C \/ B = 0 -> exists l,
  A * cos (fe_phi A B C) + B / 2 * sin (fe_phi A B C) = l * cos (fe_phi A B C) /\
  B / 2 * cos (fe_phi A B C) + C * sin (fe_phi A B C) = l * sin (fe_phi A B C) /\
  l * ((A + C) - l) = A * C - B * B / 4 /\
  (0 < A -> l <= (A + C) - l) /\ (A < 0 -> (A + C) - l <= l).
Proof.
  intros H1 H2 H3. unfold fe_phi. destruct (eqb A C) eqn:E.
  - apply eqb_true in E. destruct H3 as [H3| ->]; [contradiction|]. subst C. exists A. rewrite cos_0, sin_0. repeat split; intros; try field; lra.
  - apply eqb_false in E. destruct (half_atan_eig A B C E) as (w & Hw & Q). cbv zeta in Q. destruct Q as (Q1 & Q2 & Q3).
    destruct (ltb (Rabs A) (Rabs C)) eqn:L.
    + apply ltb_true in L. exists ((A + C) / 2 + w). do 3 (split; auto).
      split; intros HA.
      * assert (0 < C) by nra. rewrite !Rabs_right in L by lra. assert (w < 0) by nra. lra.
      * assert (C < 0) by nra. rewrite !Rabs_left in L by lra. assert (0 < w) by nra. lra.
    + apply ltb_false in L. exists ((A + C) / 2 - w).
      replace (PI / 2 - atan (- B / (A - C)) / 2) with (PI / 2 + atan (B / (A - C)) / 2).
      2:{ replace (- B / (A - C)) with (- (B / (A - C))) by (field; lra). rewrite atan_opp. field. }
      set (f := atan (B / (A - C)) / 2) in *. rewrite (Rplus_comm (PI / 2) f), cos_plus, sin_plus, cos_PI2, sin_PI2.
      split; [|split; [|split]].
      * transitivity (- (A * sin f - B / 2 * cos f)); [ring|]. transitivity (- ((A + C) * sin f - (B / 2 * cos f + C * sin f))); [ring|]. rewrite Q2. field.
      * transitivity ((A + C) * cos f - (A * cos f + B / 2 * sin f)); [ring|]. rewrite Q1. field.
      * rewrite <- Q3. field.
      * split; intros HA.
        -- assert (0 < C) by nra. rewrite !Rabs_right in L by lra. assert (0 < w) by nra. lra.
        -- assert (C < 0) by nra. rewrite !Rabs_left in L by lra. assert (w < 0) by nra. lra.
Qed.

(** the constant term in centred form has the sign of the trace *)
Lemma fe_guard A B C D E F : B * B - 4 * A * C < 0 ->
  let Delta := B * B - 4 * A * C in
  let K := - (conic_k A B C D E F / Delta) in
  let x0 := (2 * C * D - B * E) / Delta in let y0 := (2 * A * E - B * D) / Delta in
  (D * D + E * E > 4 * (A + C) * F <-> (A + C) * K > (A * C - B * B / 4) * (x0 * x0 + y0 * y0)).
Proof.
  intros H Delta K x0 y0.
  assert (E1 : D * D + E * E - 4 * (A + C) * F = 4 * ((A + C) * K - (A * C - B * B / 4) * (x0 * x0 + y0 * y0))).
  { unfold K, x0, y0, conic_k, Delta. field. lra. }
  split; intros; lra.
Qed.


Lemma from_equation_Ok ev A B C D E F e : (forall M, is_eigvals M (ev M)) ->
  ellipse_from_equation ev A B C D E F = Ok e ->
  let Delta := B * B - 4 * A * C in
  let K := - (conic_k A B C D E F / Delta) in
  0 < A * C /\ Delta < 0 /\ 4 * (A + C) * F < D * D + E * E /\ 0 < (A + C) * K /\
  eO e = ((2 * C * D - B * E) / Delta, (2 * A * E - B * D) / Delta) /\
  0 < eb e <= ea e /\ (ea e * ea e + eb e * eb e) * (A * C - B * B / 4) = K * (A + C) /\
  (ea e * ea e) * (eb e * eb e) * (A * C - B * B / 4) = K * K /\
  edeg e = true /\ ealpha e = pymod (fe_phi A B C * 180 / PI) 180.
Proof.
  intros Hev H. unfold ellipse_from_equation in H.
  destruct (leb (A * C) 0) eqn:G1; [discriminate|]. apply leb_false in G1.
  destruct (leb 0 (B * B - 4 * A * C)) eqn:G2; [discriminate|]. apply leb_false in G2.
  destruct (leb (D * D + E * E) (4 * (A + C) * F)) eqn:G3; [discriminate|]. apply leb_false in G3. cbn [orb] in H.
  destruct (eqb (det3 _) 0) in H; [discriminate|].
  specialize (Hev (mkM2 A (B / 2) (B / 2) C)). unfold is_eigvals, det2 in Hev; cbn [m11 m12 m21 m22] in Hev.
  destruct (ev (mkM2 A (B / 2) (B / 2) C)) as [l0 l1]. cbn [fst snd] in *. destruct (Hev eq_refl) as [V1 V2].
  set (Delta := B * B - 4 * A * C) in *. set (K := - (conic_k A B C D E F / Delta)). set (d := A * C - B * B / 4) in *. assert (Hd : 0 < d) by (unfold d, Delta in *; lra).
  assert (HV : l0 * l1 = d) by (rewrite V2; unfold d; field).
  assert (Hg := proj1 (fe_guard A B C D E F G2) G3). cbv zeta in Hg. fold Delta in Hg. fold K in Hg. fold d in Hg.
  set (x0 := (2 * C * D - B * E) / Delta) in *. set (y0 := (2 * A * E - B * D) / Delta) in *.
  assert (HtK : 0 < (A + C) * K). { pose proof (sqnn x0). pose proof (sqnn y0). assert (0 <= d * (x0 * x0 + y0 * y0)) by (apply Rmult_le_pos; lra). lra. }
  assert (HdetM : det2 (mkM2 A (B / 2) (B / 2) C) = d) by (unfold det2, d; cbn; field).
  rewrite HdetM in H.
  assert (HdM0 : - det3 (mkM3 F (D / 2) (E / 2) (D / 2) A (B / 2) (E / 2) (B / 2) C) = K * d).
  { unfold K, d, conic_k, det3, Delta in *; cbn. field. lra. }
  rewrite HdM0 in H.
  assert (Hsgn : 0 < K * l0 /\ 0 < K * l1).
  { assert (0 < (K * l0) * (K * l1)). { replace (K * l0 * (K * l1)) with (K * K * d) by (rewrite <- HV; ring). apply Rmult_lt_0_compat; auto. apply sqpos. intros Z. rewrite Z in HtK. lra. }
    assert (0 < K * l0 + K * l1) by (replace (K * l0 + K * l1) with ((A + C) * K) by (rewrite <- V1; ring); auto). apply pos_pair; auto. }
  destruct Hsgn as [S0 S1].
  assert (N0 : l0 <> 0) by (intros Z; rewrite Z in S0; lra). assert (N1 : l1 <> 0) by (intros Z; rewrite Z in S1; lra).
  unfold np_div in H. destruct (Req_EM_T (d * l0) 0) as [Z|_]; [apply Rmult_integral in Z; destruct Z; [lra|contradiction]|]. cbn [bind] in H.
  assert (Q0 : K * d / (d * l0) = K / l0) by (field; lra). assert (Q1 : K * d / (d * l1) = K / l1) by (field; lra).
  assert (P0 : 0 < K / l0). { replace (K / l0) with (K * l0 / (l0 * l0)) by (field; auto). apply Rdiv_lt_0_compat; auto. apply sqpos; auto. }
  assert (P1 : 0 < K / l1). { replace (K / l1) with (K * l1 / (l1 * l1)) by (field; auto). apply Rdiv_lt_0_compat; auto. apply sqpos; auto. }
  unfold py_sqrt in H. rewrite Q0 in H. destruct (Rlt_dec (K / l0) 0); [lra|]. cbn [bind] in H.
  destruct (Req_EM_T (d * l1) 0) as [Z|_]; [apply Rmult_integral in Z; destruct Z; [lra|contradiction]|]. cbn [bind] in H.
  rewrite Q1 in H. destruct (Rlt_dec (K / l1) 0); [lra|]. cbn [bind] in H.
  pose proof (sqrt_lt_R0 _ P0) as R0. pose proof (sqrt_lt_R0 _ P1) as R1.
  assert (RR0 : sqrt (K / l0) * sqrt (K / l0) = K / l0) by (apply sqrt_sqrt; lra). assert (RR1 : sqrt (K / l1) * sqrt (K / l1) = K / l1) by (apply sqrt_sqrt; lra).
  set (r0 := sqrt (K / l0)) in *. set (r1 := sqrt (K / l1)) in *.
  apply Ellipse_init_Ok in H. destruct H as (_ & _ & ->). cbn [eO ea eb edeg ealpha].
  do 4 (split; auto). split; [f_equal; unfold x0, y0, Delta in *; field; lra|].
  assert (Hsum : (r0 * r0 + r1 * r1) * d = K * (A + C)). { rewrite RR0, RR1, <- HV, <- V1. field. auto. }
  assert (Hprod : (r0 * r0) * (r1 * r1) * d = K * K). { rewrite RR0, RR1, <- HV. field. auto. }
  split; [|split; [|split; [|split; auto]]].
  - unfold Rmax, Rmin. destruct (Rle_dec r0 r1); lra.
  - rewrite <- Hsum. unfold Rmax, Rmin. destruct (Rle_dec r0 r1); ring.
  - rewrite <- Hprod. unfold Rmax, Rmin. destruct (Rle_dec r0 r1); ring.
Qed.

Lemma from_equation_total ev A B C D E F : (forall M, is_eigvals M (ev M)) ->
  0 < A * C -> B * B - 4 * A * C < 0 -> 4 * (A + C) * F < D * D + E * E -> exists e, ellipse_from_equation ev A B C D E F = Ok e.
Proof.
  intros Hev G1 G2 G3. unfold ellipse_from_equation.
  rewrite (proj2 (leb_false _ _) G1), (proj2 (leb_false _ _) G2), (proj2 (leb_false _ _) G3). cbn [orb].
  specialize (Hev (mkM2 A (B / 2) (B / 2) C)). unfold is_eigvals, det2 in Hev; cbn [m11 m12 m21 m22] in Hev.
  destruct (ev (mkM2 A (B / 2) (B / 2) C)) as [l0 l1]. cbn [fst snd] in *. destruct (Hev eq_refl) as [V1 V2].
  set (Delta := B * B - 4 * A * C) in *. set (K := - (conic_k A B C D E F / Delta)). set (d := A * C - B * B / 4) in *. assert (Hd : 0 < d) by (unfold d, Delta in *; lra).
  assert (HV : l0 * l1 = d) by (rewrite V2; unfold d; field).
  assert (Hg := proj1 (fe_guard A B C D E F G2) G3). cbv zeta in Hg. fold Delta in Hg. fold K in Hg. fold d in Hg.
  set (x0 := (2 * C * D - B * E) / Delta) in *. set (y0 := (2 * A * E - B * D) / Delta) in *.
  assert (HtK : 0 < (A + C) * K). { pose proof (sqnn x0). pose proof (sqnn y0). assert (0 <= d * (x0 * x0 + y0 * y0)) by (apply Rmult_le_pos; lra). lra. }
  assert (HdetM : det2 (mkM2 A (B / 2) (B / 2) C) = d) by (unfold det2, d; cbn; field). rewrite HdetM.
  assert (HdM0 : - det3 (mkM3 F (D / 2) (E / 2) (D / 2) A (B / 2) (E / 2) (B / 2) C) = K * d).
  { unfold K, d, conic_k, det3, Delta in *; cbn. field. lra. }
  assert (HK0 : K <> 0) by (intros Z; rewrite Z in HtK; lra).
  assert (HQ : det3 (mkM3 (2 * A) B D B (2 * C) E D E (2 * F)) = - 8 * (K * d)).
  { rewrite <- HdM0. unfold det3; cbn. field. }
  rewrite HQ, HdM0. destruct (eqb (- 8 * (K * d)) 0) eqn:Z; [apply eqb_true in Z; exfalso; assert (K * d <> 0) by (apply Rmult_integral_contrapositive; split; lra); lra|].
  assert (Hsgn : 0 < K * l0 /\ 0 < K * l1).
  { assert (0 < (K * l0) * (K * l1)). { replace (K * l0 * (K * l1)) with (K * K * d) by (rewrite <- HV; ring). apply Rmult_lt_0_compat; auto. apply sqpos. auto. }
    assert (0 < K * l0 + K * l1) by (replace (K * l0 + K * l1) with ((A + C) * K) by (rewrite <- V1; ring); auto). apply pos_pair; auto. }
  destruct Hsgn as [S0 S1].
  assert (N0 : l0 <> 0) by (intros Z0; rewrite Z0 in S0; lra). assert (N1 : l1 <> 0) by (intros Z0; rewrite Z0 in S1; lra).
  unfold np_div. destruct (Req_EM_T (d * l0) 0) as [Z0|_]; [apply Rmult_integral in Z0; destruct Z0; [lra|contradiction]|]. cbn [bind].
  assert (Q0 : K * d / (d * l0) = K / l0) by (field; lra). assert (Q1 : K * d / (d * l1) = K / l1) by (field; lra).
  assert (P0 : 0 < K / l0). { replace (K / l0) with (K * l0 / (l0 * l0)) by (field; auto). apply Rdiv_lt_0_compat; auto. apply sqpos; auto. }
  assert (P1 : 0 < K / l1). { replace (K / l1) with (K * l1 / (l1 * l1)) by (field; auto). apply Rdiv_lt_0_compat; auto. apply sqpos; auto. }
  unfold py_sqrt. rewrite Q0. destruct (Rlt_dec (K / l0) 0); [lra|]. cbn [bind].
  destruct (Req_EM_T (d * l1) 0) as [Z0|_]; [apply Rmult_integral in Z0; destruct Z0; [lra|contradiction]|]. cbn [bind].
  rewrite Q1. destruct (Rlt_dec (K / l1) 0); [lra|]. cbn [bind].
  pose proof (sqrt_lt_R0 _ P0) as R0. pose proof (sqrt_lt_R0 _ P1) as R1.
  eexists. apply Ellipse_init_pos; unfold Rmax, Rmin; destruct Rle_dec; auto.
Qed.

Lemma from_equation_raises ev A B C D E F : (forall M, is_eigvals M (ev M)) ->
  A * C <= 0 \/ 0 <= B * B - 4 * A * C \/ D * D + E * E <= 4 * (A + C) * F -> ellipse_from_equation ev A B C D E F = Raise ValueError.
Proof.
  intros Hev H. unfold ellipse_from_equation. destruct H as [H|[H|H]]; apply leb_true in H; rewrite H, ?orb_true_r; auto.
Qed.

(** axes from sum and product of squares *)
Lemma axes_unique a b a' b' : 0 < b <= a -> 0 < b' <= a' -> a * a + b * b = a' * a' + b' * b' -> a * a * (b * b) = a' * a' * (b' * b') -> a = a' /\ b = b'.
Proof.
  intros H1 H2 E1 E2.
  assert (S : (a * a - a' * a') * (a * a - b' * b') = 0) by nra.
  assert (K : a * a = a' * a' /\ b * b = b' * b').
  { apply Rmult_integral in S. destruct S as [S|S]; [split; lra|]. assert (b' * b' <= a' * a') by nra. assert (b * b <= a * a) by nra. split; lra. }
  destruct K. split; nra.
Qed.

Lemma from_equation_spec ev A B C D E F e : (forall M, is_eigvals M (ev M)) ->
  ellipse_from_equation ev A B C D E F = Ok e -> A <> C \/ B = 0 ->
  0 < eb e <= ea e /\ edeg e = true /\ 0 <= ealpha e < 180 /\
  exists K, K <> 0 /\ forall M, conic_eval (A, B, C, D, E, F) M = K * (ell_form (eO e) (ea e) (eb e) (ell_th e) M - 1).
Proof.
  intros Hev He HAC. destruct (from_equation_Ok ev A B C D E F e Hev He) as (G1 & G2 & G3 & G4 & HO & Hab & Hs & Hp & Hdeg & Hal).
  split; auto. split; auto. split; [rewrite Hal; apply pymod_range; lra|].
  set (Delta := B * B - 4 * A * C) in *. set (K := - (conic_k A B C D E F / Delta)) in *. exists K. split; [intros Z; rewrite Z in G4; lra|].
  intros M. unfold ell_th. rewrite Hdeg, Hal, ell_form_pymod_180, HO.
  rewrite conic_centre by (fold Delta; lra). fold Delta. set (x0 := (2 * C * D - B * E) / Delta) in *. set (y0 := (2 * A * E - B * D) / Delta) in *.
  destruct (fe_phi_eig A B C G1 G2 HAC) as (l & L1 & L2 & L3 & L4 & L5).
  set (d := A * C - B * B / 4) in *. assert (Hd : 0 < d) by (unfold d, Delta in *; lra).
  assert (Hl : l <> 0) by (intros Z; rewrite Z in L3; lra). assert (Hl' : A + C - l <> 0) by (intros Z; rewrite Z in L3; lra).
  transitivity (K * ell_form (x0, y0) (ea e) (eb e) (fe_phi A B C) M + - K); [|ring].
  replace (conic_k A B C D E F / Delta) with (- K) by (unfold K; ring). f_equal.
  assert (HA0 : A <> 0) by (intros Z; rewrite Z in G1; lra).
  assert (HKl : 0 < K * l /\ 0 < K * (A + C - l)).
  { assert (0 < (K * l) * (K * (A + C - l))). { replace (K * l * (K * (A + C - l))) with (K * K * d) by (rewrite <- L3; ring). apply Rmult_lt_0_compat; auto. apply sqpos. intros Z. rewrite Z in G4. lra. }
    assert (0 < K * l + K * (A + C - l)) by (replace (K * l + K * (A + C - l)) with ((A + C) * K) by ring; auto). apply pos_pair; auto. }
  (* the axes *)
  set (a := sqrt (K / l)). set (b := sqrt (K / (A + C - l))).
  assert (P0 : 0 < K / l). { replace (K / l) with (K * l / (l * l)) by (field; auto). apply Rdiv_lt_0_compat; [tauto|]. apply sqpos; auto. }
  assert (P1 : 0 < K / (A + C - l)). { replace (K / (A + C - l)) with (K * (A + C - l) / ((A + C - l) * (A + C - l))) by (field; auto). apply Rdiv_lt_0_compat; [tauto|]. apply sqpos; auto. }
  assert (Haa : a * a = K / l) by (apply sqrt_sqrt; lra). assert (Hbb : b * b = K / (A + C - l)) by (apply sqrt_sqrt; lra).
  assert (Hpa : 0 < a) by (apply sqrt_lt_R0; auto). assert (Hpb : 0 < b) by (apply sqrt_lt_R0; auto).
  assert (Hle : b <= a).
  { apply sqrt_le_1; try lra. replace (K / l) with (K * (A + C - l) / d) by (rewrite <- L3; field; auto). replace (K / (A + C - l)) with (K * l / d) by (rewrite <- L3; field; auto).
    apply Rmult_le_compat_r; [left; apply Rinv_0_lt_compat; auto|].
    destruct (Rlt_le_dec 0 A) as [P|P].
    - specialize (L4 P). assert (HC := mul_pos_l _ _ G1 P). assert (HK : 0 < K) by (apply (mul_pos_l (A + C)); lra). apply Rmult_le_compat_l; lra.
    - assert (P' : A < 0) by lra. specialize (L5 P'). assert (HC := mul_neg_l _ _ G1 P'). assert (HK : K < 0) by (apply (mul_neg_l (A + C)); lra).
      clear - L5 HK. nra. }
  destruct (axes_unique (ea e) (eb e) a b Hab (conj Hpb Hle)) as [-> ->].
  { apply Rmult_eq_reg_r with d; [|lra]. rewrite Hs, Haa, Hbb, <- L3. field. auto. }
  { apply Rmult_eq_reg_r with d; [|lra]. rewrite Hp, Haa, Hbb, <- L3. field. auto. }
  apply (conic_ell_form A B C l K (x0, y0)); auto.
  - rewrite Haa. field; auto.
  - rewrite Hbb. field; auto.
Qed.

(** scaling the coefficients *)
Lemma from_equation_scale ev ev' A B C D E F k : (forall M, is_eigvals M (ev M)) -> (forall M, is_eigvals M (ev' M)) -> k <> 0 ->
  ellipse_from_equation ev' (k * A) (k * B) (k * C) (k * D) (k * E) (k * F) = ellipse_from_equation ev A B C D E F.
Proof.
  intros Hev Hev' Hk. assert (Hkk : 0 < k * k) by (apply sqpos; auto).
  destruct (Rlt_le_dec 0 (A * C)) as [G1|G1]; [destruct (Rlt_le_dec (B * B - 4 * A * C) 0) as [G2|G2]; [destruct (Rlt_le_dec (4 * (A + C) * F) (D * D + E * E)) as [G3|G3]|]|].
  2,3,4: rewrite !from_equation_raises; auto.
  2:{ right; right. replace (k * D * (k * D) + k * E * (k * E)) with (k * k * (D * D + E * E)) by ring. replace (4 * (k * A + k * C) * (k * F)) with (k * k * (4 * (A + C) * F)) by ring. apply Rmult_le_compat_l; lra. }
  2:{ right; left. replace (k * B * (k * B) - 4 * (k * A) * (k * C)) with (k * k * (B * B - 4 * A * C)) by ring. apply Rmult_le_pos; lra. }
  2:{ left. replace (k * A * (k * C)) with (k * k * (A * C)) by ring. nra. }
  assert (G1' : 0 < k * A * (k * C)). { replace (k * A * (k * C)) with (k * k * (A * C)) by ring. apply Rmult_lt_0_compat; auto. }
  assert (G2' : k * B * (k * B) - 4 * (k * A) * (k * C) < 0). { replace (k * B * (k * B) - 4 * (k * A) * (k * C)) with (k * k * (B * B - 4 * A * C)) by ring. nra. }
  assert (G3' : 4 * (k * A + k * C) * (k * F) < k * D * (k * D) + k * E * (k * E)).
  { replace (k * D * (k * D) + k * E * (k * E)) with (k * k * (D * D + E * E)) by ring. replace (4 * (k * A + k * C) * (k * F)) with (k * k * (4 * (A + C) * F)) by ring. apply Rmult_lt_compat_l; lra. }
  destruct (from_equation_total ev A B C D E F Hev G1 G2 G3) as (e & He). destruct (from_equation_total ev' _ _ _ _ _ _ Hev' G1' G2' G3') as (e' & He').
  rewrite He, He'. f_equal. apply from_equation_Ok in He; auto. apply from_equation_Ok in He'; auto. cbv zeta in *.
  destruct He as (_ & _ & _ & G4 & HO & Hab & Hs & Hp & Hdeg & Hal). destruct He' as (_ & _ & _ & _ & HO' & Hab' & Hs' & Hp' & Hdeg' & Hal').
  set (d := A * C - B * B / 4) in *. assert (Hd : 0 < d) by (unfold d; lra).
  assert (EK : - (conic_k (k * A) (k * B) (k * C) (k * D) (k * E) (k * F) / (k * B * (k * B) - 4 * (k * A) * (k * C))) = k * - (conic_k A B C D E F / (B * B - 4 * A * C))).
  { unfold conic_k. field. repeat split; (lra || auto). }
  rewrite EK in Hs', Hp'. set (K := - (conic_k A B C D E F / (B * B - 4 * A * C))) in *.
  replace (k * A * (k * C) - k * B * (k * B) / 4) with (k * k * d) in Hs', Hp' by (unfold d; field).
  destruct (axes_unique (ea e) (eb e) (ea e') (eb e') Hab Hab') as [Ea Eb].
  { apply Rmult_eq_reg_r with (k * k * d); [|nra]. rewrite Hs'. transitivity (k * k * ((ea e * ea e + eb e * eb e) * d)); [ring|]. rewrite Hs. ring. }
  { apply Rmult_eq_reg_r with (k * k * d); [|nra]. rewrite Hp'. transitivity (k * k * ((ea e * ea e) * (eb e * eb e) * d)); [ring|]. rewrite Hp. ring. }
  assert (EO : eO e' = eO e). { rewrite HO, HO'. f_equal; field; lra. }
  assert (Ephi : fe_phi (k * A) (k * B) (k * C) = fe_phi A B C).
  { unfold fe_phi. destruct (eqb A C) eqn:Q.
    - apply eqb_true in Q. subst C. rewrite (proj2 (eqb_true _ _)) by auto. auto.
    - apply eqb_false in Q. rewrite (proj2 (eqb_false (k * A) (k * C))) by (intros Z; apply Q; apply Rmult_eq_reg_l with k; auto).
      rewrite !Rabs_mult. assert (0 < Rabs k) by (apply Rabs_pos_lt; auto).
      replace (k * A - k * C) with (k * (A - C)) by ring.
      replace (k * B / (k * (A - C))) with (B / (A - C)) by (field; split; lra). replace (- (k * B) / (k * (A - C))) with (- B / (A - C)) by (field; split; lra).
      destruct (ltb (Rabs A) (Rabs C)) eqn:L; [apply ltb_true in L; rewrite (proj2 (ltb_true _ _)) by nra; auto|apply ltb_false in L; rewrite (proj2 (ltb_false _ _)) by nra; auto]. }
  destruct e as [O1 a1 b1 al1 d1], e' as [O2 a2 b2 al2 d2]. cbn [eO ea eb ealpha edeg] in *. rewrite Ephi in Hal'. congruence.
Qed.

(** ** C26 *)

Definition feq ev (k : conic) := let '(A, B, C, D, E, F) := k in ellipse_from_equation ev A B C D E F.

Lemma equation_coeffs e : 0 < ea e -> 0 < eb e -> exists A B C D E F, ellipse_equation e = (A, B, C, D, E, F) /\
  0 < A /\ 0 < C /\ A * C - B * B / 4 = (ea e * eb e) ^ 2 /\ A + C = ea e ^ 2 + eb e ^ 2 /\
  A - C = (eb e ^ 2 - ea e ^ 2) * cos (2 * ell_th e) /\ B = (eb e ^ 2 - ea e ^ 2) * sin (2 * ell_th e) /\
  - (conic_k A B C D E F / (B * B - 4 * A * C)) = (ea e * eb e) ^ 2 /\
  (2 * C * D - B * E) / (B * B - 4 * A * C) = fst (eO e) /\ (2 * A * E - B * D) / (B * B - 4 * A * C) = snd (eO e).
Proof.
  intros Ha Hb. pose proof (shape_matrix_dets e Ha Hb) as Hsm. unfold ellipse_equation in *. rewrite ell_angle_eq in *. set (th := ell_th e) in *. pose proof (cs1 th) as H.
  eexists _, _, _, _, _, _. split; [reflexivity|]. destruct Hsm as [S1 _]. 
  rewrite cos_2a, sin_2a. set (c := cos th) in *. set (s := sin th) in *. 
  replace (1 - s * s) with (c * c) in * by lra. set (a := ea e) in *. set (b := eb e) in *.
  assert (HA : 0 < a ^ 2 * (s * s) + b ^ 2 * (c * c)).
  { assert (0 < a ^ 2) by (apply pow_lt; auto). assert (0 < b ^ 2) by (apply pow_lt; auto). pose proof (sqnn c). pose proof (sqnn s).
    destruct (Rlt_le_dec 0 (c * c)); [nra|]. assert (c * c = 0) by lra. assert (s * s = 1) by lra. nra. }
  assert (HC : 0 < a ^ 2 * (c * c) + b ^ 2 * (s * s)).
  { assert (0 < a ^ 2) by (apply pow_lt; auto). assert (0 < b ^ 2) by (apply pow_lt; auto). pose proof (sqnn c). pose proof (sqnn s).
    destruct (Rlt_le_dec 0 (c * c)); [nra|]. assert (c * c = 0) by lra. assert (s * s = 1) by lra. nra. }
  split; auto. split; auto. split; auto.
  split; [transitivity ((a ^ 2 + b ^ 2) * (c * c + s * s)); [ring|rewrite H; ring]|].
  split; [ring|]. split; [ring|].
  assert (0 < (a * b) ^ 2) by (apply pow_lt; nra).
  set (A := a ^ 2 * (s * s) + b ^ 2 * (c * c)) in *. set (C := a ^ 2 * (c * c) + b ^ 2 * (s * s)) in *. set (B := 2 * (b ^ 2 - a ^ 2) * s * c) in *. clearbody A B C.
  unfold conic_k. split; [|split]; field; lra.
Qed.

Lemma own_equation_ok ev e : (forall M, is_eigvals M (ev M)) -> 0 < ea e -> 0 < eb e ->
  ((exists e', feq ev (ellipse_equation e) = Ok e') <-> dist2 (0, 0) (eO e) < ea e ^ 2 + eb e ^ 2) /\
  (feq ev (ellipse_equation e) = Raise ValueError <-> ea e ^ 2 + eb e ^ 2 <= dist2 (0, 0) (eO e)).
Proof.
  intros Hev Ha Hb. destruct (equation_coeffs e Ha Hb) as (A & B & C & D & E & F & -> & HA & HC & Hd & Ht & _ & _ & HK & Hx & Hy). cbn [feq].
  assert (Hp : 0 < (ea e * eb e) ^ 2) by (apply pow_lt; nra). set (m := (ea e * eb e) ^ 2) in *.
  assert (G1 : 0 < A * C) by nra. assert (G2 : B * B - 4 * A * C < 0) by lra.
  pose proof (fe_guard A B C D E F G2) as G. cbv zeta in G. rewrite HK, Hx, Hy, Hd, Ht in G.
  assert (HO : dist2 (0, 0) (eO e) = fst (eO e) * fst (eO e) + snd (eO e) * snd (eO e)) by (unspec; ring). rewrite HO.
  set (q := fst (eO e) * fst (eO e) + snd (eO e) * snd (eO e)) in *. set (t := ea e ^ 2 + eb e ^ 2) in *. clearbody q t m.
  assert (G' : (4 * (A + C) * F < D * D + E * E) <-> q < t). { rewrite Ht. split; intros; [assert (t * m > m * q) by (apply G; lra); nra|apply G; nra]. }
  destruct (Rlt_le_dec (4 * (A + C) * F) (D * D + E * E)) as [G3|G3].
  - destruct (from_equation_total ev A B C D E F Hev G1 G2 G3) as (e' & He'). rewrite He'. apply G' in G3. split; split; intros; try lra; try discriminate; eauto.
  - rewrite from_equation_raises; auto. assert (t <= q) by (destruct (Rlt_le_dec q t); auto; apply G' in r; lra). split; split; intros; try lra; auto. destruct H0; discriminate.
Qed.

Lemma own_equation_same ev e e' : (forall M, is_eigvals M (ev M)) -> 0 < ea e -> 0 < eb e ->
  feq ev (ellipse_equation e) = Ok e' -> ea e = eb e \/ cos (2 * ell_th e) <> 0 ->
  0 < eb e' <= ea e' /\ forall M, ell_form (eO e') (ea e') (eb e') (ell_th e') M = ell_form (eO e) (ea e) (eb e) (ell_th e) M.
Proof.
  intros Hev Ha Hb He' Hc. pose proof (fun M => equation_spec e M Ha Hb) as Heq.
  destruct (equation_coeffs e Ha Hb) as (A & B & C & D & E & F & HE & HA & HC & Hd & Ht & HAC & HB & HK & Hx & Hy). rewrite HE in *. cbn [feq] in He'.
  assert (Hp : 0 < (ea e * eb e) ^ 2) by (apply pow_lt; nra).
  assert (Hcond : A <> C \/ B = 0).
  { destruct Hc as [Hc|Hc]; [right; rewrite HB, Hc; ring|]. destruct (Req_dec (eb e ^ 2 - ea e ^ 2) 0) as [Z|Z]; [right; rewrite HB, Z; ring|].
    left. intros K. assert (K' : A - C = 0) by lra. rewrite HAC in K'. apply Rmult_integral in K'. tauto. }
  destruct (from_equation_spec ev A B C D E F e' Hev He' Hcond) as (S1 & _ & _ & K & K0 & HKf).
  destruct (from_equation_Ok ev A B C D E F e' Hev He') as (_ & _ & _ & _ & HO' & _). rewrite Hx, Hy in HO'.
  split; auto. intros M. 
  (* evaluate at the common centre to get K *)
  assert (EK : K = (ea e * eb e) ^ 2).
  { pose proof (HKf (eO e')) as Z. rewrite Heq in Z.
    assert (Z0 : forall O a b th, 0 < a -> 0 < b -> ell_form O a b th O = 0) by (intros; unfold ell_form, fx, fy; field; lra).
    rewrite (Z0 (eO e')) in Z by lra. replace (eO e') with (eO e) in Z by (rewrite HO'; destruct (eO e); auto). rewrite Z0 in Z by auto. lra. }
  pose proof (HKf M) as Z. rewrite Heq, EK in Z. apply Rmult_eq_reg_l in Z; [lra|lra].
Qed.

Lemma own_equation_diagonal ev e e' : (forall M, is_eigvals M (ev M)) -> 0 < ea e -> 0 < eb e ->
  feq ev (ellipse_equation e) = Ok e' -> ea e <> eb e -> cos (2 * ell_th e) = 0 ->
  eO e' = eO e /\ ea e' = Rmax (ea e) (eb e) /\ eb e' = Rmin (ea e) (eb e) /\ ell_th e' = 0 /\
  exists M, on_ellipse (eO e') (ea e') (eb e') (ell_th e') M /\ ~ on_ellipse (eO e) (ea e) (eb e) (ell_th e) M.
Proof.
  intros Hev Ha Hb He' Hne Hc.
  destruct (equation_coeffs e Ha Hb) as (A & B & C & D & E & F & HE & HA & HC & Hd & Ht & HAC & HB & HK & Hx & Hy). rewrite HE in *. cbn [feq] in He'.
  destruct (from_equation_Ok ev A B C D E F e' Hev He') as (_ & _ & _ & _ & HO' & Hab' & Hs & Hpr & Hdeg & Hal). rewrite Hx, Hy in HO'. rewrite HK, Hd in Hs, Hpr.
  assert (Hp : 0 < (ea e * eb e) ^ 2) by (apply pow_lt; nra).
  assert (HO : eO e' = eO e) by (rewrite HO'; destruct (eO e); auto). split; auto.
  assert (Hmm : 0 < Rmin (ea e) (eb e) <= Rmax (ea e) (eb e)) by (unfold Rmin, Rmax; destruct Rle_dec; lra).
  destruct (axes_unique (ea e') (eb e') (Rmax (ea e) (eb e)) (Rmin (ea e) (eb e)) Hab' Hmm) as [Ea Eb].
  { assert (X : ea e' * ea e' + eb e' * eb e' = A + C) by (apply Rmult_eq_reg_r with ((ea e * eb e) ^ 2); lra). rewrite X, Ht. unfold Rmin, Rmax; destruct Rle_dec; ring. }
  { assert (X : ea e' * ea e' * (eb e' * eb e') = (ea e * eb e) ^ 2) by (apply Rmult_eq_reg_r with ((ea e * eb e) ^ 2); lra). rewrite X. unfold Rmin, Rmax; destruct Rle_dec; ring. }
  split; auto. split; auto.
  assert (Hth : ell_th e' = 0).
  { unfold ell_th. rewrite Hdeg, Hal. unfold fe_phi. rewrite (proj2 (eqb_true A C)) by (rewrite Hc in HAC; lra).
    rewrite (pymod_unique (0 * 180 / PI) 180 0 0) by (try lra; field; apply PI_neq0). unfold radians, deg. field. }
  split; auto. exists (frame_pt (eO e) 0 (ea e') 0). rewrite HO, Hth. split.
  - apply on_ellipse_poly; try lra. rewrite fx_frame, fy_frame. ring.
  - intros K. apply on_ellipse_poly in K; auto.
    assert (Hth2 := Hc). rewrite cos_2a in Hth2. pose proof (cs1 (ell_th e)) as Hcs.
    assert (C2 : cos (ell_th e) * cos (ell_th e) = 1 / 2) by lra. assert (S2 : sin (ell_th e) * sin (ell_th e) = 1 / 2) by lra.
    unfold fx, fy, frame_pt in K; cbn [fst snd] in K. rewrite cos_0, sin_0 in K.
    assert (K2 : (eb e * eb e + ea e * ea e) * (ea e' * ea e') / 2 = ea e * ea e * (eb e * eb e)).
    { rewrite <- K. transitivity (eb e * eb e * ((ea e' * ea e') * (1 / 2)) + ea e * ea e * ((ea e' * ea e') * (1 / 2))); [field|]. rewrite <- C2 at 1. rewrite <- S2. ring. }
    assert (Hcase : ea e' = ea e \/ ea e' = eb e) by (rewrite Ea; unfold Rmax; destruct Rle_dec; auto).
    destruct Hcase as [Z|Z]; rewrite Z in K2; apply Hne; assert (ea e * ea e = eb e * eb e) by nra; nra.
Qed.
