(** * Möbius transformations: transformations through given points, cross ratio,
    compositions of inversions. *)

From Coq Require Import Reals Lra Lia Psatz List Bool ZArith.
From Verif Require Import Base BaseLemmas Spec SpecLemmas SpecMobius SpecTriangle ModelInternal ModelLine ModelCircle ModelTriangle ModelInversion ModelMobius
  PCircle PInvBase PTriangle PTriangle2 PInversion PMobius PMobius2.
Import ListNotations.
Local Open Scope R_scope.

(** ** Three points *)

Lemma three_det z1 z2 z3 : z1 <> z2 -> z1 <> z3 -> z2 <> z3 -> mdet (mobius_from_three_points z1 z2 z3) <> C0.
Proof.
  intros H12 H13 H23. unfold mdet, mobius_from_three_points. cbn [ma mb mc md].
  assert (D : (z2 - z1)%C <> C0) by (intros K; apply H12; symmetry; apply Csub_0; auto).
  assert (E : (z2 - z3)%C <> C0) by (intros K; apply H23; apply Csub_0; auto).
  assert (F : (z1 - z3)%C <> C0) by (intros K; apply H13; apply Csub_0; auto).
  replace ((z2 - z3) / (z2 - z1) * - z3 - C1 * (- ((z2 - z3) / (z2 - z1)) * z1))%C with ((z2 - z3) / (z2 - z1) * (z1 - z3))%C by cring.
  apply Cmul_neq0; auto. apply Cdiv_neq0; auto.
Qed.

Lemma three_points z1 z2 z3 : z1 <> z2 -> z1 <> z3 -> z2 <> z3 ->
  let M := mobius_from_three_points z1 z2 z3 in
  transform M (Pt z1) = Ok (Pt C0) /\ transform M (Pt z2) = Ok (Pt C1) /\ transform M (Pt z3) = Ok Inf.
Proof.
  intros H12 H13 H23 M. pose proof (three_det z1 z2 z3 H12 H13 H23) as HD.
  assert (D : (z2 - z1)%C <> C0) by (intros K; apply H12; symmetry; apply Csub_0; auto).
  assert (E : (z2 - z3)%C <> C0) by (intros K; apply H23; apply Csub_0; auto).
  assert (F : (z1 - z3)%C <> C0) by (intros K; apply H13; apply Csub_0; auto).
  split; [|split]; apply transform_Ok; auto; unfold M, mobius_from_three_points; cbn [ma mb mc md]; unfold mob_image; cbn [hom fst snd].
  - exists (z1 - z3)%C. split; auto. split; cring.
  - exists (z2 - z3)%C. split; auto. split; cfield; auto.
  - exists ((z2 - z3) / (z2 - z1) * (z3 - z1))%C. split; [|split; cring].
    apply Cmul_neq0; [apply Cdiv_neq0; auto|]. intros K. apply H13. symmetry. apply Csub_0; auto.
Qed.

Lemma ept_eqb_true P Q : ept_eqb P Q = true <-> P = Q.
Proof.
  destruct P as [z|], Q as [w|]; cbn [ept_eqb]; try (split; [auto; discriminate|discriminate]); try tauto.
  rewrite Ceqb_true. split; [intros ->; auto|apply Pt_inj].
Qed.

Lemma two_equal_true P1 P2 P3 : two_equal P1 P2 P3 = true <-> P1 = P2 \/ P1 = P3 \/ P2 = P3.
Proof. unfold two_equal. rewrite !orb_true_iff, !ept_eqb_true. tauto. Qed.

Lemma two_equal_false P1 P2 P3 : two_equal P1 P2 P3 = false <-> P1 <> P2 /\ P1 <> P3 /\ P2 <> P3.
Proof.
  rewrite <- not_true_iff_false, two_equal_true. tauto.
Qed.

Lemma mapping_three_Some P1 P2 P3 Q1 Q2 Q3 M : from_mapping_three_points P1 P2 P3 Q1 Q2 Q3 = Ok (Some M) ->
  exists z1 z2 z3 w1 w2 w3, P1 = Pt z1 /\ P2 = Pt z2 /\ P3 = Pt z3 /\ Q1 = Pt w1 /\ Q2 = Pt w2 /\ Q3 = Pt w3 /\
    z1 <> z2 /\ z1 <> z3 /\ z2 <> z3 /\ w1 <> w2 /\ w1 <> w3 /\ w2 <> w3 /\
    M = compose (mobius_from_three_points z1 z2 z3) (inverse (mobius_from_three_points w1 w2 w3)) true.
Proof.
  unfold from_mapping_three_points. destruct (two_equal P1 P2 P3) eqn:E1; [discriminate|]. destruct (two_equal Q1 Q2 Q3) eqn:E2; [discriminate|].
  apply two_equal_false in E1, E2. destruct P1 as [z1|], P2 as [z2|], P3 as [z3|], Q1 as [w1|], Q2 as [w2|], Q3 as [w3|]; try discriminate.
  intros E. apply Ok_inj in E. injection E as <-. exists z1, z2, z3, w1, w2, w3. repeat split; auto; intros ->; tauto.
Qed.

Lemma mapping_three_spec P1 P2 P3 Q1 Q2 Q3 M : from_mapping_three_points P1 P2 P3 Q1 Q2 Q3 = Ok (Some M) ->
  mdet M <> C0 /\ transform M P1 = Ok Q1 /\ transform M P2 = Ok Q2 /\ transform M P3 = Ok Q3.
Proof.
  intros H. destruct (mapping_three_Some _ _ _ _ _ _ _ H) as (z1 & z2 & z3 & w1 & w2 & w3 & -> & -> & -> & -> & -> & -> & Z1 & Z2 & Z3 & W1 & W2 & W3 & ->).
  pose proof (three_det z1 z2 z3 Z1 Z2 Z3) as HD1. pose proof (three_det w1 w2 w3 W1 W2 W3) as HD2.
  assert (HD2' : mdet (inverse (mobius_from_three_points w1 w2 w3)) <> C0) by (rewrite mdet_inverse; auto).
  destruct (three_points z1 z2 z3 Z1 Z2 Z3) as (A1 & A2 & A3). destruct (three_points w1 w2 w3 W1 W2 W3) as (B1 & B2 & B3).
  split; [unfold compose; rewrite mdet_matmul; apply Cmul_neq0; auto|].
  rewrite !transform_compose by auto. rewrite A1, A2, A3. cbn [bind].
  repeat split; apply (transform_inverse (mobius_from_three_points w1 w2 w3)); auto.
Qed.

Lemma mapping_three_total z1 z2 z3 w1 w2 w3 : z1 <> z2 -> z1 <> z3 -> z2 <> z3 -> w1 <> w2 -> w1 <> w3 -> w2 <> w3 ->
  exists M, from_mapping_three_points (Pt z1) (Pt z2) (Pt z3) (Pt w1) (Pt w2) (Pt w3) = Ok (Some M).
Proof.
  intros. unfold from_mapping_three_points. rewrite (proj2 (two_equal_false (Pt z1) (Pt z2) (Pt z3))), (proj2 (two_equal_false (Pt w1) (Pt w2) (Pt w3))).
  - eauto.
  - repeat split; intros E; apply Pt_inj in E; auto.
  - repeat split; intros E; apply Pt_inj in E; auto.
Qed.

Lemma mapping_three_None P1 P2 P3 Q1 Q2 Q3 : from_mapping_three_points P1 P2 P3 Q1 Q2 Q3 = Ok None <->
  (P1 = P2 \/ P1 = P3 \/ P2 = P3) \/ (Q1 = Q2 \/ Q1 = Q3 \/ Q2 = Q3).
Proof.
  unfold from_mapping_three_points. rewrite <- !two_equal_true. destruct (two_equal P1 P2 P3); [tauto|]. destruct (two_equal Q1 Q2 Q3); [tauto|].
  split; [|intuition discriminate]. destruct P1, P2, P3, Q1, Q2, Q3; discriminate.
Qed.

Lemma mapping_three_inf P1 P2 P3 Q1 Q2 Q3 : In Inf [P1; P2; P3; Q1; Q2; Q3] ->
  from_mapping_three_points P1 P2 P3 Q1 Q2 Q3 = Ok None \/ from_mapping_three_points P1 P2 P3 Q1 Q2 Q3 = Raise NonFinite.
Proof.
  intros H. unfold from_mapping_three_points. destruct (two_equal P1 P2 P3); auto. destruct (two_equal Q1 Q2 Q3); auto. right.
  destruct P1, P2, P3, Q1, Q2, Q3; auto. simpl in H. intuition discriminate.
Qed.

(** three fixed points: the identity *)
Lemma quadratic_three (c e b z1 z2 z3 : C) : z1 <> z2 -> z1 <> z3 -> z2 <> z3 ->
  (c * (z1 * z1) + e * z1 - b)%C = C0 -> (c * (z2 * z2) + e * z2 - b)%C = C0 -> (c * (z3 * z3) + e * z3 - b)%C = C0 ->
  c = C0 /\ e = C0 /\ b = C0.
Proof.
  intros N12 N13 N23 E1 E2 E3.
  assert (D12 : (z1 - z2)%C <> C0) by (intros K; apply N12; apply Csub_0; auto).
  assert (D13 : (z1 - z3)%C <> C0) by (intros K; apply N13; apply Csub_0; auto).
  assert (D23 : (z2 - z3)%C <> C0) by (intros K; apply N23; apply Csub_0; auto).
  assert (F12 : (c * (z1 + z2) + e)%C = C0).
  { apply (Cmul_cancel (z1 - z2)%C); auto. transitivity ((c * (z1 * z1) + e * z1 - b) - (c * (z2 * z2) + e * z2 - b))%C; [cring|rewrite E1, E2; cring]. }
  assert (F13 : (c * (z1 + z3) + e)%C = C0).
  { apply (Cmul_cancel (z1 - z3)%C); auto. transitivity ((c * (z1 * z1) + e * z1 - b) - (c * (z3 * z3) + e * z3 - b))%C; [cring|rewrite E1, E3; cring]. }
  assert (Hc : c = C0).
  { apply (Cmul_cancel (z2 - z3)%C); auto. transitivity ((c * (z1 + z2) + e) - (c * (z1 + z3) + e))%C; [cring|rewrite F12, F13; cring]. }
  subst c. assert (He : e = C0) by (rewrite <- F12; cring). subst e. repeat split; auto.
  transitivity (- (C0 * (z1 * z1) + C0 * z1 - b))%C; [cring|rewrite E1; cring].
Qed.

Lemma three_fixed M z1 z2 z3 : mdet M <> C0 -> z1 <> z2 -> z1 <> z3 -> z2 <> z3 ->
  transform M (Pt z1) = Ok (Pt z1) -> transform M (Pt z2) = Ok (Pt z2) -> transform M (Pt z3) = Ok (Pt z3) ->
  forall P, transform M P = Ok P.
Proof.
  intros HD N12 N13 N23 E1 E2 E3. apply fixed_iff in E1, E2, E3; auto.
  destruct (quadratic_three _ _ _ _ _ _ N12 N13 N23 E1 E2 E3) as (Hc & He & Hb). apply (proj1 (Csub_0 _ _)) in He.
  intros P. apply transform_Ok; auto. exists (ma M). rewrite Hc, He, Hb. split; [|split; cring].
  intros K. apply HD. unfold mdet. rewrite K, Hc. cring.
Qed.

Lemma mobius_unique M M' z1 z2 z3 : mdet M <> C0 -> mdet M' <> C0 -> z1 <> z2 -> z1 <> z3 -> z2 <> z3 ->
  transform M (Pt z1) = transform M' (Pt z1) -> transform M (Pt z2) = transform M' (Pt z2) -> transform M (Pt z3) = transform M' (Pt z3) ->
  forall P, transform M P = transform M' P.
Proof.
  intros HD HD' N12 N13 N23 E1 E2 E3.
  assert (HI : mdet (inverse M) <> C0) by (rewrite mdet_inverse; auto).
  assert (T : forall P, transform M P = transform M' P -> transform (matmul (inverse M) M') P = Ok P).
  { intros P E. rewrite transform_matmul by auto. rewrite <- E. apply transform_inverse_round; auto. }
  assert (HT : forall P, transform (matmul (inverse M) M') P = Ok P).
  { apply (three_fixed _ z1 z2 z3); auto. rewrite mdet_matmul. apply Cmul_neq0; auto. }
  intros P. specialize (HT P). rewrite transform_matmul in HT by auto. apply bind_Ok in HT. destruct HT as (Q & EQ & E).
  rewrite EQ. apply (transform_inverse M P Q HD). auto.
Qed.

Lemma mapping_three_unique P1 P2 P3 Q1 Q2 Q3 M M' : from_mapping_three_points P1 P2 P3 Q1 Q2 Q3 = Ok (Some M) ->
  mdet M' <> C0 -> transform M' P1 = Ok Q1 -> transform M' P2 = Ok Q2 -> transform M' P3 = Ok Q3 ->
  forall P, transform M P = transform M' P.
Proof.
  intros H HD' E1 E2 E3. destruct (mapping_three_spec _ _ _ _ _ _ _ H) as (HD & F1 & F2 & F3).
  destruct (mapping_three_Some _ _ _ _ _ _ _ H) as (z1 & z2 & z3 & w1 & w2 & w3 & -> & -> & -> & _ & _ & _ & Z1 & Z2 & Z3 & _).
  apply (mobius_unique M M' z1 z2 z3); auto; congruence.
Qed.

(** a transformation with the documented behaviour exists for an infinite point *)
Lemma mapping_three_inf_refuted : exists M, mdet M <> C0 /\
  transform M Inf = Ok (Pt (0, 0)) /\ transform M (Pt (1, 0)) = Ok (Pt (1, 0)) /\ transform M (Pt (2, 0)) = Ok (Pt (1 / 2, 0)) /\
  from_mapping_three_points Inf (Pt (1, 0)) (Pt (2, 0)) (Pt (0, 0)) (Pt (1, 0)) (Pt (1 / 2, 0)) = Raise NonFinite.
Proof.
  exists (mkMob C0 C1 C1 C0).
  assert (HD : mdet (mkMob C0 C1 C1 C0) <> C0).
  { unfold mdet; cbn [ma mb mc md]. unC. intros E. injection E; lra. }
  split; [auto|]. split; [|split; [|split]].
  - apply transform_Ok; auto. exists C1. cbn [ma mb mc md hom fst snd]. split; [apply C1_neq_0|]. unC. split; f_equal; ring.
  - apply transform_Ok; auto. exists C1. cbn [ma mb mc md hom fst snd]. split; [apply C1_neq_0|]. unC. split; f_equal; ring.
  - apply transform_Ok; auto. exists (2, 0). cbn [ma mb mc md hom fst snd]. split; [unC; intros E; injection E; lra|]. unC. split; f_equal; field.
  - unfold from_mapping_three_points. rewrite (proj2 (two_equal_false _ _ _)), (proj2 (two_equal_false _ _ _)); auto.
    + repeat split; intros E; injection E; lra.
    + repeat split; try discriminate; intros E; injection E; lra.
Qed.

(** ** One circle *)

Lemma cs_deg : (cos (0 * (PI / 180)) = 1 /\ sin (0 * (PI / 180)) = 0) /\ (cos (90 * (PI / 180)) = 0 /\ sin (90 * (PI / 180)) = 1) /\
  (cos (180 * (PI / 180)) = -1 /\ sin (180 * (PI / 180)) = 0) /\ (cos (270 * (PI / 180)) = 0 /\ sin (270 * (PI / 180)) = -1).
Proof.
  replace (0 * (PI / 180)) with 0 by ring. replace (90 * (PI / 180)) with (PI / 2) by field.
  replace (180 * (PI / 180)) with PI by field. replace (270 * (PI / 180)) with (3 * (PI / 2)) by field.
  rewrite cos_0, sin_0, cos_PI2, sin_PI2, cos_PI, sin_PI, cos_3PI2, sin_3PI2. auto 10.
Qed.

Definition kap (r1 r2 : R) : C := (0, - 4 * (r1 * r2)).

Lemma one_circle_matrix c1 c2 : let M := from_mapping_one_circle c1 c2 in
  let k := kap (cr c1) (cr c2) in
  ma M = (k * cO c2)%C /\ mb M = (- k * (RtoC (cr c1 * cr c2) + cO c1 * cO c2))%C /\ mc M = k /\ md M = (- k * cO c1)%C.
Proof.
  intros M k. unfold M, from_mapping_one_circle, circle_point_from_angle, compose, inverse, matmul, complex_. cbn [ma mb mc md].
  unfold unit_vector_. destruct cs_deg as ((E1 & E2) & (E3 & E4) & (E5 & E6) & (E7 & E8)).
  rewrite E1, E2, E3, E4, E5, E6, E7, E8. destruct c1 as [[x1 y1] r1], c2 as [[x2 y2] r2]. cbn [cO cr].
  unfold k, kap, vadd, vscal; cbn [cO cr fst snd]. unC. repeat split; f_equal; ring.
Qed.

Lemma one_circle_det c1 c2 : 0 < cr c1 -> 0 < cr c2 -> mdet (from_mapping_one_circle c1 c2) <> C0.
Proof.
  intros H1 H2. destruct (one_circle_matrix c1 c2) as (Ea & Eb & Ec & Ed). unfold mdet. rewrite Ea, Eb, Ec, Ed.
  set (k := kap (cr c1) (cr c2)). assert (Hk : k <> C0).
  { unfold k, kap, C0. intros E. injection E. intros E'. assert (0 < cr c1 * cr c2) by (apply Rmult_lt_0_compat; auto). lra. }
  assert (Hr : RtoC (cr c1 * cr c2) <> C0) by (apply RtoC_neq; assert (0 < cr c1 * cr c2) by (apply Rmult_lt_0_compat; auto); lra).
  replace (k * cO c2 * (- k * cO c1) - k * (- k * (RtoC (cr c1 * cr c2) + cO c1 * cO c2)))%C with (k * k * RtoC (cr c1 * cr c2))%C by cring.
  repeat apply Cmul_neq0; auto.
Qed.

Lemma one_circle_product c1 c2 z w : 0 < cr c1 -> 0 < cr c2 -> transform (from_mapping_one_circle c1 c2) (Pt z) = Ok (Pt w) ->
  ((z - cO c1) * (cO c2 - w))%C = RtoC (cr c1 * cr c2).
Proof.
  intros H1 H2 E. apply transform_Ok in E; [|apply one_circle_det; auto]. destruct E as (j & Hj & E1 & E2). cbn [hom fst snd] in *.
  destruct (one_circle_matrix c1 c2) as (Ea & Eb & Ec & Ed). rewrite Ea, Eb in E1. rewrite Ec, Ed in E2.
  set (k := kap (cr c1) (cr c2)) in *. assert (Hk : k <> C0).
  { unfold k, kap, C0. intros E. injection E. intros E'. assert (0 < cr c1 * cr c2) by (apply Rmult_lt_0_compat; auto). lra. }
  assert (Ej : j = (k * (z - cO c1))%C) by (transitivity (j * C1)%C; [cring|rewrite <- E2; cring]). subst j.
  apply (Cmul_cancel k); auto. transitivity (k * (z - cO c1) * cO c2 - k * (z - cO c1) * w)%C; [cring|]. rewrite <- E1. cring.
Qed.

Lemma one_circle_dist c1 c2 z w : 0 < cr c1 -> 0 < cr c2 -> transform (from_mapping_one_circle c1 c2) (Pt z) = Ok (Pt w) ->
  dist (cO c1) z * dist (cO c2) w = cr c1 * cr c2.
Proof.
  intros H1 H2 E. pose proof (one_circle_product c1 c2 z w H1 H2 E) as K.
  apply sq_inj.
  - apply Rmult_le_pos; apply dist_nonneg.
  - apply Rmult_le_pos; lra.
  - apply (f_equal Cmod2) in K. rewrite Cmod2_mul in K.
    replace (dist (cO c1) z * dist (cO c2) w * (dist (cO c1) z * dist (cO c2) w)) with ((dist (cO c1) z * dist (cO c1) z) * (dist (cO c2) w * dist (cO c2) w)) by ring.
    rewrite !dist_sq. unfold Cmod2 in K. unC. unspec. destruct c1 as [[x1 y1] r1], c2 as [[x2 y2] r2]. cbn [cO cr fst snd] in *. lra.
Qed.

Lemma one_circle_spec c1 c2 z w : 0 < cr c1 -> 0 < cr c2 -> transform (from_mapping_one_circle c1 c2) (Pt z) = Ok (Pt w) ->
  (on_circle (cO c1) (cr c1) z <-> on_circle (cO c2) (cr c2) w) /\ (dist (cO c1) z < cr c1 <-> cr c2 < dist (cO c2) w).
Proof.
  intros H1 H2 E. pose proof (one_circle_dist c1 c2 z w H1 H2 E) as K. unfold on_circle.
  pose proof (dist_nonneg (cO c1) z). pose proof (dist_nonneg (cO c2) w). split; split; intros L; nra.
Qed.

Lemma one_circle_centre c1 c2 : 0 < cr c1 -> 0 < cr c2 ->
  transform (from_mapping_one_circle c1 c2) (Pt (cO c1)) = Ok Inf /\ transform (from_mapping_one_circle c1 c2) Inf = Ok (Pt (cO c2)).
Proof.
  intros H1 H2. destruct (one_circle_matrix c1 c2) as (Ea & Eb & Ec & Ed). 
  set (k := kap (cr c1) (cr c2)) in *. assert (Hk : k <> C0).
  { unfold k, kap, C0. intros E. injection E. intros E'. assert (0 < cr c1 * cr c2) by (apply Rmult_lt_0_compat; auto). lra. }
  assert (Hr : RtoC (cr c1 * cr c2) <> C0) by (apply RtoC_neq; assert (0 < cr c1 * cr c2) by (apply Rmult_lt_0_compat; auto); lra).
  split; (apply transform_Ok; [apply one_circle_det; auto|]); unfold mob_image; rewrite Ea, Eb, Ec, Ed; cbn [hom fst snd].
  - exists (- k * RtoC (cr c1 * cr c2))%C. split; [|split; cring]. apply Cmul_neq0; auto. intros K. apply Hk. transitivity (- (- k))%C; [cring|rewrite K; cring].
  - exists k. split; auto. split; cring.
Qed.

(** ** Cross ratio *)

Lemma cross_ratio_Ok A B C' D r : cross_ratio A B C' D = Ok r ->
  (A <> B /\ A <> C' /\ A <> D /\ B <> C' /\ B <> D /\ C' <> D) /\ r = ((A - D) / (A - B) * (C' - B) / (C' - D))%C.
Proof.
  unfold cross_ratio, complex_. destruct (_ || _) eqn:E; [discriminate|]. intros H. apply Ok_inj in H. split; auto.
  repeat (apply orb_false_iff in E; destruct E as [E ?]). apply Ceqb_false in E, H0, H1, H2, H3, H4. repeat split; auto.
Qed.

Lemma cross_ratio_total A B C' D : A <> B -> A <> C' -> A <> D -> B <> C' -> B <> D -> C' <> D ->
  cross_ratio A B C' D = Ok ((A - D) / (A - B) * (C' - B) / (C' - D))%C.
Proof.
  intros. unfold cross_ratio, complex_. rewrite !(proj2 (Ceqb_false _ _)) by auto. reflexivity.
Qed.

Lemma cross_ratio_raise A B C' D : cross_ratio A B C' D = Raise ValueError <-> (A = B \/ A = C' \/ A = D \/ B = C' \/ B = D \/ C' = D).
Proof.
  unfold cross_ratio, complex_. rewrite <- !Ceqb_true, <- !orb_true_iff, !orb_assoc. destruct (_ || _); split; intros; auto; discriminate.
Qed.

(** imaginary part, cleared of denominators *)
Definition cocirc (A B C' D : pt) : R := snd ((A - D) * (C' - B) * Cconj ((A - B) * (C' - D)))%C.

Lemma cross_ratio_real A B C' D r : cross_ratio A B C' D = Ok r -> (snd r = 0 <-> cocirc A B C' D = 0).
Proof.
  intros H. destruct (cross_ratio_Ok _ _ _ _ _ H) as ((N1 & N2 & N3 & N4 & N5 & N6) & Er).
  assert (D1 : (A - B)%C <> C0) by (intros K; apply N1; apply (proj1 (Csub_0 A B)); auto).
  assert (D2 : (C' - D)%C <> C0) by (intros K; apply N6; apply (proj1 (Csub_0 C' D)); auto).
  set (q := ((A - B) * (C' - D))%C). assert (Hq : q <> C0) by (apply Cmul_neq0; auto).
  assert (E : (RtoC (Cmod2 q) * r)%C = ((A - D) * (C' - B) * Cconj q)%C).
  { rewrite <- Cmul_conj, Er. unfold q. generalize (Cconj ((A - B) * (C' - D)))%C. intros x. cfield; auto. }
  assert (Hp : 0 < Cmod2 q) by (apply Cmod2_pos; auto).
  assert (E2 : Cmod2 q * snd r = cocirc A B C' D).
  { unfold cocirc. fold q. rewrite <- E. unfold RtoC, Cmul. cbn [fst snd]. ring. }
  split; intros K.
  - rewrite <- E2, K. ring.
  - rewrite K in E2. apply Rmult_integral in E2. destruct E2; lra.
Qed.

Lemma cocirc_circle O A B C' D : dist2 O A = dist2 O B -> dist2 O A = dist2 O C' ->
  cocirc A B C' D = - (scross (vsub B A) (vsub C' A) * (dist2 O D - dist2 O A)).
Proof.
  intros H1 H2.
  assert (E : cocirc A B C' D + scross (vsub B A) (vsub C' A) * (dist2 O D - dist2 O A) =
    (dist2 O B - dist2 O A) * scross (vsub D A) (vsub C' A) + (dist2 O C' - dist2 O A) * scross (vsub B A) (vsub D A)).
  { destruct O as [o1 o2], A as [a1 a2], B as [b1 b2], C' as [c1 c2], D as [d1 d2]. unfold cocirc. unC. unspec. ring. }
  rewrite <- H1, <- H2 in E. lra.
Qed.

Lemma cocirc_line P Q A B C' D : on_line P Q A -> on_line P Q B -> on_line P Q C' -> on_line P Q D -> cocirc A B C' D = 0.
Proof.
  intros [a ->] [b ->] [c ->] [d ->]. destruct P as [p1 p2], Q as [q1 q2]. unfold cocirc, at_line, vadd, vscal, vsub. cbn [fst snd]. unC. ring.
Qed.

Lemma cocirc_collinear A B D t : cocirc A B (at_line A B t) D = (t - 1) * t * dist2 A B * - scross (vsub B A) (vsub D A) \/ cocirc A B (at_line A B t) D = (t - 1) * t * dist2 A B * scross (vsub B A) (vsub D A).
Proof.
  right. destruct A as [a1 a2], B as [b1 b2], D as [d1 d2]. unfold cocirc, at_line, vadd, vscal, vsub. cbn [fst snd]. unC. unspec. ring.
Qed.

Lemma concyclic_iff A B C' D r : cross_ratio A B C' D = Ok r ->
  (snd r = 0 <->
    (exists O rho, 0 < rho /\ on_circle O rho A /\ on_circle O rho B /\ on_circle O rho C' /\ on_circle O rho D) \/
    (exists P Q, P <> Q /\ on_line P Q A /\ on_line P Q B /\ on_line P Q C' /\ on_line P Q D)).
Proof.
  intros H. rewrite (cross_ratio_real _ _ _ _ _ H). destruct (cross_ratio_Ok _ _ _ _ _ H) as ((N1 & N2 & N3 & N4 & N5 & N6) & _).
  split.
  - intros E. destruct (collinear_dec A B C') as [K|K].
    + right. exists A, B. apply collinear_cross in K. pose proof (proj2 (on_line_cross A B C' N1) K) as [t Ht].
      split; [auto|]. split; [exists 0; destruct_pts; unfold at_line; unspec; f_equal; ring|]. split; [exists 1; destruct_pts; unfold at_line; unspec; f_equal; ring|].
      split; [exists t; auto|]. apply on_line_cross; auto.
      assert (t <> 0) by (intros ->; apply N2; rewrite Ht; destruct_pts; unfold at_line; unspec; f_equal; ring).
      assert (t <> 1) by (intros ->; apply N4; rewrite Ht; destruct_pts; unfold at_line; unspec; f_equal; ring).
      assert (0 < dist2 A B) by (apply dist2_pos; auto).
      rewrite Ht in E. destruct (cocirc_collinear A B D t) as [F|F]; rewrite E in F; symmetry in F;
        apply Rmult_integral in F; destruct F as [F|F]; try lra; exfalso; apply Rmult_integral in F; destruct F as [F|F]; try lra;
        apply Rmult_integral in F; destruct F; lra.
    + left. assert (Hd : dbl A B C' <> 0) by (intros E'; apply K; apply collinear_cross; rewrite <- E'; unfold dbl; destruct_pts; unspec; ring).
      destruct (circumcircle_total A B C' Hd) as (c & _ & P1 & P2 & P3 & P4).
      exists (cO c), (cr c). split; [auto|]. split; [auto|]. split; [auto|]. split; [auto|].
      unfold on_circle in *. rewrite <- P2. apply dist_eq_iff.
      assert (E1 : dist2 (cO c) A = dist2 (cO c) B) by (apply dist_eq_iff; congruence).
      assert (E2 : dist2 (cO c) A = dist2 (cO c) C') by (apply dist_eq_iff; congruence).
      rewrite (cocirc_circle (cO c)) in E by auto. assert (Z : scross (vsub B A) (vsub C' A) * (dist2 (cO c) D - dist2 (cO c) A) = 0) by lra.
      apply Rmult_integral in Z. destruct Z as [Z|Z]; [|lra]. exfalso. apply K. apply collinear_cross. auto.
  - intros [(O & rho & Hr & E1 & E2 & E3 & E4)|(P & Q & N & E1 & E2 & E3 & E4)].
    + unfold on_circle in *. rewrite (cocirc_circle O); [|apply dist_eq_iff; congruence|apply dist_eq_iff; congruence].
      replace (dist2 O D) with (dist2 O A) by (apply dist_eq_iff; congruence). ring.
    + apply (cocirc_line P Q); auto.
Qed.

Lemma transform_diff M A B A' B' : mdet M <> C0 -> transform M (Pt A) = Ok (Pt A') -> transform M (Pt B) = Ok (Pt B') ->
  (mc M * A + md M)%C <> C0 /\ (mc M * B + md M)%C <> C0 /\ (A' - B')%C = (mdet M * (A - B) / ((mc M * A + md M) * (mc M * B + md M)))%C.
Proof.
  intros HD EA EB. apply transform_Ok in EA, EB; auto. destruct EA as (j & Hj & A1 & A2), EB as (k & Hk & B1 & B2). cbn [hom fst snd] in *.
  assert (Ej : (mc M * A + md M)%C = j) by (transitivity (j * C1)%C; [rewrite <- A2; cring|cring]).
  assert (Ek : (mc M * B + md M)%C = k) by (transitivity (k * C1)%C; [rewrite <- B2; cring|cring]).
  assert (FA : A' = ((ma M * A + mb M) / j)%C) by (transitivity (j * A' / j)%C; [cfield; auto|rewrite <- A1; cfield; auto]).
  assert (FB : B' = ((ma M * B + mb M) / k)%C) by (transitivity (k * B' / k)%C; [cfield; auto|rewrite <- B1; cfield; auto]).
  rewrite Ej, Ek. split; [auto|]. split; [auto|]. rewrite FA, FB.
  transitivity (((ma M * A + mb M) * k - (ma M * B + mb M) * j) / (j * k))%C; [cfield; auto|].
  rewrite <- Ej, <- Ek. f_equal. unfold mdet. cring.
Qed.

Lemma cross_ratio_invariant M A B C' D A' B' D' E' r : mdet M <> C0 ->
  transform M (Pt A) = Ok (Pt A') -> transform M (Pt B) = Ok (Pt B') -> transform M (Pt C') = Ok (Pt D') -> transform M (Pt D) = Ok (Pt E') ->
  cross_ratio A B C' D = Ok r -> cross_ratio A' B' D' E' = Ok r.
Proof.
  intros HD TA TB TC TD H. destruct (cross_ratio_Ok _ _ _ _ _ H) as ((N1 & N2 & N3 & N4 & N5 & N6) & Er).
  assert (inj : forall X Y X' Y', transform M (Pt X) = Ok (Pt X') -> transform M (Pt Y) = Ok (Pt Y') -> X <> Y -> X' <> Y').
  { intros X Y X' Y' T1 T2 N E. subst Y'. apply N. apply Pt_inj. apply (transform_inj M _ _ (Pt X')); auto. }
  rewrite cross_ratio_total; [|eapply inj; eauto ..]. f_equal. subst r.
  destruct (transform_diff M A D A' E') as (K1 & K4 & ->); auto.
  destruct (transform_diff M A B A' B') as (_ & K2 & ->); auto.
  destruct (transform_diff M C' B D' B') as (K3 & _ & ->); auto.
  destruct (transform_diff M C' D D' E') as (_ & _ & ->); auto.
  assert (D1 : (A - B)%C <> C0) by (intros K; apply N1; apply (proj1 (Csub_0 A B)); auto).
  assert (D2 : (C' - D)%C <> C0) by (intros K; apply N6; apply (proj1 (Csub_0 C' D)); auto).
  clear H. generalize dependent (mdet M). intros dd Hdd. generalize dependent (A - B)%C. intros x Hx. generalize dependent (C' - D)%C. intros y Hy.
  generalize (A - D)%C (C' - B)%C. intros u v. generalize dependent (mc M * A + md M)%C. intros k1 Hk1. generalize dependent (mc M * B + md M)%C. intros k2 Hk2.
  generalize dependent (mc M * C' + md M)%C. intros k3 Hk3. generalize dependent (mc M * D + md M)%C. intros k4 Hk4. cfield. repeat split; auto.
Qed.

(** ** Composition of inversions *)

Definition econj (e : ept) : ept := match e with Pt z => Pt (Cconj z) | Inf => Inf end.

Lemma inv_mat_det iota : ipower iota <> 0 -> mdet (inversion_to_conjugate_mobius_ iota) <> C0.
Proof.
  intros H. unfold mdet, inversion_to_conjugate_mobius_, complex_, mod2_. cbn [ma mb mc md]. destruct iota as [[x y] k]. cbn [ipole ipower fst snd] in *.
  unC. intros E. injection E. intros _ E1. apply H. lra.
Qed.

Lemma inv_mat_image iota e : ipower iota <> 0 -> (forall P, e = Pt P -> allclose (ipole iota) P = true -> P = ipole iota) ->
  transform (inversion_to_conjugate_mobius_ iota) (econj e) = Ok (invert iota e).
Proof.
  intros Hk H. apply transform_Ok; [apply inv_mat_det; auto|]. unfold inversion_to_conjugate_mobius_, complex_. cbn [ma mb mc md]. unfold mob_image.
  destruct e as [z|].
  - cbn [econj hom fst snd]. destruct (pt_eq_dec z (ipole iota)) as [->|N].
    + rewrite (proj1 (invert_pole iota)). cbn [hom fst snd]. exists (RtoC (ipower iota)). split; [apply RtoC_neq; auto|].
      unfold mod2_. unC. split; f_equal; ring.
    + assert (F : allclose (ipole iota) z = false).
      { destruct (allclose (ipole iota) z) eqn:E; auto. exfalso. apply N. apply (H z); auto. }
      rewrite (invert_far _ _ F). cbn [hom fst snd]. exists (Cconj z - Cconj (ipole iota))%C.
      assert (P : 0 < dist2 (ipole iota) z) by (apply dist2_pos; auto).
      split.
      { intros E. apply N. apply Csub_0 in E. unfold Cconj in E. injection E. intros E1 E2. destruct z as [z1 z2]; destruct (ipole iota) as [p1 p2]. cbn [fst snd] in *. f_equal; lra. }
      split; [|cring]. unfold mod2_, inv_pt. destruct z as [z1 z2]; destruct (ipole iota) as [p1 p2]. unspec. unC.
      f_equal; field; lra.
  - cbn [econj hom fst snd]. rewrite (proj2 (invert_pole iota)). cbn [hom fst snd]. exists C1. split; [apply C1_neq_0|]. split; cring.
Qed.

Lemma hom_conj e : hom (econj e) = (Cconj (fst (hom e)), Cconj (snd (hom e))).
Proof. destruct e; cbn [econj hom fst snd]; f_equal; unC; f_equal; ring. Qed.

Lemma mdet_mconj M : mdet (mconj M) = Cconj (mdet M).
Proof. unfold mdet, mconj. cbn [ma mb mc md]. unC. f_equal; ring. Qed.

Lemma Cconj_0 z : Cconj z = C0 -> z = C0.
Proof. destruct z as [x y]. unC. intros E. injection E. intros. f_equal; lra. Qed.

Lemma transform_mconj M e f : mdet M <> C0 -> transform M e = Ok f -> transform (mconj M) (econj e) = Ok (econj f).
Proof.
  intros HD E. apply transform_Ok in E; auto. apply transform_Ok; [rewrite mdet_mconj; intros K; apply Cconj_0 in K; auto|].
  destruct E as (k & Hk & E1 & E2). exists (Cconj k). split; [intros K; apply Cconj_0 in K; auto|].
  rewrite !hom_conj. cbn [fst snd]. unfold mconj; cbn [ma mb mc md].
  rewrite <- !Cconj_mul, <- !Cconj_add. rewrite E1, E2. auto.
Qed.

Lemma econj_invol e : econj (econj e) = e.
Proof. destruct e as [[x y]|]; auto. cbn [econj]. f_equal. unC. f_equal; ring. Qed.

Lemma compose_left_spec iota1 iota2 e : ipower iota1 <> 0 -> ipower iota2 <> 0 ->
  (forall P, e = Pt P -> allclose (ipole iota1) P = true -> P = ipole iota1) ->
  (forall P, invert iota1 e = Pt P -> allclose (ipole iota2) P = true -> P = ipole iota2) ->
  transform (inversion_compose_left iota1 iota2) e = Ok (invert iota2 (invert iota1 e)).
Proof.
  intros K1 K2 H1 H2. unfold inversion_compose_left.
  assert (D1 : mdet (mconj (inversion_to_conjugate_mobius_ iota1)) <> C0).
  { rewrite mdet_mconj. intros K. apply Cconj_0 in K. apply (inv_mat_det iota1); auto. }
  rewrite transform_compose; auto; [|apply inv_mat_det; auto].
  rewrite <- (econj_invol e) at 1. rewrite (transform_mconj _ (econj e) (invert iota1 e)); [|apply inv_mat_det; auto|apply inv_mat_image; auto].
  cbn [bind]. apply inv_mat_image; auto.
Qed.

Lemma compose_left_det iota1 iota2 : ipower iota1 <> 0 -> ipower iota2 <> 0 -> mdet (inversion_compose_left iota1 iota2) <> C0.
Proof.
  intros. unfold inversion_compose_left, compose. rewrite mdet_matmul. apply Cmul_neq0; [apply inv_mat_det; auto|].
  rewrite mdet_mconj. intros K. apply Cconj_0 in K. apply (inv_mat_det iota1); auto.
Qed.

Lemma inversion_compose_spec iota1 iota2 (left : bool) e : ipower iota1 <> 0 -> ipower iota2 <> 0 ->
  let first := if left then iota1 else iota2 in let second := if left then iota2 else iota1 in
  (forall P, e = Pt P -> allclose (ipole first) P = true -> P = ipole first) ->
  (forall P, invert first e = Pt P -> allclose (ipole second) P = true -> P = ipole second) ->
  mdet (inversion_compose iota1 iota2 left) <> C0 /\
  transform (inversion_compose iota1 iota2 left) e = Ok (invert second (invert first e)).
Proof.
  intros K1 K2 first second H1 H2. unfold inversion_compose. destruct left; cbn [negb] in *; unfold first, second in *; split;
    solve [apply compose_left_det; auto | apply compose_left_spec; auto].
Qed.

(** without the hypotheses on the tolerances: a point allclose to the pole of the first
    inversion but different from it *)
Lemma inversion_compose_near_refuted : exists iota1 iota2 P, ipower iota1 <> 0 /\ ipower iota2 <> 0 /\
  transform (inversion_compose iota1 iota2 true) (Pt P) <> Ok (invert iota2 (invert iota1 (Pt P))).
Proof.
  exists (mkInv (0, 0) 1), (mkInv (5, 0) 1), (/ 1000000000, 0). cbn [ipower]. split; [lra|]. split; [lra|].
  assert (E : invert (mkInv (0, 0) 1) (Pt (/ 1000000000, 0)) = Inf).
  { apply invert_Inf_iff. cbn [ipole]. evalclose. }
  rewrite E, (proj2 (invert_pole _)). cbn [ipole].
  intros H. apply transform_Ok in H; [|apply compose_left_det; cbn [ipower]; lra].
  destruct H as (k & Hk & E1 & E2). revert E1 E2. unfold inversion_compose, inversion_compose_left, compose, matmul, mconj, inversion_to_conjugate_mobius_, complex_, mod2_.
  cbn [negb ma mb mc md ipole ipower hom fst snd]. unC. destruct k as [k1 k2]. cbn [fst snd]. intros E1 E2. injection E1. injection E2. intros. lra.
Qed.

Lemma cross_ratio_value A B C' D : A <> B -> A <> C' -> A <> D -> B <> C' -> B <> D -> C' <> D ->
  exists r, cross_ratio A B C' D = Ok r /\ (r * ((A - B) * (C' - D)))%C = ((A - D) * (C' - B))%C.
Proof.
  intros. rewrite cross_ratio_total by auto. eexists. split; [reflexivity|].
  assert ((A - B)%C <> C0) by (intros K; apply H; apply (proj1 (Csub_0 A B)); auto).
  assert ((C' - D)%C <> C0) by (intros K; apply H4; apply (proj1 (Csub_0 C' D)); auto).
  cfield; auto.
Qed.
