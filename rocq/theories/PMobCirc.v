(** * Images of circles by Möbius transformations: composition, inverse, tangency, angles. *)

From Coq Require Import Reals Lra Psatz List Bool.
From Verif Require Import Base BaseLemmas Spec SpecLemmas SpecMobius ModelInternal ModelLine ModelCircle ModelInversion ModelMobius ModelMobWord PLine PCircle PInvBase PInversion PInversion2 PMobius PMobius2 PMobius3 PMobius4 PSchottky4.
From Verif Require PSteiner.
Import ListNotations.
Local Open Scope R_scope.

Definition kap (M : mobius) (c : circle) : R := Cmod2 (md M + mc M * cO c)%C - cr c * cr c * Cmod2 (mc M).
Definition num (M : mobius) (c : circle) : C := ((ma M * cO c + mb M) * Cconj (md M + mc M * cO c) - RtoC (cr c * cr c) * ma M * Cconj (mc M))%C.
Definition muu (M : mobius) (c : circle) : R := Cmod2 (ma M * cO c + mb M)%C - cr c * cr c * Cmod2 (ma M).
Definition qq (c1 c2 : circle) : R := dist2 (cO c1) (cO c2) - cr c1 * cr c1 - cr c2 * cr c2.

Lemma num_sq M c : Cmod2 (num M c) - cr c * cr c * Cmod2 (mdet M) = kap M c * muu M c.
Proof.
  unfold num, kap, muu. replace (mdet M) with (ma M * (md M + mc M * cO c) - mc M * (ma M * cO c + mb M))%C by (unfold mdet; cring).
  generalize (ma M * cO c + mb M)%C (md M + mc M * cO c)%C (ma M) (mc M) (cr c * cr c). intros [p1 p2] [q1 q2] [a1 a2] [c1 c2] s. unfold Cmod2. unC. ring.
Qed.
Lemma num_mix M c1 c2 : muu M c1 * kap M c2 + muu M c2 * kap M c1 - 2 * sdot (num M c1) (num M c2) = Cmod2 (mdet M) * qq c1 c2.
Proof.
  assert (E : Cmod2 (mdet M) * dist2 (cO c1) (cO c2) = Cmod2 ((ma M * cO c1 + mb M) * (md M + mc M * cO c2) - (ma M * cO c2 + mb M) * (md M + mc M * cO c1))%C).
  { rewrite dist2_Cmod2, <- Cmod2_mul. rewrite <- (Cmod2_opp (_ - _)%C). f_equal. unfold mdet. cring. }
  unfold qq. rewrite !Rmult_minus_distr_l, E.
  replace (Cmod2 (mdet M) * (cr c1 * cr c1)) with (cr c1 * cr c1 * Cmod2 (ma M * (md M + mc M * cO c2) - mc M * (ma M * cO c2 + mb M))%C)
    by (rewrite Rmult_comm; f_equal; f_equal; unfold mdet; cring).
  replace (Cmod2 (mdet M) * (cr c2 * cr c2)) with (cr c2 * cr c2 * Cmod2 (ma M * (md M + mc M * cO c1) - mc M * (ma M * cO c1 + mb M))%C)
    by (rewrite Rmult_comm; f_equal; f_equal; unfold mdet; cring).
  clear E. unfold muu, kap, num.
  generalize (ma M * cO c1 + mb M)%C (md M + mc M * cO c1)%C (ma M * cO c2 + mb M)%C (md M + mc M * cO c2)%C (ma M) (mc M) (cr c1 * cr c1) (cr c2 * cr c2).
  intros [p1 p2] [q1 q2] [u1 u2] [v1 v2] [a1 a2] [d1 d2] s t. unfold Cmod2. unspec. unC. ring.
Qed.

Lemma tc_val fuel M c c' : mdet M <> C0 -> 0 < cr c -> transform_circle fuel M c = Some (Ok (GC c')) ->
  kap M c <> 0 /\ cO c' = (fst (num M c) / kap M c, snd (num M c) / kap M c) /\ cr c' = cr c * sqrt (Cmod2 (mdet M)) / Rabs (kap M c) /\ 0 < cr c'.
Proof.
  intros HD Hr E. destruct (transform_circle_GC fuel M c c' HD Hr E) as (P & Hp & _).
  assert (HX : Cmod2 (md M + mc M * cO c)%C <> cr c * cr c * Cmod2 (mc M)).
  { intros K. apply pole_on_iff in K; auto. destruct K as (p & T & K). apply (Hp p); auto. }
  rewrite (transform_circle_far fuel M c HD Hr HX) in E. injection E as <-. cbn [cO cr] in *.
  assert (HK : kap M c <> 0) by (unfold kap; lra). repeat split; auto.
  unfold img_centre. fold (kap M c). fold (num M c). generalize (num M c). intros [x y]. unC. cbn [fst snd]. apply pair_eq; field; auto.
Qed.
Lemma qq_image fuel M c1 c2 c1' c2' : mdet M <> C0 -> 0 < cr c1 -> 0 < cr c2 ->
  transform_circle fuel M c1 = Some (Ok (GC c1')) -> transform_circle fuel M c2 = Some (Ok (GC c2')) ->
  qq c1' c2' = Cmod2 (mdet M) / (kap M c1 * kap M c2) * qq c1 c2.
Proof.
  intros HD H1 H2 E1 E2. destruct (tc_val fuel M c1 c1' HD H1 E1) as (K1 & O1 & R1 & P1). destruct (tc_val fuel M c2 c2' HD H2 E2) as (K2 & O2 & R2 & P2).
  assert (S : forall x k, k <> 0 -> x * sqrt (Cmod2 (mdet M)) / Rabs k * (x * sqrt (Cmod2 (mdet M)) / Rabs k) = x * x * Cmod2 (mdet M) / (k * k)).
  { intros x k Hk. rewrite <- (Rabs_sq k). rewrite <- (sqrt_sqrt (Cmod2 (mdet M))) at 3 by apply Cmod2_nonneg. field. apply Rabs_no_R0. auto. }
  unfold qq at 1. rewrite O1, O2, R1, R2, !S by auto.
  transitivity ((muu M c1 * kap M c2 + muu M c2 * kap M c1 - 2 * sdot (num M c1) (num M c2)) / (kap M c1 * kap M c2)); [|rewrite num_mix; field; auto].
  pose proof (num_sq M c1) as N1. pose proof (num_sq M c2) as N2.
  replace (muu M c1) with ((Cmod2 (num M c1) - cr c1 * cr c1 * Cmod2 (mdet M)) / kap M c1) by (rewrite N1; field; auto).
  replace (muu M c2) with ((Cmod2 (num M c2) - cr c2 * cr c2 * Cmod2 (mdet M)) / kap M c2) by (rewrite N2; field; auto).
  clear - K1 K2. revert K1 K2. generalize (kap M c1) (kap M c2) (num M c1) (num M c2). intros k1 k2 [x1 y1] [x2 y2] K1 K2.
  unspec. unfold Cmod2. cbn [fst snd]. field. auto.
Qed.

(** ** the inversive distance *)
Lemma rr_image fuel M c1 c2 c1' c2' : mdet M <> C0 -> 0 < cr c1 -> 0 < cr c2 ->
  transform_circle fuel M c1 = Some (Ok (GC c1')) -> transform_circle fuel M c2 = Some (Ok (GC c2')) ->
  cr c1' * cr c2' = Cmod2 (mdet M) / Rabs (kap M c1 * kap M c2) * (cr c1 * cr c2) /\ kap M c1 * kap M c2 <> 0 /\ 0 < cr c1' /\ 0 < cr c2'.
Proof.
  intros HD H1 H2 E1 E2. destruct (tc_val fuel M c1 c1' HD H1 E1) as (K1 & _ & R1 & P1). destruct (tc_val fuel M c2 c2' HD H2 E2) as (K2 & _ & R2 & P2).
  split; [|split; [apply Rmult_integral_contrapositive_currified; auto|auto]]. rewrite R1, R2, Rabs_mult. rewrite <- (sqrt_sqrt (Cmod2 (mdet M))) at 3 by apply Cmod2_nonneg.
  field. split; apply Rabs_no_R0; auto.
Qed.
Lemma ratio_image fuel M c1 c2 c1' c2' : mdet M <> C0 -> 0 < cr c1 -> 0 < cr c2 ->
  transform_circle fuel M c1 = Some (Ok (GC c1')) -> transform_circle fuel M c2 = Some (Ok (GC c2')) ->
  0 < cr c1' /\ 0 < cr c2' /\
  (0 < kap M c1 * kap M c2 -> qq c1' c2' / (cr c1' * cr c2') = qq c1 c2 / (cr c1 * cr c2)) /\
  (kap M c1 * kap M c2 < 0 -> qq c1' c2' / (cr c1' * cr c2') = - (qq c1 c2 / (cr c1 * cr c2))) /\ kap M c1 * kap M c2 <> 0.
Proof.
  intros HD H1 H2 E1 E2. destruct (rr_image fuel M c1 c2 c1' c2' HD H1 H2 E1 E2) as (ER & K & P1 & P2). pose proof (qq_image fuel M c1 c2 c1' c2' HD H1 H2 E1 E2) as EQ.
  assert (K1 : kap M c1 <> 0) by (intros Z; apply K; rewrite Z; ring). assert (K2 : kap M c2 <> 0) by (intros Z; apply K; rewrite Z; ring).
  pose proof (Cmod2_pos _ HD) as PD. rewrite ER, EQ. split; auto. split; auto. split; [|split; auto]; intros S.
  - rewrite Rabs_right by lra. field. repeat split; auto; lra.
  - rewrite Rabs_left by lra. field. repeat split; auto; lra.
Qed.
Lemma qq_inv c1 c2 : inv_dist (cO c1) (cr c1) (cO c2) (cr c2) = Rabs (qq c1 c2) / (cr c1 * cr c2).
Proof. unfold inv_dist, qq. do 2 f_equal. ring. Qed.
Lemma mob_dist fuel M c1 c2 c1' c2' : mdet M <> C0 -> 0 < cr c1 -> 0 < cr c2 ->
  transform_circle fuel M c1 = Some (Ok (GC c1')) -> transform_circle fuel M c2 = Some (Ok (GC c2')) ->
  0 < cr c1' /\ 0 < cr c2' /\ inv_dist (cO c1') (cr c1') (cO c2') (cr c2') = inv_dist (cO c1) (cr c1) (cO c2) (cr c2).
Proof.
  intros HD H1 H2 E1 E2. destruct (ratio_image fuel M c1 c2 c1' c2' HD H1 H2 E1 E2) as (P1 & P2 & A & B & N). split; auto. split; auto. rewrite !qq_inv.
  assert (Q : forall x y, 0 < y -> Rabs x / y = Rabs (x / y)). { intros x y Hy. unfold Rdiv. rewrite Rabs_mult, (Rabs_right (/ y)); auto. apply Rle_ge, Rlt_le, Rinv_0_lt_compat. auto. }
  rewrite !Q by (apply Rmult_lt_0_compat; auto). destruct (Rtotal_order (kap M c1 * kap M c2) 0) as [L|[L|L]]; [rewrite (B L); apply Rabs_Ropp|tauto|rewrite (A L); auto].
Qed.

(** ** several transformations in turn *)
Lemma word_mob fuel w : Forall (fun M => mdet M <> C0) w -> forall c1 c2 c1' c2', 0 < cr c1 -> 0 < cr c2 -> transform_circle_word fuel w c1 c1' -> transform_circle_word fuel w c2 c2' ->
  0 < cr c1' /\ 0 < cr c2' /\ inv_dist (cO c1') (cr c1') (cO c2') (cr c2') = inv_dist (cO c1) (cr c1) (cO c2) (cr c2).
Proof.
  induction 1 as [|M w HM _ IH]; cbn [transform_circle_word]; intros c1 c2 c1' c2' H1 H2 E1 E2; [subst; auto|].
  destruct E1 as (d1 & E1 & W1), E2 as (d2 & E2 & W2). destruct (mob_dist fuel M c1 c2 d1 d2 HM H1 H2 E1 E2) as (P1 & P2 & E).
  destruct (IH _ _ _ _ P1 P2 W1 W2) as (Q1 & Q2 & F). repeat split; auto. congruence.
Qed.

(** ** composition and inverse *)
Lemma mdet_compose M N left : mdet M <> C0 -> mdet N <> C0 -> mdet (compose M N left) <> C0.
Proof. intros. unfold compose. destruct left; rewrite mdet_matmul; apply Cmul_neq0; auto. Qed.
Lemma tc_unique fuel fuel' M c c' c'' : mdet M <> C0 -> 0 < cr c -> transform_circle fuel M c = Some (Ok (GC c')) -> transform_circle fuel' M c = Some (Ok (GC c'')) -> c' = c''.
Proof.
  intros HD Hr E1 E2. destruct (tc_val _ _ _ _ HD Hr E1) as (_ & O1 & R1 & _). destruct (tc_val _ _ _ _ HD Hr E2) as (_ & O2 & R2 & _). apply circle_ext; congruence.
Qed.
(** a circle all of whose points are images of the points of c is the image of c *)
Lemma tc_char fuel M c d : mdet M <> C0 -> 0 < cr c -> 0 < cr d ->
  (forall w, on_circle (cO d) (cr d) w -> exists z, on_circle (cO c) (cr c) z /\ transform M (Pt z) = Ok (Pt w)) ->
  (forall p, transform M (Pt p) = Ok Inf -> ~ on_circle (cO c) (cr c) p) ->
  transform_circle fuel M c = Some (Ok (GC d)).
Proof.
  intros HD Hr Hd H Hp. destruct (transform_circle_circle fuel M c HD Hr Hp) as (c' & E & P & Hc). rewrite E. do 3 f_equal. symmetry. apply same_circle; auto.
  intros w Hw. destruct (H w Hw) as (z & Hz & T). destruct (proj1 (Hc _ _ T)) as (w' & Ew & K); [eauto|]. apply Pt_inj in Ew. subst w'. auto.
Qed.
Lemma tc_back fuel M c c' w : mdet M <> C0 -> 0 < cr c -> transform_circle fuel M c = Some (Ok (GC c')) -> on_circle (cO c') (cr c') w ->
  exists z, on_circle (cO c) (cr c) z /\ transform M (Pt z) = Ok (Pt w).
Proof.
  intros HD Hr E Hw. destruct (transform_circle_GC fuel M c c' HD Hr E) as (_ & _ & Hc).
  destruct (transform_total (inverse M) (Pt w)) as [e T]; [rewrite mdet_inverse; auto|]. apply (proj2 (transform_inverse M e (Pt w) HD)) in T.
  destruct (proj2 (Hc _ _ T)) as (z & -> & Hz); [eauto|]. eauto.
Qed.
Lemma tc_compose fuel M N c c1 c2 (left : bool) : mdet M <> C0 -> mdet N <> C0 -> 0 < cr c ->
  transform_circle fuel M c = Some (Ok (GC c1)) -> transform_circle fuel N c1 = Some (Ok (GC c2)) ->
  transform_circle fuel (if left then compose M N true else compose N M false) c = Some (Ok (GC c2)).
Proof.
  intros HM HN Hr E1 E2. destruct (transform_circle_GC fuel M c c1 HM Hr E1) as (P1 & Np1 & H1). destruct (transform_circle_GC fuel N c1 c2 HN P1 E2) as (P2 & Np2 & H2).
  assert (T : forall P, transform (if left then compose M N true else compose N M false) P = let! Q := transform M P in transform N Q)
    by (intros P; destruct left; rewrite transform_compose; auto).
  apply tc_char; auto.
  - destruct left; apply mdet_compose; auto.
  - intros w Hw. destruct (tc_back fuel N c1 c2 w HN P1 E2 Hw) as (y & Hy & Ty). destruct (tc_back fuel M c c1 y HM Hr E1 Hy) as (z & Hz & Tz).
    exists z. split; auto. rewrite T, Tz. exact Ty.
  - intros p. rewrite T. intros K Hp. apply bind_Ok in K. destruct K as (Q & K1 & K2).
    destruct (proj1 (H1 _ _ K1)) as (y & -> & Hy); [eauto|]. destruct (proj1 (H2 _ _ K2)) as (x & Ex & _); [eauto|]. discriminate.
Qed.
Lemma tc_inverse fuel M c c' : mdet M <> C0 -> 0 < cr c -> transform_circle fuel M c = Some (Ok (GC c')) -> transform_circle fuel (inverse M) c' = Some (Ok (GC c)).
Proof.
  intros HD Hr E. destruct (transform_circle_GC fuel M c c' HD Hr E) as (P & Np & H). apply tc_char; auto.
  - rewrite mdet_inverse. auto.
  - intros z Hz. destruct (transform_total M (Pt z) HD) as [e T]. destruct (proj1 (H _ _ T)) as (w & -> & Hw); [eauto|]. exists w. split; auto. apply (proj1 (transform_inverse M (Pt z) (Pt w) HD)); auto.
  - intros p K Hp. apply (proj2 (transform_inverse M Inf (Pt p) HD)) in K. destruct (proj2 (H _ _ K)) as (z & Ez & _); [eauto|]. discriminate.
Qed.

(** ** the angle *)
Lemma kap_pole M c p : mdet M <> C0 -> transform M (Pt p) = Ok Inf -> kap M c = Cmod2 (mc M) * (dist2 (cO c) p - cr c * cr c) /\ 0 < Cmod2 (mc M).
Proof.
  intros HD T. apply transform_pole in T; auto.
  assert (Hc : mc M <> C0). { intros K. apply HD. assert (md M = C0) as Z by (rewrite K in T; rewrite <- T; cring). unfold mdet. rewrite Z, K. cring. }
  split; [|apply Cmod2_pos; auto]. unfold kap. replace (md M + mc M * cO c)%C with (- (mc M * (p - cO c)))%C.
  - rewrite Cmod2_opp, Cmod2_mul, <- dist2_Cmod2. ring.
  - transitivity ((md M + mc M * cO c) - (mc M * p + md M))%C; [cring|rewrite T; cring].
Qed.
Lemma kap_nopole M c : mdet M <> C0 -> mc M = C0 -> 0 < kap M c.
Proof.
  intros HD K. unfold kap. rewrite K. replace (md M + C0 * cO c)%C with (md M) by cring.
  replace (Cmod2 C0) with 0 by (unfold Cmod2, C0; cbn [fst snd]; ring).
  assert (0 < Cmod2 (md M)). { apply Cmod2_pos. intros Z. apply HD. unfold mdet. rewrite Z, K. cring. } lra.
Qed.
Lemma pole_cases M : mdet M <> C0 -> mc M = C0 \/ exists p, transform M (Pt p) = Ok Inf.
Proof.
  intros HD. destruct (C_eq_dec (mc M) C0) as [|Hc]; auto. right. exists (- md M / mc M)%C. apply transform_pole; auto. cfield; auto.
Qed.
Lemma out_sq c p : 0 < cr c -> (cr c < dist (cO c) p <-> 0 < dist2 (cO c) p - cr c * cr c) /\ (dist (cO c) p < cr c <-> dist2 (cO c) p - cr c * cr c < 0).
Proof.
  intros H. pose proof (dist_nonneg (cO c) p). rewrite <- (dist_sq (cO c) p). split; split; intros; nra.
Qed.
Lemma meet_qq c1 c2 : 0 < cr c1 -> 0 < cr c2 ->
  ((cr c1 - cr c2) ^ 2 <= dist2 (cO c1) (cO c2) <= (cr c1 + cr c2) ^ 2 <-> -2 <= qq c1 c2 / (cr c1 * cr c2) <= 2).
Proof.
  intros H1 H2. pose proof (Rmult_lt_0_compat _ _ H1 H2) as P.
  assert (E : qq c1 c2 = qq c1 c2 / (cr c1 * cr c2) * (cr c1 * cr c2)) by (field; lra). set (x := qq c1 c2 / (cr c1 * cr c2)) in *.
  unfold qq in E. split; intros [A B]; split.
  - apply (Rmult_le_reg_r (cr c1 * cr c2)); nra.
  - apply (Rmult_le_reg_r (cr c1 * cr c2)); nra.
  - assert (-2 * (cr c1 * cr c2) <= x * (cr c1 * cr c2)) by (apply Rmult_le_compat_r; lra). nra.
  - assert (x * (cr c1 * cr c2) <= 2 * (cr c1 * cr c2)) by (apply Rmult_le_compat_r; lra). nra.
Qed.
Lemma angle_qq c1 c2 : 0 < cr c1 -> 0 < cr c2 -> -2 <= qq c1 c2 / (cr c1 * cr c2) <= 2 ->
  exists t, circle_angle c1 c2 = Ok (Some t) /\ 0 <= t <= PI /\ cos t = qq c1 c2 / (cr c1 * cr c2) / 2.
Proof.
  intros H1 H2 H. apply meet_qq in H; auto. destruct (angle_spec c1 c2 H1 H2 H) as (t & E & Ht & Ec & _). exists t. split; auto. split; auto. rewrite Ec. unfold qq. field. lra.
Qed.
Lemma cos_inj t u : 0 <= t <= PI -> 0 <= u <= PI -> cos t = cos u -> t = u.
Proof.
  intros [] [] E. destruct (Rtotal_order t u) as [L|[L|L]]; auto; [pose proof (cos_decreasing_1 t u)|pose proof (cos_decreasing_1 u t)]; lra.
Qed.
Lemma mob_angle fuel M c1 c2 c1' c2' : mdet M <> C0 -> 0 < cr c1 -> 0 < cr c2 ->
  (cr c1 - cr c2) ^ 2 <= dist2 (cO c1) (cO c2) <= (cr c1 + cr c2) ^ 2 ->
  transform_circle fuel M c1 = Some (Ok (GC c1')) -> transform_circle fuel M c2 = Some (Ok (GC c2')) ->
  exists t t', circle_angle c1 c2 = Ok (Some t) /\ circle_angle c1' c2' = Ok (Some t') /\
    ((forall p, transform M (Pt p) = Ok Inf -> (cr c1 < dist (cO c1) p <-> cr c2 < dist (cO c2) p)) -> t' = t) /\
    ((exists p, transform M (Pt p) = Ok Inf /\ (cr c1 < dist (cO c1) p <-> dist (cO c2) p < cr c2)) -> t' = PI - t).
Proof.
  intros HD H1 H2 HI E1 E2. destruct (ratio_image fuel M c1 c2 c1' c2' HD H1 H2 E1 E2) as (P1 & P2 & A & B & N). apply meet_qq in HI; auto.
  assert (HI' : -2 <= qq c1' c2' / (cr c1' * cr c2') <= 2). { destruct (Rtotal_order (kap M c1 * kap M c2) 0) as [L|[L|L]]; [rewrite (B L)|tauto|rewrite (A L)]; lra. }
  destruct (angle_qq c1 c2 H1 H2 HI) as (t & Et & Rt & Ct). destruct (angle_qq c1' c2' P1 P2 HI') as (t' & Et' & Rt' & Ct'). exists t, t'. split; auto. split; auto.
  destruct (tc_val fuel M c1 c1' HD H1 E1) as (K1 & _). destruct (tc_val fuel M c2 c2' HD H2 E2) as (K2 & _).
  split.
  - intros Hp. apply cos_inj; auto. rewrite Ct, Ct', A; auto. destruct (pole_cases M HD) as [Hc|(p & T)].
    + apply Rmult_lt_0_compat; apply kap_nopole; auto.
    + specialize (Hp p T). rewrite (proj1 (out_sq c1 p H1)), (proj1 (out_sq c2 p H2)) in Hp. destruct (kap_pole M c1 p HD T) as [F1 Q]. destruct (kap_pole M c2 p HD T) as [F2 _]. rewrite F1, F2 in *.
      set (x := dist2 (cO c1) p - cr c1 * cr c1) in *. set (y := dist2 (cO c2) p - cr c2 * cr c2) in *.
      replace (Cmod2 (mc M) * x * (Cmod2 (mc M) * y)) with (Cmod2 (mc M) * Cmod2 (mc M) * (x * y)) by ring. apply Rmult_lt_0_compat; [apply Rmult_lt_0_compat; auto|].
      assert (x <> 0) by (intros Z; rewrite Z in K1; lra). assert (y <> 0) by (intros Z; rewrite Z in K2; lra).
      destruct (Rlt_or_le 0 x) as [L|L]; [apply Rmult_lt_0_compat; tauto|]. assert (y < 0) by (destruct (Rlt_or_le 0 y) as [G|G]; [apply Hp in G; lra|lra]). assert (x < 0) by lra. nra.
  - intros (p & T & Hp). apply cos_inj; auto; [lra|]. rewrite cos_minus, cos_PI, sin_PI, Ct, Ct', B; [field; split; lra|].
    rewrite (proj1 (out_sq c1 p H1)), (proj2 (out_sq c2 p H2)) in Hp. destruct (kap_pole M c1 p HD T) as [F1 Q]. destruct (kap_pole M c2 p HD T) as [F2 _]. rewrite F1, F2 in *.
    set (x := dist2 (cO c1) p - cr c1 * cr c1) in *. set (y := dist2 (cO c2) p - cr c2 * cr c2) in *.
    replace (Cmod2 (mc M) * x * (Cmod2 (mc M) * y)) with (- (Cmod2 (mc M) * Cmod2 (mc M) * (x * - y))) by ring.
    apply Ropp_lt_gt_0_contravar, Rlt_gt. apply Rmult_lt_0_compat; [apply Rmult_lt_0_compat; auto|].
    assert (x <> 0) by (intros Z; rewrite Z in K1; lra). assert (y <> 0) by (intros Z; rewrite Z in K2; lra).
    destruct (Rlt_or_le 0 x) as [L|L]; [apply Rmult_lt_0_compat; auto; apply Hp in L; lra|]. assert (~ y < 0) by (intros G; apply Hp in G; lra). assert (x < 0) by lra. assert (0 < y) by lra. nra.
Qed.

(** ** statements *)
Lemma mob_preserves fuel w c1 c2 c1' c2' : Forall (fun M => mdet M <> C0) w -> 0 < cr c1 -> 0 < cr c2 -> transform_circle_word fuel w c1 c1' -> transform_circle_word fuel w c2 c2' ->
  (ext_tangent (cO c1) (cr c1) (cO c2) (cr c2) \/ int_tangent (cO c1) (cr c1) (cO c2) (cr c2) <->
   ext_tangent (cO c1') (cr c1') (cO c2') (cr c2') \/ int_tangent (cO c1') (cr c1') (cO c2') (cr c2')) /\
  (circ_orthogonal (cO c1) (cr c1) (cO c2) (cr c2) <-> circ_orthogonal (cO c1') (cr c1') (cO c2') (cr c2')) /\
  Rabs (dist2 (cO c1') (cO c2') - cr c1' ^ 2 - cr c2' ^ 2) / (cr c1' * cr c2') =
  Rabs (dist2 (cO c1) (cO c2) - cr c1 ^ 2 - cr c2 ^ 2) / (cr c1 * cr c2).
Proof.
  intros HW H1 H2 E1 E2. destruct (word_mob fuel w HW c1 c2 c1' c2' H1 H2 E1 E2) as (P1 & P2 & E).
  rewrite !tangent_inv_dist, !orth_inv_dist by auto. split; [rewrite E; tauto|]. split; [rewrite E; tauto|exact E].
Qed.
(** circles are tangent outside each other before and after when the pole is outside or inside both *)
Lemma mob_ext fuel M c1 c2 c1' c2' : mdet M <> C0 -> 0 < cr c1 -> 0 < cr c2 ->
  transform_circle fuel M c1 = Some (Ok (GC c1')) -> transform_circle fuel M c2 = Some (Ok (GC c2')) ->
  ext_tangent (cO c1) (cr c1) (cO c2) (cr c2) ->
  ((forall p, transform M (Pt p) = Ok Inf -> (cr c1 < dist (cO c1) p /\ cr c2 < dist (cO c2) p)) -> ext_tangent (cO c1') (cr c1') (cO c2') (cr c2')) /\
  ((exists p, transform M (Pt p) = Ok Inf /\ (dist (cO c1) p < cr c1 \/ dist (cO c2) p < cr c2)) -> int_tangent (cO c1') (cr c1') (cO c2') (cr c2')).
Proof.
  intros HD H1 H2 E1 E2 HT. destruct (ratio_image fuel M c1 c2 c1' c2' HD H1 H2 E1 E2) as (P1 & P2 & A & B & N).
  assert (Q0 : qq c1 c2 / (cr c1 * cr c2) = 2). { unfold ext_tangent in HT. unfold qq. rewrite <- dist_sq, HT. field. lra. }
  pose proof (Rmult_lt_0_compat _ _ P1 P2) as PP.
  assert (EX : forall x, qq c1' c2' / (cr c1' * cr c2') = x -> dist2 (cO c1') (cO c2') = cr c1' * cr c1' + cr c2' * cr c2' + x * (cr c1' * cr c2')).
  { intros x <-. unfold qq. field. lra. }
  split.
  - intros Hp. unfold ext_tangent. unfold dist. apply sqrt_eq; [lra|]. rewrite (EX 2); [ring|]. rewrite A; auto. destruct (pole_cases M HD) as [Hc|(p & T)].
    + apply Rmult_lt_0_compat; apply kap_nopole; auto.
    + destruct (Hp p T) as [L1 L2]. apply (proj1 (out_sq c1 p H1)) in L1. apply (proj1 (out_sq c2 p H2)) in L2.
      destruct (kap_pole M c1 p HD T) as [-> Q]. destruct (kap_pole M c2 p HD T) as [-> _]. apply Rmult_lt_0_compat; apply Rmult_lt_0_compat; auto.
  - intros (p & T & HP). unfold int_tangent, dist. apply sqrt_eq; [apply Rabs_pos|]. rewrite Rabs_sq. rewrite (EX (-2)); [ring|]. rewrite B; [lra|].
    assert (D : cr c1 + cr c2 <= dist (cO c1) p + dist (cO c2) p) by (rewrite <- HT; rewrite (dist_sym (cO c2) p); apply Verif.PSteiner.dist_triangle).
    destruct (kap_pole M c1 p HD T) as [F1 Q]. destruct (kap_pole M c2 p HD T) as [F2 _]. rewrite F1, F2.
    destruct (out_sq c1 p H1) as [O1 I1]. destruct (out_sq c2 p H2) as [O2 I2].
    set (x := dist2 (cO c1) p - cr c1 * cr c1) in *. set (y := dist2 (cO c2) p - cr c2 * cr c2) in *.
    replace (Cmod2 (mc M) * x * (Cmod2 (mc M) * y)) with (- (Cmod2 (mc M) * Cmod2 (mc M) * - (x * y))) by ring.
    apply Ropp_lt_gt_0_contravar, Rlt_gt. apply Rmult_lt_0_compat; [apply Rmult_lt_0_compat; auto|].
    destruct HP as [L|L].
    + assert (x < 0) by tauto. assert (0 < y) by (apply O2; lra). nra.
    + assert (y < 0) by tauto. assert (0 < x) by (apply O1; lra). nra.
Qed.
