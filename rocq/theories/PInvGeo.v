(** * Inversions: distances, angles, coaxial circles, fixed circles, cross ratios. *)

From Coq Require Import Reals Lra Psatz List Bool.
From Verif Require Import Base BaseLemmas Spec SpecLemmas SpecMobius ModelInternal ModelLine ModelCircle ModelInversion ModelMobius PLine PCircle PInvBase PInversion PInversion2 PMobius PMobius2 PMobius3 PMobius4 PMobCirc.
Import ListNotations.
Local Open Scope R_scope.

Lemma inv_pt_0 k M : inv_pt (0, 0) k M = vscal (k / dist2 (0, 0) M) M.
Proof. unfold inv_pt, vadd, vsub. destruct M as [x y]. cbn [fst snd]. unfold vscal. cbn [fst snd]. f_equal; ring. Qed.

Lemma inv_pt_dist2 I k M N : M <> I -> N <> I -> dist2 (inv_pt I k M) (inv_pt I k N) * (dist2 I M * dist2 I N) = k * k * dist2 M N.
Proof.
  intros HM HN. assert (A : dist2 I M <> 0) by (rewrite dist2_0; auto). assert (B : dist2 I N <> 0) by (rewrite dist2_0; auto).
  revert A B. unfold inv_pt, dist2, sdot, vadd, vscal, vsub. destruct I as [i1 i2], M as [m1 m2], N as [n1 n2]. cbn [fst snd]. intros A B. field. auto.
Qed.

Lemma invert_dist iota M N M' N' : invert iota (Pt M) = Pt M' -> invert iota (Pt N) = Pt N' ->
  dist M' N' * (dist (ipole iota) M * dist (ipole iota) N) = Rabs (ipower iota) * dist M N.
Proof.
  intros E F. apply invert_Pt in E. apply invert_Pt in F. destruct E as (_ & HM & ->), F as (_ & HN & ->). pose proof (inv_pt_dist2 (ipole iota) (ipower iota) M N HM HN) as H.
  set (M' := inv_pt _ _ M) in *. set (N' := inv_pt _ _ N) in *. rewrite <- (dist_sq M' N'), <- (dist_sq (ipole iota) M), <- (dist_sq (ipole iota) N), <- (dist_sq M N) in H.
  pose proof (dist_nonneg M' N'). pose proof (dist_nonneg (ipole iota) M). pose proof (dist_nonneg (ipole iota) N). pose proof (dist_nonneg M N). pose proof (Rabs_pos (ipower iota)).
  assert (K : Rabs (ipower iota) * Rabs (ipower iota) = ipower iota * ipower iota) by (rewrite <- Rabs_mult; apply Rabs_pos_eq; nra).
  apply Rsqr_inj; [apply Rmult_le_pos; [assumption|apply Rmult_le_pos; assumption]|apply Rmult_le_pos; assumption|]. unfold Rsqr.
  transitivity (ipower iota * ipower iota * (dist M N * dist M N)); [rewrite <- H; ring|rewrite <- K; ring].
Qed.

(** the image circle *)
Lemma ic_vals iota c c' : 0 < cr c -> invert_circle iota c = Ok (GC c') ->
  exists p s, p = pow_circle (cO c) (cr c) (ipole iota) /\ p <> 0 /\ ipower iota <> 0 /\ s = ipower iota / p /\ s <> 0 /\
  0 < cr c' /\ cr c' = Rabs s * cr c /\ cr c' * cr c' = s * s * (cr c * cr c) /\ cO c' = vadd (ipole iota) (vscal s (vsub (cO c) (ipole iota))).
Proof.
  intros H E. destruct (invert_circle_GC iota c c' H E) as (K & B & P & O & Q). apply pow_band_neq in B. unfold inv_scale in *.
  set (p := pow_circle (cO c) (cr c) (ipole iota)) in *. exists p, (ipower iota / p). split; [reflexivity|]. split; [auto|]. split; [auto|]. split; [reflexivity|].
  split; [unfold Rdiv; apply Rmult_integral_contrapositive_currified; [auto|apply Rinv_neq_0_compat; auto]|]. split; [auto|]. split; [auto|]. split; [|auto].
  rewrite Q. set (s := ipower iota / p). transitivity (Rabs s * Rabs s * (cr c * cr c)); [ring|]. rewrite <- Rabs_mult, Rabs_pos_eq by nra. reflexivity.
Qed.

Lemma invert_circle_pow iota c c' : 0 < cr c -> invert_circle iota c = Ok (GC c') ->
  pow_circle (cO c) (cr c) (ipole iota) * pow_circle (cO c') (cr c') (ipole iota) = ipower iota * ipower iota /\
  cr c' * Rabs (pow_circle (cO c) (cr c) (ipole iota)) = Rabs (ipower iota) * cr c.
Proof.
  intros H E. destruct (ic_vals iota c c' H E) as (p & s & Ep & Np & Nk & Es & Ns & P & Er & Er2 & EO).
  assert (EP : pow_circle (cO c') (cr c') (ipole iota) = s * s * p).
  { unfold pow_circle. replace (cr c' ^ 2) with (cr c' * cr c') by ring. rewrite Er2, EO, Ep. unfold pow_circle, dist2, sdot, vadd, vscal, vsub. cbn [fst snd]. ring. }
  rewrite EP, <- Ep. assert (K : ipower iota = s * p) by (rewrite Es; field; auto). rewrite K, Er. split; [ring|]. rewrite Rabs_mult. ring.
Qed.

(** the centre of the image *)
Lemma invert_circle_centre iota c c' Q Z : 0 < cr c -> invert_circle iota c = Ok (GC c') -> invert (inversion_on_circle c) (Pt (ipole iota)) = Pt Q -> invert iota (Pt Q) = Pt Z -> cO c' = Z.
Proof.
  intros H E F G. destruct (ic_vals iota c c' H E) as (p & s & Ep & Np & Nk & Es & Ns & P & Er & Er2 & EO). apply invert_Pt in F. apply invert_Pt in G. destruct F as (_ & HM & ->), G as (_ & HN & ->).
  cbn [ipole ipower inversion_on_circle] in *. set (I := ipole iota) in *. rewrite EO, Es. 
  assert (D : dist2 (cO c) I <> 0) by (rewrite dist2_0; auto).
  assert (EQ : vsub (inv_pt (cO c) (cr c ^ 2) I) I = vscal (p / dist2 (cO c) I) (vsub (cO c) I)).
  { rewrite Ep. unfold pow_circle, inv_pt. revert D. unfold dist2, sdot, vadd, vscal, vsub. cbn [fst snd]. intros D. f_equal; field; auto. }
  set (N := inv_pt (cO c) (cr c ^ 2) I) in *. unfold inv_pt. rewrite EQ.
  assert (D2 : dist2 I N = p * p / dist2 (cO c) I).
  { unfold dist2 at 1. replace (vsub N I) with (vscal (p / dist2 (cO c) I) (vsub (cO c) I)). rewrite dist2_sym at 1. revert D. rewrite (dist2_sym (cO c) I). unfold dist2, sdot, vscal, vsub. cbn [fst snd]. intros D. field. auto. }
  rewrite D2. f_equal. unfold vscal. cbn [fst snd]. f_equal; field; auto.
Qed.

(** fixed circles *)
Lemma invert_circle_fixed iota c c' : 0 < cr c -> invert_circle iota c = Ok (GC c') ->
  (c' = c <-> pow_circle (cO c) (cr c) (ipole iota) = ipower iota \/ (cO c = ipole iota /\ cr c * cr c = ipower iota)).
Proof.
  intros H E. destruct (ic_vals iota c c' H E) as (p & s & Ep & Np & Nk & Es & Ns & P & Er & Er2 & EO). rewrite <- Ep. assert (K : ipower iota = s * p) by (rewrite Es; field; auto). split.
  - intros ->. assert (S : Rabs s = 1) by (apply Rmult_eq_reg_r with (cr c); lra). destruct (Rle_or_lt 0 s) as [L|L].
    + left. rewrite Rabs_pos_eq in S by lra. rewrite K, S. ring.
    + right. rewrite Rabs_left in S by lra. assert (s = -1) by lra. rewrite H0 in EO, K. assert (C : cO c = ipole iota). { revert EO. destruct (cO c) as [x y], (ipole iota) as [a b]. unfold vadd, vscal, vsub. cbn [fst snd]. intros Q. injection Q as Q1 Q2. f_equal; lra. }
      split; [exact C|]. rewrite K, Ep, C. unfold pow_circle, dist2, sdot, vsub. cbn [fst snd]. ring.
  - intros [F|[C F]]; apply circle_ext.
    + assert (s = 1) by (apply Rmult_eq_reg_r with p; lra). rewrite EO, H0. destruct (cO c) as [x y], (ipole iota) as [a b]. unfold vadd, vscal, vsub. cbn [fst snd]. f_equal; ring.
    + assert (s = 1) by (apply Rmult_eq_reg_r with p; lra). rewrite Er, H0, Rabs_R1. ring.
    + rewrite EO, C. destruct (ipole iota) as [a b]. unfold vadd, vscal, vsub. cbn [fst snd]. f_equal; ring.
    + assert (p = - (cr c * cr c)) by (rewrite Ep, C; unfold pow_circle, dist2, sdot, vsub; cbn [fst snd]; ring). assert (s = -1) by (apply Rmult_eq_reg_r with p; lra). rewrite Er, H1. rewrite Rabs_left; lra.
Qed.

Lemma on_circle_fixed_iff c0 c c' : 0 < cr c0 -> 0 < cr c -> invert_circle (inversion_on_circle c0) c = Ok (GC c') ->
  (c' = c <-> circ_orthogonal (cO c0) (cr c0) (cO c) (cr c) \/ c = c0).
Proof.
  intros H0 H E. rewrite (invert_circle_fixed _ c c' H E). cbn [inversion_on_circle ipole ipower]. unfold circ_orthogonal, pow_circle. rewrite (dist2_sym (cO c0) (cO c)). split.
  - intros [F|[C F]]; [left; lra|right]. apply circle_ext; [exact C|]. nra.
  - intros [F| ->]; [left; lra|right]. split; [reflexivity|ring].
Qed.

(** a point and its inverse *)
Lemma orthogonal_through_inverse c0 c M N : 0 < cr c0 -> 0 < cr c -> invert (inversion_on_circle c0) (Pt M) = Pt N -> M <> N ->
  on_circle (cO c) (cr c) M -> (on_circle (cO c) (cr c) N <-> circ_orthogonal (cO c0) (cr c0) (cO c) (cr c)).
Proof.
  intros H0 H E NE. apply invert_Pt in E. cbn [inversion_on_circle ipole ipower] in E. destruct E as (_ & HM & ->). rewrite !on_circle_sq by lra. unfold circ_orthogonal. intros HC.
  assert (D : dist2 (cO c0) M <> 0) by (rewrite dist2_0; auto). assert (K1 : cr c0 ^ 2 / dist2 (cO c0) M <> 1).
  { intros K. apply NE. unfold inv_pt. rewrite K. destruct M, (cO c0). unfold vadd, vscal, vsub. cbn [fst snd]. f_equal; ring. }
  set (t := cr c0 ^ 2 / dist2 (cO c0) M) in *. assert (Kt : cr c0 ^ 2 = t * dist2 (cO c0) M) by (unfold t; field; auto). rewrite Kt. 
  assert (Q : dist2 (cO c) (inv_pt (cO c0) (t * dist2 (cO c0) M) M) - dist2 (cO c) M = (1 - t) * (dist2 (cO c0) (cO c) - t * dist2 (cO c0) M - dist2 (cO c) M)).
  { unfold inv_pt. replace (t * dist2 (cO c0) M / dist2 (cO c0) M) with t by (field; auto). unfold dist2, sdot, vadd, vscal, vsub. cbn [fst snd]. ring. }
  split; intros F.
  - assert (Z : (1 - t) * (dist2 (cO c0) (cO c) - t * dist2 (cO c0) M - dist2 (cO c) M) = 0) by lra. apply Rmult_integral in Z. destruct Z as [Z|Z]; [exfalso; apply K1; lra|]. lra.
  - replace (dist2 (cO c0) (cO c) - t * dist2 (cO c0) M - dist2 (cO c) M) with 0 in Q by lra. lra.
Qed.

(** coaxial circles *)
Lemma coaxial c0 c c' : 0 < cr c0 -> 0 < cr c -> invert_circle (inversion_on_circle c0) c = Ok (GC c') -> forall X,
  pow_circle (cO c) (cr c) X = pow_circle (cO c0) (cr c0) X <-> pow_circle (cO c') (cr c') X = pow_circle (cO c0) (cr c0) X.
Proof.
  intros H0 H E X. destruct (ic_vals _ c c' H E) as (p & s & Ep & Np & Nk & Es & Ns & P & Er & Er2 & EO). cbn [inversion_on_circle ipole ipower] in *. assert (K : cr c0 ^ 2 = s * p) by (rewrite Es; field; auto).
  assert (Q : pow_circle (cO c') (cr c') X - pow_circle (cO c0) (cr c0) X = s * (pow_circle (cO c) (cr c) X - pow_circle (cO c0) (cr c0) X)).
  { unfold pow_circle at 1. replace (cr c' ^ 2) with (s * s * (cr c * cr c)) by lra. unfold pow_circle. rewrite K, EO, Ep. unfold pow_circle, dist2, sdot, vadd, vscal, vsub. cbn [fst snd]. ring. }
  split; intros F; [rewrite F, Rminus_eq_0, Rmult_0_r in Q; lra|]. rewrite F, Rminus_eq_0 in Q. symmetry in Q. apply Rmult_integral in Q. destruct Q; [contradiction|lra].
Qed.

Lemma coaxial_axis c0 c c' l l' : 0 < cr c0 -> 0 < cr c -> invert_circle (inversion_on_circle c0) c = Ok (GC c') ->
  radical_axis c c0 = Ok (Some l) -> radical_axis c' c0 = Ok (Some l') -> same_line (lA l) (lB l) (lA l') (lB l').
Proof.
  intros H0 H E A B X. destruct (radical_axis_spec _ _ _ A) as (_ & A'). destruct (radical_axis_spec _ _ _ B) as (_ & B'). rewrite A', B'. apply coaxial; auto.
Qed.

(** angles *)
Lemma qq_inverse iota c1 c2 c1' c2' : 0 < cr c1 -> 0 < cr c2 -> invert_circle iota c1 = Ok (GC c1') -> invert_circle iota c2 = Ok (GC c2') ->
  let p1 := pow_circle (cO c1) (cr c1) (ipole iota) in let p2 := pow_circle (cO c2) (cr c2) (ipole iota) in
  0 < cr c1' /\ 0 < cr c2' /\ p1 <> 0 /\ p2 <> 0 /\ (0 < p1 * p2 -> qq c1' c2' / (cr c1' * cr c2') = qq c1 c2 / (cr c1 * cr c2)) /\ (p1 * p2 < 0 -> qq c1' c2' / (cr c1' * cr c2') = - (qq c1 c2 / (cr c1 * cr c2))).
Proof.
  intros H1 H2 E1 E2 p1' p2'. destruct (ic_vals _ _ _ H1 E1) as (p1 & s1 & Ep1 & Np1 & Nk & Es1 & Ns1 & P1 & Er1 & Q1 & O1). destruct (ic_vals _ _ _ H2 E2) as (p2 & s2 & Ep2 & Np2 & _ & Es2 & Ns2 & P2 & Er2 & Q2 & O2).
  fold p1' in Ep1. fold p2' in Ep2. rewrite <- Ep1, <- Ep2. do 4 (split; [auto|]).
  assert (Q : qq c1' c2' = s1 * s2 * qq c1 c2).
  { unfold qq. rewrite Q1, Q2, O1, O2. set (k := ipower iota) in *. assert (K1 : k = s1 * p1) by (rewrite Es1; field; auto). assert (K2 : k = s2 * p2) by (rewrite Es2; field; auto).
    assert (D1 : s1 * s1 * p1 = s1 * s2 * p2) by (rewrite Rmult_assoc, <- K1, Rmult_assoc, <- K2; ring). assert (D2 : s2 * s2 * p2 = s1 * s2 * p1) by (rewrite Rmult_assoc, <- K2, (Rmult_comm s1 s2), Rmult_assoc, <- K1; ring).
    assert (W : dist2 (vadd (ipole iota) (vscal s1 (vsub (cO c1) (ipole iota)))) (vadd (ipole iota) (vscal s2 (vsub (cO c2) (ipole iota)))) - s1 * s1 * (cr c1 * cr c1) - s2 * s2 * (cr c2 * cr c2)
      = s1 * s1 * p1 + s2 * s2 * p2 - s1 * s2 * (p1 + p2) + s1 * s2 * (dist2 (cO c1) (cO c2) - cr c1 * cr c1 - cr c2 * cr c2)).
    { rewrite Ep1, Ep2. unfold p1', p2', pow_circle, dist2, sdot, vadd, vscal, vsub. cbn [fst snd]. ring. }
    rewrite W, D1, D2. ring. }
  assert (S : s1 * s2 * (p1 * p2) = ipower iota * ipower iota) by (rewrite Es1, Es2; field; auto). assert (0 < ipower iota * ipower iota) by nra.
  rewrite Q, Er1, Er2. replace (Rabs s1 * cr c1 * (Rabs s2 * cr c2)) with (Rabs (s1 * s2) * (cr c1 * cr c2)) by (rewrite Rabs_mult; ring).
  split; intros L.
  - assert (0 < s1 * s2) by (destruct (Rlt_or_le 0 (s1 * s2)) as [|G]; [auto|nra]). rewrite Rabs_pos_eq by lra. field. repeat split; auto; lra.
  - assert (s1 * s2 < 0) by (destruct (Rlt_or_le (s1 * s2) 0) as [|G]; [auto|nra]). rewrite Rabs_left by lra. field. repeat split; auto; lra.
Qed.

Lemma invert_angle iota c1 c2 c1' c2' : 0 < cr c1 -> 0 < cr c2 -> (cr c1 - cr c2) ^ 2 <= dist2 (cO c1) (cO c2) <= (cr c1 + cr c2) ^ 2 ->
  invert_circle iota c1 = Ok (GC c1') -> invert_circle iota c2 = Ok (GC c2') ->
  exists t t', circle_angle c1 c2 = Ok (Some t) /\ circle_angle c1' c2' = Ok (Some t') /\
    ((cr c1 < dist (cO c1) (ipole iota) <-> cr c2 < dist (cO c2) (ipole iota)) -> t' = t) /\
    ((cr c1 < dist (cO c1) (ipole iota) <-> dist (cO c2) (ipole iota) < cr c2) -> t' = PI - t).
Proof.
  intros H1 H2 HI E1 E2. destruct (qq_inverse iota c1 c2 c1' c2' H1 H2 E1 E2) as (P1 & P2 & N1 & N2 & A & B). apply meet_qq in HI; auto.
  set (p1 := pow_circle (cO c1) (cr c1) (ipole iota)) in *. set (p2 := pow_circle (cO c2) (cr c2) (ipole iota)) in *. assert (N : p1 * p2 <> 0) by (apply Rmult_integral_contrapositive_currified; auto).
  assert (HI' : -2 <= qq c1' c2' / (cr c1' * cr c2') <= 2) by (destruct (Rtotal_order (p1 * p2) 0) as [L|[L|L]]; [rewrite (B L)|contradiction|rewrite (A L)]; lra).
  destruct (angle_qq c1 c2 H1 H2 HI) as (t & Et & Rt & Ct). destruct (angle_qq c1' c2' P1 P2 HI') as (t' & Et' & Rt' & Ct'). exists t, t'. split; auto. split; auto.
  rewrite (proj1 (out_sq c1 (ipole iota) H1)), (proj1 (out_sq c2 (ipole iota) H2)), (proj2 (out_sq c2 (ipole iota) H2)).
  replace (dist2 (cO c1) (ipole iota) - cr c1 * cr c1) with p1 by (unfold p1, pow_circle; ring). replace (dist2 (cO c2) (ipole iota) - cr c2 * cr c2) with p2 by (unfold p2, pow_circle; ring). split; intros L.
  - apply cos_inj; auto. rewrite Ct, Ct', A; [reflexivity|]. destruct (Rlt_or_le 0 p1) as [G|G]; [apply Rmult_lt_0_compat; tauto|]. assert (p1 < 0) by lra. assert (p2 < 0) by (destruct (Rlt_or_le 0 p2) as [K|K]; [apply L in K; lra|lra]). nra.
  - apply cos_inj; auto; [lra|]. rewrite cos_minus, cos_PI, sin_PI, Ct, Ct', B; [field; split; lra|]. destruct (Rlt_or_le 0 p1) as [G|G]; [apply L in G as G'; nra|]. assert (p1 < 0) by lra. assert (0 < p2) by (destruct (Rlt_or_le p2 0) as [K|K]; [apply L in K; lra|lra]). nra.
Qed.

(** ** Cross ratios *)

Lemma cross_ratio_conj A B C' D r : cross_ratio A B C' D = Ok r -> cross_ratio (Cconj A) (Cconj B) (Cconj C') (Cconj D) = Ok (Cconj r).
Proof.
  intros H. destruct (cross_ratio_Ok _ _ _ _ _ H) as ((N1 & N2 & N3 & N4 & N5 & N6) & ->).
  assert (I : forall z w : C, z <> w -> Cconj z <> Cconj w) by (intros z w N E; apply N; rewrite <- (Cconj_conj z), E; apply Cconj_conj).
  rewrite cross_ratio_total by auto. f_equal. rewrite ?Cconj_div, ?Cconj_mul, ?Cconj_div, ?Cconj_sub. reflexivity.
Qed.

Lemma invert_cross iota A B C' D A1 B1 C1 D1 r : ipower iota <> 0 -> invert iota (Pt A) = Pt A1 -> invert iota (Pt B) = Pt B1 -> invert iota (Pt C') = Pt C1 -> invert iota (Pt D) = Pt D1 ->
  cross_ratio A B C' D = Ok r -> cross_ratio A1 B1 C1 D1 = Ok (Cconj r).
Proof.
  intros K EA EB EC ED H. apply cross_ratio_conj in H.
  assert (T : forall P P', invert iota (Pt P) = Pt P' -> transform (inversion_to_conjugate_mobius_ iota) (Pt (Cconj P)) = Ok (Pt P')).
  { intros P P' E. rewrite <- E. apply (inv_mat_image iota (Pt P) K). intros Q EQ F. injection EQ as <-. apply invert_Pt in E. destruct E as (E & _). congruence. }
  eapply cross_ratio_invariant; [apply (inv_mat_det iota K)|apply T; eassumption ..|exact H].
Qed.

Lemma Cmod2_dist2 (z w : C) : Cmod2 (z - w)%C = dist2 z w.
Proof. unfold Cmod2, dist2, sdot, vsub. destruct z, w. unC. cbn [fst snd]. ring. Qed.

Lemma ptolemy A B C' D r : cross_ratio A B C' D = Ok r ->
  sqrt (fst r ^ 2 + snd r ^ 2) * (dist A B * dist C' D) = dist A D * dist B C' /\
  dist A C' * dist B D <= dist A B * dist C' D + dist A D * dist B C' /\
  (dist A C' * dist B D = dist A B * dist C' D + dist A D * dist B C' <-> snd r = 0 /\ fst r < 0).
Proof.
  intros H. destruct (cross_ratio_Ok _ _ _ _ _ H) as ((N1 & N2 & N3 & N4 & N5 & N6) & _). destruct (cross_ratio_value A B C' D) as (r' & Hr & V); auto. rewrite H in Hr. injection Hr as <-.
  assert (V2 : ((C1 - r) * ((A - B) * (C' - D)))%C = ((A - C') * (B - D))%C). { replace ((C1 - r) * ((A - B) * (C' - D)))%C with ((A - B) * (C' - D) - r * ((A - B) * (C' - D)))%C by cring. rewrite V. cring. }
  apply (f_equal Cmod2) in V. apply (f_equal Cmod2) in V2. rewrite !Cmod2_mul in V, V2. rewrite (Cmod2_dist2 A B), (Cmod2_dist2 C' D), (Cmod2_dist2 A D), (Cmod2_dist2 C' B) in V. rewrite (Cmod2_dist2 A B), (Cmod2_dist2 C' D), (Cmod2_dist2 A C'), (Cmod2_dist2 B D) in V2. rewrite (dist2_sym C' B) in V.
  pose proof (dist_pos A B ltac:(auto)) as P1. pose proof (dist_pos C' D ltac:(auto)) as P2. pose proof (dist_pos A D ltac:(auto)) as P3. pose proof (dist_pos B C' ltac:(auto)) as P4. pose proof (dist_pos A C' ltac:(auto)) as P5. pose proof (dist_pos B D ltac:(auto)) as P6.
  rewrite <- (dist_sq A B), <- (dist_sq C' D), <- (dist_sq A D), <- (dist_sq B C') in V. rewrite <- (dist_sq A B), <- (dist_sq C' D), <- (dist_sq A C'), <- (dist_sq B D) in V2. set (p := dist A B * dist C' D). set (q := dist A D * dist B C'). set (m := dist A C' * dist B D).
  assert (0 < p) by (apply Rmult_lt_0_compat; auto). assert (0 < q) by (apply Rmult_lt_0_compat; auto). assert (0 < m) by (apply Rmult_lt_0_compat; auto).
  assert (W : (fst r ^ 2 + snd r ^ 2) * (p * p) = q * q). { unfold p, q. replace (fst r ^ 2 + snd r ^ 2) with (Cmod2 r) by (unfold Cmod2; ring). lra. }
  assert (W2 : ((1 - fst r) ^ 2 + snd r ^ 2) * (p * p) = m * m). { unfold p, m. replace ((1 - fst r) ^ 2 + snd r ^ 2) with (Cmod2 (C1 - r)%C) by (unfold Cmod2; destruct r; unC; cbn [fst snd]; ring). lra. }
  clear V V2. set (a := fst r) in *. set (b := snd r) in *. 
  assert (M2 : m * m = p * p + q * q - 2 * a * p * p) by (rewrite <- W, <- W2; ring).
  assert (Q : (q - a * p) * (q + a * p) = (b * p) * (b * p)) by (replace ((q - a * p) * (q + a * p)) with (q * q - a * a * (p * p)) by ring; rewrite <- W; ring).
  assert (L : 0 <= q + a * p). { destruct (Rle_or_lt 0 (q + a * p)) as [|G]; [auto|]. exfalso. assert (0 < q - a * p) by lra. pose proof (Rle_0_sqr (b * p)) as S. unfold Rsqr in S. nra. }
  split; [|split; [|split]].
  - apply Rsqr_inj; [apply Rmult_le_pos; [apply sqrt_pos|lra]|lra|]. unfold Rsqr. transitivity (sqrt (a ^ 2 + b ^ 2) * sqrt (a ^ 2 + b ^ 2) * (p * p)); [ring|]. rewrite sqrt_sqrt by nra. exact W.
  - apply Rsqr_incr_0_var; [|lra]. unfold Rsqr. rewrite M2. nra.
  - intros E. rewrite E in M2. assert (Z : p * (q + a * p) = 0) by lra. assert (Z' : q + a * p = 0) by nra. rewrite Z', Rmult_0_r in Q. assert (b * p = 0) by nra. split; [nra|nra].
  - intros (B0 & A0). rewrite B0, Rmult_0_l, Rmult_0_l in Q. assert (q - a * p <> 0) by nra. assert (Z : q + a * p = 0) by (apply Rmult_integral in Q; tauto). apply Rsqr_inj; [lra|lra|]. unfold Rsqr. rewrite M2. replace q with (- (a * p)) by lra. ring.
Qed.

(** ** Inversions on orthogonal circles commute *)

Lemma inv_pt_twice I1 k1 I2 k2 M : let U := dist2 I1 M in let w := vsub I2 I1 in let u := vsub M I1 in let E := k1 * k1 - 2 * k1 * sdot u w + U * dist2 I1 I2 in
  U <> 0 -> dist2 I2 (inv_pt I1 k1 M) <> 0 -> E <> 0 /\ inv_pt I2 k2 (inv_pt I1 k1 M) = vadd I2 (vscal (k2 / E) (vsub (vscal k1 u) (vscal U w))).
Proof.
  intros U w u E HU HD. assert (D : dist2 I2 (inv_pt I1 k1 M) = E / U).
  { unfold E, U, u, w, inv_pt. revert HU. unfold U, dist2, sdot, vadd, vscal, vsub. destruct I1 as [a b], I2 as [c d], M as [x y]. cbn [fst snd]. intros HU. field. auto. }
  assert (HE : E <> 0) by (intros Z; rewrite Z in D; unfold Rdiv in D; lra). split; [exact HE|].
  unfold inv_pt at 1. rewrite D. f_equal.
  assert (V : vsub (inv_pt I1 k1 M) I2 = vscal (/ U) (vsub (vscal k1 u) (vscal U w))).
  { unfold inv_pt. fold U u. unfold w. destruct I1 as [a b], I2 as [c d], u as [x y]. unfold vadd, vscal, vsub. cbn [fst snd]. f_equal; field; auto. }
  rewrite V. destruct (vsub (vscal k1 u) (vscal U w)) as [x y]. unfold vscal. cbn [fst snd]. f_equal; field; auto.
Qed.

Lemma commute_pts I1 k1 I2 k2 M : dist2 I1 I2 = k1 + k2 -> dist2 I1 M <> 0 -> dist2 I2 M <> 0 -> dist2 I2 (inv_pt I1 k1 M) <> 0 -> dist2 I1 (inv_pt I2 k2 M) <> 0 ->
  inv_pt I2 k2 (inv_pt I1 k1 M) = inv_pt I1 k1 (inv_pt I2 k2 M).
Proof.
  intros W U V D1 D2. destruct (inv_pt_twice I1 k1 I2 k2 M U D1) as (E1 & ->). destruct (inv_pt_twice I2 k2 I1 k1 M V D2) as (E2 & ->).
  assert (EE : k2 * k2 - 2 * k2 * sdot (vsub M I2) (vsub I1 I2) + dist2 I2 M * dist2 I2 I1 = k1 * k1 - 2 * k1 * sdot (vsub M I1) (vsub I2 I1) + dist2 I1 M * dist2 I1 I2).
  { assert (K : k2 = dist2 I1 I2 - k1) by lra. rewrite K. unfold dist2, sdot, vsub. cbn [fst snd]. ring. }
  rewrite EE in *. set (E := k1 * k1 - _ + _) in *. 
  assert (K : k2 = dist2 I1 I2 - k1) by lra. 
  unfold vadd, vscal, vsub. cbn [fst snd]. apply pair_eq; apply Rmult_eq_reg_r with E; auto.
  - replace ((fst I2 + k2 / E * (k1 * (fst M - fst I1) - dist2 I1 M * (fst I2 - fst I1))) * E) with (fst I2 * E + k2 * (k1 * (fst M - fst I1) - dist2 I1 M * (fst I2 - fst I1))) by (field; auto).
    replace ((fst I1 + k1 / E * (k2 * (fst M - fst I2) - dist2 I2 M * (fst I1 - fst I2))) * E) with (fst I1 * E + k1 * (k2 * (fst M - fst I2) - dist2 I2 M * (fst I1 - fst I2))) by (field; auto).
    unfold E. rewrite K. unfold dist2, sdot, vsub. cbn [fst snd]. ring.
  - replace ((snd I2 + k2 / E * (k1 * (snd M - snd I1) - dist2 I1 M * (snd I2 - snd I1))) * E) with (snd I2 * E + k2 * (k1 * (snd M - snd I1) - dist2 I1 M * (snd I2 - snd I1))) by (field; auto).
    replace ((snd I1 + k1 / E * (k2 * (snd M - snd I2) - dist2 I2 M * (snd I1 - snd I2))) * E) with (snd I1 * E + k1 * (k2 * (snd M - snd I2) - dist2 I2 M * (snd I1 - snd I2))) by (field; auto).
    unfold E. rewrite K. unfold dist2, sdot, vsub. cbn [fst snd]. ring.
Qed.

Lemma orthogonal_commute c1 c2 M N1 N2 Q1 Q2 : circ_orthogonal (cO c1) (cr c1) (cO c2) (cr c2) ->
  invert (inversion_on_circle c1) (Pt M) = Pt N1 -> invert (inversion_on_circle c2) (Pt N1) = Pt Q1 ->
  invert (inversion_on_circle c2) (Pt M) = Pt N2 -> invert (inversion_on_circle c1) (Pt N2) = Pt Q2 -> Q1 = Q2.
Proof.
  intros O E1 E2 F1 F2. apply invert_Pt in E1. apply invert_Pt in F1. destruct E1 as (_ & A1 & ->), F1 as (_ & B1 & ->). apply invert_Pt in E2. apply invert_Pt in F2. destruct E2 as (_ & A2 & ->), F2 as (_ & B2 & ->).
  cbn [inversion_on_circle ipole ipower] in *. apply commute_pts; [exact O|rewrite dist2_0; auto ..].
Qed.

(** ** The image of a line *)

Lemma invert_line_centre iota l c H Z : invert_line iota l = Ok (Some (GC c)) -> on_line (lA l) (lB l) H -> orthogonal (vsub H (ipole iota)) (vsub (lB l) (lA l)) -> invert iota (Pt H) = Pt Z ->
  cO c = at_line (ipole iota) Z (1 / 2) /\ cr c = dist (ipole iota) Z / 2.
Proof.
  intros E HL HO HZ. destruct (invert_line_spec iota l c E) as (Hk & Hr & HI & H1 & HA). destruct (invert_line_GC iota l c E) as (_ & _ & NAB & _). apply invert_Pt in HZ. destruct HZ as (_ & NH & ->).
  set (I := ipole iota) in *. set (k := ipower iota) in *. set (O := cO c) in *. set (A := lA l) in *. set (B := lB l) in *.
  assert (H1' := H1). rewrite on_circle_sq in H1' by lra.
  assert (HIO : I <> O). { intros F. rewrite F, (proj2 (dist2_0 O O) eq_refl) in H1'. nra. }
  assert (T : forall P, on_line A B P -> sdot (vsub P I) (vsub O I) = k / 2).
  { intros P HP. assert (NP : P <> I) by (intros ->; contradiction). apply (HA P NP) in HP. rewrite on_circle_sq in HP by lra. rewrite <- H1' in HP. rewrite (inv_circle_through I k O (inv_pt I k P)) in HP; auto; [|apply inv_pt_neq; auto]. rewrite inv_pt_invol in HP by auto. exact HP. }
  assert (LA : on_line A B A) by (exists 0; unfold at_line; destruct A, B; unpt; f_equal; ring). assert (LB : on_line A B B) by (exists 1; unfold at_line; destruct A, B; unpt; f_equal; ring).
  pose proof (T A LA) as TA. pose proof (T B LB) as TB. pose proof (T H HL) as TH. assert (D : dist2 I H <> 0) by (rewrite dist2_0; auto).
  assert (X : scross (vsub O I) (vsub H I) = 0).
  { set (o := vsub O I) in *. set (h := vsub H I) in *. assert (Po : sdot (vsub B A) o = 0) by (revert TA TB; unfold sdot, vsub; cbn [fst snd]; lra). unfold orthogonal in HO. fold h in HO.
    assert (ND : vsub B A <> (0, 0)). { intros F. apply NAB. revert F. destruct A, B; unpt. intros F. injection F as F1 F2. f_equal; lra. }
    revert Po HO ND. destruct (vsub B A) as [d1 d2], o as [o1 o2], h as [h1 h2]. unfold sdot, scross. cbn [fst snd]. intros Po HO' ND.
    assert (N2 : d1 * d1 + d2 * d2 <> 0). { intros F. apply ND. assert (d1 = 0) by nra. assert (d2 = 0) by nra. subst. reflexivity. }
    apply Rmult_eq_reg_r with (d1 * d1 + d2 * d2); auto. rewrite Rmult_0_l. replace ((o1 * h2 - o2 * h1) * (d1 * d1 + d2 * d2)) with ((d1 * o1 + d2 * o2) * (d1 * h2 - d2 * h1) + (d1 * o2 - d2 * o1) * - (h1 * d1 + h2 * d2)) by ring. rewrite Po, HO'. ring. }
  assert (EO : O = at_line I (inv_pt I k H) (1 / 2)).
  { unfold inv_pt, at_line. revert TH X D. unfold dist2. destruct O as [o1 o2], I as [i1 i2], H as [h1 h2]. unfold sdot, scross, vadd, vscal, vsub. cbn [fst snd]. set (x := h1 - i1). set (y := h2 - i2). intros TH X D.
    assert (K : k = 2 * (x * (o1 - i1) + y * (o2 - i2))) by lra. rewrite K. f_equal; apply Rmult_eq_reg_r with (x * x + y * y); auto.
    - transitivity (i1 * (x * x + y * y) + (x * (o1 - i1) + y * (o2 - i2)) * x); [|field; auto]. assert (X' : (o1 - i1) * y = (o2 - i2) * x) by lra. replace ((x * (o1 - i1) + y * (o2 - i2)) * x) with (x * x * (o1 - i1) + y * ((o2 - i2) * x)) by ring. rewrite <- X'. ring.
    - transitivity (i2 * (x * x + y * y) + (x * (o1 - i1) + y * (o2 - i2)) * y); [|field; auto]. assert (X' : (o1 - i1) * y = (o2 - i2) * x) by lra. replace ((x * (o1 - i1) + y * (o2 - i2)) * y) with (x * ((o1 - i1) * y) + y * y * (o2 - i2)) by ring. rewrite X'. ring. }
  split; [exact EO|]. unfold on_circle in H1. rewrite <- H1. pose proof (dist_nonneg O I). pose proof (dist_nonneg I (inv_pt I k H)). apply Rsqr_inj; [lra|lra|]. unfold Rsqr.
  replace (dist I (inv_pt I k H) / 2 * (dist I (inv_pt I k H) / 2)) with (dist I (inv_pt I k H) * dist I (inv_pt I k H) / 4) by field. rewrite !dist_sq, EO. set (Z := inv_pt I k H). destruct I, Z. unfold dist2, sdot, at_line, vadd, vscal, vsub. cbn [fst snd]. field.
Qed.

(** ** Examples *)
From Verif Require Import PInversionEx PMobiusEx.

Lemma ex_C121 : let c0 := mkCircle (0, 0) 4 in let c := mkCircle (5, 0) 3 in let c2 := mkCircle (1, 0) 3 in
  invert (inversion_on_circle c0) (Pt (2, 0)) = Pt (8, 0) /\ invert (inversion_on_circle c0) (Pt (0, 1)) = Pt (0, 16) /\
  invert_circle (inversion_on_circle c0) c = Ok (GC c) /\ circ_orthogonal (cO c0) (cr c0) (cO c) (cr c) /\ on_circle (cO c) (cr c) (2, 0) /\
  invert_circle (inversion_on_circle c0) c2 = Ok (GC (mkCircle (-2, 0) 6)) /\ (cr c - cr c2) ^ 2 <= dist2 (cO c) (cO c2) <= (cr c + cr c2) ^ 2 /\
  invert (inversion_on_circle c) (Pt (0, 0)) = Pt (16 / 5, 0) /\ cross_ratio (0, 0) (1, 0) (2, 0) (5, 0) = Ok (-5 / 3, 0).
Proof.
  intros c0 c c2. unfold c0, c, c2, inversion_on_circle. cbn [cO cr].
  split; [apply ex_invert; cbn [ipole ipower]; [evalclose|unfold inv_pt; unspec; f_equal; field]|]. split; [apply ex_invert; cbn [ipole ipower]; [evalclose|unfold inv_pt; unspec; f_equal; field]|].
  split; [assert (P : pow_circle (5, 0) 3 (0, 0) = 16) by (unfold pow_circle; unspec; ring); apply circle_ex; try lra; cbn [cO cr]; rewrite ?P; [rewrite Rabs_right by lra; unfold sepsilon_; lra|unpt; f_equal; field|rewrite Rabs_right by lra; field]|].
  split; [unfold circ_orthogonal; unspec; ring|]. split; [apply on_circle_sq; [lra|unspec; ring]|].
  split; [assert (P : pow_circle (1, 0) 3 (0, 0) = -8) by (unfold pow_circle; unspec; ring); apply circle_ex; try lra; cbn [cO cr]; rewrite ?P; [rewrite Rabs_left by lra; unfold sepsilon_; lra|unpt; f_equal; field|rewrite Rabs_left by lra; field]|].
  split; [unspec; lra|]. split; [apply ex_invert; cbn [ipole ipower]; [evalclose|unfold inv_pt; unspec; f_equal; field]|apply ex_cross].
Qed.
