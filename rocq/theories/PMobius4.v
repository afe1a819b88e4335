(** * Möbius transformations: images of circles and lines *)

From Coq Require Import Reals Lra Lia Psatz List Bool ZArith.
From Verif Require Import Base BaseLemmas Spec SpecLemmas SpecMobius SpecTriangle ModelInternal ModelLine ModelCircle ModelTriangle ModelInversion ModelMobius
  PLine PCircle PInvBase PTriangle PTriangle2 PInversion PMobius PMobius2 PMobius3.
Import ListNotations.
Local Open Scope R_scope.

Lemma mod2_Cmod2 z : mod2_ z = Cmod2 z.
Proof. reflexivity. Qed.

Lemma dist2_Cmod2 O z : dist2 O z = Cmod2 (z - O)%C.
Proof. unfold Cmod2. destruct O, z. unC. unspec. ring. Qed.

Lemma Cmod2_RtoC x : Cmod2 (RtoC x) = x * x.
Proof. unfold Cmod2. unC. ring. Qed.

Lemma transform_fin M z w : mdet M <> C0 ->
  (transform M (Pt z) = Ok (Pt w) <-> (mc M * z + md M)%C <> C0 /\ w = ((ma M * z + mb M) / (mc M * z + md M))%C).
Proof.
  intros HD. rewrite transform_Ok by auto. unfold mob_image; cbn [hom fst snd]. split.
  - intros (k & Hk & E1 & E2). assert (Ek : (mc M * z + md M)%C = k) by (transitivity (k * C1)%C; [rewrite <- E2; cring|cring]).
    rewrite Ek. split; [auto|]. transitivity (k * w / k)%C; [cfield; auto|rewrite <- E1; cfield; auto].
  - intros (Hk & ->). exists (mc M * z + md M)%C. split; [auto|]. split; [|cring]. cfield; auto.
Qed.

Lemma transform_pole M z : mdet M <> C0 -> (transform M (Pt z) = Ok Inf <-> (mc M * z + md M)%C = C0).
Proof.
  intros HD. rewrite transform_Ok by auto. unfold mob_image; cbn [hom fst snd]. split.
  - intros (k & Hk & E1 & E2). transitivity (k * C0)%C; [rewrite <- E2; cring|cring].
  - intros E. exists (ma M * z + mb M)%C. split; [|split; [cring|]].
    + intros K. apply HD. unfold mdet. destruct (C_eq_dec (ma M) C0) as [Za|Za].
      * rewrite Za in *. assert (mb M = C0) by (rewrite <- K; cring). rewrite H. cring.
      * apply (Cmul_cancel (ma M)); auto. transitivity (ma M * (ma M * (mc M * z + md M)) - ma M * mc M * (ma M * z + mb M))%C; [cring|]. rewrite E, K. cring.
    + transitivity (mc M * z + md M)%C; [cring|]. rewrite E. cring.
Qed.

Lemma transform_inf M w : mdet M <> C0 -> (transform M Inf = Ok (Pt w) <-> mc M <> C0 /\ w = (ma M / mc M)%C).
Proof.
  intros HD. rewrite transform_Ok by auto. unfold mob_image; cbn [hom fst snd]. split.
  - intros (k & Hk & E1 & E2). assert (Ek : mc M = k) by (transitivity (k * C1)%C; [rewrite <- E2; cring|cring]).
    rewrite Ek. split; [auto|]. transitivity (k * w / k)%C; [cfield; auto|rewrite <- E1; cfield; auto].
  - intros (Hk & ->). exists (mc M)%C. split; [auto|]. split; [|cring]. cfield; auto.
Qed.

Lemma transform_inf_inf M : mdet M <> C0 -> (transform M Inf = Ok Inf <-> mc M = C0).
Proof.
  intros HD. rewrite transform_Ok by auto. unfold mob_image; cbn [hom fst snd]. split.
  - intros (k & Hk & E1 & E2). transitivity (k * C0)%C; [rewrite <- E2; cring|cring].
  - intros E. exists (ma M). rewrite E. split; [|split; cring]. intros K. apply HD. unfold mdet. rewrite E, K. cring.
Qed.

(** ** Image of a circle *)

Section ImageCircle.
  Variables (M : mobius) (z0 : C) (r : R).
  Hypothesis HD : mdet M <> C0.
  Hypothesis Hr : 0 < r.
  Let be := (md M + mc M * z0)%C.
  Let NN := Cmod2 be - r * r * Cmod2 (mc M).
  Hypothesis HN : NN <> 0.
  Definition img_centre : C := (((ma M * z0 + mb M) * Cconj be - RtoC (r * r) * ma M * Cconj (mc M)) / RtoC NN)%C.
  Definition img_radius : R := r * sqrt (Cmod2 (mdet M)) / Rabs NN.

  Lemma img_diff z w : transform M (Pt z) = Ok (Pt w) ->
    (w - img_centre)%C = (mdet M * (RtoC (r * r) * Cconj (mc M) + (z - z0) * Cconj be) / (RtoC NN * (mc M * z + md M)))%C.
  Proof.
    intros E. apply transform_fin in E; auto. destruct E as (Hk & ->). unfold img_centre.
    assert (HN' : RtoC NN <> C0) by (apply RtoC_neq; auto).
    assert (EN : RtoC NN = (be * Cconj be - RtoC (r * r) * (mc M * Cconj (mc M)))%C).
    { rewrite !Cmul_conj. unfold NN. unC. f_equal; ring. }
    transitivity ((((ma M * z + mb M) * RtoC NN - (mc M * z + md M) * ((ma M * z0 + mb M) * Cconj be - RtoC (r * r) * ma M * Cconj (mc M)))) / (RtoC NN * (mc M * z + md M)))%C.
    { cfield. auto. }
    f_equal. rewrite EN. unfold be at 1. unfold mdet. generalize (Cconj be) (Cconj (mc M)). intros x y. cring.
  Qed.

  Lemma img_dist2 z w : transform M (Pt z) = Ok (Pt w) ->
    dist2 img_centre w - img_radius * img_radius = Cmod2 (mdet M) / (NN * Cmod2 (mc M * z + md M)%C) * (dist2 z0 z - r * r).
  Proof.
    intros E. assert (Hk : (mc M * z + md M)%C <> C0) by (apply transform_fin in E; tauto).
    rewrite !dist2_Cmod2. rewrite (img_diff z w E).
    assert (HN' : RtoC NN <> C0) by (apply RtoC_neq; auto).
    rewrite Cmod2_div by (apply Cmul_neq0; auto). rewrite !Cmod2_mul, Cmod2_RtoC.
    unfold img_radius. pose proof (Cmod2_pos _ Hk) as P1. pose proof (Cmod2_nonneg (mdet M)) as P2.
    assert (ER : r * sqrt (Cmod2 (mdet M)) / Rabs NN * (r * sqrt (Cmod2 (mdet M)) / Rabs NN) = r * r * Cmod2 (mdet M) / (NN * NN)).
    { replace (NN * NN) with (Rabs NN * Rabs NN) by (rewrite <- Rabs_mult; apply Rabs_right; nra).
      rewrite <- (sqrt_sqrt (Cmod2 (mdet M))) at 3 by auto. field. apply Rabs_no_R0; auto. }
    rewrite ER.
    assert (EQ : Cmod2 (RtoC (r * r) * Cconj (mc M) + (z - z0) * Cconj be)%C = r * r * Cmod2 (mc M * z + md M)%C + NN * (Cmod2 (z - z0)%C - r * r)).
    { replace (mc M * z + md M)%C with (be + mc M * (z - z0))%C by (unfold be; cring). unfold NN.
      generalize be (z - z0)%C (mc M). intros [b1 b2] [h1 h2] [c1 c2]. unfold Cmod2. unC. ring. }
    rewrite EQ. field. split; lra.
  Qed.

  Lemma img_radius_pos : 0 < img_radius.
  Proof.
    unfold img_radius, Rdiv. apply Rmult_lt_0_compat; [apply Rmult_lt_0_compat; auto|].
    - apply sqrt_lt_R0. apply Cmod2_pos; auto.
    - apply Rinv_0_lt_compat. apply Rabs_pos_lt; auto.
  Qed.

  Lemma img_on z w : transform M (Pt z) = Ok (Pt w) -> (on_circle z0 r z <-> on_circle img_centre img_radius w).
  Proof.
    intros E. pose proof img_radius_pos as P. rewrite !on_circle_sq by lra. pose proof (img_dist2 z w E) as K.
    assert (Hk : (mc M * z + md M)%C <> C0) by (apply transform_fin in E; tauto).
    assert (F : Cmod2 (mdet M) / (NN * Cmod2 (mc M * z + md M)%C) <> 0).
    { pose proof (Cmod2_pos _ Hk). pose proof (Cmod2_pos _ HD). unfold Rdiv. apply Rmult_integral_contrapositive_currified; [lra|].
      apply Rinv_neq_0_compat. apply Rmult_integral_contrapositive_currified; auto; lra. }
    split; intros L.
    - rewrite L in K. replace (r * r - r * r) with 0 in K by ring. lra.
    - assert (Z : Cmod2 (mdet M) / (NN * Cmod2 (mc M * z + md M)%C) * (dist2 z0 z - r * r) = 0) by lra.
      apply Rmult_integral in Z. destruct Z; [contradiction|lra].
  Qed.

  Lemma img_inf w : transform M Inf = Ok (Pt w) -> ~ on_circle img_centre img_radius w.
  Proof.
    intros E. apply transform_inf in E; auto. destruct E as (Hc & ->). pose proof img_radius_pos as P. rewrite on_circle_sq by lra.
    rewrite dist2_Cmod2.
    assert (HN' : RtoC NN <> C0) by (apply RtoC_neq; auto).
    assert (EN : RtoC NN = (be * Cconj be - RtoC (r * r) * (mc M * Cconj (mc M)))%C).
    { rewrite !Cmul_conj. unfold NN. unC. f_equal; ring. }
    assert (ED : (ma M / mc M - img_centre)%C = (mdet M * Cconj be / (RtoC NN * mc M))%C).
    { unfold img_centre. transitivity ((ma M * RtoC NN - mc M * ((ma M * z0 + mb M) * Cconj be - RtoC (r * r) * ma M * Cconj (mc M))) / (RtoC NN * mc M))%C; [cfield; auto|].
      f_equal. rewrite EN. unfold be at 1. unfold mdet. generalize (Cconj be) (Cconj (mc M)). intros x y. cring. }
    rewrite ED. rewrite Cmod2_div by (apply Cmul_neq0; auto). rewrite !Cmod2_mul, Cmod2_RtoC, Cmod2_conj.
    unfold img_radius. pose proof (Cmod2_pos _ Hc) as P1. pose proof (Cmod2_pos _ HD) as P2.
    assert (ER : r * sqrt (Cmod2 (mdet M)) / Rabs NN * (r * sqrt (Cmod2 (mdet M)) / Rabs NN) = r * r * Cmod2 (mdet M) / (NN * NN)).
    { replace (NN * NN) with (Rabs NN * Rabs NN) by (rewrite <- Rabs_mult; apply Rabs_right; nra).
      rewrite <- (sqrt_sqrt (Cmod2 (mdet M))) at 3 by lra. field. apply Rabs_no_R0; auto. }
    rewrite ER. intros K. apply HN. unfold NN.
    assert (Z : Cmod2 be = r * r * Cmod2 (mc M)).
    { apply (Rmult_eq_reg_l (Cmod2 (mdet M) / (NN * NN * Cmod2 (mc M)))).
      - transitivity (Cmod2 (mdet M) * Cmod2 be / (NN * NN * Cmod2 (mc M))); [field; split; [lra|auto]|]. rewrite K. field. split; [lra|auto].
      - unfold Rdiv. apply Rmult_integral_contrapositive_currified; [lra|]. apply Rinv_neq_0_compat. apply Rmult_integral_contrapositive_currified; [nra|lra]. }
    lra.
  Qed.
End ImageCircle.

Lemma transform_circle_far fuel M c : mdet M <> C0 -> 0 < cr c ->
  Cmod2 (md M + mc M * cO c)%C <> cr c * cr c * Cmod2 (mc M) ->
  transform_circle fuel M c = Some (Ok (GC (mkCircle (img_centre M (cO c) (cr c)) (img_radius M (cO c) (cr c))))).
Proof.
  intros HD Hr HX. destruct c as [z0 r]. cbn [cO cr] in *.
  set (NN := Cmod2 (md M + mc M * z0)%C - r * r * Cmod2 (mc M)). assert (HN : NN <> 0) by (unfold NN; lra).
  assert (HN' : RtoC NN <> C0) by (apply RtoC_neq; auto).
  set (be := (md M + mc M * z0)%C) in *.
  assert (EN : RtoC NN = (be * Cconj be - RtoC (r * r) * (mc M * Cconj (mc M)))%C).
  { rewrite !Cmul_conj. unfold NN. unC. f_equal; ring. }
  assert (W0 : (if ltb 0 (mod2_ be)
     then transform M (Pt (from_complex_ (if Ceqb (mc M) C0 then z0 else (z0 - RtoC (r * r) / Cconj (md M / mc M + z0))%C)))
     else transform M Inf) = Ok (Pt (img_centre M z0 r))).
  { destruct (ltb 0 (mod2_ be)) eqn:E.
    - apply ltb_true in E. assert (Hbe : be <> C0) by (intros K; rewrite K in E; unfold mod2_, C0 in E; cbn [fst snd] in E; lra).
      assert (Hcb : Cconj be <> C0) by (intros K; apply Cconj_0 in K; auto).
      apply transform_fin; auto. unfold from_complex_, img_centre. fold be. fold NN. destruct (Ceqb (mc M) C0) eqn:Ec.
      + apply Ceqb_true in Ec. assert (Eb : be = md M) by (unfold be; rewrite Ec; cring).
        rewrite Ec. split; [rewrite <- Eb in *; intros K; apply Hbe; rewrite <- K; cring|].
        assert (EN2 : RtoC NN = (be * Cconj be)%C) by (rewrite EN, Ec; cring). rewrite EN2.
        replace (Cconj C0) with C0 by (unC; f_equal; ring). replace (C0 * z0 + md M)%C with be by (rewrite Eb; cring).
        cfield. auto.
      + apply Ceqb_false in Ec. assert (Ecc : Cconj (mc M) <> C0) by (intros K; apply Cconj_0 in K; auto).
        replace (md M / mc M + z0)%C with (be / mc M)%C by (unfold be; cfield; auto).
        replace (Cconj (be / mc M))%C with (Cconj be / Cconj (mc M))%C.
        2:{ apply (Cmul_cancel (Cconj (mc M))); auto. rewrite <- Cconj_mul. replace (mc M * (be / mc M))%C with be by (cfield; auto). cfield; auto. }
        assert (EZ : (mc M * (z0 - RtoC (r * r) / (Cconj be / Cconj (mc M))) + md M)%C = (RtoC NN / Cconj be)%C).
        { rewrite EN. generalize dependent (Cconj be). generalize dependent (Cconj (mc M)). intros x Hx y _ Hy. unfold be. cfield; auto. }
        rewrite EZ. split; [apply Cdiv_neq0; auto|].
        generalize dependent (Cconj be). generalize dependent (Cconj (mc M)). intros x Hx y _ Hy _. cfield; auto.
    - apply ltb_false in E. assert (Hbe : be = C0) by (apply Cmod2_0; rewrite <- mod2_Cmod2; pose proof (Cmod2_nonneg be); rewrite <- mod2_Cmod2 in *; lra).
      assert (Hc : mc M <> C0). { intros K. apply HN. unfold NN. rewrite K, Hbe. unfold Cmod2, C0. cbn [fst snd]. ring. }
      apply transform_inf; auto. split; auto. unfold img_centre. fold be. fold NN.
      assert (Ecc : Cconj (mc M) <> C0) by (intros K; apply Cconj_0 in K; auto).
      assert (EN2 : RtoC NN = (- RtoC (r * r) * (mc M * Cconj (mc M)))%C) by (rewrite EN, Hbe; cring).
      assert (Hrr : RtoC (r * r) <> C0) by (apply RtoC_neq; nra).
      rewrite EN2, Hbe. replace (Cconj C0) with C0 by (unC; f_equal; ring).
      generalize dependent (Cconj (mc M)). intros. cfield. repeat split; auto.
      intros K. apply Hrr. transitivity (- (- RtoC (r * r)))%C; [cring|]. rewrite K. cring. }
  assert (Hon : on_circle z0 r (z0 + RtoC r)%C).
  { apply on_circle_sq; [lra|]. rewrite dist2_Cmod2. replace (z0 + RtoC r - z0)%C with (RtoC r) by cring. apply Cmod2_RtoC. }
  assert (W1 : exists w1, transform M (Pt (from_complex_ (z0 + RtoC r)%C)) = Ok (Pt w1)).
  { unfold from_complex_. destruct (transform_total M (Pt (z0 + RtoC r)%C) HD) as ([w|] & E); [eauto|]. exfalso.
    apply transform_pole in E; auto. apply HX. assert (Eb : be = (- mc M * RtoC r)%C).
    { transitivity ((mc M * (z0 + RtoC r) + md M) - mc M * RtoC r)%C; [unfold be; cring|]. rewrite E. cring. }
    rewrite Eb, Cmod2_mul, Cmod2_opp, Cmod2_RtoC. ring. }
  destruct W1 as [w1 W1].
  unfold transform_circle. cbn [cO cr]. unfold complex_. fold be.
  assert (E1 : eqb (mod2_ be) (r * r * mod2_ (mc M)) = false) by (apply eqb_false; rewrite !mod2_Cmod2; auto).
  rewrite E1. cbn [negb]. f_equal. rewrite W0. cbn [bind]. rewrite W1. cbn [bind].
  pose proof (img_on M z0 r HD Hr HN _ _ W1) as Hw. apply proj1 in Hw. specialize (Hw Hon). pose proof (img_radius_pos M z0 r HD Hr HN) as P.
  assert (Er : cabs (vsub (img_centre M z0 r) w1) = img_radius M z0 r).
  { unfold on_circle, dist in Hw. rewrite <- Hw. unfold cabs, mod2_. f_equal. unspec. ring. }
  rewrite Er. unfold Circle_init. destruct (leb (img_radius M z0 r) 0) eqn:EL; [apply leb_true in EL; lra|]. reflexivity.
Qed.

Lemma pole_on_iff M c : mdet M <> C0 -> 0 < cr c ->
  (Cmod2 (md M + mc M * cO c)%C = cr c * cr c * Cmod2 (mc M) <-> exists p, transform M (Pt p) = Ok Inf /\ on_circle (cO c) (cr c) p).
Proof.
  intros HD Hr. split.
  - intros E. assert (Hc : mc M <> C0).
    { intros K. rewrite K in E. assert (Z : md M = C0). { apply Cmod2_0. replace (md M) with (md M + C0 * cO c)%C by cring. rewrite E. unfold Cmod2, C0. cbn [fst snd]. ring. }
      apply HD. unfold mdet. rewrite Z, K. cring. }
    exists (- md M / mc M)%C. split; [apply transform_pole; auto; cfield; auto|].
    apply on_circle_sq; [lra|]. rewrite dist2_Cmod2. pose proof (Cmod2_pos _ Hc) as P. apply (Rmult_eq_reg_r (Cmod2 (mc M))); [|lra].
    rewrite <- E, <- Cmod2_mul. rewrite <- (Cmod2_opp (md M + _)%C). f_equal. cfield; auto.
  - intros (p & T & H). apply transform_pole in T; auto. apply on_circle_sq in H; [|lra]. rewrite <- H, dist2_Cmod2, <- Cmod2_mul.
    rewrite <- (Cmod2_opp (md M + _)%C). f_equal. transitivity ((mc M * p + md M) - (md M + mc M * cO c))%C; [rewrite T; cring|cring].
Qed.

(** the pole is not on the circle *)
Lemma transform_circle_circle fuel M c : mdet M <> C0 -> 0 < cr c ->
  (forall p, transform M (Pt p) = Ok Inf -> ~ on_circle (cO c) (cr c) p) ->
  exists c', transform_circle fuel M c = Some (Ok (GC c')) /\ 0 < cr c' /\
  forall e f, transform M e = Ok f ->
    ((exists z, e = Pt z /\ on_circle (cO c) (cr c) z) <-> (exists w, f = Pt w /\ on_circle (cO c') (cr c') w)).
Proof.
  intros HD Hr Hp.
  assert (HX : Cmod2 (md M + mc M * cO c)%C <> cr c * cr c * Cmod2 (mc M)).
  { intros K. apply pole_on_iff in K; auto. destruct K as (p & T & K). apply (Hp p); auto. }
  rewrite (transform_circle_far fuel M c HD Hr HX). eexists. split; [reflexivity|]. cbn [cO cr].
  assert (HN : Cmod2 (md M + mc M * cO c)%C - cr c * cr c * Cmod2 (mc M) <> 0) by lra.
  split; [apply img_radius_pos; auto|]. intros e f T. destruct e as [z|], f as [w|].
  - pose proof (img_on M (cO c) (cr c) HD Hr HN z w T) as K. split; intros (x & Ex & H); apply Pt_inj in Ex; subst x; [exists w|exists z]; split; auto; apply K; auto.
  - split; [|intros (w & Ew & _); discriminate]. intros (x & Ex & H). apply Pt_inj in Ex. subst x. exfalso. apply (Hp z); auto.
  - split; [intros (z & Ez & _); discriminate|]. intros (x & Ex & H). apply Pt_inj in Ex. subst x. exfalso. apply (img_inf M (cO c) (cr c) HD Hr HN w); auto.
  - split; intros (x & Ex & _); discriminate.
Qed.

(** ** The pole is on the circle *)

Definition ln_u M (z0 : C) : pt := Cconj ((md M + mc M * z0) * mc M / mdet M)%C.
Definition ln_k M (z0 : C) : R := fst ((md M + mc M * z0) * ma M / mdet M)%C - / 2.

Lemma sdot_conj w u : sdot w (Cconj u) = fst (w * u)%C.
Proof. destruct w, u. unspec. unC. ring. Qed.

Lemma circle_line_eq M z0 r z w : mdet M <> C0 -> mc M <> C0 -> 0 < r -> Cmod2 (md M + mc M * z0)%C = r * r * Cmod2 (mc M) ->
  transform M (Pt z) = Ok (Pt w) -> (on_circle z0 r z <-> sdot w (ln_u M z0) = ln_k M z0).
Proof.
  intros HD Hc Hr E T. apply transform_fin in T; auto. destruct T as (Hk & ->). rewrite on_circle_sq by lra.
  unfold ln_u, ln_k. rewrite sdot_conj. set (be := (md M + mc M * z0)%C) in *. set (k := (mc M * z + md M)%C) in *.
  assert (E1 : ((ma M * z + mb M) / k * (be * mc M / mdet M))%C = (be * ma M / mdet M - be / k)%C).
  { transitivity ((be * (ma M * k - mdet M)) / (k * mdet M))%C; [|cfield; auto]. replace (ma M * k - mdet M)%C with ((ma M * z + mb M) * mc M)%C by (unfold k, mdet; cring). cfield; auto. }
  rewrite E1. pose proof (Cmod2_pos _ Hk) as Pk. pose proof (Cmod2_pos _ Hc) as Pc.
  assert (E2 : fst (be / k)%C = fst (be * Cconj k)%C / Cmod2 k).
  { unfold Cmod2. destruct be, k. unfold Cmod2 in Pk. unC. field. lra. }
  assert (E3 : Cmod2 (mc M) * dist2 z0 z = Cmod2 k - 2 * fst (be * Cconj k)%C + r * r * Cmod2 (mc M)).
  { rewrite dist2_Cmod2, <- Cmod2_mul, <- E. replace (mc M * (z - z0))%C with (k - be)%C by (unfold k, be; cring).
    destruct k, be. unfold Cmod2. unC. ring. }
  assert (E4 : fst (be * ma M / mdet M - be / k)%C = fst (be * ma M / mdet M)%C - fst (be / k)%C) by (unfold Csub, Cadd, Copp; cbn [fst]; ring).
  rewrite E4, E2. split; intros K.
  - rewrite K in E3. assert (F : fst (be * Cconj k)%C = Cmod2 k / 2) by lra. rewrite F. field. lra.
  - assert (F : fst (be * Cconj k)%C = Cmod2 k / 2).
    { assert (G : fst (be * Cconj k)%C / Cmod2 k = / 2) by lra. transitivity (fst (be * Cconj k)%C / Cmod2 k * Cmod2 k); [field; lra|]. rewrite G. field. }
    apply (Rmult_eq_reg_l (Cmod2 (mc M))); lra.
Qed.

Lemma ln_u_neq M z0 r : mdet M <> C0 -> mc M <> C0 -> 0 < r -> Cmod2 (md M + mc M * z0)%C = r * r * Cmod2 (mc M) -> ln_u M z0 <> (0, 0).
Proof.
  intros HD Hc Hr E K. unfold ln_u in K. apply Cconj_0 in K. revert K. apply Cdiv_neq0; auto. apply Cmul_neq0; auto.
  intros K. rewrite K in E. assert (Z : Cmod2 C0 = 0) by (apply Cmod2_0; auto). rewrite Z in E. pose proof (Cmod2_pos _ Hc).
  assert (0 < r * r * Cmod2 (mc M)) by (apply Rmult_lt_0_compat; auto; apply Rmult_lt_0_compat; auto). lra.
Qed.

Lemma ln_inf M z0 w : mdet M <> C0 -> transform M Inf = Ok (Pt w) -> sdot w (ln_u M z0) <> ln_k M z0.
Proof.
  intros HD T. apply transform_inf in T; auto. destruct T as (Hc & ->). unfold ln_u, ln_k. rewrite sdot_conj.
  replace (ma M / mc M * ((md M + mc M * z0) * mc M / mdet M))%C with ((md M + mc M * z0) * ma M / mdet M)%C by (cfield; auto). lra.
Qed.

Lemma search_Some fuel c p shift alpha a : search fuel c p shift alpha = Some a ->
  exists n, (n < fuel)%nat /\ a = alpha + INR n / 10 /\ allclose (circle_point_from_angle c (a + shift) false) p = false.
Proof.
  revert alpha. induction fuel as [|fuel IH]; intros alpha; cbn [search]; [discriminate|].
  destruct (allclose (circle_point_from_angle c (alpha + shift) false) p) eqn:E.
  - intros H. apply IH in H. destruct H as (n & Hn & Ea & H). exists (S n). rewrite S_INR. split; [lia|]. split; [rewrite Ea; field|]. auto.
  - intros H. injection H as <-. exists 0%nat. cbn [INR]. split; [lia|]. split; [field|]. replace (alpha + 0 / 10 + shift) with (alpha + shift) by field. auto.
Qed.

(** if one of the first [n + 1] points is not close, the search ends *)
Lemma search_ends fuel c p shift alpha n : (n < fuel)%nat ->
  allclose (circle_point_from_angle c (alpha + INR n / 10 + shift) false) p = false ->
  exists m, (m <= n)%nat /\ search fuel c p shift alpha = Some (alpha + INR m / 10).
Proof.
  revert alpha n. induction fuel as [|fuel IH]; intros alpha n Hn H; [lia|]. cbn [search].
  destruct (allclose (circle_point_from_angle c (alpha + shift) false) p) eqn:E.
  - destruct n as [|n].
    + cbn [INR] in H. replace (alpha + 0 / 10 + shift) with (alpha + shift) in H by field. congruence.
    + destruct (IH (alpha + / 10) n) as (m & Hm & Es); [lia|rewrite S_INR in H; replace (alpha + / 10 + INR n / 10 + shift) with (alpha + (INR n + 1) / 10 + shift) by field; auto|].
      exists (S m). split; [lia|]. rewrite Es, S_INR. f_equal. field.
  - exists 0%nat. split; [lia|]. cbn [INR]. f_equal. field.
Qed.

Lemma search_loops fuel c p shift alpha : (forall t, allclose (circle_point_from_angle c t false) p = true) -> search fuel c p shift alpha = None.
Proof.
  intros H. revert alpha. induction fuel as [|fuel IH]; intros alpha; cbn [search]; auto. rewrite H. auto.
Qed.

Lemma transform_circle_near M c fuel : mdet M <> C0 -> 0 < cr c -> Cmod2 (md M + mc M * cO c)%C = cr c * cr c * Cmod2 (mc M) ->
  mc M <> C0 /\
  transform_circle fuel M c =
    match search fuel c (- md M / mc M)%C 0 0 with
    | None => None
    | Some alpha1 => match search fuel c (- md M / mc M)%C 3 alpha1 with
      | None => None
      | Some alpha2 => Some (
                let! A := transform M (Pt (circle_point_from_angle c alpha1 false)) in
                let! B := transform M (Pt (circle_point_from_angle c (alpha2 + 3) false)) in
                let! l := Line_init_ext A B in
                Ok (GL l))
      end
    end.
Proof.
  intros HD Hr E. assert (Hc : mc M <> C0).
  { intros K. rewrite K in E. assert (Z : md M = C0). { apply Cmod2_0. replace (md M) with (md M + C0 * cO c)%C by cring. rewrite E. unfold Cmod2, C0. cbn [fst snd]. ring. }
    apply HD. unfold mdet. rewrite Z, K. cring. }
  split; auto. unfold transform_circle, complex_, from_complex_.
  assert (E1 : eqb (mod2_ (md M + mc M * cO c)%C) (cr c * cr c * mod2_ (mc M)) = true) by (apply eqb_true; auto).
  rewrite E1. cbn [negb]. assert (E2 : Ceqb (mc M) C0 = false) by (apply Ceqb_false; auto). rewrite E2. cbn [negb andb].
  rewrite includes_on_circle; [reflexivity|lra|].
  assert (X : exists p, transform M (Pt p) = Ok Inf /\ on_circle (cO c) (cr c) p) by (apply pole_on_iff; auto).
  destruct X as (p & T & X). apply transform_pole in T; auto. replace (- md M / mc M)%C with p; auto.
  apply (Cmul_cancel (mc M)); auto. transitivity ((mc M * p + md M) - md M)%C; [cring|]. rewrite T. cfield; auto.
Qed.

Lemma pole_eq M p : mdet M <> C0 -> mc M <> C0 -> transform M (Pt p) = Ok Inf -> p = (- md M / mc M)%C.
Proof.
  intros HD Hc T. apply transform_pole in T; auto. apply (Cmul_cancel (mc M)); auto. transitivity ((mc M * p + md M) - md M)%C; [cring|]. rewrite T. cfield; auto.
Qed.

Lemma transform_circle_GL fuel M c l : mdet M <> C0 -> 0 < cr c -> transform_circle fuel M c = Some (Ok (GL l)) ->
  (exists p, transform M (Pt p) = Ok Inf /\ on_circle (cO c) (cr c) p) /\
  lA l <> lB l /\ lextA l = true /\ lextB l = true /\
  forall e f, transform M e = Ok f ->
    ((exists z, e = Pt z /\ on_circle (cO c) (cr c) z) <-> match f with Inf => True | Pt w => on_line (lA l) (lB l) w end).
Proof.
  intros HD Hr H.
  assert (E : Cmod2 (md M + mc M * cO c)%C = cr c * cr c * Cmod2 (mc M)).
  { destruct (Req_dec (Cmod2 (md M + mc M * cO c)%C) (cr c * cr c * Cmod2 (mc M))) as [E|E]; auto.
    rewrite transform_circle_far in H by auto. discriminate. }
  assert (X := proj1 (pole_on_iff M c HD Hr) E).
  split; auto. destruct (transform_circle_near M c fuel HD Hr E) as (Hc & Eq). rewrite Eq in H. clear Eq.
  destruct (search fuel c _ 0 0) as [a1|] eqn:S1; [|discriminate]. destruct (search fuel c _ 3 a1) as [a2|] eqn:S2; [|discriminate].
  injection H as H. apply bind_Ok in H. destruct H as (A & TA & H). apply bind_Ok in H. destruct H as (B & TB & H). apply bind_Ok in H. destruct H as (l' & TL & H).
  apply Ok_inj in H. injection H as ->. apply Line_init_ext_Ok in TL. destruct TL as (P & Q & -> & -> & NC & ->). cbn [lA lB lextA lextB].
  assert (HPQ : P <> Q) by (apply allclose_false_neq; auto).
  split; [auto|]. split; [auto|]. split; [auto|].
  destruct (point_from_angle_spec c Hr) as [Hpt _].
  assert (LP : sdot P (ln_u M (cO c)) = ln_k M (cO c)) by (apply (circle_line_eq M (cO c) (cr c) _ P HD Hc Hr E TA); apply Hpt).
  assert (LQ : sdot Q (ln_u M (cO c)) = ln_k M (cO c)) by (apply (circle_line_eq M (cO c) (cr c) _ Q HD Hc Hr E TB); apply Hpt).
  pose proof (ln_u_neq M (cO c) (cr c) HD Hc Hr E) as Hu.
  intros e f T. destruct f as [w|].
  - rewrite (on_line_of_dot P Q _ _ w HPQ Hu LP LQ). destruct e as [z|].
    + rewrite <- (circle_line_eq M (cO c) (cr c) z w HD Hc Hr E T). split; [intros (x & Ex & K); apply Pt_inj in Ex; subst; auto|]. intros K. exists z. auto.
    + split; [intros (x & Ex & K); discriminate|]. intros K. exfalso. apply (ln_inf M (cO c) w); auto.
  - split; auto. intros _. destruct e as [z|].
    + exists z. split; auto. destruct X as (p & Tp & K). rewrite (pole_eq M z), <- (pole_eq M p); auto.
    + exfalso. apply transform_inf_inf in T; auto.
Qed.

Lemma transform_circle_GC fuel M c c' : mdet M <> C0 -> 0 < cr c -> transform_circle fuel M c = Some (Ok (GC c')) ->
  0 < cr c' /\ (forall p, transform M (Pt p) = Ok Inf -> ~ on_circle (cO c) (cr c) p) /\
  forall e f, transform M e = Ok f ->
    ((exists z, e = Pt z /\ on_circle (cO c) (cr c) z) <-> (exists w, f = Pt w /\ on_circle (cO c') (cr c') w)).
Proof.
  intros HD Hr H.
  destruct (Req_dec (Cmod2 (md M + mc M * cO c)%C) (cr c * cr c * Cmod2 (mc M))) as [E|E].
  - destruct (transform_circle_near M c fuel HD Hr E) as (Hc & Eq). rewrite Eq in H. exfalso.
    destruct (search fuel c _ 0 0) as [a1|] eqn:S1; [|discriminate]. destruct (search fuel c _ 3 a1) as [a2|] eqn:S2; [|discriminate].
    injection H as H. apply bind_Ok in H. destruct H as (A & TA & H). apply bind_Ok in H. destruct H as (B & TB & H). apply bind_Ok in H. destruct H as (l' & TL & H).
    discriminate.
  - assert (Hp : forall p, transform M (Pt p) = Ok Inf -> ~ on_circle (cO c) (cr c) p).
    { intros p T K. apply E. apply pole_on_iff; eauto. }
    destruct (transform_circle_circle fuel M c HD Hr Hp) as (c2 & E2 & R2 & I2). rewrite E2 in H. injection H as ->. auto.
Qed.

(** ** The search *)

Lemma transform_circle_loops M c p : mdet M <> C0 -> 0 < cr c <= 5 / 1000000000 -> transform M (Pt p) = Ok Inf -> on_circle (cO c) (cr c) p ->
  forall fuel, transform_circle fuel M c = None.
Proof.
  intros HD Hr T H fuel. assert (E := proj2 (pole_on_iff M c HD (proj1 Hr)) (ex_intro _ p (conj T H))).
  destruct (transform_circle_near M c fuel HD (proj1 Hr) E) as (Hc & ->). rewrite search_loops; auto.
  intros t. rewrite <- (pole_eq M p); auto. destruct (point_from_angle_spec c (proj1 Hr)) as [Hpt _]. specialize (Hpt t false).
  set (q := circle_point_from_angle c t false) in *. clearbody q. apply on_circle_sq in H; [|lra]. apply on_circle_sq in Hpt; [|lra].
  unfold allclose, allclose1. destruct c as [[o1 o2] r]. destruct p as [p1 p2], q as [q1 q2]. cbn [cO cr fst snd] in *. unspec.
  assert (B : forall x y, x * x + y * y = r * r -> - r <= x <= r).
  { intros x y Hxy. split; nra. }
  pose proof (B _ _ H) as B1. pose proof (B _ _ Hpt) as B2. rewrite Rplus_comm in H, Hpt. pose proof (B _ _ H) as B3. pose proof (B _ _ Hpt) as B4.
  pose proof (Rabs_pos p1). pose proof (Rabs_pos p2).
  apply andb_true_iff; split; apply leb_true; apply Rabs_le; lra.
Qed.

Lemma chord_cos O r t s : dist2 (vadd O (vscal r (cos t, sin t))) (vadd O (vscal r (cos s, sin s))) = 2 * (r * r) * (1 - cos (t - s)).
Proof.
  destruct O as [o1 o2]. unspec. rewrite cos_minus. pose proof (sin2_cos2 t) as A. pose proof (sin2_cos2 s) as B. unfold Rsqr in *.
  transitivity (r * r * ((sin t * sin t + cos t * cos t) + (sin s * sin s + cos s * cos s) - 2 * (cos t * cos s + sin t * sin s))); [ring|]. rewrite A, B. ring.
Qed.

Lemma cos_2_neg : cos 2 <= 0.
Proof.
  pose proof PI_4. pose proof PI2_3_2 as K. unfold PI2 in K. apply cos_le_0; lra.
Qed.

Lemma large_circle c p t : 0 < cr c -> 2 * ((/ 100000000 + / 100000 * Rabs (fst p)) ^ 2 + (/ 100000000 + / 100000 * Rabs (snd p)) ^ 2) < cr c ^ 2 ->
  allclose (circle_point_from_angle c t false) p = true -> allclose (circle_point_from_angle c (t + 2) false) p = false.
Proof.
  intros Hr HB H. destruct (allclose (circle_point_from_angle c (t + 2) false) p) eqn:E; auto. exfalso.
  set (t1 := / 100000000 + / 100000 * Rabs (fst p)) in *. set (t2 := / 100000000 + / 100000 * Rabs (snd p)) in *.
  unfold allclose, allclose1 in H, E. apply andb_true_iff in H, E. destruct H as [H1 H2], E as [E1 E2]. apply leb_true in H1, H2, E1, E2.
  fold t1 in H1, E1. fold t2 in H2, E2.
  pose proof (chord_cos (cO c) (cr c) (t + 2) t) as K. replace (t + 2 - t) with 2 in K by ring. pose proof cos_2_neg as C2.
  change (vadd (cO c) (vscal (cr c) (cos (t + 2), sin (t + 2)))) with (circle_point_from_angle c (t + 2) false) in K.
  change (vadd (cO c) (vscal (cr c) (cos t, sin t))) with (circle_point_from_angle c t false) in K.
  set (P := circle_point_from_angle c (t + 2) false) in *. set (Q := circle_point_from_angle c t false) in *.
  apply Rabs_le_inv in H1, H2, E1, E2. unfold dist2 in K.
  assert (U1 : (fst P - fst Q) * (fst P - fst Q) <= 4 * t1 ^ 2) by nra.
  assert (U2 : (snd P - snd Q) * (snd P - snd Q) <= 4 * t2 ^ 2) by nra.
  assert (U3 : 2 * (cr c * cr c) <= 2 * (cr c * cr c) * (1 - cos 2)) by nra.
  unspec. nra.
Qed.

Lemma search_ends_large fuel c p shift alpha : (21 <= fuel)%nat -> 0 < cr c ->
  2 * ((/ 100000000 + / 100000 * Rabs (fst p)) ^ 2 + (/ 100000000 + / 100000 * Rabs (snd p)) ^ 2) < cr c ^ 2 ->
  exists m, (m <= 20)%nat /\ search fuel c p shift alpha = Some (alpha + INR m / 10).
Proof.
  intros Hf Hr HB. destruct (allclose (circle_point_from_angle c (alpha + shift) false) p) eqn:E.
  - apply search_ends; [lia|]. replace (alpha + INR 20 / 10 + shift) with (alpha + shift + 2) by (simpl INR; field). apply large_circle; auto.
  - destruct (search_ends fuel c p shift alpha 0) as (m & Hm & Es); [lia| |exists m; split; [lia|auto]].
    cbn [INR]. replace (alpha + 0 / 10 + shift) with (alpha + shift) by field. auto.
Qed.

(** the search ends if the radius is large compared to the tolerance at the pole *)
Lemma transform_circle_ends fuel M c p : (21 <= fuel)%nat -> mdet M <> C0 -> 0 < cr c -> transform M (Pt p) = Ok Inf -> on_circle (cO c) (cr c) p ->
  2 * ((/ 100000000 + / 100000 * Rabs (fst p)) ^ 2 + (/ 100000000 + / 100000 * Rabs (snd p)) ^ 2) < cr c ^ 2 ->
  exists A B, A <> B /\ (forall w, (w = A \/ w = B) -> exists z, on_circle (cO c) (cr c) z /\ transform M (Pt z) = Ok (Pt w)) /\
  transform_circle fuel M c = Some (if allclose A B then Raise ValueError else Ok (GL (mkLine A B true true))).
Proof.
  intros Hf HD Hr T H HB. assert (E := proj2 (pole_on_iff M c HD Hr) (ex_intro _ p (conj T H))).
  destruct (transform_circle_near M c fuel HD Hr E) as (Hc & ->). rewrite <- (pole_eq M p); auto.
  destruct (search_ends_large fuel c p 0 0 Hf Hr HB) as (m & Hm & S1). rewrite S1.
  destruct (search_ends_large fuel c p 3 (0 + INR m / 10) Hf Hr HB) as (n & Hn & S2). rewrite S2.
  apply search_Some in S1, S2. destruct S1 as (_ & _ & _ & A1), S2 as (_ & _ & _ & A2).
  replace (0 + INR m / 10 + 0) with (0 + INR m / 10) in A1 by ring.
  set (a1 := 0 + INR m / 10) in *. set (a2 := a1 + INR n / 10) in *.
  set (P := circle_point_from_angle c a1 false) in *. set (Q := circle_point_from_angle c (a2 + 3) false) in *.
  assert (fin : forall z, allclose z p = false -> exists w, transform M (Pt z) = Ok (Pt w)).
  { intros z Hz. destruct (transform_total M (Pt z) HD) as ([w|] & Tw); [eauto|]. exfalso. apply (allclose_false_neq z p); auto.
    rewrite (pole_eq M z), (pole_eq M p); auto. }
  destruct (fin P A1) as (A & TA). destruct (fin Q A2) as (B & TB). rewrite TA, TB. cbn [bind].
  assert (NPQ : P <> Q).
  { intros K. pose proof (chord_cos (cO c) (cr c) (a2 + 3) a1) as L.
    change (vadd (cO c) (vscal (cr c) (cos (a2 + 3), sin (a2 + 3)))) with Q in L.
    change (vadd (cO c) (vscal (cr c) (cos a1, sin a1))) with P in L. rewrite K in L.
    assert (Z : dist2 Q Q = 0) by (apply dist2_0; auto). rewrite Z in L. replace (a2 + 3 - a1) with (3 + INR n / 10) in L by (unfold a2; ring).
    assert (Hn1 : 0 <= INR n <= 20). { split; [apply pos_INR|]. replace 20 with (INR 20) by (simpl; ring). apply le_INR; auto. }
    assert (C1' : cos (3 + INR n / 10) < 1).
    { pose proof PI2_3_2 as K3. unfold PI2 in K3. pose proof PI_4. destruct (Rle_lt_dec (3 + INR n / 10) PI) as [Q1|Q1].
      - rewrite <- cos_0. apply cos_decreasing_1; lra.
      - rewrite <- (cos_2PI). apply cos_increasing_1; lra. }
    symmetry in L. apply Rmult_integral in L. destruct L; nra. }
  exists A, B. split.
  - intros K. apply NPQ. apply Pt_inj. apply (transform_inj M _ _ (Pt A)); auto. rewrite TB, K. auto.
  - destruct (point_from_angle_spec c Hr) as [Hpt _]. split.
    + intros w [->| ->]; [exists P|exists Q]; split; auto; apply Hpt.
    + f_equal. unfold Line_init_ext. destruct (Line_init_cases A B true true) as [[K1 K2]|[K1 K2]]; rewrite K1, K2; reflexivity.
Qed.
