(** * Möbius transformations: images of lines *)

From Coq Require Import Reals Lra Lia Psatz List Bool ZArith.
From Verif Require Import Base BaseLemmas Spec SpecLemmas SpecMobius SpecTriangle ModelInternal ModelLine ModelCircle ModelTriangle ModelInversion ModelMobius
  PLine PCircle PInvBase PTriangle PTriangle2 PInversion PMobius PMobius2 PMobius3 PMobius4.
Import ListNotations.
Local Open Scope R_scope.

Definition tl_A (M : mobius) (g : C) (D0 : R) : R := -2 * fst (g * mc M * Cconj (md M))%C - D0 * mod2_ (mc M).
Definition tl_g (M : mobius) (g : C) (D0 : R) : C := (Cconj g * mb M * Cconj (mc M) + g * Cconj (md M) * ma M + RtoC D0 * Cconj (mc M) * ma M)%C.
Definition tl_D (M : mobius) (g : C) (D0 : R) : R := D0 * mod2_ (ma M) + 2 * fst (g * Cconj (mb M) * ma M)%C.

Lemma tl_norm M g D0 : Cmod2 g = 1 -> Cmod2 (tl_g M g D0) + tl_D M g D0 * tl_A M g D0 = Cmod2 (mdet M).
Proof.
  intros H. transitivity (Cmod2 (mdet M) * Cmod2 g); [|rewrite H; ring]. clear H.
  unfold tl_g, tl_D, tl_A, mdet, mod2_, Cmod2. destruct M as [[a1 a2] [b1 b2] [c1 c2] [d1 d2]], g as [g1 g2]. cbn [ma mb mc md]. unC. ring.
Qed.

Lemma tl_id M g D0 z : tl_A M g D0 * Cmod2 (ma M * z + mb M)%C + 2 * fst (Cconj (tl_g M g D0) * ((ma M * z + mb M) * Cconj (mc M * z + md M)))%C
    - tl_D M g D0 * Cmod2 (mc M * z + md M)%C = Cmod2 (mdet M) * (2 * sdot g z - D0).
Proof.
  unfold tl_g, tl_D, tl_A, mdet, mod2_, Cmod2. destruct M as [[a1 a2] [b1 b2] [c1 c2] [d1 d2]], g as [g1 g2], z as [z1 z2]. cbn [ma mb mc md]. unspec. unC. ring.
Qed.

Lemma tl_image M g D0 z w : mdet M <> C0 -> transform M (Pt z) = Ok (Pt w) ->
  tl_A M g D0 * Cmod2 w + 2 * sdot (tl_g M g D0) w - tl_D M g D0 = Cmod2 (mdet M) / Cmod2 (mc M * z + md M)%C * (2 * sdot g z - D0).
Proof.
  intros HD T. apply transform_fin in T; auto. destruct T as (Hk & ->). pose proof (tl_id M g D0 z) as E. set (k := (mc M * z + md M)%C) in *.
  pose proof (Cmod2_pos _ Hk) as P. apply (Rmult_eq_reg_r (Cmod2 k)); [|lra].
  transitivity (Cmod2 (mdet M) * (2 * sdot g z - D0)); [|field; lra]. rewrite <- E. rewrite Cmod2_div by auto.
  assert (F : sdot (tl_g M g D0) ((ma M * z + mb M) / k)%C * Cmod2 k = fst (Cconj (tl_g M g D0) * ((ma M * z + mb M) * Cconj k))%C).
  { generalize (tl_g M g D0) (ma M * z + mb M)%C. intros [x1 x2] [y1 y2]. unfold Cmod2 in *. destruct k as [k1 k2]. cbn [fst snd] in P. unspec. unC. field. lra. }
  rewrite <- F. field. lra.
Qed.

Lemma tl_image_inf M g D0 w : mdet M <> C0 -> transform M Inf = Ok (Pt w) ->
  tl_A M g D0 * Cmod2 w + 2 * sdot (tl_g M g D0) w - tl_D M g D0 = 0.
Proof.
  intros HD T. apply transform_inf in T; auto. destruct T as (Hc & ->). pose proof (Cmod2_pos _ Hc) as P.
  apply (Rmult_eq_reg_r (Cmod2 (mc M))); [|lra]. rewrite Cmod2_div by auto.
  assert (F : sdot (tl_g M g D0) (ma M / mc M)%C * Cmod2 (mc M) = fst (Cconj (tl_g M g D0) * (ma M * Cconj (mc M)))%C).
  { generalize (tl_g M g D0) (ma M)%C. intros [x1 x2] [y1 y2]. unfold Cmod2 in *. destruct (mc M) as [k1 k2]. cbn [fst snd] in P. unspec. unC. field. lra. }
  transitivity (tl_A M g D0 * Cmod2 (ma M) + 2 * fst (Cconj (tl_g M g D0) * (ma M * Cconj (mc M)))%C - tl_D M g D0 * Cmod2 (mc M)).
  { rewrite <- F. field. lra. }
  unfold tl_g, tl_D, tl_A, mdet, mod2_, Cmod2. destruct M as [[a1 a2] [b1 b2] [c1 c2] [d1 d2]], g as [g1 g2]. cbn [ma mb mc md]. unC. ring.
Qed.

(** signed distance of the pole to the line, times 2 |c|^2 *)
Lemma tl_A_pole M g D0 p : mdet M <> C0 -> transform M (Pt p) = Ok Inf -> tl_A M g D0 = Cmod2 (mc M) * (2 * sdot g p - D0).
Proof.
  intros HD T. apply transform_pole in T; auto. assert (E : md M = (- mc M * p)%C) by (transitivity ((mc M * p + md M) - mc M * p)%C; [cring|rewrite T; cring]).
  unfold tl_A, mod2_, Cmod2. rewrite E. destruct (mc M) as [c1 c2], g as [g1 g2], p as [p1 p2]. unspec. unC. ring.
Qed.

Definition nrm (l : line) : C := (cos (fst (direction_offset l)), sin (fst (direction_offset l))).
Definition off2 (l : line) : R := 2 * snd (direction_offset l).

Lemma nrm_unit l : Cmod2 (nrm l) = 1.
Proof. unfold Cmod2, nrm. cbn [fst snd]. pose proof (sin2_cos2 (fst (direction_offset l))) as E. unfold Rsqr in E. lra. Qed.

Lemma line_eq l z : lA l <> lB l -> (on_line (lA l) (lB l) z <-> 2 * sdot (nrm l) z - off2 l = 0).
Proof.
  intros H. destruct z as [x y]. destruct (direction_offset_equation l H) as (_ & _ & E). rewrite E. unfold nrm, off2. unspec. split; lra.
Qed.

Lemma transform_line_unfold M l : transform_line M l =
  if ltb sepsilon_ (Rabs (tl_A M (nrm l) (off2 l))) then
    let! rho := py_sqrt (mod2_ (tl_g M (nrm l) (off2 l)) / tl_A M (nrm l) (off2 l) / tl_A M (nrm l) (off2 l) + tl_D M (nrm l) (off2 l) / tl_A M (nrm l) (off2 l)) in
    let! circ := Circle_init (- tl_g M (nrm l) (off2 l) / RtoC (tl_A M (nrm l) (off2 l)))%C rho in
    Ok (GC circ)
  else
    let! A' := transform M (Pt (lA l)) in
    let! B' := transform M (Pt (lB l)) in
    let! l' := Line_init_ext A' B' in
    Ok (GL l').
Proof. unfold transform_line, nrm, off2. destruct (direction_offset l) as [th o]. reflexivity. Qed.

(** the image of a point and the circle *)
Lemma tl_circle M g D0 w : tl_A M g D0 <> 0 -> Cmod2 g = 1 ->
  dist2 (- tl_g M g D0 / RtoC (tl_A M g D0))%C w - (sqrt (Cmod2 (mdet M)) / Rabs (tl_A M g D0)) * (sqrt (Cmod2 (mdet M)) / Rabs (tl_A M g D0)) =
  (tl_A M g D0 * Cmod2 w + 2 * sdot (tl_g M g D0) w - tl_D M g D0) / tl_A M g D0.
Proof.
  intros HA Hg. pose proof (tl_norm M g D0 Hg) as N. pose proof (Cmod2_nonneg (mdet M)) as P.
  assert (ER : sqrt (Cmod2 (mdet M)) / Rabs (tl_A M g D0) * (sqrt (Cmod2 (mdet M)) / Rabs (tl_A M g D0)) = Cmod2 (mdet M) / (tl_A M g D0 * tl_A M g D0)).
  { replace (tl_A M g D0 * tl_A M g D0) with (Rabs (tl_A M g D0) * Rabs (tl_A M g D0)) by (rewrite <- Rabs_mult; apply Rabs_right; nra).
    rewrite <- (sqrt_sqrt (Cmod2 (mdet M))) at 3 by auto. field. apply Rabs_no_R0; auto. }
  rewrite ER, <- N. generalize dependent (tl_A M g D0). intros A HA _ _. generalize (tl_g M g D0) (tl_D M g D0). intros [g1 g2] D. destruct w as [w1 w2]. unfold Cmod2. unspec. unC. field. auto.
Qed.

Lemma transform_line_far M l : mdet M <> C0 -> lA l <> lB l -> sepsilon_ < Rabs (tl_A M (nrm l) (off2 l)) ->
  transform_line M l = Ok (GC (mkCircle (- tl_g M (nrm l) (off2 l) / RtoC (tl_A M (nrm l) (off2 l)))%C (sqrt (Cmod2 (mdet M)) / Rabs (tl_A M (nrm l) (off2 l))))).
Proof.
  intros HD HL H. rewrite transform_line_unfold. set (A := tl_A M (nrm l) (off2 l)) in *. set (g := tl_g M (nrm l) (off2 l)). set (D := tl_D M (nrm l) (off2 l)).
  assert (HA : A <> 0). { intros K. rewrite K, Rabs_R0 in H. pose proof sepsilon_pos. lra. }
  assert (E1 : ltb sepsilon_ (Rabs A) = true) by (apply ltb_true; auto). rewrite E1.
  pose proof (tl_norm M (nrm l) (off2 l) (nrm_unit l)) as N. fold A g D in N.
  assert (E2 : mod2_ g / A / A + D / A = (sqrt (Cmod2 (mdet M)) / Rabs A) * (sqrt (Cmod2 (mdet M)) / Rabs A)).
  { rewrite mod2_Cmod2. transitivity (Cmod2 (mdet M) / (A * A)); [rewrite <- N; field; auto|].
    replace (A * A) with (Rabs A * Rabs A) by (rewrite <- Rabs_mult; apply Rabs_right; nra).
    rewrite <- (sqrt_sqrt (Cmod2 (mdet M))) at 1 by apply Cmod2_nonneg. field. apply Rabs_no_R0; auto. }
  assert (P : 0 < sqrt (Cmod2 (mdet M)) / Rabs A).
  { unfold Rdiv. apply Rmult_lt_0_compat; [apply sqrt_lt_R0; apply Cmod2_pos; auto|]. apply Rinv_0_lt_compat, Rabs_pos_lt; auto. }
  rewrite E2. unfold py_sqrt. destruct Rlt_dec as [E3|E3]; [nra|].
  cbn [bind]. rewrite sqrt_square by lra. unfold Circle_init. destruct (leb (sqrt (Cmod2 (mdet M)) / Rabs A) 0) eqn:E4; [apply leb_true in E4; lra|]. reflexivity.
Qed.

Lemma transform_line_GC M l c : mdet M <> C0 -> lA l <> lB l -> transform_line M l = Ok (GC c) ->
  0 < cr c /\ (forall p, transform M (Pt p) = Ok Inf -> ~ on_line (lA l) (lB l) p) /\
  forall e f, transform M e = Ok f ->
    (match e with Pt z => on_line (lA l) (lB l) z | Inf => True end <-> exists w, f = Pt w /\ on_circle (cO c) (cr c) w).
Proof.
  intros HD HL H. destruct (Rlt_le_dec sepsilon_ (Rabs (tl_A M (nrm l) (off2 l)))) as [L|L].
  - rewrite transform_line_far in H by auto. apply Ok_inj in H. injection H as <-. cbn [cO cr].
    set (A := tl_A M (nrm l) (off2 l)) in *.
    assert (HA : A <> 0). { intros K. rewrite K, Rabs_R0 in L. pose proof sepsilon_pos. lra. }
    assert (P : 0 < sqrt (Cmod2 (mdet M)) / Rabs A).
    { unfold Rdiv. apply Rmult_lt_0_compat; [apply sqrt_lt_R0; apply Cmod2_pos; auto|]. apply Rinv_0_lt_compat, Rabs_pos_lt; auto. }
    assert (on_iff : forall w, on_circle (- tl_g M (nrm l) (off2 l) / RtoC A)%C (sqrt (Cmod2 (mdet M)) / Rabs A) w <-> A * Cmod2 w + 2 * sdot (tl_g M (nrm l) (off2 l)) w - tl_D M (nrm l) (off2 l) = 0).
    { intros w. rewrite on_circle_sq by lra. pose proof (tl_circle M (nrm l) (off2 l) w HA (nrm_unit l)) as K. fold A in K. split; intros Q.
      - rewrite Q in K. rewrite Rminus_eq_0 in K. symmetry in K. unfold Rdiv in K. apply Rmult_integral in K. destruct K as [K|K]; auto.
        exfalso. apply (Rinv_neq_0_compat A HA); auto.
      - rewrite Q in K. unfold Rdiv at 3 in K. rewrite Rmult_0_l in K. lra. }
    assert (pole_off : forall p, transform M (Pt p) = Ok Inf -> ~ on_line (lA l) (lB l) p).
    { intros p T K. apply line_eq in K; auto. apply HA. unfold A. rewrite (tl_A_pole M _ _ p HD T), K. ring. }
    split; [auto|]. split; [auto|]. intros e f T. destruct f as [w|].
    + destruct e as [z|].
      * rewrite line_eq by auto. pose proof (tl_image M (nrm l) (off2 l) z w HD T) as K. fold A in K.
        assert (Hk : (mc M * z + md M)%C <> C0) by (apply transform_fin in T; tauto).
        assert (F : Cmod2 (mdet M) / Cmod2 (mc M * z + md M)%C <> 0).
        { pose proof (Cmod2_pos _ Hk). pose proof (Cmod2_pos _ HD). unfold Rdiv. apply Rmult_integral_contrapositive_currified; [lra|]. apply Rinv_neq_0_compat. lra. }
        split.
        -- intros Q. exists w. split; auto. apply on_iff. rewrite K, Q. ring.
        -- intros (x & Ex & Q). apply Pt_inj in Ex. subst x. apply on_iff in Q. rewrite K in Q. apply Rmult_integral in Q. tauto.
      * split; auto. intros _. exists w. split; auto. apply on_iff. apply tl_image_inf; auto.
    + destruct e as [z|].
      * split; [|intros (x & Ex & _); discriminate]. intros K. exfalso. apply (pole_off z); auto.
      * exfalso. apply transform_inf_inf in T; auto. apply HA. unfold A, tl_A. rewrite T. unfold mod2_. unC. ring.
  - rewrite transform_line_unfold in H. exfalso. destruct (ltb _ _) eqn:E; [apply ltb_true in E; lra|].
    apply bind_Ok in H. destruct H as (A & TA & H). apply bind_Ok in H. destruct H as (B & TB & H). apply bind_Ok in H. destruct H as (l' & TL & H). discriminate.
Qed.

(** when a circle is returned: the distance of the pole to the line, times 2 |c|^2, exceeds the threshold *)
Lemma transform_line_circle_iff M l : mdet M <> C0 -> lA l <> lB l ->
  ((exists c, transform_line M l = Ok (GC c)) <->
   exists p q, transform M (Pt p) = Ok Inf /\ on_line (lA l) (lB l) q /\ orthogonal (vsub p q) (vsub (lB l) (lA l)) /\
     sepsilon_ < 2 * Cmod2 (mc M) * dist p q).
Proof.
  intros HD HL. 
  assert (pole : forall p, transform M (Pt p) = Ok Inf -> exists q, on_line (lA l) (lB l) q /\ orthogonal (vsub p q) (vsub (lB l) (lA l)) /\
     Rabs (tl_A M (nrm l) (off2 l)) = 2 * Cmod2 (mc M) * dist p q).
  { intros p T. set (s := sdot (nrm l) p - off2 l / 2). pose proof (nrm_unit l) as U.
    exists (vsub p (vscal s (nrm l))).
    assert (OL : on_line (lA l) (lB l) (vsub p (vscal s (nrm l)))).
    { apply line_eq; auto. transitivity (2 * (sdot (nrm l) p - s * Cmod2 (nrm l)) - off2 l); [unfold Cmod2; destruct p as [p1 p2], (nrm l) as [n1 n2]; unspec; ring|]. rewrite U. unfold s. field. }
    split; [auto|]. split.
    - assert (KA := proj1 (line_eq l (lA l) HL) ltac:(exists 0; unfold at_line; destruct (lA l), (lB l); unspec; f_equal; ring)).
      assert (KB := proj1 (line_eq l (lB l) HL) ltac:(exists 1; unfold at_line; destruct (lA l), (lB l); unspec; f_equal; ring)).
      unfold orthogonal. transitivity (s * (sdot (nrm l) (lB l) - sdot (nrm l) (lA l))); [destruct p as [p1 p2], (nrm l) as [n1 n2], (lA l), (lB l); unspec; ring|].
      replace (sdot (nrm l) (lB l)) with (sdot (nrm l) (lA l)) by lra. ring.
    - rewrite (tl_A_pole M _ _ p HD T). rewrite Rabs_mult, (Rabs_right (Cmod2 _)) by (apply Rle_ge, Cmod2_nonneg).
      assert (ED : dist p (vsub p (vscal s (nrm l))) = Rabs s).
      { unfold dist. rewrite <- sqrt_Rsqr_abs. f_equal. unfold Rsqr. transitivity (s * s * Cmod2 (nrm l)); [unfold Cmod2; destruct p, (nrm l); unspec; ring|rewrite U; ring]. }
      rewrite ED. replace (2 * sdot (nrm l) p - off2 l) with (2 * s) by (unfold s; field). rewrite Rabs_mult, (Rabs_right 2) by lra. ring. }
  split.
  - intros [c H]. assert (L : sepsilon_ < Rabs (tl_A M (nrm l) (off2 l))).
    { rewrite transform_line_unfold in H. destruct (ltb _ _) eqn:E; [apply ltb_true in E; auto|]. exfalso.
      apply bind_Ok in H. destruct H as (A & TA & H). apply bind_Ok in H. destruct H as (B & TB & H). apply bind_Ok in H. destruct H as (l' & TL & H). discriminate. }
    assert (Hc : mc M <> C0).
    { intros K. unfold tl_A in L. rewrite K in L. unfold mod2_ in L. destruct (nrm l), (md M). unC. replace (-2 * _ - _) with 0 in L by ring. rewrite Rabs_R0 in L. pose proof sepsilon_pos. lra. }
    assert (T : transform M (Pt (- md M / mc M)%C) = Ok Inf) by (apply transform_pole; auto; cfield; auto).
    destruct (pole _ T) as (q & Q1 & Q2 & Q3). exists (- md M / mc M)%C, q. rewrite <- Q3. auto.
  - intros (p & q & T & Q1 & Q2 & L). destruct (pole _ T) as (q' & Q1' & Q2' & Q3). exists (mkCircle (- tl_g M (nrm l) (off2 l) / RtoC (tl_A M (nrm l) (off2 l)))%C (sqrt (Cmod2 (mdet M)) / Rabs (tl_A M (nrm l) (off2 l)))).
    apply transform_line_far; auto. rewrite Q3. replace q' with q; auto.
    (* the foot of the perpendicular is unique *)
    destruct Q1 as [t ->], Q1' as [t' ->]. unfold orthogonal in *. assert (P2 : 0 < dist2 (lA l) (lB l)) by (apply dist2_pos; auto).
    assert (Z : (t - t') * dist2 (lA l) (lB l) = 0).
    { transitivity (sdot (vsub p (at_line (lA l) (lB l) t')) (vsub (lB l) (lA l)) - sdot (vsub p (at_line (lA l) (lB l) t)) (vsub (lB l) (lA l))); [|rewrite Q2, Q2'; ring].
      unfold at_line. destruct p, (lA l), (lB l). unspec. ring. }
    apply Rmult_integral in Z. destruct Z; [|lra]. replace t' with t by lra. auto.
Qed.

(** the line branch *)
Lemma transform_line_near M l : mdet M <> C0 -> lA l <> lB l -> (forall c, transform_line M l <> Ok (GC c)) ->
  transform_line M l = 
    let! A' := transform M (Pt (lA l)) in
    let! B' := transform M (Pt (lB l)) in
    let! l' := Line_init_ext A' B' in
    Ok (GL l').
Proof.
  intros HD HL H. destruct (Rlt_le_dec sepsilon_ (Rabs (tl_A M (nrm l) (off2 l)))) as [L|L].
  - exfalso. eapply H. apply transform_line_far; auto.
  - rewrite transform_line_unfold. destruct (ltb _ _) eqn:E; [apply ltb_true in E; lra|]. auto.
Qed.

Lemma transform_line_GL M l l' : mdet M <> C0 -> lA l <> lB l -> transform_line M l = Ok (GL l') ->
  transform M (Pt (lA l)) = Ok (Pt (lA l')) /\ transform M (Pt (lB l)) = Ok (Pt (lB l')) /\ lA l' <> lB l' /\ lextA l' = true /\ lextB l' = true.
Proof.
  intros HD HL H. assert (N : forall c, transform_line M l <> Ok (GC c)) by (intros c; rewrite H; discriminate).
  rewrite transform_line_near in H by auto.
  apply bind_Ok in H. destruct H as (A & TA & H). apply bind_Ok in H. destruct H as (B & TB & H). apply bind_Ok in H. destruct H as (l2 & TL & H).
  apply Ok_inj in H. injection H as ->. apply Line_init_ext_Ok in TL. destruct TL as (P & Q & -> & -> & NC & ->). cbn [lA lB lextA lextB].
  assert (P <> Q) by (apply allclose_false_neq; auto). auto.
Qed.

(** exact when the line passes through the pole or through infinity's preimage *)
Lemma transform_line_GL_exact M l l' : mdet M <> C0 -> lA l <> lB l -> transform_line M l = Ok (GL l') ->
  (forall p, transform M (Pt p) = Ok Inf -> on_line (lA l) (lB l) p) ->
  forall e f, transform M e = Ok f ->
    (match e with Pt z => on_line (lA l) (lB l) z | Inf => True end <-> match f with Pt w => on_line (lA l') (lB l') w | Inf => True end).
Proof.
  intros HD HL H Hp. destruct (transform_line_GL M l l' HD HL H) as (TA & TB & HL' & _).
  assert (A0 : tl_A M (nrm l) (off2 l) = 0).
  { destruct (C_eq_dec (mc M) C0) as [Hc|Hc].
    - unfold tl_A. rewrite Hc. unfold mod2_. destruct (nrm l), (md M). unC. ring.
    - assert (T : transform M (Pt (- md M / mc M)%C) = Ok Inf) by (apply transform_pole; auto; cfield; auto).
      rewrite (tl_A_pole M _ _ _ HD T). specialize (Hp _ T). apply line_eq in Hp; auto. rewrite Hp. ring. }
  pose proof (tl_norm M (nrm l) (off2 l) (nrm_unit l)) as N. rewrite A0, Rmult_0_r, Rplus_0_r in N.
  assert (Hg : tl_g M (nrm l) (off2 l) <> (0, 0)). { intros K. rewrite K in N. pose proof (Cmod2_pos _ HD). assert (Cmod2 (0, 0) = 0) by (apply Cmod2_0; auto). lra. }
  assert (im : forall z w, transform M (Pt z) = Ok (Pt w) -> (on_line (lA l) (lB l) z <-> sdot w (tl_g M (nrm l) (off2 l)) = tl_D M (nrm l) (off2 l) / 2)).
  { intros z w T. rewrite line_eq by auto. pose proof (tl_image M (nrm l) (off2 l) z w HD T) as K. rewrite A0 in K.
    assert (Hk : (mc M * z + md M)%C <> C0) by (apply transform_fin in T; tauto).
    assert (F : Cmod2 (mdet M) / Cmod2 (mc M * z + md M)%C <> 0).
    { pose proof (Cmod2_pos _ Hk). pose proof (Cmod2_pos _ HD). unfold Rdiv. apply Rmult_integral_contrapositive_currified; [lra|]. apply Rinv_neq_0_compat. lra. }
    assert (S : sdot w (tl_g M (nrm l) (off2 l)) = sdot (tl_g M (nrm l) (off2 l)) w) by (unspec; ring). rewrite S. split; intros Q.
    - rewrite Q in K. lra.
    - assert (Z : Cmod2 (mdet M) / Cmod2 (mc M * z + md M)%C * (2 * sdot (nrm l) z - off2 l) = 0) by lra. apply Rmult_integral in Z. tauto. }
  assert (LA := proj1 (im _ _ TA) ltac:(exists 0; unfold at_line; destruct (lA l), (lB l); unspec; f_equal; ring)).
  assert (LB := proj1 (im _ _ TB) ltac:(exists 1; unfold at_line; destruct (lA l), (lB l); unspec; f_equal; ring)).
  intros e f T. destruct f as [w|].
  - rewrite (on_line_of_dot _ _ _ _ w HL' Hg LA LB). destruct e as [z|]; [apply im; auto|].
    split; auto. intros _. pose proof (tl_image_inf M (nrm l) (off2 l) w HD T) as K. rewrite A0 in K. 
    assert (S : sdot w (tl_g M (nrm l) (off2 l)) = sdot (tl_g M (nrm l) (off2 l)) w) by (unspec; ring). lra.
  - destruct e as [z|]; [|tauto]. split; auto.
Qed.

(** a defining point is the pole *)
Lemma transform_line_raise M l : mdet M <> C0 -> lA l <> lB l -> transform M (Pt (lA l)) = Ok Inf \/ transform M (Pt (lB l)) = Ok Inf ->
  transform_line M l = Raise ValueError.
Proof.
  intros HD HL H. rewrite transform_line_near; auto.
  - destruct (transform_total M (Pt (lA l)) HD) as (A & TA). destruct (transform_total M (Pt (lB l)) HD) as (B & TB). rewrite TA, TB in *. cbn [bind].
    destruct H as [H|H]; apply Ok_inj in H; subst; [reflexivity|]. destruct A; reflexivity.
  - intros c K. apply transform_line_GC in K; auto. destruct K as (_ & K & _). destruct H as [H|H]; apply (K _ H).
    + exists 0. unfold at_line. destruct (lA l), (lB l). unspec. f_equal; ring.
    + exists 1. unfold at_line. destruct (lA l), (lB l). unspec. f_equal; ring.
Qed.

Lemma transform_line_errors M l e : mdet M <> C0 -> lA l <> lB l -> transform_line M l = Raise e ->
  e = ValueError /\ (transform M (Pt (lA l)) = Ok Inf \/ transform M (Pt (lB l)) = Ok Inf \/
    exists P Q, transform M (Pt (lA l)) = Ok (Pt P) /\ transform M (Pt (lB l)) = Ok (Pt Q) /\ allclose P Q = true).
Proof.
  intros HD HL H. assert (N : forall c, transform_line M l <> Ok (GC c)) by (intros c; rewrite H; discriminate).
  rewrite transform_line_near in H by auto.
  destruct (transform_total M (Pt (lA l)) HD) as (A & TA). destruct (transform_total M (Pt (lB l)) HD) as (B & TB). rewrite TA, TB in *. cbn [bind] in H.
  destruct A as [P|]; [|cbn [Line_init_ext bind] in H; injection H as <-; auto]. destruct B as [Q|]; [|cbn [Line_init_ext bind] in H; injection H as <-; auto].
  unfold Line_init_ext in H. destruct (Line_init_cases P Q true true) as [[K1 K2]|[K1 K2]]; rewrite K2 in H; cbn [bind] in H; [discriminate|].
  injection H as <-. split; auto. right; right. exists P, Q. auto.
Qed.

Lemma fixed_points_affine M : mdet M <> C0 -> mc M = C0 -> ma M <> md M ->
  exists P, fixed_points M = Ok (FPOne P) /\ transform M (Pt P) = Ok (Pt P) /\ transform M Inf = Ok Inf.
Proof.
  intros HD Hc Ha. unfold fixed_points. rewrite (proj2 (Ceqb_false _ _) Ha), (proj2 (Ceqb_true _ _) Hc). cbn [andb].
  exists (- mb M / (ma M - md M))%C. split; [reflexivity|]. assert ((ma M - md M)%C <> C0) by (intros K; apply Ha; apply Csub_0; auto). split.
  - apply fixed_iff; auto. rewrite Hc. cfield. auto.
  - apply fixed_inf_iff; auto.
Qed.
