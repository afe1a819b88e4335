(** * Concrete cases for the Möbius properties *)

From Coq Require Import Reals Lra Lia Psatz List Bool ZArith.
From Verif Require Import Base BaseLemmas Spec SpecLemmas SpecMobius ModelInternal ModelLine ModelCircle ModelInversion ModelMobius
  PLine PCircle PInvBase PInversion PInversionEx PMobius PMobius2 PMobius3 PMobius4 PMobius5.
Import ListNotations.
Local Open Scope R_scope.

Ltac cneq := unC; let E := fresh in intros E; injection E; intros; lra.

(** z -> (z + i) / (2 z - 1) and z -> 1 / z *)
Definition exM := mkMob (1, 0) (0, 1) (2, 0) (-1, 0).
Definition exJ := mkMob (0, 0) (1, 0) (1, 0) (0, 0).
(** z -> z + 1 *)
Definition exT := mkMob (1, 0) (1, 0) (0, 0) (1, 0).

Lemma exM_det : mdet exM <> C0.
Proof. unfold mdet, exM; cbn [ma mb mc md]. cneq. Qed.
Lemma exJ_det : mdet exJ <> C0.
Proof. unfold mdet, exJ; cbn [ma mb mc md]. cneq. Qed.
Lemma exT_det : mdet exT <> C0.
Proof. unfold mdet, exT; cbn [ma mb mc md]. cneq. Qed.

Ltac tr H k := apply transform_Ok; [apply H|]; exists k; cbn [exM exJ exT ma mb mc md hom fst snd];
  split; [cneq|unC; split; f_equal; field].

Lemma ex_transform : transform exM (Pt (1, 0)) = Ok (Pt (1, 1)) /\ transform exM (Pt (/ 2, 0)) = Ok Inf /\
  transform exM Inf = Ok (Pt (/ 2, 0)) /\ transform exT Inf = Ok Inf.
Proof.
  repeat split.
  - tr exM_det (1, 0).
  - tr exM_det (/ 2, 1).
  - tr exM_det (2, 0).
  - tr exT_det (1, 0).
Qed.

Lemma ex_power : exists G, power exT (IZR (-3)) = Ok G /\ transform G (Pt (5, 7)) = Ok (Pt (2, 7)).
Proof.
  destruct (power_integer exT (-3)) as (G & E & K). exists G. split; auto. destruct (K exT_det) as [_ ->].
  change ((-3 <? 0)%Z) with true. change (Z.to_nat (- -3)) with 3%nat. cbv match. cbn [iterM].
  assert (S : forall x y, transform (inverse exT) (Pt (x, y)) = Ok (Pt (x - 1, y))).
  { intros. apply transform_Ok; [rewrite mdet_inverse; apply exT_det|]. exists (1, 0). unfold inverse. cbn [exT ma mb mc md hom fst snd]. split; [cneq|unC; split; f_equal; ring]. }
  rewrite S. cbn [bind]. rewrite S. cbn [bind]. rewrite S. cbn [bind]. do 3 f_equal. ring.
Qed.

Lemma ex_gpower : mdet exT <> C0 /\ gpower_domain exT /\ mdet exJ <> C0 /\ gpower_domain exJ.
Proof.
  split; [apply exT_det|]. split; [|split; [apply exJ_det|]].
  - unfold gpower_domain. right. assert (Ea : ((ma exT + md exT) / RtoC 2)%C = C1). { unfold exT; cbn [ma md]. unC. f_equal; field. }
    cbv zeta. rewrite Ea. split; [|split; right].
    + unfold mdet, exT; cbn [ma mb mc md]. unC. f_equal; ring.
    + intros (_ & K & _). rewrite <- callclose_near in K. revert K. unfold callclose, exT; cbn [mb]. assert (E : (((1, 0) - C0)%C) = (1, 0)) by (unC; f_equal; ring).
      rewrite E, cabs_0, cabs_real, leb_true, Rabs_right; lra.
    + intros (K & _). rewrite <- callclose_near in K. revert K. unfold callclose, exT; cbn [mb]. assert (E : (((1, 0) - C0)%C) = (1, 0)) by (unC; f_equal; ring).
      rewrite E, cabs_0, cabs_real, leb_true, Rabs_right; lra.
  - unfold gpower_domain. left. assert (E : ((ma exJ + md exJ) * (ma exJ + md exJ) - RtoC 4 * mdet exJ)%C = (4, 0)).
    { unfold mdet, exJ; cbn [ma mb mc md]. unC. f_equal; ring. }
    rewrite E, cabs_real. unfold sepsilon_. rewrite Rabs_right; lra.
Qed.

(** z -> 1 / z: Delta = 4; fixed points 1 and -1 *)
Lemma ex_fixed : fixed_points exJ = Ok (FPTwo (1, 0) (-1, 0)) /\ transform exJ (Pt (1, 0)) = Ok (Pt (1, 0)) /\ transform exJ (Pt (-1, 0)) = Ok (Pt (-1, 0)).
Proof.
  split; [|split; [tr exJ_det (1, 0)|tr exJ_det (-1, 0)]].
  unfold fixed_points. cbn [exJ ma mb mc md].
  assert (E1 : Ceqb (1, 0) C0 = false) by (apply Ceqb_false; cneq).
  assert (E2 : (((0, 0) - (0, 0)) * ((0, 0) - (0, 0)) + RtoC 4 * (1, 0) * (1, 0))%C = (4, 0)) by (unC; f_equal; ring).
  assert (E3 : Ceqb (4, 0) C0 = false) by (apply Ceqb_false; cneq).
  rewrite E1, E2, E3, ?andb_false_r. unfold sqrt_of_complex, py_sqrt. cbn [fst]. destruct Rlt_dec; [lra|]. cbn [bind].
  replace 4 with (2 * 2) by ring. rewrite sqrt_square by lra. unfold from_complex_. do 2 f_equal; unC; f_equal; field.
Qed.

(** z -> -1 / z: Delta = -4, fixed points i and -i; ValueError *)
Definition exK := mkMob (0, 0) (-1, 0) (1, 0) (0, 0).
Lemma exK_det : mdet exK <> C0.
Proof. unfold mdet, exK; cbn [ma mb mc md]. cneq. Qed.
Lemma ex_fixed_raise : fixed_points exK = Raise ValueError /\ transform exK (Pt (0, 1)) = Ok (Pt (0, 1)) /\ transform exK (Pt (0, -1)) = Ok (Pt (0, -1)).
Proof.
  split; [|split].
  - apply fixed_points_raise; unfold exK; cbn [ma mb mc md]; [cneq|]. unC. lra.
  - apply transform_Ok; [apply exK_det|]. exists (0, 1). cbn [exK ma mb mc md hom fst snd]. split; [cneq|unC; split; f_equal; ring].
  - apply transform_Ok; [apply exK_det|]. exists (0, -1). cbn [exK ma mb mc md hom fst snd]. split; [cneq|unC; split; f_equal; ring].
Qed.

(** z -> i / z: Delta = 4 i; the points 0 and 0 are returned, none is fixed *)
Definition exL := mkMob (0, 0) (0, 1) (1, 0) (0, 0).
Lemma exL_det : mdet exL <> C0.
Proof. unfold mdet, exL; cbn [ma mb mc md]. cneq. Qed.
Lemma ex_fixed_wrong : fixed_points exL = Ok (FPTwo (0, 0) (0, 0)) /\ transform exL (Pt (0, 0)) = Ok Inf.
Proof.
  split.
  - unfold fixed_points. cbn [exL ma mb mc md].
    assert (E1 : Ceqb (1, 0) C0 = false) by (apply Ceqb_false; cneq).
    assert (E2 : (((0, 0) - (0, 0)) * ((0, 0) - (0, 0)) + RtoC 4 * (0, 1) * (1, 0))%C = (0, 4)) by (unC; f_equal; ring).
    assert (E3 : Ceqb (0, 4) C0 = false) by (apply Ceqb_false; cneq).
    rewrite E1, E2, E3, ?andb_false_r. unfold sqrt_of_complex, py_sqrt. cbn [fst]. destruct Rlt_dec; [lra|]. cbn [bind].
    rewrite sqrt_0. unfold from_complex_. do 2 f_equal; unC; f_equal; field.
  - apply transform_Ok; [apply exL_det|]. exists (0, 1). cbn [exL ma mb mc md hom fst snd]. split; [cneq|unC; split; f_equal; ring].
Qed.

Lemma exJ_pole p : transform exJ (Pt p) = Ok Inf <-> p = (0, 0).
Proof.
  rewrite transform_pole by apply exJ_det. unfold exJ; cbn [mc md]. destruct p as [x y]. unC. split.
  - intros E. injection E. intros. f_equal; lra.
  - intros E. injection E as -> ->. f_equal; ring.
Qed.

(** the circle of centre (2, 0) and radius 1, and the circle of centre (1, 0) through the pole of z -> 1 / z *)
Lemma ex_circle : forall p, transform exJ (Pt p) = Ok Inf -> ~ on_circle (2, 0) 1 p.
Proof.
  intros p T. apply exJ_pole in T. subst p. unfold on_circle. rewrite (dist_val _ _ 2); [lra|lra|]. unspec. ring.
Qed.

Lemma ex_circle_pole : transform exJ (Pt (0, 0)) = Ok Inf /\ on_circle (1, 0) 1 (0, 0) /\
  2 * ((/ 100000000 + / 100000 * Rabs 0) ^ 2 + (/ 100000000 + / 100000 * Rabs 0) ^ 2) < 1 ^ 2 /\
  on_circle (/ 1000000000, 0) (/ 1000000000) (0, 0).
Proof.
  split; [apply exJ_pole; auto|]. split; [|split].
  - apply dist_val; [lra|]. unspec. ring.
  - rewrite Rabs_R0. lra.
  - apply dist_val; [lra|]. unspec. field.
Qed.

(** the line x = 1 and z -> 1 / z; the same transformation with the matrix multiplied by 1e-5 *)
Definition exJs := mkMob (0, 0) (/ 100000, 0) (/ 100000, 0) (0, 0).
Lemma exJs_det : mdet exJs <> C0.
Proof. unfold mdet, exJs; cbn [ma mb mc md]. cneq. Qed.
Definition exl := mkLine (1, 0) (1, 1) true true.
Lemma exl_neq : lA exl <> lB exl.
Proof. cbn [exl lA lB]. intros E. injection E. lra. Qed.

Lemma exJs_same e : transform exJs e = transform exJ e.
Proof.
  destruct (transform_total exJ e exJ_det) as (f & E). rewrite E. apply transform_Ok; [apply exJs_det|].
  apply transform_Ok in E; [|apply exJ_det]. destruct E as (k & Hk & E1 & E2). exists (RtoC (/ 100000) * k)%C.
  split; [apply Cmul_neq0; auto; cneq|]. cbn [exJ exJs ma mb mc md] in *.
  assert (S1 : (/ 100000, 0) = (RtoC (/ 100000) * (1, 0))%C) by (unC; f_equal; ring).
  assert (S0 : (0, 0) = (RtoC (/ 100000) * (0, 0))%C) by (unC; f_equal; ring).
  split.
  - transitivity (RtoC (/ 100000) * ((0, 0) * fst (hom e) + (1, 0) * snd (hom e)))%C; [rewrite S1; rewrite S0 at 1; cring|rewrite E1; cring].
  - transitivity (RtoC (/ 100000) * ((1, 0) * fst (hom e) + (0, 0) * snd (hom e)))%C; [rewrite S1; rewrite S0 at 1; cring|rewrite E2; cring].
Qed.

Lemma ex_line_circle : exists c, transform_line exJ exl = Ok (GC c).
Proof.
  apply transform_line_circle_iff; [apply exJ_det|apply exl_neq|]. exists (0, 0), (1, 0). split; [apply exJ_pole; auto|].
  split; [exists 0; cbn [exl lA lB]; unfold at_line; unspec; f_equal; ring|]. split; [unfold orthogonal; cbn [exl lA lB]; unspec; ring|].
  rewrite (dist_val _ _ 1) by (try lra; unspec; ring). unfold Cmod2, sepsilon_, exJ; cbn [mc fst snd]. lra.
Qed.

Lemma ex_line_line : transform_line exJs exl = Ok (GL (mkLine (1, 0) (/ 2, - / 2) true true)).
Proof.
  rewrite transform_line_near; [|apply exJs_det|apply exl_neq|].
  - rewrite !exJs_same. cbn [exl lA lB].
    assert (T1 : transform exJ (Pt (1, 0)) = Ok (Pt (1, 0))) by (tr exJ_det (1, 0)).
    assert (T2 : transform exJ (Pt (1, 1)) = Ok (Pt (/ 2, - / 2))) by (tr exJ_det (1, 1)).
    rewrite T1, T2. cbn [bind Line_init_ext]. destruct (Line_init_cases (1, 0) (/ 2, - / 2) true true) as [[K1 K2]|[K1 K2]]; [rewrite K2; reflexivity|].
    exfalso. revert K1. evalclose; try discriminate.
  - intros c K. assert (X := proj1 (transform_line_circle_iff exJs exl exJs_det exl_neq) (ex_intro _ c K)).
    destruct X as (p & q & T & Hq & Ho & L). rewrite exJs_same in T. apply exJ_pole in T. subst p. destruct Hq as [t ->].
    cbn [exl lA lB] in *. unfold orthogonal, at_line in *. unspec. assert (Ht : t = 0) by lra. subst t.
    unfold dist in L. cbn [fst snd] in L. unspec. replace (_ + _) with 1 in L by ring. rewrite sqrt_1 in L. unfold Cmod2, sepsilon_, exJs in L; cbn [mc fst snd] in L. lra.
Qed.

Lemma line_scale_refuted : exists M M' l c l' z w, mdet M <> C0 /\ mdet M' <> C0 /\ lA l <> lB l /\ (forall e, transform M' e = transform M e) /\
  transform_line M l = Ok (GC c) /\ transform_line M' l = Ok (GL l') /\
  on_line (lA l) (lB l) z /\ transform M' (Pt z) = Ok (Pt w) /\ ~ on_line (lA l') (lB l') w.
Proof.
  destruct ex_line_circle as [c Hc].
  exists exJ, exJs, exl, c, (mkLine (1, 0) (/ 2, - / 2) true true), (1, -1), (/ 2, / 2).
  split; [apply exJ_det|]. split; [apply exJs_det|]. split; [apply exl_neq|]. split; [apply exJs_same|]. split; [auto|]. split; [apply ex_line_line|].
  split; [exists (-1); cbn [exl lA lB]; unfold at_line; unspec; f_equal; ring|]. split; [rewrite exJs_same; tr exJ_det (1, -1)|].
  cbn [lA lB]. rewrite on_line_cross; [unspec; lra|]. intros E. injection E. lra.
Qed.

(** the line y = 0 through the pole of z -> 1 / z *)
Definition exl0 := mkLine (1, 0) (2, 0) true true.
Lemma ex_line_through : lA exl0 <> lB exl0 /\ (forall p, transform exJ (Pt p) = Ok Inf -> on_line (lA exl0) (lB exl0) p) /\
  transform_line exJ exl0 = Ok (GL (mkLine (1, 0) (/ 2, 0) true true)) /\
  transform_line exJ (mkLine (0, 0) (2, 0) true true) = Raise ValueError.
Proof.
  assert (HL : lA exl0 <> lB exl0) by (cbn [exl0 lA lB]; intros E; injection E; lra).
  assert (HP : on_line (lA exl0) (lB exl0) (0, 0)) by (exists (-1); cbn [exl0 lA lB]; unfold at_line; unspec; f_equal; ring).
  split; auto. split; [intros p T; apply exJ_pole in T; subst; auto|]. split.
  - rewrite transform_line_near; [|apply exJ_det|auto|].
    + cbn [exl0 lA lB].
      assert (T1 : transform exJ (Pt (1, 0)) = Ok (Pt (1, 0))) by (tr exJ_det (1, 0)).
      assert (T2 : transform exJ (Pt (2, 0)) = Ok (Pt (/ 2, 0))) by (tr exJ_det (2, 0)).
      rewrite T1, T2. cbn [bind Line_init_ext]. destruct (Line_init_cases (1, 0) (/ 2, 0) true true) as [[K1 K2]|[K1 K2]]; [rewrite K2; reflexivity|].
      exfalso. revert K1. evalclose; try discriminate.
    + intros c K. apply transform_line_GC in K; auto; [|apply exJ_det]. destruct K as (_ & K & _). apply (K (0, 0)); auto. apply exJ_pole. auto.
  - apply transform_line_raise; [apply exJ_det| |].
    + cbn [lA lB]. intros E. injection E. lra.
    + left. apply exJ_pole. auto.
Qed.

Lemma ex_three : exists M, from_mapping_three_points (Pt (0, 0)) (Pt (1, 0)) (Pt (0, 1)) (Pt (2, 2)) (Pt (3, 0)) (Pt (-1, 5)) = Ok (Some M).
Proof. apply mapping_three_total; intros E; injection E; lra. Qed.

Lemma ex_one_circle : transform (from_mapping_one_circle (mkCircle (0, 0) 2) (mkCircle (3, 1) 5)) (Pt (1, 0)) = Ok (Pt (-7, 1)).
Proof.
  apply transform_Ok; [apply one_circle_det; cbn [cr]; lra|].
  destruct (one_circle_matrix (mkCircle (0, 0) 2) (mkCircle (3, 1) 5)) as (Ea & Eb & Ec & Ed). unfold mob_image. rewrite Ea, Eb, Ec, Ed.
  exists (kap 2 5). unfold kap. cbn [cO cr hom fst snd]. split; [cneq|]. unC. split; f_equal; ring.
Qed.

(** 0, 1, 2 and 5 on a line: cross ratio 5/3; 1, i, -1, 2 neither on a line nor on a circle *)
Lemma ex_cross : cross_ratio (0, 0) (1, 0) (2, 0) (5, 0) = Ok (-5 / 3, 0) /\ cross_ratio (1, 0) (0, 1) (-1, 0) (2, 0) = Ok (0, - / 3).
Proof.
  split; (rewrite cross_ratio_total; [|intros E; injection E; intros; lra ..]); f_equal; unC; f_equal; field.
Qed.

Lemma ex_invert iota M N : allclose (ipole iota) M = false -> inv_pt (ipole iota) (ipower iota) M = N -> invert iota (Pt M) = Pt N.
Proof. intros H <-. apply invert_far; auto. Qed.

(** iota1: pole 0 power 4, iota2: pole (5, 0), power -1; the point (1, 0) -> (4, 0) -> (6, 0) *)
Lemma ex_compose : let iota1 := mkInv (0, 0) 4 in let iota2 := mkInv (5, 0) (-1) in
  invert iota1 (Pt (1, 0)) = Pt (4, 0) /\ invert iota2 (Pt (4, 0)) = Pt (6, 0) /\
  (forall P, Pt (1, 0) = Pt P -> allclose (ipole iota1) P = true -> P = ipole iota1) /\
  (forall P, invert iota1 (Pt (1, 0)) = Pt P -> allclose (ipole iota2) P = true -> P = ipole iota2).
Proof.
  cbv zeta. assert (A1 : allclose (0, 0) (1, 0) = false) by (evalclose). assert (A2 : allclose (5, 0) (4, 0) = false) by evalclose.
  assert (E1 : invert (mkInv (0, 0) 4) (Pt (1, 0)) = Pt (4, 0)).
  { apply ex_invert; auto. cbn [ipole ipower]. unfold inv_pt. unspec. f_equal; field. }
  split; [auto|]. split; [apply ex_invert; auto; cbn [ipole ipower]; unfold inv_pt; unspec; f_equal; field|]. cbn [ipole]. split.
  - intros P E. apply Pt_inj in E. subst P. rewrite A1. discriminate.
  - rewrite E1. intros P E. apply Pt_inj in E. subst P. rewrite A2. discriminate.
Qed.
