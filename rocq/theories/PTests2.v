(** * The unit tests of the repository: images of circles that are lines, generalized powers,
    mid-circles. *)

From Coq Require Import Reals List Bool ZArith Lra Lia Psatz.
From Verif Require Import Base BaseLemmas Spec SpecLemmas SpecTriangle SpecMobius ModelInternal ModelLine ModelCircle ModelAffine ModelEllipse ModelTriangle ModelInversion ModelTransfo ModelMobius ModelTests.
From Verif Require PSchottky4.
From Verif Require Import PInvBase PLine PCircle PCircle2 PEllipseEx PTriangle2 PTransfo PReflect PInversion PInversion2 PInversionEx PMobius PMobius2 PMobius3 PMobius4 PMobius5 PModular1 PExample1 PTests.
Import ListNotations.
Local Open Scope R_scope.

Lemma image_circle_line_ok fuel M c a b : mdet M <> C0 -> 0 < cr c ->
  let A := circle_point_from_angle c a true in let B := circle_point_from_angle c b true in
  (forall r, test_image_circle_line fuel M c a b = Some (Ok r) -> r = true) /\
  (forall l A' B', transform_circle fuel M c = Some (Ok (GL l)) -> transform M (Pt A) = Ok (Pt A') -> transform M (Pt B) = Ok (Pt B') ->
     allclose A' B' = false -> test_image_circle_line fuel M c a b = Some (Ok true)).
Proof.
  intros HD Hr A B. unfold test_image_circle_line. fold A B.
  assert (OA : on_circle (cO c) (cr c) A) by (apply PCircle.point_from_angle_spec; auto). assert (OB : on_circle (cO c) (cr c) B) by (apply PCircle.point_from_angle_spec; auto).
  assert (K : forall l A' B', transform_circle fuel M c = Some (Ok (GL l)) -> transform M (Pt A) = Ok (Pt A') -> transform M (Pt B) = Ok (Pt B') -> allclose A' B' = false -> line_is_equal l (mkLine A' B' true true) = true).
  { intros l A' B' E EA EB N. apply allclose_false_neq in N. destruct (transform_circle_GL fuel M c l HD Hr E) as (_ & Hl & _ & _ & T). apply is_equal_complete; cbn [lA lB]; auto.
    apply same_line_cross; auto. split; apply on_line_cross; auto.
    - apply (proj1 (T _ _ EA)). eauto.
    - apply (proj1 (T _ _ EB)). eauto. }
  split.
  - intros r. destruct (transform_circle fuel M c) as [[g|]|] eqn:E; try discriminate. cbn [bind].
    destruct (transform M (Pt A)) as [[A'|]|] eqn:EA; cbn [bind]; try discriminate; destruct (transform M (Pt B)) as [[B'|]|] eqn:EB; cbn [bind Line_init_ext]; try discriminate.
    destruct (Line_init_cases A' B' true true) as [[N E']|[_ E']]; rewrite E'; cbn [bind]; [|discriminate]. destruct g as [c'|l]; [discriminate|].
    rewrite (K l A' B') by auto. congruence.
  - intros l A' B' E EA EB N. rewrite E. cbn [bind]. rewrite EA, EB. cbn [bind Line_init_ext]. destruct (Line_init_cases A' B' true true) as [[_ E']|[N' E']]; [|congruence]. rewrite E'. cbn [bind]. rewrite (K l A' B') by auto. reflexivity.
Qed.

(** ** Generalized powers *)
Lemma inverse_scaled M G : matmul M G = mdiag C1 C1 -> inverse M = mscal (mdet M) G.
Proof.
  intros E. pose proof (f_equal ma E) as E1. pose proof (f_equal mb E) as E2. pose proof (f_equal mc E) as E3. pose proof (f_equal md E) as E4. clear E. unfold inverse, mscal, mdet. unfold matmul, mdiag in *. destruct M as [a b c d], G as [p q r s]. cbn [ma mb mc md] in *. apply mob_eq; cbn [ma mb mc md].
  - transitivity (d * (a * p + b * r) - b * (c * p + d * r))%C; [rewrite E1, E3; cring|cring].
  - transitivity (d * (a * q + b * s) - b * (c * q + d * s))%C; [rewrite E2, E4; cring|cring].
  - transitivity (a * (c * p + d * r) - c * (a * p + b * r))%C; [rewrite E1, E3; cring|cring].
  - transitivity (a * (c * q + d * s) - c * (a * q + b * s))%C; [rewrite E2, E4; cring|cring].
Qed.

Lemma matmul_mscal j k A B : matmul (mscal j A) (mscal k B) = mscal (j * k)%C (matmul A B).
Proof. unfold matmul, mscal. apply mob_eq; cbn [ma mb mc md]; cring. Qed.

Lemma gpower_neg arg eig M n : is_arg arg -> eig_ok eig M -> mdet M <> C0 -> gpower_domain M ->
  exists k G, k <> C0 /\ gpower arg eig M (- INR n) = Ok G /\ matrix_power (inverse M) n = mscal k G.
Proof.
  intros HA HE HD Hd. destruct (gpower_group arg eig M HA HE HD Hd) as (F & EF & G & F0 & F1).
  assert (I : inverse M = mscal (mdet M) (F (-1))). { apply inverse_scaled. rewrite <- F1 at 1. rewrite G. replace (1 + -1) with 0 by ring. exact F0. }
  assert (K : exists k, k <> C0 /\ matrix_power (inverse M) n = mscal k (F (- INR n))).
  { induction n as [|n (k & Hk & IH)].
    - exists C1. split; [apply C1_neq_0|]. cbn [INR matrix_power]. replace (- 0) with 0 by ring. rewrite F0. unfold mscal, mdiag. apply mob_eq; cbn [ma mb mc md]; cring.
    - exists (k * mdet M)%C. split; [intros X; apply Cmul_0 in X; tauto|]. cbn [matrix_power]. rewrite IH, I, matmul_mscal, G, S_INR. f_equal. f_equal. ring. }
  destruct K as (k & Hk & K). exists k, (F (- INR n)). auto.
Qed.

Lemma power_nat M n : power M (INR n) = Ok (matrix_power M n) /\ exists N, power M (- INR n) = Ok N /\ ((0 < n)%nat -> N = matrix_power (inverse M) n) /\ (n = 0%nat -> N = mdiag C1 C1).
Proof.
  rewrite INR_IZR_INZ, <- opp_IZR. unfold power. rewrite !py_int_IZR, !(proj2 (eqb_true _ _)) by auto. cbn [negb]. split.
  - destruct (Z.of_nat n <? 0)%Z eqn:Z; [apply Z.ltb_lt in Z; lia|]. rewrite Nat2Z.id. reflexivity.
  - destruct n as [|n]; [exists (mdiag C1 C1); split; [reflexivity|split; [lia|auto]]|]. exists (matrix_power (inverse M) (S n)). split; [|split; [auto|lia]].
    destruct (- Z.of_nat (S n) <? 0)%Z eqn:Z; [|apply Z.ltb_ge in Z; lia]. rewrite Z.opp_involutive, Nat2Z.id. reflexivity.
Qed.

Lemma gpower_test_ok arg eig M n : is_arg arg -> eig_ok eig M -> mdet M <> C0 -> gpower_domain M ->
  exists N, power M (- INR n) = Ok N /\ (ma N <> C0 -> test_gpower arg eig M n = Ok true) /\ (ma N = C0 -> test_gpower arg eig M n = Ok false).
Proof.
  intros HA HE HD Hd. destruct (power_nat M n) as (EP & N & EN & H1 & H0). exists N. split; [auto|].
  destruct (gpower_neg arg eig M n HA HE HD Hd) as (k & G & Hk & EG & K).
  assert (KN : N = mscal k G). { destruct n; [rewrite (H0 eq_refl), <- K; reflexivity|rewrite (H1 ltac:(lia)); auto]. }
  assert (MR : forall A, mallclose A A = true) by (intros; unfold mallclose; rewrite !callclose_refl; reflexivity).
  unfold test_gpower. rewrite EP. cbn [bind]. rewrite (gpower_power_matrix arg eig M n HA HE HD Hd), EP. cbn [bind]. rewrite MR, EN. cbn [bind]. rewrite EG. cbn [bind].
  assert (ZN : ma N = (k * ma G)%C) by (rewrite KN; reflexivity). split; intros Z.
  - assert (G0 : ma G <> C0) by (intros X; apply Z; rewrite ZN, X; cring). rewrite (proj2 (Ceqb_false _ _)) by auto. f_equal.
    assert (Ef : (ma N / ma G)%C = k) by (rewrite ZN; cfield; auto). rewrite Ef. replace (mkMob (k * ma G)%C (k * mb G)%C (k * mc G)%C (k * md G)%C) with N by (rewrite KN; reflexivity). apply MR.
  - rewrite ZN in Z. apply Cmul_0 in Z. destruct Z as [Z|Z]; [contradiction|]. rewrite (proj2 (Ceqb_true _ _)) by auto. reflexivity.
Qed.

(** [[1, -1], [1, 1]]: the first entry of the power -2 is 0 *)
Lemma gpower_test_refuted arg eig : is_arg arg -> eig_ok eig (mkMob C1 (RtoC (-1)) C1 C1) ->
  test_gpower arg eig (mkMob C1 (RtoC (-1)) C1 C1) 2 = Ok false.
Proof.
  intros HA HE. set (M := mkMob C1 (RtoC (-1)) C1 C1) in *. assert (HD : mdet M <> C0). { unfold M, mdet, RtoC, C1, C0, Cmul, Csub. cbn. intros X. injection X as X1 X2. lra. }
  assert (Hd : gpower_domain M). { left. unfold M, mdet. cbn [ma mb mc md]. unfold RtoC, C1, C0, Cmul, Csub, Cadd, cabs. cbn [fst snd]. unfold sepsilon_. apply Rle_trans with 1; [lra|]. rewrite <- sqrt_1 at 1. apply sqrt_le_1_alt. unfold mod2_. cbn [fst snd]. lra. }
  destruct (gpower_test_ok arg eig M 2 HA HE HD Hd) as (N & EN & _ & K). apply K. destruct (power_nat M 2) as (_ & N' & EN' & H & _). rewrite EN in EN'. injection EN' as <-. rewrite (H ltac:(lia)).
  unfold M, inverse. cbn [matrix_power matmul ma mb mc md mdiag]. unfold matmul. cbn [ma mb mc md]. unfold RtoC, C1, C0, Cmul, Csub, Cadd, Copp. cbn [fst snd]. apply pair_eq; ring.
Qed.

(** ** Mid-circles *)
Lemma mirror_exists A B P : A <> B -> exists Q, mirror A B P Q.
Proof.
  intros N. pose proof (SpecLemmas.dist2_pos A B N) as D. set (t := sdot (vsub P A) (vsub B A) / dist2 A B). exists (vsub (vscal 2 (vadd A (vscal t (vsub B A)))) P). apply mirror_cross; auto.
  assert (E : t * dist2 A B = sdot (vsub P A) (vsub B A)) by (unfold t; field; lra). clearbody t. destruct A, B, P. unfold dist2, sdot, scross in *. unpt. split; [ring|].
  match type of E with ?a = ?b => transitivity (2 * (a - b)); [ring|rewrite E; ring] end.
Qed.

Lemma mid_one_ok c1 c2 gs g : 0 < cr c1 -> 0 < cr c2 ->
  cr c1 = cr c2 \/ / 67108864 <= 4 * cr c1 * cr c2 -> cr c1 <> cr c2 \/ cO c1 = cO c2 \/ allclose (cO c1) (cO c2) = false ->
  mid_circles c1 c2 = Ok gs -> In g gs ->
  (forall l c, g = GL l -> c = c1 \/ c = c2 -> allclose (lA l) (cO c) = false /\ allclose (lB l) (cO c) = false) ->
  forall b, test_mid_one c1 c2 g = Ok b -> b = true.
Proof.
  intros H1 H2 Hc Hd E HI Hl b. pose proof (mid_circles_sound c1 c2 gs g H1 H2 Hc Hd E HI) as S. destruct g as [c|l]; cbn [test_mid_one].
  - destruct S as (Hr & M12 & M21). assert (Hk : cr c ^ 2 <> 0) by (apply pow_nonzero; lra).
    destruct (invert_circle (inversion_on_circle c) c1) as [[d1|]|] eqn:E1; cbn [bind]; try discriminate.
    2:{ destruct (invert_circle (inversion_on_circle c) c2) as [[d2|]|] eqn:E2; cbn [bind]; discriminate. }
    destruct (invert_circle (inversion_on_circle c) c2) as [[d2|]|] eqn:E2; cbn [bind]; try discriminate.
    destruct (invert_circle_spec _ c1 d1 H1 E1) as (R1 & N1). destruct (invert_circle_spec _ c2 d2 H2 E2) as (R2 & N2). unfold inversion_on_circle in N1, N2. cbn [ipole ipower] in N1, N2.
    destruct (inv_maps_unique _ _ _ _ _ _ Hk H1 H2 M12) as (_ & A1 & B1). destruct (inv_maps_unique _ _ _ _ _ _ Hk H1 R1 N1) as (_ & A1' & B1').
    destruct (inv_maps_unique _ _ _ _ _ _ Hk H2 H1 M21) as (_ & A2 & B2). destruct (inv_maps_unique _ _ _ _ _ _ Hk H2 R2 N2) as (_ & A2' & B2').
    assert (D1 : d1 = c2) by (destruct d1, c2; simpl in *; congruence). assert (D2 : d2 = c1) by (destruct d2, c1; simpl in *; congruence).
    rewrite D1, D2, !circle_is_equal_refl. cbn [andb]. congruence.
  - destruct S as (Nl & M12 & M21). unfold Reflection_init. destruct (Line_init_cases (lA l) (lB l) true true) as [[N EL]|[_ EL]]; rewrite EL; cbn [bind]; [|discriminate].
    destruct (Hl l c1 eq_refl (or_introl eq_refl)) as [X1 Y1]. destruct (Hl l c2 eq_refl (or_intror eq_refl)) as [X2 Y2].
    destruct (reflect_circle (mkLine (lA l) (lB l) true true) c1) as [d1|] eqn:E1; cbn [bind]; [|discriminate]. destruct (reflect_circle (mkLine (lA l) (lB l) true true) c2) as [d2|] eqn:E2; cbn [bind]; [|discriminate].
    destruct (reflect_circle_spec _ c1 d1 N H1 X1 Y1 E1) as (R1 & _ & N1). destruct (reflect_circle_spec _ c2 d2 N H2 X2 Y2 E2) as (R2 & _ & N2). cbn [lA lB] in *.
    assert (D1 : d1 = c2). { apply PSchottky4.same_circle; [rewrite R1; auto|auto|]. intros w Hw. destruct (mirror_exists (lA l) (lB l) w Nl) as (M & HM). apply mirror_sym in HM. apply (M12 M w HM). apply (N1 M w HM). auto. }
    assert (D2 : d2 = c1). { apply PSchottky4.same_circle; [rewrite R2; auto|auto|]. intros w Hw. destruct (mirror_exists (lA l) (lB l) w Nl) as (M & HM). apply mirror_sym in HM. apply (M21 M w HM). apply (N2 M w HM). auto. }
    rewrite D1, D2, !circle_is_equal_refl. cbn [andb]. congruence.
Qed.

Lemma mapM_out {X Y} (f : X -> res Y) l ys y : mapM f l = Ok ys -> In y ys -> exists x, In x l /\ f x = Ok y.
Proof.
  intros E. apply mapM_Ok_Forall2 in E. induction E as [|x z l zs H _ IH]; cbn [In]; [tauto|]. intros [->|HI]; [exists x; auto|]. destruct (IH HI) as (x' & A & B). exists x'. auto.
Qed.

Lemma mid_circles_ok c1 c2 : 0 < cr c1 -> 0 < cr c2 ->
  cr c1 = cr c2 \/ / 67108864 <= 4 * cr c1 * cr c2 -> cr c1 <> cr c2 \/ cO c1 = cO c2 \/ allclose (cO c1) (cO c2) = false ->
  (forall gs l c, mid_circles c1 c2 = Ok gs -> In (GL l) gs -> c = c1 \/ c = c2 -> allclose (lA l) (cO c) = false /\ allclose (lB l) (cO c) = false) ->
  forall b, test_mid_circles c1 c2 = Ok b -> b = true.
Proof.
  intros H1 H2 Hc Hd Hl b. unfold test_mid_circles. destruct (mid_circles c1 c2) as [gs|] eqn:E; cbn [bind]; [|discriminate].
  destruct (mapM (test_mid_one c1 c2) gs) as [bs|] eqn:EM; cbn [bind]; [|discriminate]. intros X. injection X as <-. apply forallb_forall. intros x Hx.
  destruct (mapM_out (test_mid_one c1 c2) gs bs x EM Hx) as (g & HI & Eg). apply (mid_one_ok c1 c2 gs g H1 H2 Hc Hd E HI); auto. intros l c -> Hcc. apply (Hl gs l c eq_refl); auto.
Qed.

