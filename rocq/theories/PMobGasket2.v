(** * The powers of the Möbius transformation of ApollonianGasketMobius.py, and the pictures. *)

From Coq Require Import Reals Lra Lia Psatz List Bool ZArith.
From Verif Require Import Base BaseLemmas Spec SpecLemmas SpecMobius SpecTriangle SpecGasket SpecApollonian SpecMobiusGasket ModelInternal ModelLine ModelCircle ModelTriangle ModelEllipse ModelInversion ModelMobius ModelApollonian ModelModular ModelMobiusGasket
  PLine PCircle PMobius PMobius2 PMobius3 PMobius4 PSteiner PApo6 PDisc PModular1 PModular3 PMobGasket1.
Import ListNotations.
Local Open Scope R_scope.

Definition gh (gamma : C) : R := sqrt (1 - Cmod2 gamma).
(** the matrix, with h^t = k, cos = x, sin = y *)
Definition pmat (gamma : C) (k x y : R) : mobius :=
  let h := gh gamma in
  mkMob (k * x, k * y / h) (k * y / h * fst gamma, k * y / h * snd gamma) (k * y / h * fst gamma, - (k * y / h * snd gamma)) (k * x, - (k * y / h)).

Lemma cabs_sq z : cabs z * cabs z = Cmod2 z.
Proof. unfold cabs. rewrite mod2_Cmod2. apply sqrt_sqrt. apply Cmod2_nonneg. Qed.
Lemma gh_pos gamma : Cmod2 gamma < 1 -> 0 < gh gamma /\ gh gamma * gh gamma = 1 - Cmod2 gamma.
Proof. intros H. unfold gh. split; [apply sqrt_lt_R0; lra|apply sqrt_sqrt; lra]. Qed.

Lemma power_eq gamma t : Cmod2 gamma < 1 -> mobius_power gamma t = Ok (pmat gamma (Rpower (gh gamma) t) (cos (t * PI / 2)) (sin (t * PI / 2))).
Proof.
  intros H. destruct (gh_pos gamma H) as (P & _). unfold mobius_power. rewrite cabs_sq. unfold py_sqrt. destruct (Rlt_dec (1 - Cmod2 gamma) 0); [lra|]. cbn [bind]. fold (gh gamma).
  replace (eqb (gh gamma) 0) with false by (symmetry; apply eqb_false; lra). f_equal. unfold pmat. destruct gamma as [a b]. unfold Ci. apply mob_eq; cbn [ma mb mc md]; unC; f_equal; field; lra.
Qed.
Lemma power_one gamma t : Cmod2 gamma = 1 -> mobius_power gamma t = Raise ZeroDivisionError.
Proof.
  intros H. unfold mobius_power. rewrite cabs_sq, H. unfold py_sqrt. destruct (Rlt_dec (1 - 1) 0); [lra|]. cbn [bind]. replace (1 - 1) with 0 by ring. rewrite sqrt_0. replace (eqb 0 0) with true by (symmetry; apply eqb_true; auto). auto.
Qed.
Lemma power_big gamma t : 1 < Cmod2 gamma -> mobius_power gamma t = Raise ValueError.
Proof. intros H. unfold mobius_power. rewrite cabs_sq. unfold py_sqrt. destruct (Rlt_dec (1 - Cmod2 gamma) 0); [auto|lra]. Qed.

Lemma pmat_mul gamma k x y k' x' y' : Cmod2 gamma < 1 -> matmul (pmat gamma k x y) (pmat gamma k' x' y') = pmat gamma (k * k') (x * x' - y * y') (y * x' + x * y').
Proof.
  intros H. destruct (gh_pos gamma H) as (P & S). unfold pmat. set (h := gh gamma) in *. destruct gamma as [a b]. unfold Cmod2 in S. cbn [fst snd] in *. assert (E : a * a + b * b = 1 - h * h) by lra.
  assert (Q : (a * a + b * b) / (h * h) = / (h * h) - 1) by (rewrite E; field; lra).
  assert (K : forall u v, u * / h * a * (v * / h * a) + u * / h * b * (v * / h * b) - u * / h * (v * / h) = - (u * v)).
  { intros u v. transitivity (u * v * ((a * a + b * b) / (h * h) - / (h * h))); [field; lra|]. rewrite Q. ring. }
  unfold matmul. apply mob_eq; cbn [ma mb mc md]; unC; unfold Rdiv in *; f_equal; try (ring || (field; lra)); pose proof (K (k * y) (k' * y')) as K1; nra.
Qed.
Lemma pmat_det gamma k x y : Cmod2 gamma < 1 -> x * x + y * y = 1 -> mdet (pmat gamma k x y) = RtoC (k * k).
Proof.
  intros H E. destruct (gh_pos gamma H) as (P & S). unfold pmat, mdet. set (h := gh gamma) in *. destruct gamma as [a b]. unfold Cmod2 in S. cbn [fst snd ma mb mc md] in *.
  assert (Q : (1 - (a * a + b * b)) / (h * h) = 1) by (rewrite <- S; field; lra). unC. f_equal; [|ring].
  transitivity (k * k * (x * x + y * y * ((1 - (a * a + b * b)) / (h * h)))); [field; lra|]. rewrite Q. rewrite Rmult_1_r, E. ring.
Qed.
Lemma pmat_disc gamma k x y z : Cmod2 gamma < 1 -> x * x + y * y = 1 ->
  let M := pmat gamma k x y in Cmod2 (mc M * z + md M)%C - Cmod2 (ma M * z + mb M)%C = k * k * (1 - Cmod2 z).
Proof.
  intros H E M. unfold M. destruct (gh_pos gamma H) as (P & S). unfold pmat. set (h := gh gamma) in *. destruct gamma as [a b], z as [p q]. unfold Cmod2 in S. cbn [fst snd ma mb mc md] in *.
  assert (Q : (1 - (a * a + b * b)) / (h * h) = 1) by (rewrite <- S; field; lra). unfold Cmod2. unC.
  transitivity (k * k * (x * x + y * y * ((1 - (a * a + b * b)) / (h * h))) * (1 - (p * p + q * q))); [field; lra|]. rewrite Q. rewrite Rmult_1_r, E. ring.
Qed.

Lemma pmat_keeps gamma k x y : Cmod2 gamma < 1 -> 0 < k -> x * x + y * y = 1 -> keeps_disc (pmat gamma k x y) /\
  forall z, Cmod2 z < 1 -> exists w, transform (pmat gamma k x y) (Pt z) = Ok (Pt w) /\ Cmod2 w < 1.
Proof.
  intros H Hk E. set (M := pmat gamma k x y). assert (DM : mdet M = RtoC (k * k)) by (apply pmat_det; auto).
  assert (D : mdet M <> C0) by (rewrite DM; apply RtoC_neq; nra).
  assert (N : forall z, Cmod2 z <= 1 -> (mc M * z + md M)%C <> C0).
  { intros z Hz K. pose proof (pmat_disc gamma k x y z H E) as I. cbv zeta in I. fold M in I. rewrite K in I. replace (Cmod2 C0) with 0 in I by (unfold Cmod2, C0; cbn [fst snd]; ring). pose proof (Cmod2_nonneg (ma M * z + mb M)%C) as J.
    assert (Z : Cmod2 (ma M * z + mb M)%C = 0) by nra. apply (proj1 (Cmod2_0 _)) in Z. apply D. unfold mdet.
    destruct (C_eq_dec (mc M) C0) as [W|W]; [rewrite W in K; assert (md M = C0) by (rewrite <- K; cring); rewrite H0, W; cring|].
    assert (X : (mc M * (ma M * md M - mc M * mb M) = mc M * ma M * (mc M * z + md M) - mc M * mc M * (ma M * z + mb M))%C) by cring. rewrite K, Z in X.
    assert (X' : (mc M * (ma M * md M - mc M * mb M) = C0)%C) by (rewrite X; cring). destruct (C_eq_dec (ma M * md M - mc M * mb M)%C C0) as [|NX]; [auto|]. exfalso. exact (Cmul_neq0 _ _ W NX X'). }
  assert (Q : forall z, Cmod2 z <= 1 -> let w := ((ma M * z + mb M) / (mc M * z + md M))%C in transform M (Pt z) = Ok (Pt w) /\ Cmod2 w * Cmod2 (mc M * z + md M)%C = Cmod2 (mc M * z + md M)%C - k * k * (1 - Cmod2 z) /\ 0 < Cmod2 (mc M * z + md M)%C).
  { intros z Hz w. pose proof (N z Hz) as Nz. pose proof (Cmod2_pos _ Nz) as Pz. split; [apply transform_fin; auto|]. split; [|auto]. unfold w. rewrite Cmod2_div by auto.
    pose proof (pmat_disc gamma k x y z H E) as I. cbv zeta in I. fold M in I. unfold Rdiv. rewrite Rmult_assoc, Rinv_l by lra. lra. }
  split; [split; [exact D|]|].
  - intros z Hz. destruct (Q z Hz) as (E1 & E2 & E3). eexists. split; [exact E1|]. split; [|intros Z; rewrite Z in E2; nra]. assert (0 <= k * k * (1 - Cmod2 z)) by (apply Rmult_le_pos; nra). nra.
  - intros z Hz. destruct (Q z ltac:(lra)) as (E1 & E2 & E3). eexists. split; [exact E1|]. assert (0 < k * k * (1 - Cmod2 z)) by (apply Rmult_lt_0_compat; nra). nra.
Qed.

Lemma Rpower_pos h t : 0 < Rpower h t.
Proof. unfold Rpower. apply exp_pos. Qed.
Lemma power_keeps gamma t M : Cmod2 gamma < 1 -> mobius_power gamma t = Ok M -> keeps_disc M /\ forall z, Cmod2 z < 1 -> exists w, transform M (Pt z) = Ok (Pt w) /\ Cmod2 w < 1.
Proof.
  intros H E. rewrite power_eq in E by auto. injection E as <-. apply pmat_keeps; auto using Rpower_pos. pose proof (sin2_cos2 (t * PI / 2)) as S. unfold Rsqr in S. lra.
Qed.

Lemma power_group gamma : Cmod2 gamma < 1 -> exists F, (forall t, mobius_power gamma t = Ok (F t)) /\ (forall s t, matmul (F s) (F t) = F (s + t)) /\
  F 0 = mkMob C1 C0 C0 C1 /\ F 1 = mkMob Ci gamma (Cconj gamma) (- Ci)%C /\ (forall t P, transform (F (t + 2)) P = transform (F t) P).
Proof.
  intros H. destruct (gh_pos gamma H) as (P & S). exists (fun t => pmat gamma (Rpower (gh gamma) t) (cos (t * PI / 2)) (sin (t * PI / 2))). split; [intros t; apply power_eq; auto|].
  assert (Add : forall s t, matmul (pmat gamma (Rpower (gh gamma) s) (cos (s * PI / 2)) (sin (s * PI / 2))) (pmat gamma (Rpower (gh gamma) t) (cos (t * PI / 2)) (sin (t * PI / 2))) = pmat gamma (Rpower (gh gamma) (s + t)) (cos ((s + t) * PI / 2)) (sin ((s + t) * PI / 2))).
  { intros s t. rewrite pmat_mul by auto. rewrite Rpower_plus. replace ((s + t) * PI / 2) with (s * PI / 2 + t * PI / 2) by field. rewrite cos_plus, sin_plus. reflexivity. }
  split; [exact Add|]. split; [|split].
  - rewrite Rpower_O by auto. replace (0 * PI / 2) with 0 by field. rewrite cos_0, sin_0. unfold pmat. apply mob_eq; cbn [ma mb mc md]; unfold C1, C0; f_equal; field; lra.
  - rewrite Rpower_1 by auto. replace (1 * PI / 2) with (PI / 2) by field. rewrite cos_PI2, sin_PI2. unfold pmat. destruct gamma as [a b]. unfold Ci. apply mob_eq; cbn [ma mb mc md fst snd]; unC; f_equal; field; lra.
  - intros t Q. rewrite <- Add. replace (2 * PI / 2) with PI by field. rewrite cos_PI, sin_PI.
    assert (X : pmat gamma (Rpower (gh gamma) 2) (-1) 0 = mscal (RtoC (- Rpower (gh gamma) 2)) (mdiag C1 C1)) by (unfold pmat, mscal, mdiag; apply mob_eq; cbn [ma mb mc md]; unC; f_equal; field; lra).
    rewrite X. set (A := pmat gamma _ _ _). assert (Y : matmul A (mscal (RtoC (- Rpower (gh gamma) 2)) (mdiag C1 C1)) = mscal (RtoC (- Rpower (gh gamma) 2)) A) by (rewrite matmul_scal, matmul_1_r; auto). rewrite Y.
    pose proof (Rpower_pos (gh gamma) 2). apply transform_scal; [apply RtoC_neq; lra|]. unfold A. rewrite pmat_det; auto; [apply RtoC_neq; pose proof (Rpower_pos (gh gamma) t); nra|]. pose proof (sin2_cos2 (t * PI / 2)) as S'. unfold Rsqr in S'. lra.
Qed.

Lemma packing_moved M m depth gens pic : keeps_disc M -> packing m depth gens -> Forall2 (Forall2 (dimg M)) gens pic -> packing m depth pic.
Proof.
  intros KD (L & L0 & Li & F & O & T) D. pose proof (Forall2_concat _ _ _ D) as DC. split; [rewrite <- (Forall2_len _ _ _ D); auto|]. split; [rewrite <- (Forall2_len _ _ _ (Forall2_nth_nil _ 0 _ _ D)); auto|].
  split; [intros i Hi; rewrite <- (Forall2_len _ _ _ (Forall2_nth_nil _ i _ _ D)); auto|]. split; [|split].
  - apply Forall_forall. intros c' I. destruct (Forall2_In_r _ _ _ _ DC I) as (c & _ & H). split; [apply H|]. exact (dimg_in M KD c c' H).
  - apply (FOP_Forall2 (dimg M) not_overlapping not_overlapping (concat gens)); auto. intros a b a' b' Ha Hb. apply (dimg_overlap M KD a a' b b'); auto.
  - intros i c' I. destruct (Forall2_In_r _ _ _ _ (Forall2_nth_nil _ i _ _ D) I) as (c & Ic & H). apply (dimg_three M KD (concat (firstn (S i) gens)) _ c c'); auto. apply Forall2_concat, Forall2_firstn, D.
Qed.

Lemma picture_ok fuel gamma gens t : Cmod2 gamma < 1 -> Forall (fun c => 0 < cr c /\ disc_in_disc c (mkCircle (0, 0) 1)) (concat gens) ->
  exists M pic, mobius_power gamma t = Ok M /\ keeps_disc M /\ mobius_picture fuel gamma gens t = Some (Ok pic) /\ Forall2 (Forall2 (dimg M)) gens pic.
Proof.
  intros H F. pose proof (power_eq gamma t H) as E. set (M := pmat _ _ _ _) in E. destruct (power_keeps gamma t M H E) as (KD & _). destruct (picture_total M KD fuel gens F) as (pic & E2 & D). exists M, pic. split; [auto|]. split; [auto|]. split; [|auto].
  unfold mobius_picture. rewrite E. exact E2.
Qed.

Lemma Forall2_Forall2_unique {X A} (P : X -> A -> Prop) xs l l' : (forall x a a', P x a -> P x a' -> a = a') -> Forall2 (Forall2 P) xs l -> Forall2 (Forall2 P) xs l' -> l = l'.
Proof. intros U. apply (Forall2_unique (Forall2 P)). intros x a a'. apply Forall2_unique, U. Qed.

Lemma dimg_id c : 0 < cr c -> disc_in_disc c unitc -> dimg (mdiag C1 C1) c c.
Proof.
  intros P D. assert (HD : mdet (mdiag C1 C1) <> C0) by (unfold mdet, mdiag; cbn [ma mb mc md]; intros K; apply C1_neq_0; rewrite <- K; cring).
  assert (T : forall z, transform (mdiag C1 C1) (Pt z) = Ok (Pt z)). { intros z. apply transform_fin; auto. unfold mdiag. cbn [ma mb mc md]. assert (X : (C0 * z + C1)%C = C1) by cring. rewrite X. split; [exact C1_neq_0|]. replace (C1 * z + C0)%C with z by cring. destruct z. unC. f_equal; field. }
  split; [auto|]. split; [auto|]. split; [auto|]. split; intros w; (split; [intros H; exists w; split; auto|intros (z & H & E); rewrite T in E; injection E as <-; auto]).
Qed.

Lemma picture_zero fuel gamma gens : Cmod2 gamma < 1 -> Forall (fun c => 0 < cr c /\ disc_in_disc c (mkCircle (0, 0) 1)) (concat gens) -> mobius_picture fuel gamma gens 0 = Some (Ok gens).
Proof.
  intros H F. destruct (picture_ok fuel gamma gens 0 H F) as (M & pic & E & KD & E2 & D). rewrite E2. do 2 f_equal. destruct (power_group gamma H) as (G & HG & _ & G0 & _). rewrite HG, G0 in E. injection E as <-.
  apply (Forall2_Forall2_unique (dimg (mdiag C1 C1)) gens); [intros x a a'; apply dimg_unique|exact D|].
  clear -F. induction gens as [|g gens IH]; constructor; cbn [concat] in F; apply Forall_app in F; destruct F as (F1 & F2); [|auto]. clear IH F2. induction g as [|c g IH]; constructor; inversion F1 as [|? ? (P & D)]; subst; [apply dimg_id; auto|auto].
Qed.

Lemma dimg_ext M M' c c' : (forall P, transform M P = transform M' P) -> dimg M c c' -> dimg M' c c'.
Proof.
  intros T (P & D & P' & H & H'). split; [auto|]. split; [auto|]. split; [auto|]. split; intros w; [rewrite H|rewrite H']; split; intros (z & Hz & E); exists z; (split; [auto|]); [rewrite <- T|rewrite T|rewrite <- T|rewrite T]; auto.
Qed.
Lemma picture_period fuel gamma gens t : Cmod2 gamma < 1 -> Forall (fun c => 0 < cr c /\ disc_in_disc c (mkCircle (0, 0) 1)) (concat gens) -> mobius_picture fuel gamma gens (t + 2) = mobius_picture fuel gamma gens t.
Proof.
  intros H F. destruct (picture_ok fuel gamma gens t H F) as (M & pic & E & KD & E2 & D). destruct (picture_ok fuel gamma gens (t + 2) H F) as (M' & pic' & E' & KD' & E2' & D'). rewrite E2, E2'. do 2 f_equal.
  destruct (power_group gamma H) as (G & HG & _ & _ & _ & Per). rewrite HG in E, E'. injection E as <-. injection E' as <-.
  apply (Forall2_Forall2_unique (dimg (G t)) gens); [intros x a a'; apply dimg_unique| |exact D].
  clear -D' Per. induction D' as [|g p gens pic Hg D IH]; constructor; [|auto]. clear IH D. induction Hg as [|c c' g p Hc Hg IH]; constructor; [|auto]. apply (dimg_ext (G (t + 2))); auto.
Qed.
