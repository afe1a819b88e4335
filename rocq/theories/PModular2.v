(** * The modular tessellation: the rotation R^u and the map to the unit disc. *)

From Coq Require Import Reals Lra Lia Psatz List Bool ZArith.
From Verif Require Import Base BaseLemmas Spec SpecLemmas SpecMobius SpecTriangle SpecGasket ModelInternal ModelLine ModelCircle ModelTriangle ModelInversion ModelMobius ModelFarey ModelModular
  PMobius PMobius2 PMobius3 PMobius4 PFarey PDisc PModular1.
Import ListNotations.
Local Open Scope R_scope.

Lemma mobR_eq : mobR = mkMob C0 (RtoC (-1)) C1 C1.
Proof. unfold mobR, compose, matmul, mobT, mobU. cbn [ma mb mc md]. f_equal; unC; f_equal; ring. Qed.
Lemma mobR_det : mdet mobR <> C0.
Proof. rewrite mobR_eq. unfold mdet. cbn [ma mb mc md]. unC. intros E. injection E as E. lra. Qed.

Lemma eig_R l1 l2 : (l1 + l2 = C1)%C -> (l1 * l2 = C1)%C -> fst l1 = 1 / 2 /\ snd l1 * snd l1 = 3 / 4 /\ l2 = Cconj l1.
Proof.
  destruct l1 as [x y], l2 as [x' y']. unC. intros E1 E2. injection E1 as A1 A2. injection E2 as B1 B2. assert (x' = 1 - x) by lra. assert (y' = - y) by lra. subst.
  assert (K : y * (1 - 2 * x) = 0) by lra. apply Rmult_integral in K. destruct K as [->|K]; [exfalso; nra|]. assert (x = 1 / 2) by lra. subst x. repeat split; try nra. f_equal; lra.
Qed.

Lemma lin_eq l y s c : fst l = 1 / 2 -> y * snd l = s -> (RtoC (c - y / 2) + RtoC y * l)%C = (c, s).
Proof. destruct l as [p q]. cbn [fst snd]. intros -> <-. unC. f_equal; field. Qed.

Lemma gpower_R arg eig u : is_arg arg -> eig_ok eig mobR -> exists k x y, k <> C0 /\ x * x + x * y + y * y = 1 /\
  gpower arg eig mobR u = Ok (mscal k (rmob x (- y) y (x + y))).
Proof.
  intros HA HE. unfold gpower.
  assert (Edisc : ltb (cabs ((ma mobR + md mobR) * (ma mobR + md mobR) - RtoC 4 * mdet mobR)%C) sepsilon_ = false).
  { apply ltb_false. replace ((ma mobR + md mobR) * (ma mobR + md mobR) - RtoC 4 * mdet mobR)%C with (RtoC (-3)) by (rewrite mobR_eq; unfold mdet; cbn [ma mb mc md]; unC; f_equal; ring). unfold RtoC. rewrite cabs_real.
    rewrite Rabs_left by lra. unfold sepsilon_. lra. }
  rewrite Edisc. unfold eig_ok in HE. destruct (eig mobR) as [[l1 l2] V]. rewrite mobR_eq in HE. cbn [ma mb mc md] in HE.
  pose proof HE as HE'. destruct HE as (E1 & E2 & E3 & E4 & N1 & N2 & Tr & Dt).
  assert (Tr' : (l1 + l2)%C = C1) by (rewrite Tr; cring). assert (Dt' : (l1 * l2)%C = C1) by (rewrite Dt; unC; f_equal; ring).
  destruct (eig_R l1 l2 Tr' Dt') as (Hx & Hy & Hc). assert (Ny : snd l1 <> 0) by (intros K; rewrite K in Hy; lra).
  assert (HL : l1 <> l2). { rewrite Hc. destruct l1 as [a b]. unC. intros K. injection K as K. apply Ny. lra. }
  assert (L1 : l1 <> C0) by (intros ->; apply Ny; reflexivity). assert (L2 : l2 <> C0) by (intros ->; apply C1_neq_0; rewrite <- Dt'; cring).
  pose proof (eigen_invertible _ _ _ _ _ _ _ _ _ _ HE' HL) as DV. destruct (matinv_spec V DV) as (Q & EQ & Q1 & Q2).
  rewrite !cpow_eq by auto. cbn [bind]. rewrite EQ. cbn [bind].
  assert (A1 : cabs l1 = 1). { unfold cabs, mod2_. rewrite Hx, Hy. replace (1 / 2 * (1 / 2) + 3 / 4) with 1 by field. apply sqrt_1. }
  assert (A2 : cabs l2 = 1). { rewrite Hc. unfold cabs, mod2_, Cconj. cbn [fst snd]. rewrite Hx. replace (1 / 2 * (1 / 2) + - snd l1 * - snd l1) with 1 by (transitivity (1 / 4 + snd l1 * snd l1); [rewrite Hy; field|field]). apply sqrt_1. }
  assert (R1 : forall t, Rpower 1 t = 1) by (intros t; unfold Rpower; rewrite ln_1, Rmult_0_r, exp_0; auto).
  assert (P1 : cpw arg l1 u = (cos (u * arg l1), sin (u * arg l1))) by (unfold cpw; rewrite A1, R1; f_equal; ring).
  assert (P2 : cpw arg l2 u = (cos (u * arg l2), sin (u * arg l2))) by (unfold cpw; rewrite A2, R1; f_equal; ring).
  set (a := u * arg l1) in *. set (b := u * arg l2) in *. set (mu := (a + b) / 2). set (de := (a - b) / 2).
  set (y := sin de / snd l1). set (x := cos de - y / 2).
  pose proof (sin2_cos2 de) as SC. pose proof (sin2_cos2 mu) as SM. unfold Rsqr in SC, SM.
  assert (Ys : y * snd l1 = sin de) by (unfold y; field; auto).
  assert (Q34 : y * y * (3 / 4) = sin de * sin de) by (rewrite <- Ys, <- Hy; ring).
  exists (cos mu, sin mu), x, y. split; [|split].
  - intros K. unfold C0 in K. injection K as K1 K2. rewrite K1, K2 in SM. lra.
  - unfold x. nra.
  - f_equal. set (B := mscal _ _).
    assert (K1 : ((cos mu, sin mu) * (RtoC x + RtoC y * l1))%C = cpw arg l1 u).
    { rewrite P1. replace a with (mu + de) by (unfold mu, de; field). rewrite cos_plus, sin_plus. unfold x. rewrite (lin_eq l1 y (sin de) (cos de) Hx Ys). unC. f_equal; ring. }
    assert (K2 : ((cos mu, sin mu) * (RtoC x + RtoC y * l2))%C = cpw arg l2 u).
    { rewrite P2. replace b with (mu - de) by (unfold mu, de; field). rewrite cos_minus, sin_minus. unfold x. rewrite (lin_eq l2 y (- sin de) (cos de)); [unC; f_equal; ring| |]; rewrite Hc; unfold Cconj; cbn [fst snd]; [exact Hx|rewrite <- Ys; ring]. }
    assert (EB : matmul B V = matmul V (mdiag (cpw arg l1 u) (cpw arg l2 u))).
    { rewrite <- K1, <- K2. unfold B. clear -E1 E2 E3 E4. clearbody x y. generalize (cos mu, sin mu). intros k. unfold mscal, rmob, matmul, mdiag. cbn [ma mb mc md].
      replace (RtoC (- y)) with (RtoC y * RtoC (-1))%C by (unC; f_equal; ring). replace (RtoC (x + y)) with (RtoC x + RtoC y)%C by (unC; f_equal; ring).
      apply mob_eq; cbn [ma mb mc md].
      - transitivity (k * (RtoC x * ma V + RtoC y * (C0 * ma V + RtoC (-1) * mc V)))%C; [cring|]. rewrite E1. cring.
      - transitivity (k * (RtoC x * mb V + RtoC y * (C0 * mb V + RtoC (-1) * md V)))%C; [cring|]. rewrite E3. cring.
      - transitivity (k * (RtoC x * mc V + RtoC y * (C1 * ma V + C1 * mc V)))%C; [cring|]. rewrite E2. cring.
      - transitivity (k * (RtoC x * md V + RtoC y * (C1 * mb V + C1 * md V)))%C; [cring|]. rewrite E4. cring. }
    rewrite <- EB, matmul_assoc, Q1, matmul_1_r. reflexivity.
Qed.

Lemma Phi_det : mdet mobPhi <> C0.
Proof. unfold mdet, mobPhi, Ci. cbn [ma mb mc md]. unC. intros E. injection E as E. lra. Qed.

Lemma Phi_up z : 0 < snd z -> exists w, transform mobPhi (Pt z) = Ok (Pt w) /\ Cmod2 w < 1.
Proof.
  intros Hz. destruct z as [x y]. cbn [snd] in Hz.
  assert (P : 0 < Cmod2 (C1 * (x, y) + Ci)%C) by (unfold Cmod2, Ci; unC; nra).
  assert (Hk : (C1 * (x, y) + Ci)%C <> C0) by (intros K; rewrite K in P; unfold Cmod2, C0 in P; cbn [fst snd] in P; lra).
  eexists. split; [apply transform_fin; [exact Phi_det|]; split; [exact Hk|reflexivity]|]. unfold mobPhi. cbn [ma mb mc md]. rewrite Cmod2_div by auto. apply (Rmult_lt_reg_r (Cmod2 (C1 * (x, y) + Ci)%C)); [auto|].
  unfold Rdiv. rewrite Rmult_assoc, Rinv_l by lra. unfold Cmod2, Ci. unC. nra.
Qed.

(** the transformations of the program: first an integer matrix, then [G] *)
Definition half_to_disc (G : mobius) : Prop := mdet G <> C0 /\ forall z, 0 < snd z -> exists w, transform G (Pt z) = Ok (Pt w) /\ Cmod2 w < 1.

Lemma G_ok arg eig u : is_arg arg -> eig_ok eig mobR -> exists Ru, gpower arg eig mobR u = Ok Ru /\ mdet Ru <> C0 /\ (forall z, 0 < snd z -> exists w, transform Ru (Pt z) = Ok (Pt w) /\ 0 < snd w) /\ half_to_disc (matmul mobPhi Ru).
Proof.
  intros HA HE. destruct (gpower_R arg eig u HA HE) as (k & x & y & Hk & Hq & E). exists (mscal k (rmob x (- y) y (x + y))). split; [exact E|].
  assert (D : 0 < x * (x + y) - - y * y) by (replace (x * (x + y) - - y * y) with (x * x + x * y + y * y) by ring; lra).
  assert (Dr : mdet (rmob x (- y) y (x + y)) <> C0) by (apply rmob_det; lra).
  assert (Ds : mdet (mscal k (rmob x (- y) y (x + y))) <> C0) by (rewrite mscal_det; repeat apply Cmul_neq0; auto). split; [exact Ds|].
  assert (Up : forall z, 0 < snd z -> exists w, transform (mscal k (rmob x (- y) y (x + y))) (Pt z) = Ok (Pt w) /\ 0 < snd w).
  { intros z Hz. rewrite transform_scal by auto. destruct (rmob_up x (- y) y (x + y) z D Hz) as (w & E1 & P & _). eauto. }
  split; [exact Up|]. split; [rewrite mdet_matmul; apply Cmul_neq0; [exact Phi_det|exact Ds]|].
  intros z Hz. rewrite transform_matmul by (auto; exact Phi_det). destruct (Up z Hz) as (w & -> & Hw). cbn [bind]. exact (Phi_up w Hw).
Qed.

(** [c] is the image of the disc of [circI] by [m], then [G] *)
Definition img_of (G : mobius) (m : zmat) (c : circle) : Prop := 0 < cr c /\
  (forall w, opn c w <-> exists z v, opn circI z /\ transform (zmob m) (Pt z) = Ok (Pt v) /\ transform G (Pt v) = Ok (Pt w)) /\
  (forall w, cls c w <-> exists z v, cls circI z /\ transform (zmob m) (Pt z) = Ok (Pt v) /\ transform G (Pt v) = Ok (Pt w)).

Lemma img_of_exists fuel G m : half_to_disc G -> zdet m = 1%Z -> exists c, transform_circle fuel (matmul G (zmob m)) circI = Some (Ok (GC c)) /\ img_of G m c.
Proof.
  intros (DG & HG) Dm. pose proof (zmob_det m Dm) as Dz.
  assert (D : mdet (matmul G (zmob m)) <> C0) by (rewrite mdet_matmul; apply Cmul_neq0; auto).
  destruct (disc_image fuel (matmul G (zmob m)) circI D) as (c & E & P & H1 & H2).
  - cbn [circI cr]. lra.
  - intros z Hz K. apply transform_pole in K; auto. rewrite transform_matmul in K by auto. destruct (zmob_up m z Dm (cls_I_up z Hz)) as (v & Ev & Pv). rewrite Ev in K. cbn [bind] in K.
    destruct (HG v Pv) as (w & Ew & _). rewrite Ew in K. discriminate.
  - exists c. split; [exact E|]. split; [exact P|].
    assert (T : forall z w, 0 < snd z -> (transform (matmul G (zmob m)) (Pt z) = Ok (Pt w) <-> exists v, transform (zmob m) (Pt z) = Ok (Pt v) /\ transform G (Pt v) = Ok (Pt w))).
    { intros z w Hz. rewrite transform_matmul by auto. destruct (zmob_up m z Dm Hz) as (v & Ev & Pv). rewrite Ev. cbn [bind]. split; [eauto|]. intros (v' & Ev' & Ew). injection Ev' as <-. exact Ew. }
    split; intros w; [rewrite H1|rewrite H2]; split.
    + intros (z & Hz & E1). apply T in E1; [|apply cls_I_up, opn_cls; auto]. destruct E1 as (v & E1 & E2). eauto.
    + intros (z & v & Hz & E1 & E2). exists z. split; auto. apply T; [apply cls_I_up, opn_cls; auto|]. eauto.
    + intros (z & Hz & E1). apply T in E1; [|apply cls_I_up; auto]. destruct E1 as (v & E1 & E2). eauto.
    + intros (z & v & Hz & E1 & E2). exists z. split; auto. apply T; [apply cls_I_up; auto|]. eauto.
Qed.

(** ** consequences *)
Lemma img_in_disc G m c w : half_to_disc G -> zdet m = 1%Z -> img_of G m c -> cls c w -> Cmod2 w < 1.
Proof.
  intros (DG & HG) Dm (P & _ & H) Hw. apply H in Hw. destruct Hw as (z & v & Hz & Ev & Ew). destruct (zmob_up m z Dm (cls_I_up z Hz)) as (v' & Ev' & Pv). rewrite Ev in Ev'. injection Ev' as <-.
  destruct (HG v Pv) as (w' & Ew' & K). rewrite Ew in Ew'. injection Ew' as <-. exact K.
Qed.

Lemma img_opp G m c : zdet m = 1%Z -> img_of G (zopp m) c <-> img_of G m c.
Proof.
  intros Dm. assert (T : forall P, transform (zmob (zopp m)) P = transform (zmob m) P) by (intros; apply transform_zopp; auto).
  assert (S : forall (D : pt -> Prop) (w : pt), (exists z v, D z /\ transform (zmob (zopp m)) (Pt z) = Ok (Pt v) /\ transform G (Pt v) = Ok (Pt w)) <-> (exists z v, D z /\ transform (zmob m) (Pt z) = Ok (Pt v) /\ transform G (Pt v) = Ok (Pt w))).
  { intros D w. split; intros (z & v & H1 & H2 & H3); exists z, v; [rewrite T in H2|rewrite T]; auto. }
  unfold img_of. split; (intros (A & B & B'); split; [exact A|]; split; intros w; [rewrite B|rewrite B']; [|]; first [apply S|symmetry; apply S]).
Qed.

Lemma img_pair G m m' c c' : half_to_disc G -> zdet m = 1%Z -> zdet m' = 1%Z -> img_of G m c -> img_of G m' c' ->
  ((m' = m \/ m' = zopp m) /\ c = c') \/ not_overlapping c c'.
Proof.
  intros (DG & HG) Dm Dm' H H'.
  assert (Dec : (m' = m \/ m' = zopp m) \/ ~ (m' = m \/ m' = zopp m)).
  { assert (Z2 : forall a b : zmat, {a = b} + {a <> b}) by (intros; repeat decide equality). destruct (Z2 m' m), (Z2 m' (zopp m)); tauto. }
  destruct Dec as [Q|NQ].
  - left. split; [exact Q|]. assert (H2 : img_of G m c') by (destruct Q as [->| ->]; [auto|apply (img_opp G m c' Dm); auto]). destruct H as (P & O & _), H2 as (P' & O' & _). apply disc_ext; auto. intros w. rewrite O, O'. tauto.
  - right. destruct H as (P & O & _), H' as (P' & O' & _). apply opn_disjoint; auto. intros w Hw Hw'. apply O in Hw. apply O' in Hw'. destruct Hw as (z & v & Hz & Ev & Ew), Hw' as (z' & v' & Hz' & Ev' & Ew').
    assert (v' = v) by (pose proof (transform_inj G _ _ _ DG Ew Ew') as K; injection K; auto). subst v'. apply NQ. exact (fund_meet m m' z z' v Dm Dm' (opn_I_fundom z Hz) (opn_I_fundom z' Hz') Ev Ev').
Qed.

(** ** the circle [TI] *)
Definition circTI : circle := mkCircle (0, 3 / 4) (1 / 4).
Definition zT : zmat := mkZM 0 (-1) 1 0.
Lemma mobT_z : mobT = zmob zT.
Proof. reflexivity. Qed.
Lemma TI_eq fuel : transform_circle fuel mobT circI = Some (Ok (GC circTI)).
Proof.
  assert (D : mdet mobT <> C0) by (rewrite mobT_z; apply zmob_det; reflexivity).
  rewrite transform_circle_far; [|exact D|cbn [circI cr]; lra|].
  - unfold img_centre, img_radius, circI, mobT, mdet. cbn [ma mb mc md cO cr].
    assert (K : Cmod2 (C0 + C1 * (0, (3 / 2)%R))%C - 1 / 2 * (1 / 2) * Cmod2 C1 = 2) by (unfold Cmod2; unC; field). rewrite K.
    assert (K2 : Cmod2 (C0 * C0 - C1 * RtoC (-1))%C = 1) by (unfold Cmod2; unC; ring). rewrite K2, sqrt_1, Rabs_right by lra. unfold circTI. do 3 f_equal. f_equal; [|field]. unC. f_equal; field.
  - unfold circI, mobT. cbn [mc md cO cr]. unfold Cmod2. unC. lra.
Qed.
Lemma TI_img v : (opn circTI v <-> exists z, opn circI z /\ transform mobT (Pt z) = Ok (Pt v)) /\ (cls circTI v <-> exists z, cls circI z /\ transform mobT (Pt z) = Ok (Pt v)).
Proof.
  assert (D : mdet mobT <> C0) by (rewrite mobT_z; apply zmob_det; reflexivity).
  destruct (disc_image 0 mobT circI D) as (c & E & P & H1 & H2).
  - cbn [circI cr]. lra.
  - intros z Hz K. apply cls_I_up in Hz. destruct z as [x y]. unfold mobT in K. cbn [mc md snd] in *. unC. injection K as K1 K2. lra.
  - rewrite TI_eq in E. injection E as <-. split; auto.
Qed.

Lemma img_of_TI fuel G m : half_to_disc G -> zdet m = 1%Z -> exists c, transform_circle fuel (matmul G (zmob m)) circTI = Some (Ok (GC c)) /\ img_of G (zmul m zT) c.
Proof.
  intros (DG & HG) Dm. pose proof (zmob_det m Dm) as Dz. assert (DT : mdet mobT <> C0) by (rewrite mobT_z; apply zmob_det; reflexivity).
  assert (D : mdet (matmul G (zmob m)) <> C0) by (rewrite mdet_matmul; apply Cmul_neq0; auto).
  assert (Up : forall z, cls circTI z -> 0 < snd z) by (intros [x y]; unfold cls, circTI; cbn [cO cr]; unspec; simpl; intros; nra).
  destruct (disc_image fuel (matmul G (zmob m)) circTI D) as (c & E & P & H1 & H2).
  - cbn [circTI cr]. lra.
  - intros z Hz K. apply transform_pole in K; auto. rewrite transform_matmul in K by auto. destruct (zmob_up m z Dm (Up z Hz)) as (v & Ev & Pv). rewrite Ev in K. cbn [bind] in K.
    destruct (HG v Pv) as (w & Ew & _). rewrite Ew in K. discriminate.
  - exists c. split; [exact E|]. split; [exact P|].
    assert (T : forall z w, 0 < snd z -> (transform (matmul G (zmob m)) (Pt z) = Ok (Pt w) <-> exists v, transform (zmob m) (Pt z) = Ok (Pt v) /\ transform G (Pt v) = Ok (Pt w))).
    { intros z w Hz. rewrite transform_matmul by auto. destruct (zmob_up m z Dm Hz) as (v & Ev & Pv). rewrite Ev. cbn [bind]. split; [eauto|]. intros (v' & Ev' & Ew). injection Ev' as <-. exact Ew. }
    assert (T2 : forall z v, 0 < snd z -> (transform (zmob (zmul m zT)) (Pt z) = Ok (Pt v) <-> exists z', transform mobT (Pt z) = Ok (Pt z') /\ transform (zmob m) (Pt z') = Ok (Pt v))).
    { intros z v Hz. rewrite <- zmob_mul, <- mobT_z, transform_matmul by auto. destruct (zmob_up zT z eq_refl Hz) as (z' & Ez' & Pz'). rewrite <- mobT_z in Ez'. rewrite Ez'. cbn [bind]. split; [eauto|]. intros (z'' & Ez'' & Ew). injection Ez'' as <-. exact Ew. }
    split; intros w; [rewrite H1|rewrite H2]; split.
    + intros (z' & Hz' & E1). apply T in E1; [|apply Up, opn_cls; auto]. destruct E1 as (v & E1 & E2). apply TI_img in Hz'. destruct Hz' as (z & Hz & Ez). exists z, v. split; [auto|]. split; [|auto]. apply T2; [apply cls_I_up, opn_cls; auto|]. eauto.
    + intros (z & v & Hz & E1 & E2). apply T2 in E1; [|apply cls_I_up, opn_cls; auto]. destruct E1 as (z' & Ez & E1). assert (Hz' : opn circTI z') by (apply TI_img; eauto). exists z'. split; auto. apply T; [apply Up, opn_cls; auto|]. eauto.
    + intros (z' & Hz' & E1). apply T in E1; [|apply Up; auto]. destruct E1 as (v & E1 & E2). apply TI_img in Hz'. destruct Hz' as (z & Hz & Ez). exists z, v. split; [auto|]. split; [|auto]. apply T2; [apply cls_I_up; auto|]. eauto.
    + intros (z & v & Hz & E1 & E2). apply T2 in E1; [|apply cls_I_up; auto]. destruct E1 as (z' & Ez & E1). assert (Hz' : cls circTI z') by (apply TI_img; eauto). exists z'. split; auto. apply T; [apply Up; auto|]. eauto.
Qed.

(** the two circles of a pair touch each other *)
Lemma img_touch G m c c' : half_to_disc G -> zdet m = 1%Z -> img_of G m c -> img_of G (zmul m zT) c' -> circles_touch c c'.
Proof.
  intros HG Dm H H'. assert (Dt : zdet (zmul m zT) = 1%Z) by (apply zmul_det; auto).
  destruct (img_pair G m (zmul m zT) c c' HG Dm Dt H H') as [([Q|Q] & _)|NO].
  - exfalso. destruct m as [a b c0 d]. unfold zmul, zT, zdet in *. cbn [m11 m12 m21 m22] in *. injection Q as Q1 Q2 Q3 Q4. nia.
  - exfalso. destruct m as [a b c0 d]. unfold zmul, zT, zdet, zopp in *. cbn [m11 m12 m21 m22] in *. injection Q as Q1 Q2 Q3 Q4. nia.
  - destruct HG as (DG & HG). destruct H as (P & _ & O), H' as (P' & _ & O').
    destruct (zmob_up m (0, 1) Dm ltac:(simpl; lra)) as (v & Ev & Pv). destruct (HG v Pv) as (w & Ew & _).
    assert (I1 : cls circI (0, 1)) by (unfold cls, circI; cbn [cO cr]; unspec; simpl; lra).
    assert (K : cls c w) by (apply O; eauto). assert (K' : cls c' w).
    { apply O'. exists (0, 1), v. split; [exact I1|]. split; [|exact Ew]. rewrite <- zmob_mul, <- mobT_z. assert (DT : mdet mobT <> C0) by (rewrite mobT_z; apply zmob_det; reflexivity). rewrite transform_matmul by (auto; apply zmob_det; auto).
      replace (transform mobT (Pt (0, 1))) with (Ok (Pt (0, 1))); [exact Ev|]. symmetry. apply transform_fin; [exact DT|]. unfold mobT. cbn [ma mb mc md]. unC. split; [intros E; injection E as E; lra|f_equal; field]. }
    pose proof (cls_common c c' w P P' K K') as L. unfold not_overlapping in NO. unfold circles_touch, ext_tangent. lra.
Qed.
