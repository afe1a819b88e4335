(** * Powers of a Möbius transformation: attracting fixed points, invariant circles, periods. *)

From Coq Require Import Reals Lra Lia Psatz List Bool ZArith.
From Verif Require Import Base BaseLemmas Spec SpecLemmas SpecMobius SpecIter ModelMobius PMobius PMobius2 PMobius3 PSteiner.
Import ListNotations.
Local Open Scope R_scope.

(** ** Moduli *)
Lemma cnorm_sq z : cnorm z * cnorm z = Cmod2 z.
Proof. unfold cnorm, Cmod2. apply sqrt_sqrt. nra. Qed.
Lemma cnorm_pos z : 0 <= cnorm z.
Proof. apply sqrt_pos. Qed.
Lemma cnorm_0 z : cnorm z = 0 <-> z = C0.
Proof. rewrite <- Cmod2_0, <- cnorm_sq. pose proof (cnorm_pos z). split; nra. Qed.
Lemma cnorm_gt z : z <> C0 -> 0 < cnorm z.
Proof. intros H. rewrite <- cnorm_0 in H. pose proof (cnorm_pos z). lra. Qed.
Lemma cnorm_mul z w : cnorm (z * w)%C = cnorm z * cnorm w.
Proof.
  apply Rsqr_inj; [apply cnorm_pos|apply Rmult_le_pos; apply cnorm_pos|]. unfold Rsqr. rewrite cnorm_sq, Cmod2_mul, <- !cnorm_sq. ring.
Qed.
Lemma cnorm_1 : cnorm C1 = 1.
Proof. unfold cnorm, C1. cbn [fst snd]. replace (1 * 1 + 0 * 0) with (1 * 1) by ring. apply sqrt_square. lra. Qed.
Lemma cnorm_dist (z w : C) : cnorm (z - w)%C = dist z w.
Proof. unfold cnorm, dist, dist2, sdot, vsub. destruct z, w. unfold Csub. cbn [fst snd]. f_equal. ring. Qed.
Lemma cnorm_pow z n : cnorm (cpow_nat z n) = cnorm z ^ n.
Proof. induction n as [|n IH]; cbn [cpow_nat pow]; [apply cnorm_1|]. rewrite cnorm_mul, IH. reflexivity. Qed.
Lemma cpow_neq z n : z <> C0 -> cpow_nat z n <> C0.
Proof. intros H. induction n as [|n IH]; cbn [cpow_nat]; [intros E; injection E; lra|apply Cmul_neq0; auto]. Qed.
Lemma cnorm_add z w : cnorm (z + w)%C <= cnorm z + cnorm w.
Proof.
  pose proof (dist_triangle z C0 (Copp w)) as T. rewrite <- !cnorm_dist in T. replace (z - - w)%C with (z + w)%C in T by cring. replace (z - C0)%C with z in T by cring. replace (C0 - - w)%C with w in T by cring. exact T.
Qed.
Lemma cnorm_opp z : cnorm (- z)%C = cnorm z.
Proof. unfold cnorm, Copp. cbn [fst snd]. f_equal. ring. Qed.

(** ** One step *)
Definition Lf (z : C) (P : ept) : C := (fst (hom P) - z * snd (hom P))%C.

Lemma fixed_eq M z : mdet M <> C0 -> transform M (Pt z) = Ok (Pt z) -> (ma M * z + mb M = z * (mc M * z + md M))%C /\ (mc M * z + md M)%C <> C0.
Proof.
  intros HD H. apply transform_Ok in H; [|exact HD]. destruct H as (k & Hk & E1 & E2). cbn [hom fst snd] in *. 
  assert (E1' : (ma M * z + mb M = k * z)%C) by (rewrite <- E1; cring). assert (E2' : (mc M * z + md M = k)%C) by (transitivity (k * C1)%C; [rewrite <- E2; cring|cring]).
  rewrite E1', E2'. split; [cring|exact Hk].
Qed.

Lemma other M z w : mdet M <> C0 -> z <> w -> transform M (Pt z) = Ok (Pt z) -> transform M (Pt w) = Ok (Pt w) ->
  (ma M - mc M * z = mc M * w + md M)%C /\ (ma M - mc M * w = mc M * z + md M)%C.
Proof.
  intros HD N Hz Hw. destruct (fixed_eq M z HD Hz) as (Ez & _). destruct (fixed_eq M w HD Hw) as (Ew & _).
  assert (NZ : (z - w)%C <> C0) by (intros K; apply N; apply (proj1 (Csub_0 z w)); auto).
  assert (K : (ma M - mc M * z - (mc M * w + md M))%C = C0).
  { apply (Cmul_cancel (z - w)%C); [exact NZ|]. replace ((z - w) * (ma M - mc M * z - (mc M * w + md M)))%C with ((ma M * z + mb M) - (ma M * w + mb M) - (z * (mc M * z + md M) - w * (mc M * w + md M)))%C by cring. rewrite Ez, Ew. cring. }
  split; [apply (proj1 (Csub_0 _ _)); exact K|]. apply (proj1 (Csub_0 _ _)). rewrite <- K. cring.
Qed.

Lemma step M z P Q k : (ma M * z + mb M = z * (mc M * z + md M))%C ->
  (ma M * fst (hom P) + mb M * snd (hom P) = k * fst (hom Q))%C -> (mc M * fst (hom P) + md M * snd (hom P) = k * snd (hom Q))%C -> (k * Lf z Q = (ma M - mc M * z) * Lf z P)%C.
Proof.
  intros E E1 E2. unfold Lf. replace (k * (fst (hom Q) - z * snd (hom Q)))%C with (k * fst (hom Q) - z * (k * snd (hom Q)))%C by cring. rewrite <- E1, <- E2.
  assert (B : mb M = (z * (mc M * z + md M) - ma M * z)%C) by (rewrite <- E; cring). rewrite B. cring.
Qed.

Lemma iter_two M z w n : mdet M <> C0 -> z <> w -> transform M (Pt z) = Ok (Pt z) -> transform M (Pt w) = Ok (Pt w) -> forall P Q, iterM (transform M) n P = Ok Q ->
  exists k, k <> C0 /\ (k * Lf z Q = cpow_nat (mc M * w + md M) n * Lf z P)%C /\ (k * Lf w Q = cpow_nat (mc M * z + md M) n * Lf w P)%C.
Proof.
  intros HD N Hz Hw. destruct (fixed_eq M z HD Hz) as (Ez & _). destruct (fixed_eq M w HD Hw) as (Ew & _). destruct (other M z w HD N Hz Hw) as (O1 & O2).
  induction n as [|n IH]; intros P Q H; cbn [iterM cpow_nat] in *.
  - apply Ok_inj in H. subst Q. exists C1. split; [intros E; injection E; lra|]. split; cring.
  - apply bind_Ok in H. destruct H as (S & H1 & H2). destruct (IH S Q H2) as (k & Hk & K1 & K2). apply transform_Ok in H1; [|exact HD]. destruct H1 as (j & Hj & J1 & J2).
    pose proof (step M z P S j Ez J1 J2) as T1. pose proof (step M w P S j Ew J1 J2) as T2. rewrite O1 in T1. rewrite O2 in T2.
    exists (k * j)%C. split; [apply Cmul_neq0; auto|]. split.
    + replace (k * j * Lf z Q)%C with (j * (k * Lf z Q))%C by cring. rewrite K1. replace (j * (cpow_nat (mc M * w + md M) n * Lf z S))%C with (cpow_nat (mc M * w + md M) n * (j * Lf z S))%C by cring. rewrite T1. cring.
    + replace (k * j * Lf w Q)%C with (j * (k * Lf w Q))%C by cring. rewrite K2. replace (j * (cpow_nat (mc M * z + md M) n * Lf w S))%C with (cpow_nat (mc M * z + md M) n * (j * Lf w S))%C by cring. rewrite T2. cring.
Qed.

Lemma power_nat M n Mn : mdet M <> C0 -> power M (IZR (Z.of_nat n)) = Ok Mn -> mdet Mn <> C0 /\ forall P, transform Mn P = iterM (transform M) n P.
Proof.
  intros HD H. destruct (power_integer M (Z.of_nat n)) as (M' & E & K). rewrite H in E. apply Ok_inj in E. subst M'. destruct (K HD) as (K1 & K2). split; [exact K1|]. intros P. rewrite K2.
  destruct (Z.ltb_spec (Z.of_nat n) 0); [lia|]. rewrite Nat2Z.id. reflexivity.
Qed.

Lemma iter_ratio M n Mn z w p p' : mdet M <> C0 -> z <> w -> transform M (Pt z) = Ok (Pt z) -> transform M (Pt w) = Ok (Pt w) ->
  power M (IZR (Z.of_nat n)) = Ok Mn -> transform Mn (Pt p) = Ok (Pt p') ->
  ((p' - z) * (p - w) * cpow_nat (mc M * z + md M) n = cpow_nat (mc M * w + md M) n * (p - z) * (p' - w))%C /\
  dist p' z * dist p w * cnorm (mc M * z + md M)%C ^ n = cnorm (mc M * w + md M)%C ^ n * dist p z * dist p' w.
Proof.
  intros HD N Hz Hw HP HT. destruct (power_nat M n Mn HD HP) as (_ & K). rewrite K in HT. destruct (iter_two M z w n HD N Hz Hw _ _ HT) as (k & Hk & K1 & K2). unfold Lf in K1, K2. cbn [hom fst snd] in K1, K2.
  assert (S : forall x y : C, (x - y * C1 = x - y)%C) by (intros; cring). rewrite !S in K1, K2.
  assert (E : ((p' - z) * (p - w) * cpow_nat (mc M * z + md M) n = cpow_nat (mc M * w + md M) n * (p - z) * (p' - w))%C).
  { apply (Cmul_cancel k); [exact Hk|]. replace (k * ((p' - z) * (p - w) * cpow_nat (mc M * z + md M) n))%C with ((k * (p' - z)) * (cpow_nat (mc M * z + md M) n * (p - w)))%C by cring. rewrite K1, <- K2. cring. }
  split; [exact E|]. apply (f_equal cnorm) in E. rewrite !cnorm_mul, !cnorm_pow in E. rewrite <- (cnorm_dist p' z), <- (cnorm_dist p w), <- (cnorm_dist p z), <- (cnorm_dist p' w). exact E.
Qed.

(** ** The attracting fixed point *)
Definition away (d : R) (w : pt) (P : ept) : Prop := match P with Inf => True | Pt p => d <= dist p w end.

Lemma Lf_away z w d P : 0 < d -> away d w P -> Lf w P <> C0 /\ cnorm (Lf z P) <= (1 + dist z w / d) * cnorm (Lf w P).
Proof.
  intros Hd HP. unfold Lf. pose proof (dist_nonneg z w) as Dz. assert (Dd : 0 <= dist z w / d) by (unfold Rdiv; apply Rmult_le_pos; [auto|left; apply Rinv_0_lt_compat; auto]). destruct P as [p|]; cbn [away hom fst snd] in *.
  - replace (p - w * C1)%C with (p - w)%C by cring. replace (p - z * C1)%C with (p - z)%C by cring. rewrite !cnorm_dist. split.
    + intros E. assert (D : dist p w = 0) by (rewrite <- cnorm_dist, E; apply cnorm_0; reflexivity). lra.
    + pose proof (dist_triangle p w z) as T. rewrite (dist_sym w z) in T. assert (dist z w <= dist z w / d * dist p w). { replace (dist z w) with (dist z w / d * d) at 1 by (field; lra). apply Rmult_le_compat_l; auto. } lra.
  - replace (C1 - w * C0)%C with C1 by cring. replace (C1 - z * C0)%C with C1 by cring. rewrite cnorm_1. split; [intros E; injection E; lra|lra].
Qed.

Lemma attracting M z w : mdet M <> C0 -> z <> w -> transform M (Pt z) = Ok (Pt z) -> transform M (Pt w) = Ok (Pt w) -> cnorm (mc M * w + md M)%C < cnorm (mc M * z + md M)%C ->
  forall d eps, 0 < d -> 0 < eps -> exists N, forall n Mn P, (N <= n)%nat -> power M (IZR (Z.of_nat n)) = Ok Mn -> away d w P -> exists p', transform Mn P = Ok (Pt p') /\ dist p' z < eps.
Proof.
  intros HD NZ Hz Hw HL d eps Hd He. destruct (fixed_eq M z HD Hz) as (_ & Nz). destruct (fixed_eq M w HD Hw) as (_ & Nw). set (lz := (mc M * z + md M)%C) in *. set (lw := (mc M * w + md M)%C) in *.
  pose proof (cnorm_gt _ Nz) as Pz. pose proof (cnorm_gt _ Nw) as Pw. set (e := cnorm lw / cnorm lz). assert (E0 : 0 < e) by (apply Rdiv_lt_0_compat; auto). assert (E1 : e < 1) by (apply Rmult_lt_reg_r with (cnorm lz); [auto|]; unfold e, Rdiv; rewrite Rmult_assoc, Rinv_l, Rmult_1_r, Rmult_1_l by lra; exact HL).
  set (D := dist z w). assert (PD : 0 < D) by (apply dist_pos; auto). set (K := 1 + D / d). assert (PK : 1 < K) by (assert (0 < D / d) by (apply Rdiv_lt_0_compat; auto); unfold K; lra).
  set (y := Rmin (1 / 2) (eps / (2 * D)) / K). assert (Y : 0 < y). { unfold y. apply Rdiv_lt_0_compat; [|lra]. apply Rmin_pos; [lra|]. apply Rdiv_lt_0_compat; lra. }
  destruct (pow_lt_1_zero e ltac:(rewrite Rabs_pos_eq; lra) y Y) as (N & HN). exists N. intros n Mn P Hn HP HA. specialize (HN n Hn). assert (0 < e ^ n) by (apply pow_lt; auto). rewrite Rabs_pos_eq in HN by lra.
  set (eta := e ^ n * K). assert (Pe : 0 < eta) by (apply Rmult_lt_0_compat; lra). assert (Le : eta < Rmin (1 / 2) (eps / (2 * D))). { unfold eta. apply Rmult_lt_reg_r with (/ K); [apply Rinv_0_lt_compat; lra|]. rewrite Rmult_assoc, Rinv_r, Rmult_1_r by lra. exact HN. }
  pose proof (Rmin_l (1 / 2) (eps / (2 * D))) as M1. pose proof (Rmin_r (1 / 2) (eps / (2 * D))) as M2.
  destruct (power_nat M n Mn HD HP) as (_ & T). rewrite T. destruct (iterM_total M n HD P) as (Q & HQ). rewrite HQ. destruct (iter_two M z w n HD NZ Hz Hw P Q HQ) as (k & Hk & K1 & K2). fold lz in K2. fold lw in K1.
  destruct (Lf_away z w d P Hd HA) as (NP & BP). fold D in BP. fold K in BP.
  assert (B : cnorm (Lf z Q) <= eta * cnorm (Lf w Q)).
  { apply (f_equal cnorm) in K1. apply (f_equal cnorm) in K2. rewrite !cnorm_mul, cnorm_pow in K1, K2. pose proof (cnorm_gt _ Hk) as Pk. apply Rmult_le_reg_l with (cnorm k); [exact Pk|]. rewrite K1. replace (cnorm k * (eta * cnorm (Lf w Q))) with (eta * (cnorm k * cnorm (Lf w Q))) by ring. rewrite K2.
    assert (EN : cnorm lw ^ n = e ^ n * cnorm lz ^ n). { rewrite <- Rpow_mult_distr. f_equal. unfold e. field. lra. } rewrite EN. unfold eta. 
    replace (e ^ n * K * (cnorm lz ^ n * cnorm (Lf w P))) with (e ^ n * cnorm lz ^ n * (K * cnorm (Lf w P))) by ring. apply Rmult_le_compat_l; [|exact BP]. apply Rmult_le_pos; [lra|apply pow_le; lra]. }
  unfold Lf in B. destruct Q as [q|]; cbn [hom fst snd] in B.
  - exists q. split; [reflexivity|]. replace (q - z * C1)%C with (q - z)%C in B by cring. replace (q - w * C1)%C with (q - w)%C in B by cring. rewrite !cnorm_dist in B. pose proof (dist_triangle q z w) as TT. fold D in TT. pose proof (dist_nonneg q z) as Dq.
    assert (B2 : dist q z <= 2 * (eta * D)) by nra. apply Rle_lt_trans with (1 := B2). assert (eta < eps / (2 * D)) by lra. apply Rmult_lt_reg_r with (/ (2 * D)); [apply Rinv_0_lt_compat; lra|]. replace (2 * (eta * D) * / (2 * D)) with eta by (field; lra). exact H0.
  - exfalso. replace (C1 - z * C0)%C with C1 in B by cring. replace (C1 - w * C0)%C with C1 in B by cring. rewrite cnorm_1 in B. lra.
Qed.
