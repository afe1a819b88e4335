(** * Powers of a Möbius transformation, continued: periods, the parabolic case, the trace. *)

From Coq Require Import Reals Lra Lia Psatz List Bool ZArith.
From Verif Require Import Base BaseLemmas Spec SpecLemmas SpecMobius SpecIter ModelMobius PMobius PMobius2 PMobius3 PSteiner PMobIter.
Import ListNotations.
Local Open Scope R_scope.

(** ** Integer powers *)
Lemma inv_fixed M P : mdet M <> C0 -> transform M P = Ok P -> transform (inverse M) P = Ok P.
Proof. intros HD H. apply (transform_inverse M P P HD). exact H. Qed.

Lemma inv_lambda M z : (mc (inverse M) * z + md (inverse M) = ma M - mc M * z)%C.
Proof. unfold inverse. cbn [mc md]. cring. Qed.

Lemma power_neg M n Mn : mdet M <> C0 -> power M (IZR (- Z.of_nat n)) = Ok Mn -> exists Mk, power (inverse M) (IZR (Z.of_nat n)) = Ok Mk /\ forall P, transform Mn P = transform Mk P.
Proof.
  intros HD H. assert (HI : mdet (inverse M) <> C0) by (rewrite mdet_inverse; exact HD). destruct (power_integer (inverse M) (Z.of_nat n)) as (Mk & E & K). exists Mk. split; [exact E|]. intros P. destruct (K HI) as (_ & K2). rewrite K2.
  destruct (power_integer M (- Z.of_nat n)) as (M' & E' & K'). rewrite H in E'. apply Ok_inj in E'. subst M'. destruct (K' HD) as (_ & K3). rewrite K3.
  destruct (Z.ltb_spec (Z.of_nat n) 0); [lia|]. destruct (Z.ltb_spec (- Z.of_nat n) 0).
  - f_equal. lia.
  - assert (n = 0%nat) by lia. subst n. reflexivity.
Qed.

Lemma repelling M z w : mdet M <> C0 -> z <> w -> transform M (Pt z) = Ok (Pt z) -> transform M (Pt w) = Ok (Pt w) -> cnorm (mc M * w + md M)%C < cnorm (mc M * z + md M)%C ->
  forall d eps, 0 < d -> 0 < eps -> exists N, forall n Mn P, (N <= n)%nat -> power M (IZR (- Z.of_nat n)) = Ok Mn -> away d z P -> exists p', transform Mn P = Ok (Pt p') /\ dist p' w < eps.
Proof.
  intros HD NZ Hz Hw HL d eps Hd He. destruct (other M z w HD NZ Hz Hw) as (O1 & O2).
  assert (HI : mdet (inverse M) <> C0) by (rewrite mdet_inverse; exact HD).
  destruct (attracting (inverse M) w z HI (fun E => NZ (eq_sym E)) (inv_fixed _ _ HD Hw) (inv_fixed _ _ HD Hz)) with (d := d) (eps := eps) as (N & HN); auto.
  { rewrite !inv_lambda, O1, O2. exact HL. }
  exists N. intros n Mn P Hn HP HA. destruct (power_neg M n Mn HD HP) as (Mk & E & K). rewrite K. apply (HN n Mk P); auto.
Qed.


(** ** Fixed points of equal weight *)
Lemma neutral_nat M n Mn z w p p' : mdet M <> C0 -> z <> w -> transform M (Pt z) = Ok (Pt z) -> transform M (Pt w) = Ok (Pt w) ->
  cnorm (mc M * w + md M)%C = cnorm (mc M * z + md M)%C -> power M (IZR (Z.of_nat n)) = Ok Mn -> transform Mn (Pt p) = Ok (Pt p') -> dist p' z * dist p w = dist p z * dist p' w.
Proof.
  intros HD N Hz Hw HL HP HT. destruct (iter_ratio M n Mn z w p p' HD N Hz Hw HP HT) as (_ & E). rewrite HL in E. destruct (fixed_eq M z HD Hz) as (_ & Nz). pose proof (cnorm_gt _ Nz) as G.
  assert (0 < cnorm (mc M * z + md M)%C ^ n) by (apply pow_lt; exact G). apply Rmult_eq_reg_r with (cnorm (mc M * z + md M)%C ^ n); [|lra]. rewrite E. ring.
Qed.

Lemma neutral M k Mk z w p p' : mdet M <> C0 -> z <> w -> transform M (Pt z) = Ok (Pt z) -> transform M (Pt w) = Ok (Pt w) ->
  cnorm (mc M * w + md M)%C = cnorm (mc M * z + md M)%C -> power M (IZR k) = Ok Mk -> transform Mk (Pt p) = Ok (Pt p') -> dist p' z * dist p w = dist p z * dist p' w.
Proof.
  intros HD N Hz Hw HL HP HT. destruct (Z_le_gt_dec 0 k) as [L|L].
  - apply (neutral_nat M (Z.to_nat k) Mk); auto. rewrite Z2Nat.id by auto. exact HP.
  - replace k with (- Z.of_nat (Z.to_nat (- k)))%Z in HP by lia. destruct (power_neg M _ Mk HD HP) as (Mn & E & K). rewrite K in HT. destruct (other M z w HD N Hz Hw) as (O1 & O2).
    apply (neutral_nat (inverse M) (Z.to_nat (- k)) Mn); auto; try (apply inv_fixed; auto). { rewrite mdet_inverse; auto. } rewrite !inv_lambda, O1, O2. auto.
Qed.

(** ** Periods *)
Lemma period M n Mn z w : mdet M <> C0 -> z <> w -> transform M (Pt z) = Ok (Pt z) -> transform M (Pt w) = Ok (Pt w) -> power M (IZR (Z.of_nat n)) = Ok Mn ->
  ((forall P, transform Mn P = Ok P) <-> (cpow_nat (mc M * w + md M) n = cpow_nat (mc M * z + md M) n)%C).
Proof.
  intros HD N Hz Hw HP. destruct (power_nat M n Mn HD HP) as (HDn & K). split.
  - intros H. specialize (H Inf). rewrite K in H. destruct (iter_two M z w n HD N Hz Hw _ _ H) as (k & Hk & K1 & K2). unfold Lf in K1, K2. cbn [hom fst snd] in K1, K2.
    replace (C1 - z * C0)%C with C1 in K1 by cring. replace (C1 - w * C0)%C with C1 in K2 by cring. transitivity (cpow_nat (mc M * w + md M) n * C1)%C; [cring|]. rewrite <- K1, K2. cring.
  - intros E P. rewrite K. destruct (iterM_total M n HD P) as (Q & HQ). rewrite HQ. destruct (iter_two M z w n HD N Hz Hw _ _ HQ) as (k & Hk & K1 & K2). rewrite E in K1. destruct (fixed_eq M z HD Hz) as (_ & Nz). pose proof (cpow_neq _ n Nz) as Nl. set (l := (cpow_nat (mc M * z + md M) n)%C) in *.
    assert (NW : (w - z)%C <> C0) by (intros A; apply N; symmetry; apply (proj1 (Csub_0 w z)); auto).
    assert (Y : (k * snd (hom Q) = l * snd (hom P))%C).
    { apply (Cmul_cancel (w - z)%C); [exact NW|]. unfold Lf in K1, K2. replace ((w - z) * (k * snd (hom Q)))%C with (k * (fst (hom Q) - z * snd (hom Q)) - k * (fst (hom Q) - w * snd (hom Q)))%C by cring. rewrite K1, K2. cring. }
    assert (X : (k * fst (hom Q) = l * fst (hom P))%C).
    { unfold Lf in K1. replace (k * fst (hom Q))%C with (k * (fst (hom Q) - z * snd (hom Q)) + z * (k * snd (hom Q)))%C by cring. rewrite K1, Y. cring. }
    destruct P as [p|], Q as [q|]; cbn [hom fst snd] in X, Y; auto.
    + assert (k = l) by (transitivity (k * C1)%C; [cring|rewrite Y; cring]). subst k. do 2 f_equal. apply (Cmul_cancel l); auto.
    + exfalso. apply Nl. transitivity (l * C1)%C; [cring|]. rewrite <- Y. cring.
    + exfalso. apply Hk. transitivity (k * C1)%C; [cring|]. rewrite Y. cring.
Qed.

(** ** The trace *)
Lemma trace_ratio (u : C) : u <> C0 -> ((exists s, 0 <= s <= 4 /\ ((u + C1) * (u + C1) = RtoC s * u)%C) <-> cnorm u = 1).
Proof.
  intros NU. assert (Q : cnorm u = 1 <-> fst u * fst u + snd u * snd u = 1).
  { pose proof (cnorm_sq u) as S. pose proof (cnorm_pos u) as P. unfold Cmod2 in S. split; intros E; nra. }
  rewrite Q. destruct u as [x y]. cbn [fst snd] in *. split.
  - intros (s & Hs & E). unfold Cadd, Cmul, C1, RtoC in E. cbn [fst snd] in E. injection E as E1 E2. ring_simplify in E1. ring_simplify in E2.
    destruct (Req_dec y 0) as [->|Ny].
    + assert (K : x * x + (2 - s) * x + 1 = 0) by nra. assert (K2 : (x + (2 - s) / 2) * (x + (2 - s) / 2) = s * (s - 4) / 4) by nra.
      assert (K3 : s * (s - 4) <= 0) by nra. assert (K4 : x = (s - 2) / 2) by nra. subst x. nra.
    + assert (S : s = 2 * x + 2) by (apply Rmult_eq_reg_r with y; [nra|auto]). subst s. nra.
  - intros E. exists (2 + 2 * x). split; [nra|]. unfold Cadd, Cmul, C1, RtoC. cbn [fst snd]. f_equal; nra.
Qed.

Lemma trace_neutral M z w : mdet M <> C0 -> z <> w -> transform M (Pt z) = Ok (Pt z) -> transform M (Pt w) = Ok (Pt w) ->
  (cnorm (mc M * w + md M)%C = cnorm (mc M * z + md M)%C <-> exists s, 0 <= s <= 4 /\ ((ma M + md M) * (ma M + md M) = RtoC s * mdet M)%C).
Proof.
  intros HD N Hz Hw. destruct (other M z w HD N Hz Hw) as (O1 & O2). destruct (fixed_eq M z HD Hz) as (Ez & Nz). destruct (fixed_eq M w HD Hw) as (Ew & Nw).
  assert (T : (ma M + md M = (mc M * z + md M) + (mc M * w + md M))%C) by (rewrite <- O1; cring).
  assert (D : (mdet M = (mc M * z + md M) * (mc M * w + md M))%C).
  { rewrite <- O1. unfold mdet. assert (B : mb M = (z * (mc M * z + md M) - ma M * z)%C) by (rewrite <- Ez; cring). rewrite B. cring. }
  rewrite T, D. set (lz := (mc M * z + md M)%C) in *. set (lw := (mc M * w + md M)%C) in *. set (u := (lw / lz)%C). assert (EU : lw = (u * lz)%C) by (unfold u; cfield; auto).
  assert (NU : u <> C0) by (intros A; apply Nw; rewrite EU, A; cring). pose proof (cnorm_gt _ Nz) as G.
  transitivity (cnorm u = 1).
  - rewrite EU, cnorm_mul. split; intros A; [apply Rmult_eq_reg_r with (cnorm lz); lra|rewrite A; ring].
  - rewrite <- (trace_ratio u NU). rewrite EU. split; intros (s & Hs & E); exists s; split; auto.
    + replace ((lz + u * lz) * (lz + u * lz))%C with (lz * lz * ((u + C1) * (u + C1)))%C by cring. rewrite E. cring.
    + apply (Cmul_cancel (lz * lz)%C); [apply Cmul_neq0; auto|]. replace (lz * lz * ((u + C1) * (u + C1)))%C with ((lz + u * lz) * (lz + u * lz))%C by cring. rewrite E. cring.
Qed.

(** ** A single fixed point *)
Lemma single M z : mdet M <> C0 -> transform M (Pt z) = Ok (Pt z) -> (forall P, transform M P = Ok P -> P = Pt z) -> mc M <> C0 /\ (ma M - mc M * z = mc M * z + md M)%C.
Proof.
  intros HD Hz HU. destruct (fixed_eq M z HD Hz) as (Ez & Nz). assert (B : mb M = (z * (mc M * z + md M) - ma M * z)%C) by (rewrite <- Ez; cring).
  assert (Hc : mc M <> C0).
  { intros A. assert (K : transform M Inf = Ok Inf); [|apply HU in K; discriminate]. apply transform_Ok; [exact HD|]. exists (ma M). cbn [hom fst snd]. split; [|split; [cring|rewrite A; cring]].
    intros A2. apply HD. unfold mdet. rewrite A, A2. cring. }
  split; [exact Hc|]. set (w := ((ma M - md M) / mc M - z)%C). assert (EW : (mc M * w + md M = ma M - mc M * z)%C) by (unfold w; cfield; auto).
  assert (K : transform M (Pt w) = Ok (Pt w)).
  { apply transform_Ok; [exact HD|]. exists (mc M * w + md M)%C. cbn [hom fst snd]. split; [|split; [|cring]].
    - rewrite EW. intros A. apply HD. unfold mdet. rewrite B. transitivity ((ma M - mc M * z) * (mc M * z + md M))%C; [cring|rewrite A; cring].
    - rewrite B. unfold w. cfield. auto. }
  apply HU in K. injection K as K. rewrite K in EW. auto.
Qed.

Lemma RtoC_S n : RtoC (INR (S n)) = (RtoC (INR n) + C1)%C.
Proof. rewrite S_INR. unfold RtoC, Cadd, C1. cbn [fst snd]. f_equal. ring. Qed.

Lemma iter_one M z n : mdet M <> C0 -> transform M (Pt z) = Ok (Pt z) -> (ma M - mc M * z = mc M * z + md M)%C -> forall P Q, iterM (transform M) n P = Ok Q ->
  exists k, k <> C0 /\ (k * Lf z Q = (mc M * z + md M) * Lf z P)%C /\ (k * snd (hom Q) = (mc M * z + md M) * snd (hom P) + RtoC (INR n) * mc M * Lf z P)%C.
Proof.
  intros HD Hz HA. destruct (fixed_eq M z HD Hz) as (Ez & Nz). induction n as [|n IH]; intros P Q H; cbn [iterM] in *.
  - apply Ok_inj in H. subst Q. exists (mc M * z + md M)%C. split; [exact Nz|]. split; [cring|]. change (RtoC (INR 0)) with C0. cring.
  - apply bind_Ok in H. destruct H as (S & H1 & H2). destruct (IH S Q H2) as (k & Hk & K1 & K2). apply transform_Ok in H1; [|exact HD]. destruct H1 as (j & Hj & J1 & J2).
    pose proof (step M z P S j Ez J1 J2) as T1. rewrite HA in T1. set (l := (mc M * z + md M)%C) in *.
    assert (T2 : (j * snd (hom S) = l * snd (hom P) + mc M * Lf z P)%C) by (rewrite <- J2; unfold l, Lf; cring).
    exists (k * j / l)%C. split; [apply Cdiv_neq0; auto; apply Cmul_neq0; auto|]. split; apply (Cmul_cancel l); auto.
    + replace (l * (k * j / l * Lf z Q))%C with (j * (k * Lf z Q))%C by (cfield; auto). rewrite K1. replace (j * (l * Lf z S))%C with (l * (j * Lf z S))%C by cring. rewrite T1. reflexivity.
    + replace (l * (k * j / l * snd (hom Q)))%C with (j * (k * snd (hom Q)))%C by (cfield; auto). rewrite K2. replace (j * (l * snd (hom S) + RtoC (INR n) * mc M * Lf z S))%C with (l * (j * snd (hom S)) + RtoC (INR n) * mc M * (j * Lf z S))%C by cring. rewrite T1, T2. rewrite RtoC_S. cring.
Qed.

Lemma parabolic_formula M n Mn z p p' : mdet M <> C0 -> transform M (Pt z) = Ok (Pt z) -> (forall P, transform M P = Ok P -> P = Pt z) -> power M (IZR (Z.of_nat n)) = Ok Mn ->
  transform Mn (Pt p) = Ok (Pt p') -> p <> z -> p' <> z /\ (C1 / (p' - z) = C1 / (p - z) + RtoC (INR n) * mc M / (mc M * z + md M))%C.
Proof.
  intros HD Hz HU HP HT NP. destruct (single M z HD Hz HU) as (Hc & HA). destruct (fixed_eq M z HD Hz) as (_ & Nl). destruct (power_nat M n Mn HD HP) as (_ & K). rewrite K in HT. destruct (iter_one M z n HD Hz HA _ _ HT) as (k & Hk & K1 & K2). unfold Lf in K1, K2. cbn [hom fst snd] in K1, K2.
  assert (S : forall x y : C, (x - y * C1 = x - y)%C) by (intros; cring). rewrite !S in K1. rewrite S in K2. set (l := (mc M * z + md M)%C) in *.
  assert (NX : (p - z)%C <> C0) by (intros A; apply NP; apply (proj1 (Csub_0 _ _)); auto). assert (NX' : (p' - z)%C <> C0) by (intros A; rewrite A in K1; apply (Cmul_neq0 l (p - z)%C); auto; rewrite <- K1; cring).
  split; [intros A; apply NX'; rewrite A; cring|]. set (x := (p - z)%C) in *. set (x' := (p' - z)%C) in *.
  assert (E1 : (C1 / x' = k / (l * x))%C) by (rewrite <- K1; cfield; auto). rewrite E1. replace k with (k * C1)%C by cring. rewrite K2. cfield. auto.
Qed.

Lemma parabolic_attract M z : mdet M <> C0 -> transform M (Pt z) = Ok (Pt z) -> (forall P, transform M P = Ok P -> P = Pt z) ->
  forall d eps, 0 < d -> 0 < eps -> exists N, forall n Mn P, (N <= n)%nat -> power M (IZR (Z.of_nat n)) = Ok Mn -> away d z P -> exists p', transform Mn P = Ok (Pt p') /\ dist p' z < eps.
Proof.
  intros HD Hz HU d eps Hd He. destruct (single M z HD Hz HU) as (Hc & HA). destruct (fixed_eq M z HD Hz) as (_ & Nl). set (l := (mc M * z + md M)%C) in *. pose proof (cnorm_gt _ Hc) as Gc. pose proof (cnorm_gt _ Nl) as Gl.
  set (A := (cnorm l / d + cnorm l / eps) / cnorm (mc M)). destruct (archimed A) as (A1 & _). exists (Z.to_nat (up A)). intros n Mn P Hn HP Haw.
  assert (PA : 0 < A) by (unfold A; apply Rdiv_lt_0_compat; auto; apply Rplus_lt_0_compat; apply Rdiv_lt_0_compat; auto).
  assert (LA : A < INR n). { rewrite INR_IZR_INZ. apply Rlt_le_trans with (1 := A1). apply IZR_le. lia. }
  assert (LB : cnorm l / d + cnorm l / eps < INR n * cnorm (mc M)). { apply Rmult_lt_compat_r with (r := cnorm (mc M)) in LA; [|exact Gc]. unfold A in LA. replace ((cnorm l / d + cnorm l / eps) / cnorm (mc M) * cnorm (mc M)) with (cnorm l / d + cnorm l / eps) in LA by (field; lra). exact LA. }
  destruct (power_nat M n Mn HD HP) as (_ & T). rewrite T. destruct (iterM_total M n HD P) as (Q & HQ). rewrite HQ. destruct (iter_one M z n HD Hz HA P Q HQ) as (k & Hk & K1 & K2). fold l in K1, K2. pose proof (cnorm_gt _ Hk) as Gk.
  destruct (Lf_away z z d P Hd Haw) as (NP & _). pose proof (cnorm_gt _ NP) as GP.
  assert (BY : cnorm (snd (hom P)) <= cnorm (Lf z P) / d).
  { unfold Lf. destruct P as [p|]; cbn [hom fst snd away] in *; rewrite ?cnorm_1.
    - replace (p - z * C1)%C with (p - z)%C by cring. rewrite cnorm_dist. apply Rmult_le_reg_r with d; [auto|]. replace (dist p z / d * d) with (dist p z) by (field; lra). lra.
    - replace (C1 - z * C0)%C with C1 by cring. rewrite cnorm_1. rewrite (proj2 (cnorm_0 C0)) by reflexivity. left. apply Rdiv_lt_0_compat; lra. }
  assert (B : cnorm (Lf z Q) * (INR n * cnorm (mc M) - cnorm l / d) <= cnorm l * cnorm (snd (hom Q))).
  { apply (f_equal cnorm) in K1. rewrite !cnorm_mul in K1.
    assert (K2' : INR n * cnorm (mc M) * cnorm (Lf z P) <= cnorm k * cnorm (snd (hom Q)) + cnorm l * cnorm (snd (hom P))).
    { replace (INR n * cnorm (mc M) * cnorm (Lf z P)) with (cnorm (RtoC (INR n) * mc M * Lf z P)%C).
      - replace (RtoC (INR n) * mc M * Lf z P)%C with (k * snd (hom Q) + - (l * snd (hom P)))%C by (rewrite K2; cring). eapply Rle_trans; [apply cnorm_add|]. rewrite cnorm_opp, !cnorm_mul. lra.
      - rewrite !cnorm_mul. do 2 f_equal. unfold cnorm, RtoC. cbn [fst snd]. replace (INR n * INR n + 0 * 0) with (INR n * INR n) by ring. apply sqrt_square. apply pos_INR. }
    assert (K3 : cnorm l * cnorm (snd (hom P)) <= cnorm l / d * cnorm (Lf z P)). { replace (cnorm l / d * cnorm (Lf z P)) with (cnorm l * (cnorm (Lf z P) / d)) by (field; lra). apply Rmult_le_compat_l; lra. }
    assert (K4 : (INR n * cnorm (mc M) - cnorm l / d) * cnorm (Lf z P) <= cnorm k * cnorm (snd (hom Q))) by lra.
    apply Rmult_le_reg_l with (cnorm k); [exact Gk|]. replace (cnorm k * (cnorm (Lf z Q) * (INR n * cnorm (mc M) - cnorm l / d))) with (cnorm k * cnorm (Lf z Q) * (INR n * cnorm (mc M) - cnorm l / d)) by ring. rewrite K1.
    replace (cnorm l * cnorm (Lf z P) * (INR n * cnorm (mc M) - cnorm l / d)) with (cnorm l * ((INR n * cnorm (mc M) - cnorm l / d) * cnorm (Lf z P))) by ring. replace (cnorm k * (cnorm l * cnorm (snd (hom Q)))) with (cnorm l * (cnorm k * cnorm (snd (hom Q)))) by ring. apply Rmult_le_compat_l; lra. }
  unfold Lf in B. assert (Ge : 0 < cnorm l / eps) by (apply Rdiv_lt_0_compat; auto). destruct Q as [q|]; cbn [hom fst snd] in B.
  - exists q. split; [reflexivity|]. replace (q - z * C1)%C with (q - z)%C in B by cring. rewrite cnorm_dist, cnorm_1 in B. destruct (Rlt_le_dec (dist q z) eps) as [L|L]; [exact L|exfalso].
    assert (cnorm l < eps * (INR n * cnorm (mc M) - cnorm l / d)). { replace (cnorm l) with (eps * (cnorm l / eps)) at 1 by (field; lra). apply Rmult_lt_compat_l; lra. }
    assert (eps * (INR n * cnorm (mc M) - cnorm l / d) <= dist q z * (INR n * cnorm (mc M) - cnorm l / d)) by (apply Rmult_le_compat_r; lra). lra.
  - exfalso. replace (C1 - z * C0)%C with C1 in B by cring. rewrite cnorm_1, (proj2 (cnorm_0 C0)) in B by reflexivity. lra.
Qed.

Lemma parabolic_attract_Z M z : mdet M <> C0 -> transform M (Pt z) = Ok (Pt z) -> (forall P, transform M P = Ok P -> P = Pt z) ->
  forall d eps, 0 < d -> 0 < eps -> exists N, forall k Mk P, (N <= Z.abs k)%Z -> power M (IZR k) = Ok Mk -> away d z P -> exists p', transform Mk P = Ok (Pt p') /\ dist p' z < eps.
Proof.
  intros HD Hz HU d eps Hd He. assert (HI : mdet (inverse M) <> C0) by (rewrite mdet_inverse; exact HD). destruct (parabolic_attract M z HD Hz HU d eps Hd He) as (N1 & H1).
  destruct (parabolic_attract (inverse M) z HI (inv_fixed _ _ HD Hz)) with (d := d) (eps := eps) as (N2 & H2); auto. { intros P HP. apply HU. apply (transform_inverse M P P HD). exact HP. }
  exists (Z.of_nat (Nat.max N1 N2)). intros k Mk P HN HP HA. destruct (Z_le_gt_dec 0 k) as [L|L].
  - apply (H1 (Z.to_nat k)); [lia|rewrite Z2Nat.id by auto; exact HP|exact HA].
  - replace k with (- Z.of_nat (Z.to_nat (- k)))%Z in HP by lia. destruct (power_neg M _ Mk HD HP) as (Mn & E & K). rewrite K. apply (H2 (Z.to_nat (- k)) Mn); [lia|exact E|exact HA].
Qed.

(** ** Similarities *)
Lemma affine_pow M n Mn z p : mdet M <> C0 -> mc M = C0 -> transform M (Pt z) = Ok (Pt z) -> power M (IZR (Z.of_nat n)) = Ok Mn ->
  exists p', transform Mn (Pt p) = Ok (Pt p') /\ (cpow_nat (md M) n * (p' - z) = cpow_nat (ma M) n * (p - z))%C.
Proof.
  intros HD Hc Hz HP. destruct (power_nat M n Mn HD HP) as (_ & K). rewrite K. clear HP K. destruct (fixed_eq M z HD Hz) as (Ez & Nz). rewrite Hc in Ez, Nz.
  revert p. induction n as [|n IH]; intros p; cbn [iterM cpow_nat].
  - exists p. split; [reflexivity|cring].
  - set (q := ((ma M * p + mb M) / md M)%C). assert (Nd : md M <> C0) by (intros A; apply Nz; rewrite A; cring).
    assert (H1 : transform M (Pt p) = Ok (Pt q)). { apply transform_Ok; [exact HD|]. exists (md M). cbn [hom fst snd]. split; [exact Nd|]. unfold q. rewrite Hc. split; cfield; auto. }
    rewrite H1. cbn [bind]. destruct (IH q) as (p' & E1 & E2). exists p'. split; [exact E1|].
    replace (md M * cpow_nat (md M) n * (p' - z))%C with (md M * (cpow_nat (md M) n * (p' - z)))%C by cring. rewrite E2.
    assert (B : mb M = (z * md M - ma M * z)%C) by (replace (z * md M)%C with (z * (C0 * z + md M))%C by cring; rewrite <- Ez; cring).
    replace (md M * (cpow_nat (ma M) n * (q - z)))%C with (cpow_nat (ma M) n * (md M * q - md M * z))%C by cring. replace (md M * q)%C with (ma M * p + mb M)%C by (unfold q; cfield; auto). rewrite B. cring.
Qed.

Lemma translation_pow M n Mn p : mdet M <> C0 -> mc M = C0 -> ma M = md M -> power M (IZR (Z.of_nat n)) = Ok Mn ->
  transform Mn (Pt p) = Ok (Pt (p + RtoC (INR n) * (mb M / md M))%C).
Proof.
  intros HD Hc Ha HP. destruct (power_nat M n Mn HD HP) as (_ & K). rewrite K. clear HP K. assert (Nd : md M <> C0) by (intros A; apply HD; unfold mdet; rewrite Hc, A; cring).
  revert p. induction n as [|n IH]; intros p; cbn [iterM].
  - change (RtoC (INR 0)) with C0. do 2 f_equal. cring.
  - assert (H1 : transform M (Pt p) = Ok (Pt (p + mb M / md M)%C)). { apply transform_Ok; [exact HD|]. exists (md M). cbn [hom fst snd]. split; [exact Nd|]. rewrite Hc, Ha. split; cfield; auto. }
    rewrite H1. cbn [bind]. rewrite IH. do 2 f_equal. rewrite RtoC_S. set (t := (mb M / md M)%C). cring.
Qed.

(** ** An example *)
Lemma iter_example :
  let H := mkMob C1 C0 C1 (RtoC 2) in let E := mkMob C0 (RtoC (-1)) C1 C0 in let Q := mkMob C1 C0 C1 C1 in
  (mdet H <> C0 /\ ((0, 0) : pt) <> (-1, 0) /\ transform H (Pt (0, 0)) = Ok (Pt (0, 0)) /\ transform H (Pt (-1, 0)) = Ok (Pt (-1, 0)) /\ cnorm (mc H * (-1, 0) + md H)%C < cnorm (mc H * (0, 0) + md H)%C) /\
  (mdet E <> C0 /\ ((0, 1) : pt) <> (0, -1) /\ transform E (Pt (0, 1)) = Ok (Pt (0, 1)) /\ transform E (Pt (0, -1)) = Ok (Pt (0, -1)) /\
    (cpow_nat (mc E * (0, 1) + md E) 2 = cpow_nat (mc E * (0, -1) + md E) 2)%C /\ cpow_nat (mc E * (0, 1) + md E)%C 1 <> cpow_nat (mc E * (0, -1) + md E)%C 1) /\
  (mdet Q <> C0 /\ transform Q (Pt (0, 0)) = Ok (Pt (0, 0)) /\ forall P, transform Q P = Ok P -> P = Pt (0, 0)) /\
  (forall M n, exists Mn, power M (IZR (Z.of_nat n)) = Ok Mn).
Proof.
  intros H E Q.
  assert (DH : mdet H <> C0) by (unfold H, mdet, Cmul, Csub, C0, C1, RtoC; cbn; intros A; injection A; lra).
  assert (DE : mdet E <> C0) by (unfold E, mdet, Cmul, Csub, C0, C1, RtoC; cbn; intros A; injection A; lra).
  assert (DQ : mdet Q <> C0) by (unfold Q, mdet, Cmul, Csub, C0, C1, RtoC; cbn; intros A; injection A; lra).
  assert (N0 : forall x y : R, x <> 0 \/ y <> 0 -> ((x, y) : C) <> C0) by (intros x y K A; injection A; intros; destruct K; auto).
  split; [split; [exact DH|split; [intros A; injection A; lra|split; [|split]]]|split; [split; [exact DE|split; [intros A; injection A; lra|split; [|split; [|split]]]]|split; [split; [exact DQ|split]|]]].
  - apply transform_Ok; [exact DH|]. exists (2, 0). split; [apply N0; lra|]. unfold H, Cmul, Cadd, C0, C1, RtoC; cbn. split; f_equal; ring.
  - apply transform_Ok; [exact DH|]. exists (1, 0). split; [apply N0; lra|]. unfold H, Cmul, Cadd, C0, C1, RtoC; cbn. split; f_equal; ring.
  - unfold cnorm, H, Cmul, Cadd, C0, C1, RtoC; cbn. apply sqrt_lt_1; lra.
  - apply transform_Ok; [exact DE|]. exists (0, 1). split; [apply N0; lra|]. unfold E, Cmul, Cadd, C0, C1, RtoC; cbn. split; f_equal; ring.
  - apply transform_Ok; [exact DE|]. exists (0, -1). split; [apply N0; lra|]. unfold E, Cmul, Cadd, C0, C1, RtoC; cbn. split; f_equal; ring.
  - unfold E, Cmul, Cadd, C0, C1, RtoC; cbn. unfold Cmul, C1; cbn. f_equal; ring.
  - unfold E, Cmul, Cadd, C0, C1, RtoC; cbn. unfold Cmul, C1; cbn. intros A. injection A. lra.
  - apply transform_Ok; [exact DQ|]. exists (1, 0). split; [apply N0; lra|]. unfold Q, Cmul, Cadd, C0, C1, RtoC; cbn. split; f_equal; ring.
  - intros [[x y]|] K; apply transform_Ok in K; [|exact DQ|..|exact DQ]; destruct K as ([k l] & Hk & K1 & K2); unfold Q, Cmul, Cadd, C0, C1, RtoC in K1, K2; cbn in K1, K2; injection K1 as A1 A2; injection K2 as B1 B2.
    + assert (k = x + 1) by lra. assert (l = y) by lra. subst k l. assert (XY : x * y = 0) by nra. assert (XX : x * x = y * y) by nra. assert (Y : y = 0) by (apply Rmult_integral in XY; destruct XY; nra). assert (X : x = 0) by nra. rewrite X, Y. reflexivity.
    + exfalso. lra.
  - intros M n. destruct (power_integer M (Z.of_nat n)) as (M' & E' & _). exists M'. exact E'.
Qed.
