(** * Two circles in binary64: lemmas *)

From Coq Require Import Reals ZArith Lia Lra Psatz Bool SpecFloat.
From Verif Require Import SpecF64 Base Spec BaseLemmas SpecLemmas ModelInternal ModelLine ModelCircle ModelFloat ModelFloatInter ModelFloatCC PFloat PFloat2 PFloat3 PFloat4 PFloatCircle PFloatGrid PFloatInter PCircle.
Local Open Scope R_scope.

(** ** Common points of two circles of the plane *)

Section Common.
Variables (O1 O2 : pt) (r1 r2 : R).
Hypotheses (H1 : 0 < r1) (H2 : 0 < r2).
Let d := dist2 O1 O2.
Let x := fst O1 - fst O2.
Let y := snd O1 - snd O2.
Let k := (r2 * r2 - r1 * r1 - d) / (2 * d).
Let h2 := r1 * r1 / d - k * k.
Let both (M : pt) := on_circle O1 r1 M /\ on_circle O2 r2 M.
Let at_ (e : R) : pt := vadd O1 (k * x - e * y, k * y + e * x).

Lemma common_h2 : 0 < d -> 4 * (d * d) * h2 = (d - (r1 - r2) * (r1 - r2)) * ((r1 + r2) * (r1 + r2) - d).
Proof. intros Hd. unfold h2, k. field. lra. Qed.

Lemma common_param M : 0 < d -> (both M <-> exists e, e * e = h2 /\ M = at_ e).
Proof.
  intros Hd. assert (Exy : x * x + y * y = d) by (unfold d, x, y; unspec; ring). split.
  - intros (K1 & K2). destruct (common_point_eq O1 O2 r1 r2 M ltac:(lra) ltac:(lra) K1 K2) as (E1 & E2). fold x y in E1, E2. rewrite Exy in E2. set (w := vsub M O1) in *.
    exists ((snd w * x - fst w * y) / d).
    assert (EK : fst w * x + snd w * y = k * d) by (unfold k; apply (Rmult_eq_reg_l 2); [|lra]; rewrite E2; field; lra). split.
    + unfold h2. rewrite <- E1. replace k with ((fst w * x + snd w * y) / d) by (rewrite EK; field; lra). rewrite <- Exy. field. rewrite Exy. lra.
    + unfold at_. replace k with ((fst w * x + snd w * y) / d) by (rewrite EK; field; lra). assert (Q : forall a b, (a * x + b * y) / d * x - (b * x - a * y) / d * y = a /\ (a * x + b * y) / d * y + (b * x - a * y) / d * x = b) by (intros a b; rewrite <- Exy; split; field; rewrite Exy; lra).
      destruct (Q (fst w) (snd w)) as (-> & ->). unfold w, vadd, vsub. destruct M, O1; cbn [fst snd]. f_equal; ring.
  - intros (e & Ee & ->). unfold both, at_. split; apply on_circle_sq; try lra.
    + unspec. transitivity ((k * k + e * e) * (x * x + y * y)); [ring|]. rewrite Exy, Ee. unfold h2. field. lra.
    + unspec. transitivity ((x + (k * x - e * y)) * (x + (k * x - e * y)) + (y + (k * y + e * x)) * (y + (k * y + e * x))); [unfold x, y; ring|].
      transitivity ((1 + 2 * k + (k * k + e * e)) * (x * x + y * y)); [ring|]. rewrite Exy, Ee. unfold h2, k. field. lra.
Qed.

Lemma common_none : d < (r1 - r2) * (r1 - r2) \/ (r1 + r2) * (r1 + r2) < d -> forall M, ~ both M.
Proof. intros H M (K1 & K2). pose proof (common_point_bound O1 O2 r1 r2 M ltac:(lra) ltac:(lra) K1 K2). fold d in H0. destruct H; nra. Qed.

Lemma common_one : 0 < d -> d = (r1 - r2) * (r1 - r2) \/ (r1 + r2) * (r1 + r2) = d -> exists M, both M /\ forall N, both N -> N = M.
Proof.
  intros Hd H. assert (E : h2 = 0). { pose proof (common_h2 Hd) as E. assert (4 * (d * d) * h2 = 0) by (rewrite E; destruct H as [<-|<-]; ring). assert (0 < d * d) by nra. apply Rmult_integral in H0. destruct H0; lra. }
  exists (at_ 0). split; [apply common_param; auto; exists 0; split; [rewrite E; ring|reflexivity]|].
  intros N K. apply common_param in K; auto. destruct K as (e & Ee & ->). rewrite E in Ee. apply Rmult_integral in Ee. assert (e = 0) by tauto. subst e. reflexivity.
Qed.

Lemma common_two : 0 < d -> (r1 - r2) * (r1 - r2) < d < (r1 + r2) * (r1 + r2) -> exists M N, M <> N /\ both M /\ both N /\ forall L, both L -> L = M \/ L = N.
Proof.
  intros Hd H. assert (E : 0 < h2). { pose proof (common_h2 Hd) as E. assert (0 < 4 * (d * d) * h2) by (rewrite E; apply Rmult_lt_0_compat; lra). assert (0 < d * d) by nra. apply (Rmult_lt_reg_l (4 * (d * d))); lra. }
  pose proof (sqrt_lt_R0 _ E) as S. pose proof (sqrt_sqrt h2 ltac:(lra)) as SS. set (s := sqrt h2) in *.
  assert (Exy : x * x + y * y = d) by (unfold d, x, y; unspec; ring).
  exists (at_ s), (at_ (- s)). split; [|split; [|split]].
  - unfold at_, vadd. intros Q. injection Q as Q1 Q2. cbn [fst snd] in Q1, Q2. assert (s * y = 0) by lra. assert (s * x = 0) by lra. apply Rmult_integral in H0, H3. assert (x = 0) by (destruct H3; lra). assert (y = 0) by (destruct H0; lra). nra.
  - apply common_param; auto. exists s. auto.
  - apply common_param; auto. exists (- s). split; auto. rewrite <- SS. ring.
  - intros L K. apply common_param in K; auto. destruct K as (e & Ee & ->). assert ((e - s) * (e + s) = 0) by (ring_simplify; lra). apply Rmult_integral in H0. destruct H0; [left|right]; f_equal; lra.
Qed.
End Common.

(** ** The comparisons *)

Lemma near_add x n : fin x -> SF2R x = IZR n -> (Z.abs n < 2 ^ 53)%Z -> fin (SF64add x fsepsilon) /\ IZR n <= SF2R (SF64add x fsepsilon) <= IZR n + 2 * sepsilon_.
Proof.
  intros F E B. destruct val_fsepsilon as (Fe & Ve). pose proof sepsilon_pos as Sp. assert (Se : sepsilon_ < 1) by (unfold sepsilon_; lra).
  assert (Bn : Rabs (IZR n) <= bp 53) by (rewrite <- abs_IZR, bp_IZR by lia; apply IZR_le; lia).
  assert (B1 : bp 53 + 1 <= bp 1023). { apply Rle_trans with (bp 54); [rewrite !bp_IZR by lia; cbn; lra|apply bp_le; lia]. }
  destruct (fadd x fsepsilon F Fe) as (R1 & _). { rewrite E, Ve. apply abs_bounds in Bn. apply Rabs_le. lra. }
  split; [eapply rounds_fin; eauto|]. destruct R1 as (_ & _ & R1 & _). destruct F as (V & F). specialize (R1 x V F). rewrite Ve, E in R1. replace (IZR n - (IZR n + sepsilon_)) with (- sepsilon_) in R1 by ring. rewrite Rabs_Ropp, (Rabs_right sepsilon_) in R1 by lra. apply abs_bounds in R1. lra.
Qed.

Lemma near_sub x n : fin x -> SF2R x = IZR n -> (Z.abs n < 2 ^ 53)%Z -> fin (SF64sub x fsepsilon) /\ IZR n - 2 * sepsilon_ <= SF2R (SF64sub x fsepsilon) <= IZR n.
Proof.
  intros F E B. destruct val_fsepsilon as (Fe & Ve). pose proof sepsilon_pos as Sp. assert (Se : sepsilon_ < 1) by (unfold sepsilon_; lra).
  assert (Bn : Rabs (IZR n) <= bp 53) by (rewrite <- abs_IZR, bp_IZR by lia; apply IZR_le; lia).
  assert (B1 : bp 53 + 1 <= bp 1023). { apply Rle_trans with (bp 54); [rewrite !bp_IZR by lia; cbn; lra|apply bp_le; lia]. }
  destruct (fsub x fsepsilon F Fe) as (R1 & _). { rewrite E, Ve. apply abs_bounds in Bn. apply Rabs_le. lra. }
  split; [eapply rounds_fin; eauto|]. destruct R1 as (_ & _ & R1 & _). destruct F as (V & F). specialize (R1 x V F). rewrite Ve, E in R1. replace (IZR n - (IZR n - sepsilon_)) with sepsilon_ in R1 by ring. rewrite (Rabs_right sepsilon_) in R1 by lra. apply abs_bounds in R1. lra.
Qed.

(** The integers compared. *)
Lemma cc_ints m c1 c2 : on_grid2 0 1048576 (c64_center c1) -> on_grid2 0 1048576 (c64_center c2) -> on_grid 0 1048576 (c64_radius c1) -> on_grid 0 1048576 (c64_radius c2) ->
  let r1 := c64_radius c1 in let r2 := c64_radius c2 in
  let v := fp_sub (c64_center c1) (c64_center c2) in let d2 := dot64 m v v in
  let s := SF64mul (SF64add r1 r2) (SF64add r1 r2) in let t := SF64mul (SF64sub r1 r2) (SF64sub r1 r2) in
  exists kd ks kt, (0 <= kd < 2 ^ 45 /\ 0 <= ks < 2 ^ 45 /\ 0 <= kt < 2 ^ 45)%Z /\
    (fin d2 /\ SF2R d2 = IZR kd) /\ (fin s /\ SF2R s = IZR ks) /\ (fin t /\ SF2R t = IZR kt) /\
    d2R (c64_center c1) (c64_center c2) = IZR kd /\ (SF2R r1 + SF2R r2) * (SF2R r1 + SF2R r2) = IZR ks /\ (SF2R r1 - SF2R r2) * (SF2R r1 - SF2R r2) = IZR kt.
Proof.
  intros G1 G2 (F1 & n1 & B1 & E1) (F2 & n2 & B2 & E2) r1 r2 v d2 s t.
  destruct (dist2_grid m 0 1048576 _ _ ltac:(lia) ltac:(lia) G1 G2) as (kd & Bk & Fk & Ek & Dk). change (0 + 0)%Z with 0%Z in *. rewrite bp_0, Rmult_1_r in Ek, Dk. fold v d2 in Fk, Ek.
  destruct (add_grid _ _ n1 n2 0 F1 F2 E1 E2 ltac:(lia) ltac:(lia)) as (Fa & Ea). destruct (sub_grid _ _ n1 n2 0 F1 F2 E1 E2 ltac:(lia) ltac:(lia)) as (Fb & Eb).
  pose proof (zprod (n1 + n2) (n1 + n2) 2097152 ltac:(lia) ltac:(lia)) as Ps. pose proof (zprod (n1 - n2) (n1 - n2) 2097152 ltac:(lia) ltac:(lia)) as Pt.
  destruct (mul_grid _ _ _ _ 0 0 Fa Fa Ea Ea ltac:(lia) ltac:(lia)) as (Fs & Es). destruct (mul_grid _ _ _ _ 0 0 Fb Fb Eb Eb ltac:(lia) ltac:(lia)) as (Ft & Et).
  change (0 + 0)%Z with 0%Z in *. rewrite bp_0, Rmult_1_r in *. fold r1 r2 in F1, F2, E1, E2, Fa, Ea, Fb, Eb, Fs, Es, Ft, Et. fold s in Fs, Es. fold t in Ft, Et.
  pose proof (Z.square_nonneg (n1 + n2)). pose proof (Z.square_nonneg (n1 - n2)).
  exists kd, ((n1 + n2) * (n1 + n2))%Z, ((n1 - n2) * (n1 - n2))%Z. split.
  - split; [|lia]. split; [lia|]. apply lt_IZR. rewrite <- Dk. destruct G1 as ((_ & a0 & A0 & Q0) & (_ & a1 & A1 & Q1)), G2 as ((_ & b0 & C0 & S0) & (_ & b1 & C1 & S1)). unfold d2R. rewrite Q0, Q1, S0, S1, bp_0, !Rmult_1_r, <- !minus_IZR, <- !mult_IZR, <- plus_IZR. apply IZR_lt.
    pose proof (zprod (a0 - b0) (a0 - b0) 2097152 ltac:(lia) ltac:(lia)). pose proof (zprod (a1 - b1) (a1 - b1) 2097152 ltac:(lia) ltac:(lia)). lia.
  - repeat split; try (apply Fk || apply Fs || apply Ft); auto.
    + rewrite E1, E2, mult_IZR, plus_IZR. ring.
    + rewrite E1, E2, mult_IZR, minus_IZR. ring.
Qed.

Lemma int_lt_near a b z e : 0 < e < 1 / 4 -> IZR a <= z <= IZR a + 2 * e -> (z < IZR b <-> (a < b)%Z).
Proof. intros He Hz. split; intros H; [apply lt_IZR; lra|]. assert (IZR (a + 1) <= IZR b) by (apply IZR_le; lia). rewrite plus_IZR in H0. lra. Qed.
Lemma int_gt_near a b z e : 0 < e < 1 / 4 -> IZR a - 2 * e <= z <= IZR a -> (IZR b < z <-> (b < a)%Z).
Proof. intros He Hz. split; intros H; [apply lt_IZR; lra|]. assert (IZR (b + 1) <= IZR a) by (apply IZR_le; lia). rewrite plus_IZR in H0. lra. Qed.
Lemma eps_small : 0 < sepsilon_ < 1 / 4.
Proof. unfold sepsilon_; lra. Qed.

Lemma apart64_int m c1 c2 : on_grid2 0 1048576 (c64_center c1) -> on_grid2 0 1048576 (c64_center c2) -> on_grid 0 1048576 (c64_radius c1) -> on_grid 0 1048576 (c64_radius c2) ->
  let r1 := SF2R (c64_radius c1) in let r2 := SF2R (c64_radius c2) in let v := fp_sub (c64_center c1) (c64_center c2) in let d := d2R (c64_center c1) (c64_center c2) in
  (apart64 (dot64 m v v) (c64_radius c1) (c64_radius c2) = true <-> d < (r1 - r2) * (r1 - r2) \/ (r1 + r2) * (r1 + r2) < d).
Proof.
  intros G1 G2 R1 R2 r1 r2 v d. destruct (cc_ints m c1 c2 G1 G2 R1 R2) as (kd & ks & kt & B & (Fd & Ed) & (Fs & Es) & (Ft & Et) & Dd & Ds & Dt). cbv zeta in *. fold v in Fd, Ed.
  unfold apart64. rewrite orb_true_iff. destruct (near_add _ _ Fs Es ltac:(lia)) as (Fa & Na). destruct (near_sub _ _ Ft Et ltac:(lia)) as (Fb & Nb).
  rewrite (flt _ _ Fa Fd), (flt _ _ Fd Fb), Ed, (int_lt_near _ _ _ _ eps_small Na), (int_gt_near _ _ _ _ eps_small Nb). unfold d, r1, r2. rewrite Dd, Ds, Dt.
  split; intros [H|H]; [right|left|right|left]; try (apply IZR_lt; exact H); apply lt_IZR; exact H.
Qed.

Lemma touch64_int m c1 c2 : on_grid2 0 1048576 (c64_center c1) -> on_grid2 0 1048576 (c64_center c2) -> on_grid 0 1048576 (c64_radius c1) -> on_grid 0 1048576 (c64_radius c2) ->
  let r1 := c64_radius c1 in let r2 := c64_radius c2 in let v := fp_sub (c64_center c1) (c64_center c2) in let d2 := dot64 m v v in let d := d2R (c64_center c1) (c64_center c2) in
  (SFltb (SF64sub (SF64mul (SF64add r1 r2) (SF64add r1 r2)) d2) fsepsilon || SFltb (SF64sub d2 (SF64mul (SF64sub r1 r2) (SF64sub r1 r2))) fsepsilon = true <->
   (SF2R r1 + SF2R r2) * (SF2R r1 + SF2R r2) <= d \/ d <= (SF2R r1 - SF2R r2) * (SF2R r1 - SF2R r2)).
Proof.
  intros G1 G2 R1 R2 r1 r2 v d2 d. destruct (cc_ints m c1 c2 G1 G2 R1 R2) as (kd & ks & kt & B & (Fd & Ed) & (Fs & Es) & (Ft & Et) & Dd & Ds & Dt). cbv zeta in *. fold r1 r2 in Fs, Es, Ft, Et, Ds, Dt. fold v in Fd, Ed. fold d2 in Fd, Ed.
  set (s := SF64mul (SF64add r1 r2) _) in *. set (t := SF64mul (SF64sub r1 r2) _) in *. destruct val_fsepsilon as (Fe & Ve). pose proof eps_small as Ep.
  assert (Ed' : SF2R d2 = IZR kd * bp 0) by (rewrite bp_0; lra). assert (Es' : SF2R s = IZR ks * bp 0) by (rewrite bp_0; lra). assert (Et' : SF2R t = IZR kt * bp 0) by (rewrite bp_0; lra).
  destruct (sub_grid _ _ _ _ 0 Fs Fd Es' Ed' ltac:(lia) ltac:(lia)) as (F1 & E1). destruct (sub_grid _ _ _ _ 0 Fd Ft Ed' Et' ltac:(lia) ltac:(lia)) as (F2 & E2). rewrite bp_0, Rmult_1_r in E1, E2.
  assert (K : forall n, IZR n < sepsilon_ <-> (n <= 0)%Z). { intros n. split; intros H; [assert (IZR n < 1) by lra; apply (lt_IZR _ 1) in H0; lia|apply IZR_le in H; lra]. }
  rewrite orb_true_iff, (flt _ _ F1 Fe), (flt _ _ F2 Fe), Ve, E1, E2, !K. unfold d. rewrite Dd, Ds, Dt. split; intros [H|H]; [left|right|left|right]; try (apply IZR_le; lia); apply le_IZR in H; lia.
Qed.

(** ** Equality of circles *)

Lemma approx_equal64_int M a b na nb : (M <= 900000000)%Z -> fin a -> fin b -> SF2R a = IZR na -> SF2R b = IZR nb -> (0 <= na <= M)%Z -> (0 <= nb <= M)%Z -> (approx_equal64 a b = true <-> na = nb).
Proof.
  intros HM Fa Fb Ea Eb Ba Bb. assert (Bg : IZR 900000000 <= bp 1020). { apply Rle_trans with (bp 53); [rewrite bp_IZR by lia; apply IZR_le; lia|apply bp_le; lia]. }
  assert (Ra : 0 <= IZR na <= IZR 900000000) by (split; apply IZR_le; lia). assert (Rb : 0 <= IZR nb <= IZR 900000000) by (split; apply IZR_le; lia).
  destruct (approx_equal_ok a b Fa Fb ltac:(rewrite Ea; lra) ltac:(rewrite Eb; lra)) as (K1 & K2). rewrite Ea, Eb in K1, K2. split; intros H.
  - apply K1 in H. assert (Rmax (IZR na) (IZR nb) <= IZR 900000000) by (apply Rmax_lub; lra). rewrite <- minus_IZR, <- abs_IZR in H. assert (IZR (Z.abs (na - nb)) < 1) by lra. apply (lt_IZR _ 1) in H1. lia.
  - apply K2. rewrite H. unfold Rminus. rewrite Rplus_opp_r, Rabs_R0. pose proof (Rmax_l (IZR nb) (IZR nb)). lra.
Qed.

Lemma npclose64_int x y : on_grid 0 65536 x -> on_grid 0 65536 y -> (npclose64 x y = true <-> SF2R x = SF2R y).
Proof.
  intros (Fx & a & Ba & Ea) (Fy & b & Bb & Eb). unfold npclose64. rewrite orb_true_iff, (feq x y Fx Fy), andb_true_iff. split; [|auto]. intros [(H & _)|H]; auto.
  destruct (sub_grid x y a b 0 Fx Fy Ea Eb ltac:(lia) ltac:(lia)) as (Fd & Ed). destruct (fabs _ Fd) as (Fe & Ee). destruct (fabs _ Fy) as (Fz & Ez).
  rewrite bp_0, Rmult_1_r in Ea, Eb, Ed. pose proof u_bounds as U. pose proof eta64_small as Et.
  assert (Bz : 0 <= SF2R (SFabs y) <= 65536) by (rewrite Ez, Eb, <- abs_IZR; split; apply IZR_le; lia).
  assert (B5 : 0 < SF2R f1em5 <= 10001 / 1000000000) by (unfold f1em5; rewrite val_lit; cbn; lra). assert (F5 : fin f1em5) by (split; reflexivity).
  assert (B8 : 0 < SF2R f1em8 <= 1 / 1000) by (unfold f1em8; rewrite val_lit; cbn; lra). assert (F8 : fin f1em8) by (split; reflexivity).
  assert (Big : 2 <= bp 1023) by (replace 2 with (bp 1) by (rewrite bp_IZR by lia; reflexivity); apply bp_le; lia).
  assert (P1 : 0 <= SF2R f1em5 * SF2R (SFabs y) <= 66 / 100) by nra.
  assert (Rm := fmul f1em5 (SFabs y) F5 Fz ltac:(rewrite Rabs_right; lra)). pose proof (rounds_fin _ _ Rm) as Fm. pose proof (rounds_err_le _ _ 1 Rm ltac:(rewrite Rabs_right; lra)) as Em. apply abs_bounds in Em.
  set (q := SF64mul f1em5 (SFabs y)) in *. assert (Ra : Rabs (SF2R f1em8 + SF2R q) <= 1) by (apply Rabs_le; lra).
  destruct (fadd f1em8 q F8 Fm ltac:(lra)) as (Rz & Es). pose proof (rounds_fin _ _ Rz) as Fs. assert (Es' : Rabs (SF2R (SF64add f1em8 q) - (SF2R f1em8 + SF2R q)) <= u64 * 1) by (eapply Rle_trans; [exact Es|apply Rmult_le_compat_l; lra]). apply abs_bounds in Es'.
  apply (fle _ _ Fe Fs) in H. rewrite Ee, Ed, <- abs_IZR in H. assert (L : IZR (Z.abs (a - b)) < 1) by lra. apply (lt_IZR _ 1) in L. rewrite Ea, Eb. f_equal. lia.
Qed.

Lemma circle_is_equal64_int c1 c2 : on_grid2 0 65536 (c64_center c1) -> on_grid2 0 65536 (c64_center c2) -> on_grid 0 1048576 (c64_radius c1) -> on_grid 0 1048576 (c64_radius c2) -> 0 < SF2R (c64_radius c1) -> 0 < SF2R (c64_radius c2) ->
  (circle_is_equal64 c1 c2 = true <-> P2R (c64_center c1) = P2R (c64_center c2) /\ SF2R (c64_radius c1) = SF2R (c64_radius c2)).
Proof.
  intros (G1 & G1') (G2 & G2') (F1 & n1 & B1 & E1) (F2 & n2 & B2 & E2) P1 P2. rewrite bp_0, Rmult_1_r in E1, E2. rewrite E1 in P1. rewrite E2 in P2. apply lt_IZR in P1, P2.
  unfold circle_is_equal64, allclose64. rewrite !andb_true_iff, (approx_equal64_int 1048576 _ _ n1 n2 ltac:(lia) F1 F2 E1 E2 ltac:(lia) ltac:(lia)), (npclose64_int _ _ G1 G2), (npclose64_int _ _ G1' G2'), E1, E2. unfold P2R. split.
  - intros (-> & -> & ->). auto.
  - intros (H & K). injection H as H H'. apply eq_IZR in K. auto.
Qed.
