(** * Two circles in binary64: the results *)

From Coq Require Import Reals ZArith Lia Lra Psatz Bool SpecFloat.
From Verif Require Import SpecF64 Base Spec BaseLemmas SpecLemmas ModelInternal ModelLine ModelCircle ModelFloat ModelFloatInter ModelFloatCC PFloat PFloat2 PFloat3 PFloat4 PFloatCircle PFloatGrid PFloatInter PCircle PFloatCC.
Local Open Scope R_scope.

Lemma on_grid_weaken g N M x : (N <= M)%Z -> on_grid g N x -> on_grid g M x.
Proof. intros H (F & n & B & E). split; auto. exists n. split; auto. lia. Qed.
Lemma on_grid2_weaken g N M P : (N <= M)%Z -> on_grid2 g N P -> on_grid2 g M P.
Proof. intros H (A & B). split; eapply on_grid_weaken; eauto. Qed.

Lemma d2R_dist2 P Q : d2R P Q = dist2 (P2R P) (P2R Q).
Proof. unfold d2R, P2R. unspec. ring. Qed.

Lemma dist2_zero P Q : dist2 P Q = 0 -> P = Q.
Proof. intros H. destruct P as [a b], Q as [c d]. revert H. unspec. intros H. apply Rplus_sqr_eq_0 in H. destruct H. f_equal; lra. Qed.

Section Ints.
Variables (m : how) (acosf cosf sinf : spec_float -> spec_float) (atan2f : spec_float -> spec_float -> spec_float) (c1 c2 : circle64).
Let O1 := P2R (c64_center c1).
Let O2 := P2R (c64_center c2).
Let r1 := SF2R (c64_radius c1).
Let r2 := SF2R (c64_radius c2).
Let both (M : pt) := on_circle O1 r1 M /\ on_circle O2 r2 M.
Hypotheses (R1 : on_grid 0 1048576 (c64_radius c1)) (R2 : on_grid 0 1048576 (c64_radius c2)) (P1 : 0 < r1) (P2 : 0 < r2).

Lemma intersection_cc64_int : on_grid2 0 65536 (c64_center c1) -> on_grid2 0 65536 (c64_center c2) ->
  match intersection_circle_circle64 m acosf cosf sinf atan2f c1 c2 with
  | Same64 c => c = c1 /\ O1 = O2 /\ r1 = r2
  | Points64 INone64 => forall M, ~ both M
  | Points64 (IOne64 _) => exists M, both M /\ forall N, both N -> N = M
  | Points64 (ITwo64 _ _) => exists M N, M <> N /\ both M /\ both N /\ forall L, both L -> L = M \/ L = N
  end.
Proof.
  intros G1 G2. unfold intersection_circle_circle64. pose proof (circle_is_equal64_int c1 c2 G1 G2 R1 R2 P1 P2) as Q. fold O1 O2 r1 r2 in Q.
  destruct (circle_is_equal64 c1 c2); [destruct Q as (Q & _); destruct (Q eq_refl); auto|].
  assert (NQ : ~ (O1 = O2 /\ r1 = r2)) by (intros K; apply Q in K; discriminate). clear Q.
  assert (G1' := on_grid2_weaken 0 65536 1048576 _ ltac:(lia) G1). assert (G2' := on_grid2_weaken 0 65536 1048576 _ ltac:(lia) G2).
  pose proof (apart64_int m c1 c2 G1' G2' R1 R2) as A. pose proof (touch64_int m c1 c2 G1' G2' R1 R2) as T. cbv zeta in *. rewrite d2R_dist2 in A, T. fold O1 O2 r1 r2 in A, T.
  destruct (apart64 _ _ _).
  { apply common_none; auto. destruct A as (A & _). apply A. reflexivity. }
  assert (B : (r1 - r2) * (r1 - r2) <= dist2 O1 O2 <= (r1 + r2) * (r1 + r2)). { split; apply Rnot_lt_le; intros K; assert (false = true) by (apply A; auto); discriminate. }
  assert (D : 0 < dist2 O1 O2). { destruct (Rle_lt_or_eq_dec 0 _ (dist2_nonneg O1 O2)) as [|E]; auto. exfalso. apply NQ. split; [apply dist2_zero; auto|]. rewrite <- E in B. destruct B as (B & _). pose proof (Rle_0_sqr (r1 - r2)) as S. unfold Rsqr in S. assert (Z : (r1 - r2) * (r1 - r2) = 0) by lra. apply Rmult_integral in Z. destruct Z; lra. }
  destruct (_ || _).
  - apply common_one; auto. destruct (proj1 T eq_refl); [right|left]; lra.
  - apply common_two; auto. assert (N : ~ ((r1 + r2) * (r1 + r2) <= dist2 O1 O2 \/ dist2 O1 O2 <= (r1 - r2) * (r1 - r2))) by (intros K; apply T in K; discriminate). lra.
Qed.

Lemma angle64_int : on_grid2 0 1048576 (c64_center c1) -> on_grid2 0 1048576 (c64_center c2) ->
  (circle_angle64 m acosf c1 c2 = Ok None <-> forall M, ~ both M).
Proof.
  intros G1 G2. unfold circle_angle64. pose proof (apart64_int m c1 c2 G1 G2 R1 R2) as A. cbv zeta in *. rewrite d2R_dist2 in A. fold O1 O2 r1 r2 in A. destruct (apart64 _ _ _).
  { split; auto. intros _. apply common_none; auto. apply A. reflexivity. }
  assert (B : (r1 - r2) * (r1 - r2) <= dist2 O1 O2 <= (r1 + r2) * (r1 + r2)). { split; apply Rnot_lt_le; intros K; assert (false = true) by (apply A; auto); discriminate. }
  split.
  - unfold acos64. destruct (_ && _); cbn; discriminate.
  - intros N. exfalso. destruct (Rle_lt_or_eq_dec 0 _ (dist2_nonneg O1 O2)) as [D|E].
    + destruct (common_point_exists O1 r1 O2 r2 P1 P2) as (M & K); [|cbn; lra|exact (N M K)]. intros Q. rewrite Q in D. revert D. unspec. lra.
    + symmetry in E. pose proof (dist2_zero _ _ E) as Q. rewrite E in B. pose proof (Rle_0_sqr (r1 - r2)) as S. unfold Rsqr in S. assert (Z : (r1 - r2) * (r1 - r2) = 0) by lra. apply Rmult_integral in Z.
      apply (N (fst O1 + r1, snd O1)). assert (K : on_circle O1 r1 (fst O1 + r1, snd O1)) by (apply on_circle_sq; [lra|]; unspec; ring). split; auto. rewrite <- Q. replace r2 with r1 by (destruct Z; lra). exact K.
Qed.

Lemma is_orthogonal64_int : on_grid2 0 10000 (c64_center c1) -> on_grid2 0 10000 (c64_center c2) -> on_grid 0 20000 (c64_radius c1) -> on_grid 0 20000 (c64_radius c2) ->
  (is_orthogonal64 m c1 c2 = true <-> dist2 O1 O2 = r1 * r1 + r2 * r2).
Proof.
  clear R1 R2. intros G1 G2 (F1 & n1 & B1 & E1) (F2 & n2 & B2 & E2). destruct (dist2_grid m 0 10000 _ _ ltac:(lia) ltac:(lia) G1 G2) as (k & Bk & Fk & Ek & Dk). rewrite d2R_dist2 in Dk. fold O1 O2 in Dk.
  pose proof (zprod n1 n1 20000 ltac:(lia) ltac:(lia)) as Q1. pose proof (zprod n2 n2 20000 ltac:(lia) ltac:(lia)) as Q2. pose proof (Z.square_nonneg n1). pose proof (Z.square_nonneg n2).
  destruct (mul_grid _ _ _ _ 0 0 F1 F1 E1 E1 ltac:(lia) ltac:(lia)) as (Fa & Ea). destruct (mul_grid _ _ _ _ 0 0 F2 F2 E2 E2 ltac:(lia) ltac:(lia)) as (Fb & Eb).
  destruct (add_grid _ _ _ _ _ Fa Fb Ea Eb ltac:(lia) ltac:(lia)) as (Fs & Es). change (0 + 0)%Z with 0%Z in *. rewrite bp_0, Rmult_1_r in *.
  assert (Bk' : (k <= 800000000)%Z).
  { destruct G1 as ((_ & a0 & B0 & W0) & (_ & a1 & C1 & W1)), G2 as ((_ & b0 & C0 & V0) & (_ & b1 & D1 & V1)). apply le_IZR. rewrite <- Dk. unfold O1, O2. rewrite <- d2R_dist2. unfold d2R. rewrite W0, W1, V0, V1, bp_0, !Rmult_1_r, <- !minus_IZR, <- !mult_IZR, <- plus_IZR. apply IZR_le.
    pose proof (zprod (a0 - b0) (a0 - b0) 20000 ltac:(lia) ltac:(lia)). pose proof (zprod (a1 - b1) (a1 - b1) 20000 ltac:(lia) ltac:(lia)). lia. }
  unfold is_orthogonal64. rewrite (approx_equal64_int 800000000 _ _ k (n1 * n1 + n2 * n2) ltac:(lia) Fk Fs Ek Es ltac:(lia) ltac:(lia)), Dk. unfold r1, r2. rewrite E1, E2, <- !mult_IZR, <- plus_IZR. split; [intros ->; auto|apply eq_IZR].
Qed.

(** ** The radical center *)

Lemma half_grid x n g : fin x -> SF2R x = IZR n * bp g -> (Z.abs n < 2 ^ 53)%Z -> (-500 <= g <= 500)%Z -> fin (SF64div x f2) /\ SF2R (SF64div x f2) = IZR n * bp (g - 1).
Proof.
  intros F E B Hg. assert (F2 : fin f2) by (split; reflexivity). assert (V2 : SF2R f2 = 2) by (unfold f2; rewrite val_lit; cbn; lra).
  assert (Q : SF2R x / SF2R f2 = IZR n * bp (g - 1)). { rewrite E, V2. replace g with (g - 1 + 1)%Z at 1 by ring. rewrite bp_succ. field. }
  assert (R : rounds (SF64div x f2) (SF2R x / SF2R f2)). { apply fdiv; auto; [lra|]. rewrite Q. apply grid_big; lia. } rewrite Q in R. apply (rounds_repr _ _ _ R); lia.
Qed.

Lemma rc_coord a b k v L na nb nk nl : fin a -> fin b -> fin k -> fin L -> fin v -> SF2R a = IZR na -> SF2R b = IZR nb -> SF2R k = IZR nk -> SF2R L = IZR nl -> SF2R v = IZR (nb - na) ->
  (Z.abs na <= 65536)%Z -> (Z.abs nb <= 65536)%Z -> (Z.abs nk <= 2 ^ 35)%Z -> (0 < nl)%Z ->
  let z := SF64add (SF64div (SF64add a b) f2) (SF64div (SF64mul (SF64div k f2) v) L) in
  let mid := (IZR na + IZR nb) / 2 in let ex := mid + IZR nk / (2 * IZR nl) * (IZR nb - IZR na) in
  fin z /\ Rabs (SF2R z - ex) <= 3 * u64 * (Rabs ex + Rabs mid) + 2 * eta64.
Proof.
  intros Fa Fb Fk FL Fv Ea Eb Ek El Ev Ba Bb Bk Hl z mid ex. pose proof u_bounds as U. pose proof eta64_small as Et. pose proof (bp_pos (-1075)) as Pe. fold eta64 in Pe.
  assert (Ea' : SF2R a = IZR na * bp 0) by (rewrite bp_0; lra). assert (Eb' : SF2R b = IZR nb * bp 0) by (rewrite bp_0; lra). assert (Ek' : SF2R k = IZR nk * bp 0) by (rewrite bp_0; lra). assert (Ev' : SF2R v = IZR (nb - na) * bp 0) by (rewrite bp_0; lra).
  destruct (add_grid a b na nb 0 Fa Fb Ea' Eb' ltac:(lia) ltac:(lia)) as (F1 & E1). destruct (half_grid _ _ _ F1 E1 ltac:(lia) ltac:(lia)) as (F2 & E2). destruct (half_grid _ _ _ Fk Ek' ltac:(lia) ltac:(lia)) as (F3 & E3).
  pose proof (zprod2 nk (nb - na) (2 ^ 35) 131072 ltac:(lia) ltac:(lia)) as Pz.
  destruct (mul_grid _ _ _ _ (0 - 1) 0 F3 Fv E3 Ev' ltac:(lia) ltac:(lia)) as (F4 & E4). change (0 - 1 + 0)%Z with (-1)%Z in E4. change (0 - 1)%Z with (-1)%Z in *.
  assert (Bh : bp (-1) = / 2) by (change (bp (-1)) with (/ (2 * 1)); lra).
  set (q := SF64div (SF64mul (SF64div k f2) v) L) in *. set (Q := IZR nk / (2 * IZR nl) * (IZR nb - IZR na)) in *.
  assert (L1 : 1 <= IZR nl) by (apply IZR_le; lia).
  assert (EQ : SF2R (SF64mul (SF64div k f2) v) / SF2R L = Q) by (rewrite E4, El, Bh, mult_IZR, minus_IZR; unfold Q; field; lra).
  assert (BQ : Rabs Q <= bp 60).
  { rewrite <- EQ, E4, El. unfold Rdiv. rewrite !Rabs_mult, <- abs_IZR, Bh, (Rabs_right (/ 2)) by lra. rewrite (Rabs_right (/ IZR nl)) by (left; apply Rinv_0_lt_compat; lra).
    assert (0 < / IZR nl <= 1). { split; [apply Rinv_0_lt_compat; lra|]. rewrite <- Rinv_1. apply Rinv_le_contravar; lra. }
    assert (0 <= IZR (Z.abs (nk * (nb - na))) <= bp 60) by (split; [apply IZR_le; lia|rewrite bp_IZR by lia; apply IZR_le; lia]). nra. }
  assert (B60 : bp 61 + bp 61 <= bp 1023). { replace (bp 61 + bp 61) with (bp (61 + 1)) by (rewrite bp_succ; ring). apply bp_le. lia. }
  assert (B61 : bp 61 = 2 * bp 60) by (rewrite <- bp_succ; reflexivity). assert (P60 : 1 <= bp 60) by (rewrite <- bp_0; apply bp_le; lia).
  assert (Rq : rounds q Q). { rewrite <- EQ. apply fdiv; auto; [lra|]. rewrite EQ. lra. }
  pose proof (rounds_fin _ _ Rq) as Fq. pose proof (rounds_err_le _ _ _ Rq (Rle_refl _)) as Eq.
  assert (Em : SF2R (SF64div (SF64add a b) f2) = mid) by (rewrite E2, Bh, plus_IZR; unfold mid; field).
  assert (Bm : Rabs mid <= 65536). { unfold mid. assert (Z1 : -65536 <= IZR na <= 65536) by (split; apply IZR_le; lia). assert (Z2 : -65536 <= IZR nb <= 65536) by (split; apply IZR_le; lia). apply Rabs_le. lra. }
  assert (B6 : 65536 <= bp 60) by (rewrite bp_IZR by lia; cbn; lra).
  pose proof (Rabs_pos Q) as PQ. pose proof (u_mul (Rabs Q) PQ) as UQ.
  assert (Bq : Rabs (SF2R q) <= Rabs Q + (u64 * Rabs Q + eta64)). { replace (SF2R q) with (Q + (SF2R q - Q)) by ring. eapply Rle_trans; [apply Rabs_triang|]. lra. }
  destruct (fadd (SF64div (SF64add a b) f2) q F2 Fq) as (Rz & Ez). { rewrite Em. eapply Rle_trans; [apply Rabs_triang|]. lra. }
  fold z in Rz, Ez. rewrite Em in Ez. split; [eapply rounds_fin; eauto|].
  assert (Q1 : Rabs Q <= Rabs ex + Rabs mid). { replace Q with (ex - mid) by (unfold ex; ring). eapply Rle_trans; [apply Rabs_triang|]. rewrite Rabs_Ropp. lra. }
  assert (Q2 : Rabs (mid + SF2R q) <= Rabs ex + (u64 * Rabs Q + eta64)). { replace (mid + SF2R q) with (ex + (SF2R q - Q)) by (unfold ex; ring). eapply Rle_trans; [apply Rabs_triang|]. lra. }
  pose proof (Rabs_pos ex) as Pex. pose proof (Rabs_pos mid) as Pm.
  assert (Q3 : Rabs (SF2R z - ex) <= u64 * (Rabs ex + (u64 * Rabs Q + eta64)) + (u64 * Rabs Q + eta64)).
  { replace (SF2R z - ex) with ((SF2R z - (mid + SF2R q)) + (SF2R q - Q)) by (unfold ex; ring). eapply Rle_trans; [apply Rabs_triang|]. apply Rplus_le_compat; [|exact Eq]. eapply Rle_trans; [exact Ez|]. apply Rmult_le_compat_l; lra. }
  eapply Rle_trans; [exact Q3|]. pose proof (u_mul (u64 * Rabs Q) ltac:(lra)) as W1. pose proof (u_mul eta64 ltac:(lra)) as W2. assert (W3 : u64 * Rabs Q <= u64 * (Rabs ex + Rabs mid)) by (apply Rmult_le_compat_l; lra). assert (W4 : 0 <= u64 * Rabs mid) by (apply Rmult_le_pos; lra). assert (W5 : 0 <= u64 * Rabs ex) by (apply Rmult_le_pos; lra).
  rewrite !Rmult_plus_distr_l. replace (3 * u64 * Rabs ex + 3 * u64 * Rabs mid) with (3 * (u64 * Rabs ex) + 3 * (u64 * Rabs mid)) by ring. rewrite Rmult_plus_distr_l in W3. lra.
Qed.

Lemma radical_center64_int : on_grid2 0 65536 (c64_center c1) -> on_grid2 0 65536 (c64_center c2) -> on_grid 0 131072 (c64_radius c1) -> on_grid 0 131072 (c64_radius c2) ->
  let z := radical_center64 m c1 c2 in
  (O1 = O2 -> z = (S754_infinity false, S754_infinity false)) /\
  (O1 <> O2 -> exists C t, C = vadd O1 (vscal t (vsub O2 O1)) /\ dist2 O1 C - r1 * r1 = dist2 O2 C - r2 * r2 /\ fin2 z /\
     Rabs (SF2R (fst z) - fst C) <= 3 * u64 * (Rabs (fst C) + Rabs ((fst O1 + fst O2) / 2)) + 2 * eta64 /\
     Rabs (SF2R (snd z) - snd C) <= 3 * u64 * (Rabs (snd C) + Rabs ((snd O1 + snd O2) / 2)) + 2 * eta64).
Proof.
  clear R1 R2. intros G1 G2 (Fr1 & n1 & B1 & E1) (Fr2 & n2 & B2 & E2) z. destruct (dist2_grid m 0 65536 _ _ ltac:(lia) ltac:(lia) G2 G1) as (k & Bk & Fk & Ek & Dk). rewrite d2R_dist2 in Dk. fold O1 O2 in Dk.
  pose proof (zprod n1 n1 131072 ltac:(lia) ltac:(lia)) as Q1. pose proof (zprod n2 n2 131072 ltac:(lia) ltac:(lia)) as Q2. 
  destruct (mul_grid _ _ _ _ 0 0 Fr1 Fr1 E1 E1 ltac:(lia) ltac:(lia)) as (Fa & Ea). destruct (mul_grid _ _ _ _ 0 0 Fr2 Fr2 E2 E2 ltac:(lia) ltac:(lia)) as (Fb & Eb).
  destruct (sub_grid _ _ _ _ _ Fa Fb Ea Eb ltac:(lia) ltac:(lia)) as (Fs & Es). change (0 + 0)%Z with 0%Z in *. rewrite bp_0, Rmult_1_r in *.
  unfold z, radical_center64. clear z. assert (Z0 := feq _ f0 Fk fin_f0). rewrite Ek, val_f0 in Z0.
  set (v := fp_sub (c64_center c2) (c64_center c1)) in *. set (L := dot64 m v v) in *. set (K := SF64sub (SF64mul (c64_radius c1) (c64_radius c1)) _) in *. clearbody K. split.
  - intros Q. rewrite Q in Dk. assert (Ez : IZR k = 0) by (rewrite <- Dk; unspec; ring). apply Z0 in Ez. rewrite Ez. reflexivity.
  - intros Q. assert (D : 0 < IZR k) by (rewrite <- Dk; apply dist2_pos; auto). destruct (SFeqb L f0); [exfalso; pose proof (proj1 Z0 eq_refl); lra|]. apply lt_IZR in D.
    destruct G1 as ((Fx1 & a0 & A0 & W0) & (Fy1 & a1 & A1 & W1)), G2 as ((Fx2 & b0 & C0 & V0) & (Fy2 & b1 & C1 & V1)).
    destruct (sub_grid _ _ _ _ 0 Fx2 Fx1 V0 W0 ltac:(lia) ltac:(lia)) as (Fvx & Evx). destruct (sub_grid _ _ _ _ 0 Fy2 Fy1 V1 W1 ltac:(lia) ltac:(lia)) as (Fvy & Evy).
    rewrite bp_0, Rmult_1_r in W0, W1, V0, V1, Evx, Evy.
    destruct (rc_coord _ _ K (fst v) L a0 b0 _ k Fx1 Fx2 Fs Fk Fvx W0 V0 Es Ek Evx A0 C0 ltac:(lia) D) as (X1 & X2).
    destruct (rc_coord _ _ K (snd v) L a1 b1 _ k Fy1 Fy2 Fs Fk Fvy W1 V1 Es Ek Evy A1 C1 ltac:(lia) D) as (Y1 & Y2). cbv zeta in X2, Y2.
    set (t := / 2 + IZR (n1 * n1 - n2 * n2) / (2 * IZR k)). assert (HD : 0 < IZR k) by (apply IZR_lt; lia).
    assert (EO1 : O1 = (IZR a0, IZR a1)) by (unfold O1, P2R; rewrite W0, W1; reflexivity). assert (EO2 : O2 = (IZR b0, IZR b1)) by (unfold O2, P2R; rewrite V0, V1; reflexivity).
    exists (vadd O1 (vscal t (vsub O2 O1))), t. split; [reflexivity|]. split.
    + assert (Er : r1 * r1 - r2 * r2 = IZR (n1 * n1 - n2 * n2)) by (unfold r1, r2; rewrite E1, E2, minus_IZR, !mult_IZR; ring).
      enough (H : dist2 O1 (vadd O1 (vscal t (vsub O2 O1))) - dist2 O2 (vadd O1 (vscal t (vsub O2 O1))) = r1 * r1 - r2 * r2) by lra. rewrite Er.
      transitivity ((2 * t - 1) * dist2 O2 O1); [unspec; ring|]. rewrite Dk. unfold t. field. lra.
    + split; [split; [exact X1|exact Y1]|]. rewrite EO1, EO2. unfold vadd, vscal, vsub; cbn [fst snd]. split.
      * replace (IZR a0 + t * (IZR b0 - IZR a0)) with ((IZR a0 + IZR b0) / 2 + IZR (n1 * n1 - n2 * n2) / (2 * IZR k) * (IZR b0 - IZR a0)) by (unfold t; field; lra). exact X2.
      * replace (IZR a1 + t * (IZR b1 - IZR a1)) with ((IZR a1 + IZR b1) / 2 + IZR (n1 * n1 - n2 * n2) / (2 * IZR k) * (IZR b1 - IZR a1)) by (unfold t; field; lra). exact Y2.
Qed.
End Ints.
