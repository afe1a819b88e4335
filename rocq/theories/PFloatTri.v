(** * Triangles in binary64: lemmas *)

From Coq Require Import Reals ZArith Lia Lra Psatz Bool SpecFloat.
From Verif Require Import SpecF64 Base Spec SpecTriangle BaseLemmas SpecLemmas ModelFloat ModelFloatTri ModelTriangle PFloat PFloat2 PFloat3 PFloat4 PFloatCircle PFloatLine PFloatGrid PFloatEx PFloatMisc2 PTriangle.
Local Open Scope R_scope.

(** ** Sums of products on a grid, with bounds *)

Definition gvb (g M : Z) (x : spec_float) (k : Z) : Prop := fin x /\ SF2R x = IZR k * bp g /\ (Z.abs k <= M)%Z.

Lemma gvb_add g M N x y a b : gvb g M x a -> gvb g N y b -> (M + N < 2 ^ 53)%Z -> (-1074 <= g <= 970)%Z -> gvb g (M + N) (SF64add x y) (a + b).
Proof. intros (Fx & Ex & Bx) (Fy & Ey & By) H G. destruct (add_grid x y a b g) as (F & E); auto; [lia|]. split; [auto|]. split; [auto|lia]. Qed.

Lemma gvb_sub g M N x y a b : gvb g M x a -> gvb g N y b -> (M + N < 2 ^ 53)%Z -> (-1074 <= g <= 970)%Z -> gvb g (M + N) (SF64sub x y) (a - b).
Proof. intros (Fx & Ex & Bx) (Fy & Ey & By) H G. destruct (sub_grid x y a b g) as (F & E); auto; [lia|]. split; [auto|]. split; [auto|lia]. Qed.

Lemma gvb_mul g M N x y a b : gvb g M x a -> gvb g N y b -> (M * N < 2 ^ 53)%Z -> (-1074 <= g + g <= 970)%Z -> gvb (g + g) (M * N) (SF64mul x y) (a * b).
Proof. intros (Fx & Ex & Bx) (Fy & Ey & By) H G. pose proof (zprod2 a b M N Bx By). destruct (mul_grid x y a b g g) as (F & E); auto; [lia|]. split; [auto|]. split; [auto|lia]. Qed.

Lemma gvb_opp g M x a : gvb g M x a -> gvb g M (SFopp x) (- a).
Proof. intros (Fx & Ex & Bx). destruct (fopp x Fx) as (F & E). split; [auto|]. split; [rewrite E, Ex, opp_IZR; ring|lia]. Qed.

(** ** The test on the barycentric coordinates *)

Lemma tri_real S T s t x : 0 < S -> 0 < T -> Rabs (s - S) <= u64 * S -> Rabs (t - T) <= u64 * T ->
  Rabs (x - (1 - s)) <= u64 * Rabs (1 - s) -> 16 * u64 <= Rabs (1 - S - T) -> (0 < x - t <-> 0 < 1 - S - T).
Proof.
  intros HS HT Es Et Ex H. pose proof u_bounds as U. apply abs_bounds in Es, Et, Ex.
  assert (US : 0 < u64 * S <= / 9000000000000000 * S) by (split; [apply Rmult_lt_0_compat; lra|apply Rmult_le_compat_r; lra]).
  assert (UT : 0 < u64 * T <= / 9000000000000000 * T) by (split; [apply Rmult_lt_0_compat; lra|apply Rmult_le_compat_r; lra]).
  assert (UX : u64 * Rabs (1 - s) <= u64 + 2 * (u64 * S)).
  { apply Rle_trans with (u64 * (1 + 2 * S)); [apply Rmult_le_compat_l; [lra|]|lra]. apply Rabs_le. lra. }
  destruct (Rle_dec (S + T) 2) as [L|L].
  - assert (UST : u64 * S + u64 * T <= 2 * u64) by (rewrite <- Rmult_plus_distr_l; rewrite (Rmult_comm 2); apply Rmult_le_compat_l; lra).
    destruct (Rle_dec 0 (1 - S - T)) as [P|P]; [rewrite Rabs_right in H by lra|rewrite Rabs_left in H by lra]; split; intros; lra.
  - split; intros; lra.
Qed.

Lemma zero_fin x : fin x -> SF2R x = 0 -> exists s, x = S754_zero s.
Proof.
  intros (_ & F) E. destruct x as [s|s| |s m e]; try discriminate; [eauto|]. exfalso. cbn [SF2R] in E. pose proof (bp_pos e). assert (0 < IZR (Zpos m)) by (apply IZR_lt; lia).
  assert (0 < IZR (Zpos m) * bp e) by (apply Rmult_lt_0_compat; auto). destruct s; cbn [sgnR] in E; lra.
Qed.

(** With a zero divisor the three tests are never passed together. *)
Lemma tri_test_flat x y d : fin x -> fin y -> fin d -> SF2R d = 0 ->
  let s := SF64div x d in let t := SF64div y d in SFltb f0 s && SFltb f0 t && SFltb f0 (SF64sub (SF64sub f1 s) t) = false.
Proof.
  intros (_ & Fx) (_ & Fy) Fd E. destruct (zero_fin d Fd E) as (sd & ->).
  destruct x as [sx|sx| |sx mx ex]; try discriminate; [reflexivity|]. destruct y as [sy|sy| |sy my ey]; try discriminate; [cbn; destruct (xorb sx sd); reflexivity|].
  cbn. destruct (xorb sx sd), (xorb sy sd); reflexivity.
Qed.

Lemma tri_test g x y d kx ky kd : gvb g (2 ^ 49) x kx -> gvb g (2 ^ 49) y ky -> gvb g (2 ^ 49) d kd -> kd <> 0%Z ->
  let S := IZR kx / IZR kd in let T := IZR ky / IZR kd in ~ (0 < S /\ 0 < T /\ S + T = 1) ->
  let s := SF64div x d in let t := SF64div y d in
  (SFltb f0 s && SFltb f0 t && SFltb f0 (SF64sub (SF64sub f1 s) t) = true <-> 0 < S /\ 0 < T /\ 0 < 1 - S - T).
Proof.
  intros (Fx & Ex & Bx) (Fy & Ey & By) (Fd & Ed & Bd) Nd S T Hn s t. pose proof u_bounds as U. pose proof (bp_pos g) as Pg. pose proof u64_val as Uv.
  assert (Kd : IZR kd <> 0) by (apply not_0_IZR; auto).
  assert (Ad : 1 <= Rabs (IZR kd) <= 562949953421312) by (rewrite <- abs_IZR; split; apply IZR_le; [lia|exact Bd]).
  assert (B1023 : 562949953421312 <= bp 1000) by (apply Rle_trans with (bp 49); [rewrite bp_IZR by lia; apply IZR_le; cbn; lia|apply bp_le; lia]). assert (B3 : 10 * bp 1000 <= bp 1023) by (apply Rle_trans with (bp 4 * bp 1000); [apply Rmult_le_compat_r; [left; apply bp_pos|rewrite bp_IZR by lia; cbn; lra]|rewrite <- bp_add; apply bp_le; lia]).
  assert (Bq : forall k, (Z.abs k <= 2 ^ 49)%Z -> Rabs (IZR k / IZR kd) <= 562949953421312).
  { intros k Hk. unfold Rdiv. rewrite Rabs_mult, Rabs_inv. apply Rle_trans with (Rabs (IZR k) * 1); [apply Rmult_le_compat_l; [apply Rabs_pos|]|rewrite Rmult_1_r, <- abs_IZR; apply IZR_le; exact Hk].
    rewrite <- Rinv_1. apply Rinv_le_contravar; lra. }
  assert (Nz : SF2R d <> 0) by (rewrite Ed; apply Rmult_integral_contrapositive_currified; lra).
  assert (Qx : SF2R x / SF2R d = S) by (rewrite Ex, Ed; unfold S; field; split; lra). assert (Qy : SF2R y / SF2R d = T) by (rewrite Ey, Ed; unfold T; field; split; lra).
  pose proof (Bq kx Bx) as BS. pose proof (Bq ky By) as BT. fold S in BS. fold T in BT.
  assert (Rs : rounds s S) by (rewrite <- Qx; apply fdiv; auto; rewrite Qx; lra). assert (Rt : rounds t T) by (rewrite <- Qy; apply fdiv; auto; rewrite Qy; lra).
  pose proof (rounds_fin _ _ Rs) as Fs. pose proof (rounds_fin _ _ Rt) as Ft.
  (* a positive quotient is not small *)
  assert (Sm : bp (-1022) <= / 562949953421312). { apply Rle_trans with (bp (-49)); [apply bp_le; lia|]. right. change (bp (-49)) with (/ bp 49). rewrite bp_IZR by lia. reflexivity. }
  assert (Lo : forall k, k <> 0%Z -> / 562949953421312 <= Rabs (IZR k / IZR kd)).
  { intros k Hk. unfold Rdiv. rewrite Rabs_mult, Rabs_inv. apply Rle_trans with (1 * / Rabs (IZR kd)); [rewrite Rmult_1_l; apply Rinv_le_contravar; lra|]. apply Rmult_le_compat_r; [left; apply Rinv_0_lt_compat; lra|]. rewrite <- abs_IZR. apply IZR_le. lia. }
  assert (Er : forall z k, rounds z (IZR k / IZR kd) -> 0 < IZR k / IZR kd -> Rabs (SF2R z - IZR k / IZR kd) <= u64 * (IZR k / IZR kd)).
  { intros z k Hz P. destruct Hz as (_ & _ & _ & _ & E). rewrite <- (Rabs_right (IZR k / IZR kd)) at 2 by lra. apply E. apply Rle_trans with (1 := Sm). apply Lo. intros ->. unfold Rdiv in P. lra. }
  assert (Sg : forall z k, rounds z (IZR k / IZR kd) -> (SFltb f0 z = true <-> 0 < IZR k / IZR kd)).
  { intros z k Hz. rewrite (flt _ _ fin_f0 (rounds_fin _ _ Hz)), val_f0. split; intros P.
    - apply Rnot_le_lt. intros L. pose proof (rounds_nonpos _ _ Hz L). lra.
    - pose proof (Er z k Hz P) as E. apply abs_bounds in E. set (q := IZR k / IZR kd) in *. assert (u64 * q <= / 9000000000000000 * q) by (apply Rmult_le_compat_r; lra). lra. }
  rewrite !andb_true_iff. rewrite (Sg s kx Rs), (Sg t ky Rt). fold S T.
  assert (M : 0 < S -> 0 < T -> (SFltb f0 (SF64sub (SF64sub f1 s) t) = true <-> 0 < 1 - S - T)); [|clear - M; tauto].
  intros PS PT. assert (Es : Rabs (SF2R s - S) <= u64 * S) by exact (Er s kx Rs PS). assert (Et : Rabs (SF2R t - T) <= u64 * T) by exact (Er t ky Rt PT).
  rewrite (Rabs_right S) in BS by lra. rewrite (Rabs_right T) in BT by lra. pose proof Es as Es'. pose proof Et as Et'. apply abs_bounds in Es', Et'.
  assert (US : 0 < u64 * S <= S) by (split; [apply Rmult_lt_0_compat; lra|rewrite <- (Rmult_1_l S) at 2; apply Rmult_le_compat_r; lra]). assert (UT : 0 < u64 * T <= T) by (split; [apply Rmult_lt_0_compat; lra|rewrite <- (Rmult_1_l T) at 2; apply Rmult_le_compat_r; lra]).
  destruct (fsub f1 s fin_f1 Fs) as (R1 & E1). { rewrite val_f1. apply Rabs_le. lra. } rewrite val_f1 in R1, E1. set (x1 := SF64sub f1 s) in *. pose proof (rounds_fin _ _ R1) as F1.
  assert (B1 : Rabs (SF2R x1) <= 4 * bp 1000). { apply abs_bounds in E1. assert (K : Rabs (1 - SF2R s) <= 1 + 2 * S) by (apply Rabs_le; lra). assert (u64 * Rabs (1 - SF2R s) <= 1 * (1 + 2 * S)) by (apply Rmult_le_compat; try lra; apply Rabs_pos). apply Rabs_le. lra. }
  apply abs_bounds in B1. destruct (fsub x1 t F1 Ft) as (R2 & E2). { apply Rabs_le. lra. } set (y1 := SF64sub x1 t) in *. pose proof (rounds_fin _ _ R2) as F2.
  rewrite (flt _ _ fin_f0 F2), val_f0.
  assert (H16 : 16 * u64 <= Rabs (1 - S - T)).
  { assert (Eq : 1 - S - T = IZR (kd - kx - ky) / IZR kd) by (unfold S, T; rewrite !minus_IZR; field; auto). rewrite Eq. apply Rle_trans with (/ 562949953421312); [rewrite Uv; lra|]. apply Lo. intros Z. apply Hn. split; auto. split; auto. rewrite Z in Eq. unfold Rdiv in Eq. lra. }
  rewrite <- (tri_real S T (SF2R s) (SF2R t) (SF2R x1) PS PT Es Et E1 H16). set (q := SF2R x1 - SF2R t) in *. split; intros P.
  - apply Rnot_le_lt. intros L. pose proof (rounds_nonpos _ _ R2 L). lra.
  - rewrite (Rabs_right q) in E2 by lra. apply abs_bounds in E2. assert (u64 * q <= / 9000000000000000 * q) by (apply Rmult_le_compat_r; lra). lra.
Qed.

(** ** [contains] *)

Lemma contains64_tri g A B C M : (-500 <= g <= 400)%Z -> on_grid2 g 8388608 A -> on_grid2 g 8388608 B -> on_grid2 g 8388608 C -> on_grid2 g 8388608 M ->
  ~ (exists r, 0 < r < 1 /\ P2R M = at_line (P2R B) (P2R C) r) ->
  (triangle_contains64 A B C M = true <-> ~ collinear (P2R A) (P2R B) (P2R C) /\ inside_triangle (P2R A) (P2R B) (P2R C) (P2R M)).
Proof.
  intros Hg. destruct A as (A0 & A1), B as (B0 & B1), C as (C0 & C1), M as (M0 & M1). intros ((Fa0 & a0 & Ba0 & Ea0) & (Fa1 & a1 & Ba1 & Ea1)) ((Fb0 & b0 & Bb0 & Eb0) & (Fb1 & b1 & Bb1 & Eb1)) ((Fc0 & c0 & Bc0 & Ec0) & (Fc1 & c1 & Bc1 & Ec1)) ((Fm0 & p0 & Bm0 & Em0) & (Fm1 & p1 & Bm1 & Em1)) NE.
  cbn [fst snd] in *.
  pose proof (contains_spec (mkTri (P2R (A0, A1)) (P2R (B0, B1)) (P2R (C0, C1))) (P2R (M0, M1))) as Sp. cbn [tA tB tC] in Sp. rewrite <- Sp. clear Sp.
  assert (GA0 : gvb g 8388608 A0 a0) by (split; auto). assert (GA1 : gvb g 8388608 A1 a1) by (split; auto). assert (GB0 : gvb g 8388608 B0 b0) by (split; auto). assert (GB1 : gvb g 8388608 B1 b1) by (split; auto).
  assert (GC0 : gvb g 8388608 C0 c0) by (split; auto). assert (GC1 : gvb g 8388608 C1 c1) by (split; auto). assert (GM0 : gvb g 8388608 M0 p0) by (split; auto). assert (GM1 : gvb g 8388608 M1 p1) by (split; auto).
  assert (weak : forall h N x k, gvb h N x k -> (N <= 2 ^ 49)%Z -> gvb h (2 ^ 49) x k) by (clear; intros h N x k (F & E & Bk) L; split; auto; split; auto; lia).
  assert (D := gvb_add _ _ _ _ _ _ _ (gvb_add _ _ _ _ _ _ _ (gvb_add _ _ _ _ _ _ _ (gvb_mul _ _ _ _ _ _ _ (gvb_opp _ _ _ _ GB1) GC0 ltac:(lia) ltac:(lia)) (gvb_mul _ _ _ _ _ _ _ GA1 (gvb_add _ _ _ _ _ _ _ (gvb_opp _ _ _ _ GB0) GC0 ltac:(lia) ltac:(lia)) ltac:(lia) ltac:(lia)) ltac:(lia) ltac:(lia))
    (gvb_mul _ _ _ _ _ _ _ GA0 (gvb_sub _ _ _ _ _ _ _ GB1 GC1 ltac:(lia) ltac:(lia)) ltac:(lia) ltac:(lia)) ltac:(lia) ltac:(lia)) (gvb_mul _ _ _ _ _ _ _ GB0 GC1 ltac:(lia) ltac:(lia)) ltac:(lia) ltac:(lia)).
  apply weak in D; [|lia].
  assert (X := gvb_add _ _ _ _ _ _ _ (gvb_add _ _ _ _ _ _ _ (gvb_sub _ _ _ _ _ _ _ (gvb_mul _ _ _ _ _ _ _ GA1 GC0 ltac:(lia) ltac:(lia)) (gvb_mul _ _ _ _ _ _ _ GA0 GC1 ltac:(lia) ltac:(lia)) ltac:(lia) ltac:(lia))
    (gvb_mul _ _ _ _ _ _ _ (gvb_sub _ _ _ _ _ _ _ GC1 GA1 ltac:(lia) ltac:(lia)) GM0 ltac:(lia) ltac:(lia)) ltac:(lia) ltac:(lia)) (gvb_mul _ _ _ _ _ _ _ (gvb_sub _ _ _ _ _ _ _ GA0 GC0 ltac:(lia) ltac:(lia)) GM1 ltac:(lia) ltac:(lia)) ltac:(lia) ltac:(lia)).
  apply weak in X; [|lia].
  assert (Y := gvb_add _ _ _ _ _ _ _ (gvb_add _ _ _ _ _ _ _ (gvb_sub _ _ _ _ _ _ _ (gvb_mul _ _ _ _ _ _ _ GA0 GB1 ltac:(lia) ltac:(lia)) (gvb_mul _ _ _ _ _ _ _ GA1 GB0 ltac:(lia) ltac:(lia)) ltac:(lia) ltac:(lia))
    (gvb_mul _ _ _ _ _ _ _ (gvb_sub _ _ _ _ _ _ _ GA1 GB1 ltac:(lia) ltac:(lia)) GM0 ltac:(lia) ltac:(lia)) ltac:(lia) ltac:(lia)) (gvb_mul _ _ _ _ _ _ _ (gvb_sub _ _ _ _ _ _ _ GB0 GA0 ltac:(lia) ltac:(lia)) GM1 ltac:(lia) ltac:(lia)) ltac:(lia) ltac:(lia)).
  apply weak in Y; [|lia].
  unfold triangle_contains64. set (fd := SF64add _ (SF64mul B0 C1)) in *. set (fx := SF64add _ (SF64mul (SF64sub A0 C0) M1)) in *. set (fy := SF64add _ (SF64mul (SF64sub B0 A0) M1)) in *.
  set (kd := (_ + b0 * c1)%Z) in D. set (kx := (_ + (a0 - c0) * p1)%Z) in X. set (ky := (_ + (b0 - a0) * p1)%Z) in Y.
  unfold triangle_contains. cbn [tA tB tC P2R fst snd]. pose proof (bp_pos g) as Pg.
  assert (Dr : - SF2R B1 * SF2R C0 + SF2R A1 * (- SF2R B0 + SF2R C0) + SF2R A0 * (SF2R B1 - SF2R C1) + SF2R B0 * SF2R C1 = IZR kd * (bp g * bp g)) by (unfold kd; rewrite Ea0, Ea1, Eb0, Eb1, Ec0, Ec1, !plus_IZR, !mult_IZR, !minus_IZR, !plus_IZR, !opp_IZR; ring).
  assert (Xr : SF2R A1 * SF2R C0 - SF2R A0 * SF2R C1 + (SF2R C1 - SF2R A1) * SF2R M0 + (SF2R A0 - SF2R C0) * SF2R M1 = IZR kx * (bp g * bp g)) by (unfold kx; rewrite Ea0, Ea1, Em0, Em1, Ec0, Ec1, !plus_IZR, !minus_IZR, !mult_IZR, !minus_IZR; ring).
  assert (Yr : SF2R A0 * SF2R B1 - SF2R A1 * SF2R B0 + (SF2R A1 - SF2R B1) * SF2R M0 + (SF2R B0 - SF2R A0) * SF2R M1 = IZR ky * (bp g * bp g)) by (unfold ky; rewrite Ea0, Ea1, Em0, Em1, Eb0, Eb1, !plus_IZR, !minus_IZR, !mult_IZR, !minus_IZR; ring).
  assert (Pgg : 0 < bp g * bp g) by (apply Rmult_lt_0_compat; auto).
  rewrite Dr, Xr, Yr. destruct (Z.eq_dec kd 0) as [Z|NZ].
  - rewrite Z. assert (Eb : eqb (0 * (bp g * bp g)) 0 = true) by (apply eqb_true; ring). rewrite Eb. destruct X as (FX & _), Y as (FY & _), D as (FD & ED & _). rewrite Z in ED.
    rewrite (tri_test_flat fx fy fd FX FY FD ltac:(rewrite ED; ring)). tauto.
  - assert (Kd : IZR kd <> 0) by (apply not_0_IZR; auto).
    assert (Eb : eqb (IZR kd * (bp g * bp g)) 0 = false) by (apply eqb_false; apply Rmult_integral_contrapositive_currified; lra). rewrite Eb.
    assert (QS : IZR kx * (bp g * bp g) / (IZR kd * (bp g * bp g)) = IZR kx / IZR kd) by (field; split; lra). assert (QT : IZR ky * (bp g * bp g) / (IZR kd * (bp g * bp g)) = IZR ky / IZR kd) by (field; split; lra). rewrite QS, QT.
    rewrite (tri_test (g + g) fx fy fd kx ky kd X Y D NZ).
    + rewrite !andb_true_iff, !ltb_true. tauto.
    + intros (PS & PT & E1). apply NE. exists (IZR ky / IZR kd). split; [lra|].
      set (S := IZR kx / IZR kd) in *. set (T := IZR ky / IZR kd) in *. assert (HS : S = 1 - T) by lra.
      assert (KS : IZR kx = S * IZR kd) by (unfold S; field; auto). assert (KT : IZR ky = T * IZR kd) by (unfold T; field; auto).
      set (G := bp g * bp g) in *. clearbody S T G. rewrite KS in Xr. rewrite KT in Yr. set (d := IZR kd) in *. clearbody d.
      unfold P2R, at_line. cbn [fst snd]. 
      set (Ra0 := SF2R A0) in *. set (Ra1 := SF2R A1) in *. set (Rb0 := SF2R B0) in *. set (Rb1 := SF2R B1) in *. set (Rc0 := SF2R C0) in *. set (Rc1 := SF2R C1) in *. set (Rm0 := SF2R M0) in *. set (Rm1 := SF2R M1) in *. clearbody Ra0 Ra1 Rb0 Rb1 Rc0 Rc1 Rm0 Rm1.
      assert (dG : d * G <> 0) by (apply Rmult_integral_contrapositive_currified; lra).
      replace (S * d * G) with (S * (d * G)) in Xr by ring. replace (T * d * G) with (T * (d * G)) in Yr by ring.
      set (D' := d * G) in *. clearbody D'. clear - Dr Xr Yr HS dG.
      assert (I0 : D' * Rm0 = (D' - S * D' - T * D') * Ra0 + S * D' * Rb0 + T * D' * Rc0) by (rewrite <- Xr, <- Yr, <- Dr; ring).
      assert (I1 : D' * Rm1 = (D' - S * D' - T * D') * Ra1 + S * D' * Rb1 + T * D' * Rc1) by (rewrite <- Xr, <- Yr, <- Dr; ring).
      subst S. unfold vadd, vscal, vsub. cbn [fst snd]. apply f_equal2; apply (Rmult_eq_reg_l D'); auto; [rewrite I0|rewrite I1]; ring.
Qed.

(** ** [flatness] *)

Lemma flat_quotient re im : fin re -> fin im -> Rabs (SF2R re) <= bp 490 -> Rabs (SF2R im) <= bp 490 ->
  let s := SF64add (SF64mul re re) (SF64mul im im) in fin s /\ (SF2R s <> 0 ->
  SFeqb (SF64div (SF64mul re re) s) f1 = SFleb f1 (SF64div (SF64mul re re) s) /\ fin (SF64div (SF64mul re re) s) /\ 0 <= SF2R (SF64div (SF64mul re re) s) <= 1).
Proof.
  intros Fr Fi Br Bi s. pose proof u_bounds as U. pose proof eta64_small as Et.
  pose proof (abs_sq _ _ Br) as SR. pose proof (abs_sq _ _ Bi) as SI. pose proof (sq_nn (SF2R re)) as NR. pose proof (sq_nn (SF2R im)) as NI.
  assert (Bb : 100 * (bp 490 * bp 490) <= bp 1020) by (apply Rle_trans with (bp 7 * (bp 490 * bp 490)); [apply Rmult_le_compat_r; [left; apply Rmult_lt_0_compat; apply bp_pos|rewrite bp_IZR by lia; cbn; lra]|rewrite <- !bp_add; apply bp_le; lia]).
  assert (B1 : 1 <= bp 490 * bp 490) by (rewrite <- bp_add, <- bp_0; apply bp_le; lia). assert (B20 : bp 1020 <= bp 1023) by (apply bp_le; lia).
  set (b := bp 490 * bp 490) in *.
  assert (M1 : rounds (SF64mul re re) (SF2R re * SF2R re)) by (apply fmul; auto; rewrite Rabs_right by lra; lra).
  assert (M2 : rounds (SF64mul im im) (SF2R im * SF2R im)) by (apply fmul; auto; rewrite Rabs_right by lra; lra).
  pose proof (rounds_err _ _ M1) as E1. pose proof (rounds_err _ _ M2) as E2. rewrite (Rabs_right (SF2R re * SF2R re)) in E1 by lra. rewrite (Rabs_right (SF2R im * SF2R im)) in E2 by lra. apply abs_bounds in E1, E2.
  assert (U1 : u64 * (SF2R re * SF2R re) <= 1 * (SF2R re * SF2R re)) by (apply Rmult_le_compat_r; lra). assert (U2 : u64 * (SF2R im * SF2R im) <= 1 * (SF2R im * SF2R im)) by (apply Rmult_le_compat_r; lra).
  pose proof (rounds_nonneg _ _ M1 NR) as P1. pose proof (rounds_nonneg _ _ M2 NI) as P2. pose proof (rounds_fin _ _ M1) as F1. pose proof (rounds_fin _ _ M2) as F2.
  set (x := SF64mul re re) in *. set (y := SF64mul im im) in *.
  destruct (fadd x y F1 F2) as (RS & _); [rewrite Rabs_right by lra; lra|]. fold s in RS. pose proof (rounds_fin _ _ RS) as Fs. split; [auto|]. intros Hs.
  assert (Ge : SF2R x <= SF2R s) by (apply (rounds_ge _ _ _ RS F1); lra). 
  assert (Ps : 0 < SF2R s) by lra.
  assert (Q : 0 <= SF2R x / SF2R s <= 1). { split; [apply Rmult_le_pos; [lra|left; apply Rinv_0_lt_compat; auto]|]. apply Rmult_le_reg_r with (SF2R s); auto. unfold Rdiv. rewrite Rmult_assoc, Rinv_l by lra. lra. }
  assert (RQ : rounds (SF64div x s) (SF2R x / SF2R s)) by (apply fdiv; auto; rewrite Rabs_right by lra; lra). pose proof (rounds_fin _ _ RQ) as FQ.
  assert (LQ : SF2R (SF64div x s) <= 1) by (rewrite <- val_f1; apply (rounds_le _ _ _ RQ fin_f1); rewrite val_f1; lra).
  split; [|split; [auto|split; [apply (rounds_nonneg _ _ RQ); lra|auto]]].
  apply eq_true_iff_eq. rewrite (feq _ _ FQ fin_f1), (fle _ _ fin_f1 FQ), val_f1. lra.
Qed.

Lemma flatness64_ok m1 m2 A B C : fin2 A -> fin2 B -> fin2 C -> within (bp 240) A -> within (bp 240) B -> within (bp 240) C ->
  allclose64 A B = false -> allclose64 A C = false -> allclose64 B C = false ->
  exists f, flatness64 m1 m2 A B C = Ok f /\ fin f /\ 0 <= SF2R f <= 1 /\ collinear64 m1 m2 A B C = Ok (SFeqb f f1).
Proof.
  intros FA FB FC WA WB WC C1 C2 C3. destruct (collinear64_ok m1 m2 A B C FA FB FC WA WB WC) as (r & Er & _). revert Er. unfold collinear64, flatness64. rewrite C1, C2, C3. cbn [orb].
  destruct FA as (FA0 & FA1), FB as (FB0 & FB1), FC as (FC0 & FC1), WA as (WA0 & WA1), WB as (WB0 & WB1), WC as (WC0 & WC1).
  assert (B2 : bp 240 <= bp 1022) by (apply bp_le; lia). 
  destruct (sub_coord _ _ _ FB0 FA0 WB0 WA0 B2) as (Fx1 & Ex1 & Bx1 & _). destruct (sub_coord _ _ _ FB1 FA1 WB1 WA1 B2) as (Fy1 & Ey1 & By1 & _).
  destruct (sub_coord _ _ _ FC0 FA0 WC0 WA0 B2) as (Fx2 & Ex2 & Bx2 & _). destruct (sub_coord _ _ _ FC1 FA1 WC1 WA1 B2) as (Fy2 & Ey2 & By2 & _).
  unfold fp_sub, fp_map2. cbn [fst snd].
  set (fx1 := SF64sub (fst B) (fst A)) in *. set (fy1 := SF64sub (snd B) (snd A)) in *. set (fx2 := SF64sub (fst C) (fst A)) in *. set (fy2 := SF64sub (snd C) (snd A)) in *.
  set (x1 := SF2R (fst B) - SF2R (fst A)) in *. set (y1 := SF2R (snd B) - SF2R (snd A)) in *. set (x2 := SF2R (fst C) - SF2R (fst A)) in *. set (y2 := SF2R (snd C) - SF2R (snd A)) in *.
  destruct (fopp fy1 Fy1) as (Foy & Voy). destruct (fopp _ Foy) as (Fooy & Vooy). rewrite Voy in Vooy. rewrite Ropp_involutive in Vooy.
  assert (Eooy : Rabs (SF2R (SFopp (SFopp fy1)) - y1) <= u64 * Rabs y1) by (rewrite Vooy; exact Ey1).
  assert (Eoy : Rabs (SF2R (SFopp fy1) - - y1) <= u64 * Rabs (- y1)). { rewrite Voy. replace (- SF2R fy1 - - y1) with (- (SF2R fy1 - y1)) by ring. rewrite !Rabs_Ropp. exact Ey1. }
  clearbody fx1 fy1 fx2 fy2 x1 y1 x2 y2. set (b := bp 240) in *. assert (Pb : 1 <= b) by (unfold b; rewrite <- bp_0; apply bp_le; lia).
  assert (b2 : 1 <= b * b) by nra.
  assert (P : forall u v, Rabs u <= 2 * b -> Rabs v <= 2 * b -> Rabs (u * v) <= 4 * (b * b)) by (clear; intros u v Hu Hv; rewrite Rabs_mult; replace (4 * (b * b)) with (2 * b * (2 * b)) by ring; apply Rmult_le_compat; auto; apply Rabs_pos).
  assert (By1' : Rabs (- y1) <= 2 * b) by (rewrite Rabs_Ropp; auto).
  assert (Bb : 100 * (b * b) <= bp 490) by (unfold b; apply Rle_trans with (bp 7 * (bp 240 * bp 240)); [apply Rmult_le_compat_r; [left; apply Rmult_lt_0_compat; apply bp_pos|rewrite bp_IZR by lia; cbn; lra]|rewrite <- !bp_add; apply bp_le; lia]).
  assert (B20 : bp 490 <= bp 1020) by (apply bp_le; lia). pose proof (P x1 x2 Bx1 Bx2) as Q1. pose proof (P y1 y2 By1 By2) as Q2. pose proof (P x1 y2 Bx1 By2) as Q3. pose proof (P (- y1) x2 By1' Bx2) as Q4.
  pose proof u_bounds as U. pose proof eta64_small as Et.
  destruct (sum2_diff m1 fx1 fx2 (SFopp (SFopp fy1)) fy2 x1 x2 y1 y2) as (Fre & Ere); auto; [lra|].
  destruct (sum2_diff m2 fx1 fy2 (SFopp fy1) fx2 x1 y2 (- y1) x2) as (Fim & Eim); auto; [lra|].
  set (re := sum2 m1 fx1 fx2 (SFopp (SFopp fy1)) fy2) in *. set (im := sum2 m2 fx1 fy2 (SFopp fy1) fx2) in *.
  assert (Bre : Rabs (SF2R re) <= bp 490).
  { apply abs_bounds in Ere, Q1, Q2. assert (42 / 10 * u64 * (Rabs (x1 * x2) + Rabs (y1 * y2)) <= 1 * (8 * (b * b))) by (apply Rmult_le_compat; try lra; [pose proof (Rabs_pos (x1 * x2)); pose proof (Rabs_pos (y1 * y2)); lra|pose proof (P x1 x2 Bx1 Bx2); pose proof (P y1 y2 By1 By2); lra]). apply Rabs_le. lra. }
  assert (Bim : Rabs (SF2R im) <= bp 490).
  { apply abs_bounds in Eim, Q3, Q4. assert (42 / 10 * u64 * (Rabs (x1 * y2) + Rabs (- y1 * x2)) <= 1 * (8 * (b * b))) by (apply Rmult_le_compat; try lra; [pose proof (Rabs_pos (x1 * y2)); pose proof (Rabs_pos (- y1 * x2)); lra|pose proof (P x1 y2 Bx1 By2); pose proof (P (- y1) x2 By1' Bx2); lra]). apply Rabs_le. lra. }
  pose proof (flat_quotient re im Fre Fim Bre Bim) as K. cbv zeta in K |- *. destruct K as (Fs & K). set (s := SF64add (SF64mul re re) (SF64mul im im)) in *.
  destruct (SFeqb s f0) eqn:Es; [discriminate|]. intros _. assert (Hs : SF2R s <> 0).
  { intros Z. rewrite (proj2 (feq s f0 Fs fin_f0)) in Es; [discriminate|]. rewrite Z. symmetry. apply val_f0. }
  destruct (K Hs) as (K1 & K2 & K3). eexists. split; [reflexivity|]. split; [auto|]. split; [auto|]. rewrite K1. reflexivity.
Qed.

Lemma called_flat64_ok m1 m2 A B C : fin2 A -> fin2 B -> fin2 C -> within (bp 240) A -> within (bp 240) B -> within (bp 240) C ->
  allclose64 A B = false -> allclose64 A C = false -> allclose64 B C = false ->
  let dt := sdot (vsub (P2R B) (P2R A)) (vsub (P2R C) (P2R A)) in
  let cr := scross (vsub (P2R B) (P2R A)) (vsub (P2R C) (P2R A)) in
  exists f, flatness64 m1 m2 A B C = Ok f /\ fin f /\ 0 <= SF2R f <= 1 /\
    called_flat64 m1 m2 A B C = Ok (SFeqb f f1) /\ (SFeqb f f1 = true <-> SF2R f = 1) /\
    (SF2R f = 1 -> Rabs cr <= / 67108864 * Rabs dt) /\ (Rabs cr <= / 268435456 * Rabs dt -> SF2R f = 1).
Proof.
  intros FA FB FC WA WB WC C1 C2 C3 dt cr. destruct (flatness64_ok m1 m2 A B C FA FB FC WA WB WC C1 C2 C3) as (f & E1 & E2 & E3 & E4).
  destruct (collinear64_ok m1 m2 A B C FA FB FC WA WB WC) as (r & Er & K1 & K2). fold dt cr in K1, K2. rewrite Er in E4. injection E4 as E4. subst r.
  assert (Q : SFeqb f f1 = true <-> SF2R f = 1) by (rewrite (feq f f1 E2 fin_f1), val_f1; tauto).
  exists f. split; [auto|]. split; [auto|]. split; [auto|]. split; [unfold called_flat64; rewrite E1; reflexivity|]. split; [auto|]. split.
  - intros H. apply Q in H. destruct (K1 H) as [H1|[H1|[H1|H1]]]; congruence.
  - intros H. apply Q. auto.
Qed.

(** Integer coordinates up to 2800, three different vertices. *)
Lemma allclose_grid_false A B : on_grid2 0 2800 A -> on_grid2 0 2800 B -> P2R A <> P2R B -> allclose64 A B = false.
Proof. intros GA GB N. destruct (allclose64 A B) eqn:E; auto. exfalso. apply N. apply allclose_grid; auto. Qed.

Lemma called_flat64_grid m1 m2 A B C : on_grid2 0 2800 A -> on_grid2 0 2800 B -> on_grid2 0 2800 C -> P2R A <> P2R B -> P2R A <> P2R C -> P2R B <> P2R C ->
  exists r, called_flat64 m1 m2 A B C = Ok r /\ (r = true <-> collinear (P2R A) (P2R B) (P2R C)).
Proof.
  intros GA GB GC N1 N2 N3.
  assert (W : forall P, on_grid2 0 2800 P -> fin2 P /\ within (bp 240) P).
  { clear. intros P ((F0 & n0 & B0 & E0) & (F1 & n1 & B1 & E1)). split; [split; auto|]. split; rewrite ?E0, ?E1, bp_0, Rmult_1_r, <- abs_IZR; (apply Rle_trans with (bp 53); [rewrite bp_IZR by lia; apply IZR_le; lia|apply bp_le; lia]). }
  destruct (W A GA) as (FA & WA), (W B GB) as (FB & WB), (W C GC) as (FC & WC). clear W.
  destruct (flatness64_ok m1 m2 A B C FA FB FC WA WB WC) as (f & E1 & _ & _ & E2); try (apply allclose_grid_false; auto).
  destruct (collinear64_grid m1 m2 A B C GA GB GC) as (r & E3 & E4). exists r. rewrite collinear_cross. split; [|auto].
  unfold called_flat64. rewrite E1. cbn. congruence.
Qed.

(** Two vertices at A: 0 / 0. *)
Lemma sum2_zero m s t x y : is_finite x = true -> is_finite y = true -> exists r, sum2 m (S754_zero s) x (S754_zero t) y = S754_zero r /\ exists r', sum2 m x (S754_zero s) y (S754_zero t) = S754_zero r'.
Proof. intros Fx Fy. destruct m, s, t, x as [[]|[]| |[]], y as [[]|[]| |[]]; try discriminate; cbn; eauto. Qed.

Lemma flatness64_degenerate m1 m2 A B C : fin2 A -> fin2 B -> fin2 C -> within (bp 1022) A -> within (bp 1022) B -> within (bp 1022) C ->
  (P2R A = P2R B \/ P2R A = P2R C) -> flatness64 m1 m2 A B C = Raise ZeroDivisionError.
Proof.
  intros (FA0 & FA1) (FB0 & FB1) (FC0 & FC1) (WA0 & WA1) (WB0 & WB1) (WC0 & WC1) H.
  destruct (sub_coord _ _ _ FB0 FA0 WB0 WA0 (Rle_refl _)) as (Fx1 & Ex1 & _). destruct (sub_coord _ _ _ FB1 FA1 WB1 WA1 (Rle_refl _)) as (Fy1 & Ey1 & _).
  destruct (sub_coord _ _ _ FC0 FA0 WC0 WA0 (Rle_refl _)) as (Fx2 & Ex2 & _). destruct (sub_coord _ _ _ FC1 FA1 WC1 WA1 (Rle_refl _)) as (Fy2 & Ey2 & _).
  assert (Z : forall z r, fin z -> Rabs (SF2R z - r) <= u64 * Rabs r -> r = 0 -> exists s, z = S754_zero s).
  { clear. intros z r F E ->. apply zero_fin; auto. rewrite Rabs_R0 in E. replace (SF2R z) with (SF2R z - 0) by ring. apply abs_bounds in E. lra. }
  unfold flatness64, fp_sub, fp_map2. cbn [fst snd].
  destruct H as [H|H]; injection H as H0 H1.
  - destruct (Z _ _ Fx1 Ex1 ltac:(lra)) as (s0 & ->). destruct (Z _ _ Fy1 Ey1 ltac:(lra)) as (s1 & ->). cbn [SFopp].
    destruct (sum2_zero m1 s0 (negb (negb s1)) _ _ (proj2 Fx2) (proj2 Fy2)) as (r1 & -> & _). destruct (sum2_zero m2 s0 (negb s1) _ _ (proj2 Fy2) (proj2 Fx2)) as (r2 & -> & _).
    destruct r1, r2; reflexivity.
  - destruct (Z _ _ Fx2 Ex2 ltac:(lra)) as (s0 & ->). destruct (Z _ _ Fy2 Ey2 ltac:(lra)) as (s1 & ->).
    destruct (fopp _ Fy1) as (Fo & _). destruct (fopp _ Fo) as (Foo & _).
    destruct (sum2_zero m1 s0 s1 _ _ (proj2 Fx1) (proj2 Foo)) as (_ & _ & r1 & ->). destruct (sum2_zero m2 s1 s0 _ _ (proj2 Fx1) (proj2 Fo)) as (_ & _ & r2 & ->).
    destruct r1, r2; reflexivity.
Qed.

(** ** Examples *)

Lemma contains64_refuted : exists A B C M N, on_grid2 0 3 A /\ on_grid2 0 3 B /\ on_grid2 0 3 C /\ on_grid2 0 3 M /\ on_grid2 0 3 N /\
  on_segment (P2R B) (P2R C) (P2R M) /\ on_segment (P2R C) (P2R A) (P2R N) /\
  triangle_contains64 A B C M = true /\ triangle_contains64 B C A M = false /\ triangle_contains64 A B C N = false.
Proof.
  exists (fz 0, fz 0), (fz 3, fz 0), (fz 0, fz 3), (fz 1, fz 2), (fz 0, fz 1).
  do 5 (split; [apply fz_grid2; lia|]).
  assert (V : forall n, (Z.abs n < 2 ^ 53)%Z -> SF2R (fz n) = IZR n) by (intros; apply fz_ok; auto).
  split; [|split]; [exists (2 / 3)|exists (2 / 3)|].
  - split; [lra|]. unfold P2R, at_line, vadd, vscal, vsub. cbn [fst snd]. rewrite !V by lia. f_equal; field.
  - split; [lra|]. unfold P2R, at_line, vadd, vscal, vsub. cbn [fst snd]. rewrite !V by lia. f_equal; field.
  - split; [|split]; vm_compute; reflexivity.
Qed.

Lemma flat64_refuted m1 m2 : exists A B C, moderate A /\ moderate B /\ moderate C /\ P2R A = (0, 0) /\ P2R B = (1, 0) /\ P2R C = (1000000000, 1) /\
  called_flat64 m1 m2 A B C = Ok true /\ ~ collinear (P2R A) (P2R B) (P2R C) /\ called_flat64 m1 m2 B C A = Ok true /\ called_flat64 m1 m2 C A B = Ok true.
Proof.
  exists (fz 0, fz 0), (fz 1, fz 0), (fz 1000000000, fz 1). do 3 (split; [apply fz_moderate; lia|]).
  assert (V : forall n, (Z.abs n < 2 ^ 53)%Z -> SF2R (fz n) = IZR n) by (intros; apply fz_ok; auto).
  assert (E0 : P2R (fz 0, fz 0) = (0, 0)) by (unfold P2R; cbn [fst snd]; rewrite !V by lia; reflexivity). assert (E1 : P2R (fz 1, fz 0) = (1, 0)) by (unfold P2R; cbn [fst snd]; rewrite !V by lia; reflexivity). assert (E2 : P2R (fz 1000000000, fz 1) = (1000000000, 1)) by (unfold P2R; cbn [fst snd]; rewrite !V by lia; reflexivity).
  rewrite E0, E1, E2. do 3 (split; [reflexivity|]). split; [destruct m1, m2; vm_compute; reflexivity|]. split; [|split; destruct m1, m2; vm_compute; reflexivity].
  rewrite collinear_cross. unfold scross, vsub. cbn [fst snd]. lra.
Qed.
