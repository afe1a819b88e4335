(** * Examples and counterexamples for the binary64 properties *)

From Coq Require Import Reals ZArith Lia Lra Psatz Bool SpecFloat.
From Verif Require Import SpecF64 Base Spec ModelFloat PFloat PFloat2 PFloat3 PFloat4 PFloatCircle PFloatLine PFloatGrid.
Local Open Scope R_scope.

Lemma fz_ok n : (Z.abs n < 2 ^ 53)%Z -> fin (fz n) /\ SF2R (fz n) = IZR n.
Proof.
  intros H. unfold fz. destruct (normalize_ok n 0 false) as (A & V & _ & B). pose proof (grid_big n 0 H ltac:(lia)) as G. specialize (B G). destruct (A B) as (R1 & _).
  destruct (rounds_repr _ _ _ R1 H ltac:(lia)) as (F & E). split; auto. rewrite E, bp_0. ring.
Qed.

Lemma fz_grid n N : (Z.abs n <= N)%Z -> (N < 2 ^ 53)%Z -> on_grid 0 N (fz n).
Proof. intros H HN. destruct (fz_ok n ltac:(lia)) as (F & E). split; auto. exists n. split; auto. rewrite E, bp_0. ring. Qed.

Lemma fz_grid2 a b N : (Z.abs a <= N)%Z -> (Z.abs b <= N)%Z -> (N < 2 ^ 53)%Z -> on_grid2 0 N (fz a, fz b).
Proof. intros. split; apply fz_grid; auto. Qed.

Lemma fz_moderate a b : (Z.abs a < 2 ^ 53)%Z -> (Z.abs b < 2 ^ 53)%Z -> moderate (fz a, fz b).
Proof. intros. apply (on_grid_moderate (Z.max (Z.abs a) (Z.abs b))); [lia|]. apply fz_grid2; lia. Qed.

Lemma fz_within a b N : (Z.abs a <= N)%Z -> (Z.abs b <= N)%Z -> (N < 2 ^ 53)%Z -> fin2 (fz a, fz b) /\ within (IZR N) (fz a, fz b).
Proof.
  intros Ha Hb HN. destruct (fz_ok a ltac:(lia)) as (Fa & Ea). destruct (fz_ok b ltac:(lia)) as (Fb & Eb). split; [split; auto|]. split; cbn [fst snd]; rewrite ?Ea, ?Eb, <- abs_IZR; apply IZR_le; auto.
Qed.

(** A value computed by evaluation. *)
Lemma sf_val x s m e : x = S754_finite s m e -> SF2R x = sgnR s * (IZR (Zpos m) * bp e).
Proof. intros ->. reflexivity. Qed.

(** ** The assumption on the C library can be met *)

Definition approx_f (f : R -> R) (x : spec_float) : spec_float := binary_normalize prec emax (up (f (SF2R x) * bp 60)) (-60) false.

Lemma approx_f_ok f x : -1 <= f (SF2R x) <= 1 -> fin (approx_f f x) /\ Rabs (SF2R (approx_f f x) - f (SF2R x)) <= 2 * u64.
Proof.
  intros H. unfold approx_f. set (c := f (SF2R x)) in *. set (n := up (c * bp 60)). destruct (archimed (c * bp 60)) as (A1 & A2). fold n in A1, A2. pose proof (bp_pos 60) as P60.
  assert (I : bp (-60) * bp 60 = 1) by (rewrite <- bp_add; reflexivity). pose proof (bp_pos (-60)) as Pm. assert (E60 : bp (-60) = / IZR (2 ^ 60)) by (change (bp (-60)) with (/ bp 60); rewrite bp_IZR by lia; reflexivity). change (2 ^ 60)%Z with 1152921504606846976%Z in E60.
  set (r := IZR n * bp (-60)). assert (Er : 0 <= r - c <= bp (-60)).
  { unfold r. replace (IZR n * bp (-60) - c) with ((IZR n - c * bp 60) * bp (-60)) by (rewrite Rmult_minus_distr_r, Rmult_assoc, (Rmult_comm (bp 60)), I; ring). split; [apply Rmult_le_pos; lra|]. rewrite <- (Rmult_1_l (bp (-60))) at 2. apply Rmult_le_compat_r; lra. }
  assert (Br : Rabs r <= 101 / 100) by (apply abs_le; lra). destruct (normalize_ok n (-60) false) as (A & V & _ & B). fold r in A, B.
  assert (Fz : is_finite (binary_normalize prec emax n (-60) false) = true). { apply B. assert (4 <= bp 1023). { apply Rle_trans with (bp 2); [rewrite bp_IZR by lia; change (2 ^ 2)%Z with 4%Z; lra|apply bp_le; lia]. } lra. }
  destruct (A Fz) as (R1 & R2). specialize (R2 ltac:(lia)). split; [apply (rounds_fin _ _ R1)|]. pose proof u_bounds as U. pose proof u64_val as Uv.
  assert (u64 * Rabs r <= u64 * (101 / 100)) by (apply Rmult_le_compat_l; lra). apply abs_bounds in R2. apply abs_le. lra.
Qed.

Lemma libm_exists : libm_cos_sin (approx_f cos) (approx_f sin).
Proof.
  intros x F. destruct (approx_f_ok cos x (COS_bound _)) as (A & B). destruct (approx_f_ok sin x (SIN_bound _)) as (C & D). auto.
Qed.

(** ** A circle far from the origin *)

Lemma far_point cosf sinf m : libm_cos_sin cosf sinf ->
  let c := Circle64 (fq 100000000000000000 1, f0) f1 in circle_includes64 m c (point_from_angle64 cosf sinf c f0 false) = false.
Proof.
  intros HL c. assert (F0 : fin f0) by (split; reflexivity). destruct (HL f0 F0) as (Fc & Ec & Fs & Es). change (SF2R f0) with 0 in *. rewrite cos_0 in Ec. rewrite sin_0, Rminus_0_r in Es.
  pose proof u_bounds as U. pose proof eta64_small as Et. unfold point_from_angle64, c. cbn [c64_center c64_radius fst snd]. set (x := fq 100000000000000000 1).
  assert (Fx : fin x) by (split; reflexivity). assert (Vx : SF2R x = 100000000000000000).
  { rewrite (sf_val x false 6250000000000000 4 eq_refl). rewrite bp_IZR by lia. cbn [sgnR]. change (2 ^ 4)%Z with 16%Z. lra. }
  assert (M1 : forall y, fin y -> Rabs (SF2R y) <= 2 -> SF2R (SF64mul f1 y) = SF2R y /\ fin (SF64mul f1 y)).
  { intros y Fy By. assert (M : rounds (SF64mul f1 y) (SF2R y)). { rewrite <- (Rmult_1_l (SF2R y)), <- val_f1. apply fmul; auto using fin_f1. rewrite val_f1, Rmult_1_l. assert (4 <= bp 1023). { apply Rle_trans with (bp 2); [rewrite bp_IZR by lia; change (2 ^ 2)%Z with 4%Z; lra|apply bp_le; lia]. } lra. }
    split; [apply (rounds_exact _ _ M Fy)|apply (rounds_fin _ _ M)]. }
  apply abs_bounds in Ec. destruct (M1 _ Fc ltac:(apply abs_le; lra)) as (V1 & G1). destruct (M1 _ Fs ltac:(lra)) as (V2 & G2). clear M1.
  set (cc := SF64mul f1 (cosf f0)) in *. set (ss := SF64mul f1 (sinf f0)) in *.
  assert (B4 : 1000000000000000000 <= bp 1023). { apply Rle_trans with (bp 60); [rewrite bp_IZR by lia; apply IZR_le; lia|apply bp_le; lia]. }
  destruct (fadd x cc Fx G1) as (R1 & _). { rewrite Vx, V1. apply abs_le. lra. }
  assert (Z1 : SF2R (SF64add x cc) = SF2R x).
  { assert (N := proj1 (proj2 (proj2 R1)) x (proj1 Fx) (proj2 Fx)). replace (SF2R x - (SF2R x + SF2R cc)) with (- SF2R cc) in N by ring. rewrite Rabs_Ropp, (Rabs_right (SF2R cc)) in N by lra. apply abs_bounds in N. pose proof (rounds_fin _ _ R1) as Fz. set (z := SF64add x cc) in *. pose proof u64_val as Uv.
    destruct (Rtotal_order (SF2R z) (SF2R x)) as [L|[L|L]]; auto; exfalso.
    - pose proof (gap z x Fz Fx ltac:(lra) L) as G. rewrite Uv in G. lra.
    - pose proof (gap x z Fx Fz ltac:(lra) L) as G. rewrite Uv in G. lra. }
  destruct (fadd f0 ss F0 G2) as (R2 & _). { change (SF2R f0) with 0. rewrite Rplus_0_l, V2. lra. }
  assert (Z2 : SF2R (SF64add f0 ss) = SF2R ss) by (apply rounds_exact; auto; replace (SF2R ss) with (SF2R f0 + SF2R ss) at 1 by (change (SF2R f0) with 0; ring); exact R2).
  pose proof (rounds_fin _ _ R1) as Fz. pose proof (rounds_fin _ _ R2) as Fw. set (z := SF64add x cc) in *. set (w := SF64add f0 ss) in *.
  assert (B5 : 1000000000000000000 <= bp 500). { apply Rle_trans with (bp 60); [rewrite bp_IZR by lia; apply IZR_le; lia|apply bp_le; lia]. }
  apply not_true_is_false. intros K. apply (includes64_ok m (Circle64 (x, f0) f1) (z, w)) in K; cbn [c64_center c64_radius] in *.
  - unfold d2R in K. cbn [fst snd] in K. rewrite Z1, Z2, V2, val_f1 in K. change (SF2R f0) with 0 in K. set (s := SF2R (sinf f0)) in *. apply abs_bounds in Es.
    replace ((SF2R x - SF2R x) * (SF2R x - SF2R x) + (s - 0) * (s - 0)) with (s * s) in K by ring. assert (s * s <= / 100) by nra. rewrite Rmax_right in K by lra. apply abs_bounds in K. lra.
  - split; split; auto; cbn [fst snd]; [rewrite Vx, Rabs_right; lra|change (SF2R f0) with 0; rewrite Rabs_R0; lra].
  - apply fin_f1.
  - rewrite val_f1, Rabs_R1, bp502. lra.
  - split; split; auto; cbn [fst snd]; [rewrite Z1, Vx, Rabs_right; lra|rewrite Z2, V2; lra].
Qed.

(** ** Counterexamples *)

Ltac hows := repeat match goal with m : how |- _ => destruct m end.

Lemma contains_ex m : circleOA64 m (f0, f0) (fz 1, fz 5) = Ok (Circle64 (f0, f0) (distance64 m (f0, f0) (fz 1, fz 5))) /\
  circle_contains64 m (Circle64 (f0, f0) (distance64 m (f0, f0) (fz 1, fz 5))) (fz 1, fz 5) = false.
Proof. hows; vm_compute; auto. Qed.

Definition ab_far : circle64 := Circle64 (fq 1 2, fz 10000000000000000) (SF64div (SF64sqrt (fz 5)) f2).

Lemma circleAB_far m m' : circleAB64 m (f0, fz 10000000000000000) (f1, fz 10000000000000002) = Ok ab_far /\
  circle_includes64 m' ab_far (f0, fz 10000000000000000) = false.
Proof. hows; vm_compute; auto. Qed.

Lemma collinear_ex m1 m2 : line_includes64 m1 m2 (f0, f0) (f1, f0) (fz 100, fq 2 10000000) = Ok true.
Proof. hows; vm_compute; auto. Qed.

Lemma orientation_ex1 : orientation64 (fq 9 10, fq 6 10) (fq 3 10, f0) (fq 8 10, fq 5 10) = 1%Z.
Proof. reflexivity. Qed.
Lemma orientation_ex2 : orientation64 (fq 5 10, fq 4 10) (fq 2 10, fq 1 10) (fq 17 10, fq 16 10) = (-1)%Z.
Proof. reflexivity. Qed.
Lemma orientation_ex3 : orientation64 (fq 3 10, fq 1 10) (fq 7 10, fq 6 10) (fq 55 10, fq 66 10) = 0%Z.
Proof. reflexivity. Qed.

Lemma acos_ex m1 m2 m3 : acos_raises64 (cos_angle64 m1 m2 m3 (f0, f0) (fz 3, fz 3) (fz 6, fz 6)) = true.
Proof. hows; vm_compute; auto. Qed.
Lemma acos_ex2 m1 m2 m3 : acos_raises64 (cos_angle64 m1 m2 m3 (f0, f0) (fz 2353838, fz 2557451) (fz 4707677, fz 5114903)) = true.
Proof. hows; vm_compute; auto. Qed.

Lemma acute_ex m1 m2 m3 : is_acute64 m1 m2 m3 (f0, f0) (f1, f0) (f0, f1) = false /\ is_acute64 m1 m2 m3 (f0, f0) (f2, f0) (f0, fz 3) = true.
Proof. hows; vm_compute; auto. Qed.

(** The exact values behind the orientation examples. *)
Ltac sfv x := let y := eval vm_compute in x in
  match y with
  | S754_finite ?s ?m ?e => rewrite (sf_val x s m e eq_refl)
  | S754_zero _ => replace (SF2R x) with 0 by reflexivity
  end.

Lemma bp_neg p : bp (Zneg p) = / IZR (2 ^ Zpos p).
Proof.
  rewrite <- bp_IZR by lia. assert (E : bp (Zneg p) * bp (Zpos p) = 1) by (rewrite <- bp_add; replace (Zneg p + Zpos p)%Z with 0%Z by lia; reflexivity). pose proof (bp_pos (Zpos p)). apply Rmult_eq_reg_r with (bp (Zpos p)); [|lra]. rewrite E, Rinv_l; lra.
Qed.

Ltac pows := cbn [sgnR]; rewrite ?bp_neg;
  change (2 ^ 50)%Z with 1125899906842624%Z; change (2 ^ 51)%Z with 2251799813685248%Z; change (2 ^ 52)%Z with 4503599627370496%Z;
  change (2 ^ 53)%Z with 9007199254740992%Z; change (2 ^ 54)%Z with 18014398509481984%Z; change (2 ^ 55)%Z with 36028797018963968%Z; change (2 ^ 56)%Z with 72057594037927936%Z.

Lemma orientation_ex1_exact : 0 < scross (vsub (P2R (fq 3 10, f0)) (P2R (fq 9 10, fq 6 10))) (vsub (P2R (fq 8 10, fq 5 10)) (P2R (fq 9 10, fq 6 10))).
Proof.
  unfold scross, vsub, P2R. cbn [fst snd]. sfv (fq 3 10). sfv f0. sfv (fq 9 10). sfv (fq 6 10). sfv (fq 8 10). sfv (fq 5 10). pows. lra.
Qed.
Lemma orientation_ex2_exact : scross (vsub (P2R (fq 2 10, fq 1 10)) (P2R (fq 5 10, fq 4 10))) (vsub (P2R (fq 17 10, fq 16 10)) (P2R (fq 5 10, fq 4 10))) = 0.
Proof.
  unfold scross, vsub, P2R. cbn [fst snd]. sfv (fq 2 10). sfv (fq 1 10). sfv (fq 5 10). sfv (fq 4 10). sfv (fq 17 10). sfv (fq 16 10). pows. lra.
Qed.
Lemma orientation_ex3_exact : scross (vsub (P2R (fq 7 10, fq 6 10)) (P2R (fq 3 10, fq 1 10))) (vsub (P2R (fq 55 10, fq 66 10)) (P2R (fq 3 10, fq 1 10))) < 0.
Proof.
  unfold scross, vsub, P2R. cbn [fst snd]. sfv (fq 7 10). sfv (fq 6 10). sfv (fq 3 10). sfv (fq 1 10). sfv (fq 55 10). sfv (fq 66 10). pows. lra.
Qed.

(** ** Statements used in the properties *)

Lemma fz_P2R a b : (Z.abs a < 2 ^ 53)%Z -> (Z.abs b < 2 ^ 53)%Z -> P2R (fz a, fz b) = (IZR a, IZR b).
Proof. intros Ha Hb. unfold P2R. cbn [fst snd]. rewrite (proj2 (fz_ok a Ha)), (proj2 (fz_ok b Hb)). reflexivity. Qed.

Lemma contains_refuted m : exists O A c, moderate O /\ moderate A /\ circleOA64 m O A = Ok c /\ circle_contains64 m c A = false.
Proof. exists (fz 0, fz 0), (fz 1, fz 5), (Circle64 (fz 0, fz 0) (distance64 m (fz 0, fz 0) (fz 1, fz 5))). split; [apply fz_moderate; lia|]. split; [apply fz_moderate; lia|]. exact (contains_ex m). Qed.

Lemma circleAB_refuted m m' : exists A B c, moderate A /\ moderate B /\ 5 = d2R A B /\ circleAB64 m A B = Ok c /\ circle_includes64 m' c A = false.
Proof.
  exists (fz 0, fz 10000000000000000), (fz 1, fz 10000000000000002), ab_far.
  assert (F : forall n k, fz n = S754_finite false k 1 -> Zpos k = (n / 2)%Z -> (n mod 2 = 0)%Z -> fin (fz n) -> SF2R (fz n) = IZR n).
  { intros n k E1 E2 E3 _. rewrite (sf_val _ _ _ _ E1), E2. cbn [sgnR]. rewrite bp_IZR by lia. change (2 ^ 1)%Z with 2%Z. rewrite (Z.div_mod n 2) at 2 by lia. rewrite E3, plus_IZR, mult_IZR. ring. }
  assert (V1 := F 10000000000000000%Z 5000000000000000%positive eq_refl eq_refl eq_refl (conj eq_refl eq_refl)). assert (V2 := F 10000000000000002%Z 5000000000000001%positive eq_refl eq_refl eq_refl (conj eq_refl eq_refl)).
  destruct (fz_ok 0 ltac:(lia)) as (F0 & V0). destruct (fz_ok 1 ltac:(lia)) as (F1 & V3). assert (B5 : 1000000000000000000 <= bp 500). { apply Rle_trans with (bp 60); [rewrite bp_IZR by lia; apply IZR_le; lia|apply bp_le; lia]. }
  assert (F3 : fin (fz 10000000000000000)) by (split; reflexivity). assert (F4 : fin (fz 10000000000000002)) by (split; reflexivity).
  split; [split; split; cbn [fst snd]; auto; [rewrite V0, Rabs_R0; lra|rewrite V1, Rabs_right; lra]|].
  split; [split; split; cbn [fst snd]; auto; [rewrite V3, Rabs_R1; lra|rewrite V2, Rabs_right; lra]|].
  split; [unfold d2R; cbn [fst snd]; rewrite V0, V1, V2, V3; lra|]. destruct m, m'; vm_compute; auto.
Qed.

Lemma includes_line_refuted m1 m2 : exists A B M, moderate A /\ moderate B /\ moderate M /\ line_includes64 m1 m2 A B M = Ok true /\
  P2R A = (0, 0) /\ P2R B = (1, 0) /\ SF2R (fst M) = 100 /\ / 10000000 < SF2R (snd M).
Proof.
  exists (fz 0, fz 0), (fz 1, fz 0), (fz 100, fq 2 10000000). split; [apply fz_moderate; lia|]. split; [apply fz_moderate; lia|].
  assert (V : SF2R (fq 2 10000000) = IZR 7555786372591432 / IZR 37778931862957161709568). { sfv (fq 2 10000000). cbn [sgnR]. rewrite bp_neg. change (2 ^ 75)%Z with 37778931862957161709568%Z. lra. }
  assert (B5 : 1000 <= bp 500). { apply Rle_trans with (bp 60); [rewrite bp_IZR by lia; apply IZR_le; lia|apply bp_le; lia]. }
  split. { split; split; cbn [fst snd]; [apply fz_ok; lia|split; reflexivity|rewrite (proj2 (fz_ok 100 ltac:(lia))), Rabs_right; lra|rewrite V, Rabs_right; lra]. }
  split; [exact (collinear_ex m1 m2)|]. rewrite !fz_P2R by lia. cbn [fst snd]. split; auto. split; auto. split; [apply fz_ok; lia|rewrite V; lra].
Qed.

Lemma acos_refuted m1 m2 m3 : exists A B C, moderate A /\ moderate B /\ moderate C /\
  scross (vsub (P2R B) (P2R A)) (vsub (P2R C) (P2R A)) <> 0 /\ acos_raises64 (cos_angle64 m1 m2 m3 A B C) = true.
Proof.
  exists (fz 0, fz 0), (fz 2353838, fz 2557451), (fz 4707677, fz 5114903). do 3 (split; [apply fz_moderate; lia|]). split; [|exact (acos_ex2 m1 m2 m3)].
  rewrite !fz_P2R by lia. unfold scross, vsub. cbn [fst snd]. lra.
Qed.

Lemma acute_refuted m1 m2 m3 : exists A B C B' C', moderate A /\ moderate B /\ moderate C /\ moderate B' /\ moderate C' /\
  sdot (vsub (P2R B) (P2R A)) (vsub (P2R C) (P2R A)) = 0 /\ sdot (vsub (P2R B') (P2R A)) (vsub (P2R C') (P2R A)) = 0 /\
  is_acute64 m1 m2 m3 A B C = false /\ is_acute64 m1 m2 m3 A B' C' = true.
Proof.
  exists (fz 0, fz 0), (fz 1, fz 0), (fz 0, fz 1), (fz 2, fz 0), (fz 0, fz 3). do 5 (split; [apply fz_moderate; lia|]). rewrite !fz_P2R by lia. unfold sdot, vsub. cbn [fst snd]. split; [lra|]. split; [lra|]. exact (acute_ex m1 m2 m3).
Qed.

Lemma orientation_refuted : exists A B C A' B' C' A'' B'' C'',
  (orientation64 A B C = 1%Z /\ 0 < scross (vsub (P2R B) (P2R A)) (vsub (P2R C) (P2R A))) /\
  (orientation64 A' B' C' = (-1)%Z /\ scross (vsub (P2R B') (P2R A')) (vsub (P2R C') (P2R A')) = 0) /\
  (orientation64 A'' B'' C'' = 0%Z /\ scross (vsub (P2R B'') (P2R A'')) (vsub (P2R C'') (P2R A'')) < 0).
Proof.
  exists (fq 9 10, fq 6 10), (fq 3 10, f0), (fq 8 10, fq 5 10), (fq 5 10, fq 4 10), (fq 2 10, fq 1 10), (fq 17 10, fq 16 10), (fq 3 10, fq 1 10), (fq 7 10, fq 6 10), (fq 55 10, fq 66 10).
  split; [split; [reflexivity|exact orientation_ex1_exact]|]. split; [split; [reflexivity|exact orientation_ex2_exact]|split; [reflexivity|exact orientation_ex3_exact]].
Qed.

(** parallel lines as floats: not parallel exactly, but the determinant is rounded to 0 *)
Lemma intersection_refuted : exists P1 P2 Q1 Q2, moderate P1 /\ moderate P2 /\ moderate Q1 /\ moderate Q2 /\
  scross (vsub (P2R P2) (P2R P1)) (vsub (P2R Q2) (P2R Q1)) <> 0 /\ line_line_intersection64 P1 P2 Q1 Q2 = None.
Proof.
  exists (fz 0, fz 0), (fz 134217729, fz 134217728), (fz 1, fz 0), (fz 134217729, fz 134217727). do 4 (split; [apply fz_moderate; lia|]). split; [|reflexivity].
  rewrite !fz_P2R by lia. unfold scross, vsub. cbn [fst snd]. lra.
Qed.

Lemma far_refuted : exists c, moderate (c64_center c) /\ SF2R (c64_radius c) = 1 /\
  forall cosf sinf m, libm_cos_sin cosf sinf -> circle_includes64 m c (point_from_angle64 cosf sinf c f0 false) = false.
Proof.
  exists (Circle64 (fq 100000000000000000 1, f0) f1). split; [|split; [apply val_f1|exact (fun cosf sinf m => far_point cosf sinf m)]].
  assert (Vx : SF2R (fq 100000000000000000 1) = 100000000000000000).
  { rewrite (sf_val (fq 100000000000000000 1) false 6250000000000000 4 eq_refl). rewrite bp_IZR by lia. cbn [sgnR]. change (2 ^ 4)%Z with 16%Z. lra. }
  assert (B5 : 1000000000000000000 <= bp 500). { apply Rle_trans with (bp 60); [rewrite bp_IZR by lia; apply IZR_le; lia|apply bp_le; lia]. }
  cbn [c64_center]. split; split; cbn [fst snd]; try (split; reflexivity); [rewrite Vx, Rabs_right; lra|change (SF2R f0) with 0; rewrite Rabs_R0; lra].
Qed.
