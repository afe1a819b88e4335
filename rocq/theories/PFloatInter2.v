(** * Distances to a line in binary64 *)
From Coq Require Import Reals Lra Lia ZArith Psatz Floats.SpecFloat.
From Verif Require Import Base Spec SpecF64 SpecLemmas ModelFloat ModelFloatInter PFloat PFloat2 PFloat3 PFloat4 PFloatGrid PFloatCircle PFloatTransfo PSteiner PFloatInter.
Open Scope R_scope.

Lemma Rabs_0_inv x : Rabs x = 0 -> x = 0.
Proof. intros H. destruct (Req_dec x 0) as [|N]; [assumption|]. apply Rabs_pos_lt in N. lra. Qed.

Lemma dist_l1 P Q : dist P Q <= Rabs (fst P - fst Q) + Rabs (snd P - snd Q).
Proof.
  pose proof (Rabs_pos (fst P - fst Q)) as A. pose proof (Rabs_pos (snd P - snd Q)) as B. apply Rsqr_incr_0_var; [|lra]. unfold Rsqr. rewrite dist_sq.
  assert (E : forall x, x * x = Rabs x * Rabs x) by (intros x; rewrite <- Rabs_mult; symmetry; apply Rabs_pos_eq; nra).
  unfold dist2, sdot, vsub. cbn [fst snd]. rewrite !(E (_ - _)). rewrite (Rabs_minus_sym (fst Q)), (Rabs_minus_sym (snd Q)). nra.
Qed.

(** The exact distance of integer points. *)
Lemma dist_int g A B M X : (0 <= g <= 0)%Z -> on_grid2 g 20000 A -> on_grid2 g 20000 B -> on_grid2 g 20000 M -> P2R A <> P2R B -> on_line (P2R A) (P2R B) X ->
  orthogonal (vsub X (P2R M)) (vsub (P2R B) (P2R A)) -> X <> P2R M -> / 3200000000 <= dist2 (P2R M) X /\ dist2 (P2R M) X <= 3200000000.
Proof.
  intros Hg ((_ & a0 & Ba0 & A0) & (_ & a1 & Ba1 & A1)) ((_ & b0 & Bb0 & B0) & (_ & b1 & Bb1 & B1)) ((_ & m0 & Bm0 & M0) & (_ & m1 & Bm1 & M1)).
  assert (g = 0%Z) by lia. subst g. rewrite bp_0, Rmult_1_r in *. unfold P2R. rewrite A0, A1, B0, B1, M0, M1. intros NAB HL HO NX.
  assert (Lb : forall n : Z, (Z.abs n <= 40000)%Z -> 0 <= IZR n * IZR n <= 1600000000). { intros n Hn. rewrite <- mult_IZR. split; apply IZR_le; nia. }
  set (ux := (b0 - a0)%Z). set (uy := (b1 - a1)%Z). set (wx := (a0 - m0)%Z). set (wy := (a1 - m1)%Z). set (D := (wx * uy - wy * ux)%Z).
  pose proof (Lb ux ltac:(unfold ux; lia)) as L1. pose proof (Lb uy ltac:(unfold uy; lia)) as L2. pose proof (Lb wx ltac:(unfold wx; lia)) as L3. pose proof (Lb wy ltac:(unfold wy; lia)) as L4.
  destruct HL as (t & ->). revert HO NX. unfold orthogonal, at_line, sdot, dist2, sdot, vadd, vscal, vsub. cbn [fst snd]. 
  rewrite <- !minus_IZR. fold ux uy.
  set (x := IZR a0 + t * IZR ux - IZR m0). set (y := IZR a1 + t * IZR uy - IZR m1). intros HO NX.
  replace (IZR m0 - (IZR a0 + t * IZR ux)) with (- x) by (unfold x; ring). replace (IZR m1 - (IZR a1 + t * IZR uy)) with (- y) by (unfold y; ring).
  assert (EX : IZR a0 - IZR m0 = IZR wx) by (unfold wx; rewrite minus_IZR; ring). assert (EY : IZR a1 - IZR m1 = IZR wy) by (unfold wy; rewrite minus_IZR; ring).
  assert (Ex : x = IZR wx + t * IZR ux) by (unfold x; lra). assert (Ey : y = IZR wy + t * IZR uy) by (unfold y; lra). 
  assert (NX' : x <> 0 \/ y <> 0). { destruct (Req_dec x 0); [|auto]. destruct (Req_dec y 0); [|auto]. exfalso. apply NX. f_equal; unfold x, y in *; lra. }
  set (d2 := - x * - x + - y * - y). assert (d2 = x * x + y * y) by (unfold d2; ring). assert (0 < d2) by (destruct NX'; nra).
  set (L := IZR ux * IZR ux + IZR uy * IZR uy).
  assert (HD : IZR D = x * IZR uy - y * IZR ux). { unfold D. rewrite minus_IZR, !mult_IZR, Ex, Ey. ring. }
  assert (Q : d2 * L = IZR D * IZR D). { rewrite HD. unfold L. rewrite H. replace ((x * IZR uy - y * IZR ux) * (x * IZR uy - y * IZR ux)) with ((x * x + y * y) * (IZR ux * IZR ux + IZR uy * IZR uy) - (x * IZR ux + y * IZR uy) * (x * IZR ux + y * IZR uy)) by ring. rewrite HO. ring. }
  assert (NL : 0 < L). { unfold L. destruct (Req_dec (IZR ux) 0) as [Z0|]; [|nra]. destruct (Req_dec (IZR uy) 0) as [Z1|]; [|nra]. exfalso. apply NAB. unfold ux, uy in *. rewrite minus_IZR in *. f_equal; lra. }
  assert (D1 : 1 <= IZR D * IZR D). { assert (ND : D <> 0%Z). { intros E. rewrite E in Q. nra. } rewrite <- mult_IZR. apply IZR_le. nia. }
  split.
  - apply Rmult_le_reg_r with L; [exact NL|]. rewrite <- H, Q. apply Rle_trans with 1; [|exact D1]. apply Rmult_le_reg_l with 3200000000; [lra|]. rewrite <- Rmult_assoc, Rinv_r, Rmult_1_l by lra. unfold L. lra.
  - assert (Pyth : IZR wx * IZR wx + IZR wy * IZR wy = x * x + y * y + t * t * L). { replace (IZR wx) with (x - t * IZR ux) by lra. replace (IZR wy) with (y - t * IZR uy) by lra. unfold L. replace (x * x + y * y + t * t * (IZR ux * IZR ux + IZR uy * IZR uy)) with ((x - t * IZR ux) * (x - t * IZR ux) + (y - t * IZR uy) * (y - t * IZR uy) + 2 * t * (x * IZR ux + y * IZR uy)) by ring. rewrite HO. ring. }
    assert (0 <= t * t * L) by nra. lra.
Qed.

Lemma distance64_same m P Q : fin (fst P) -> fin (snd P) -> fin (fst Q) -> fin (snd Q) -> SF2R (fst Q) = SF2R (fst P) -> SF2R (snd Q) = SF2R (snd P) ->
  fin (distance64 m P Q) /\ SF2R (distance64 m P Q) = 0.
Proof.
  intros F0 F1 G0 G1 E0 E1. destruct (fsub_same _ _ G0 F0 E0) as (S0 & Z0). destruct (fsub_same _ _ G1 F1 E1) as (S1 & Z1). unfold distance64.
  destruct (sum2_grid m (fst (fp_sub Q P)) (fst (fp_sub Q P)) (snd (fp_sub Q P)) (snd (fp_sub Q P)) 0 0 0 0 0 0) as (Fs & Es); auto; try (rewrite Rmult_0_l; assumption); try reflexivity; try lia.
  rewrite Rmult_0_l in Es. destruct (fsqrt _ Fs ltac:(rewrite Es; lra)) as (R & E). rewrite Es, sqrt_0 in R, E. split; [apply (rounds_fin _ _ R)|].
  rewrite Rmult_0_r, Rminus_0_r in E. pose proof (Rabs_pos (SF2R (SF64sqrt (sum2 m (fst (fp_sub Q P)) (fst (fp_sub Q P)) (snd (fp_sub Q P)) (snd (fp_sub Q P)))))) as N.
  unfold dot64. apply Rabs_0_inv. lra.
Qed.

Lemma line_distance64_ok m A B M : on_grid2 0 20000 A -> on_grid2 0 20000 B -> on_grid2 0 20000 M -> P2R A <> P2R B ->
  exists z X, line_distance64 m A B M = Some z /\ fin z /\ on_line (P2R A) (P2R B) X /\ orthogonal (vsub X (P2R M)) (vsub (P2R B) (P2R A)) /\
    Rabs (SF2R z - dist (P2R M) X) <= u64 * (5 * dist (P2R M) X + 2 * (Rabs (fst X) + Rabs (snd X))) /\
    (on_line (P2R A) (P2R B) (P2R M) -> SF2R z = 0).
Proof.
  intros GA GB GM NAB. destruct (projection64_ok 0 A B M ltac:(lia) GA GB GM NAB) as (P & X & EP & HL & HO & R0 & R1). unfold line_distance64. rewrite EP.
  exists (distance64 m M P), X. split; [reflexivity|].
  assert (HX : on_line (P2R A) (P2R B) (P2R M) -> X = P2R M).
  { intros HM. apply dist2_0. rewrite dist2_sym. apply on_line_cross in HM; [|exact NAB]. apply on_line_cross in HL; [|exact NAB]. revert HM HL HO NAB. unfold orthogonal, scross, sdot, dist2, sdot, vsub, P2R. cbn [fst snd].
    set (ux := SF2R (fst B) - SF2R (fst A)). set (uy := SF2R (snd B) - SF2R (snd A)). intros HM HL HO NAB.
    set (x := fst X - SF2R (fst M)) in *. set (y := snd X - SF2R (snd M)) in *.
    assert (C : ux * y - uy * x = 0) by (unfold x, y; lra). 
    assert (NL : 0 < ux * ux + uy * uy). { destruct (Req_dec ux 0) as [Z0|]; [|nra]. destruct (Req_dec uy 0) as [Z1|]; [|nra]. exfalso. apply NAB. unfold ux, uy in *. f_equal; lra. }
    apply Rmult_eq_reg_r with (ux * ux + uy * uy); [|lra]. replace ((x * x + y * y) * (ux * ux + uy * uy)) with ((x * ux + y * uy) * (x * ux + y * uy) + (ux * y - uy * x) * (ux * y - uy * x)) by ring. rewrite HO, C. ring. }
  pose proof GM as ((FM0 & gm0) & (FM1 & gm1)).
  pose proof R0 as (V0 & F0 & _ & E0 & _). pose proof R1 as (V1 & F1 & _ & E1 & _).
  destruct (Req_dec (dist X (P2R M)) 0) as [ZX|NX].
  - apply dist_0 in ZX. rewrite ZX in R0, R1. cbn [fst snd P2R] in R0, R1.
    assert (Q0 : SF2R (fst P) = SF2R (fst M)) by (apply rounds_exact; auto). assert (Q1 : SF2R (snd P) = SF2R (snd M)) by (apply rounds_exact; auto).
    assert (Z : fin (distance64 m M P) /\ SF2R (distance64 m M P) = 0) by (apply distance64_same; auto; split; auto).
    destruct Z as (Fz & Ez). split; [exact Fz|]. split; [exact HL|]. split; [exact HO|]. split; [|auto]. rewrite Ez, ZX. replace (dist (P2R M) (P2R M)) with 0 by (symmetry; apply dist_0; reflexivity). rewrite Rminus_0_r, Rabs_R0. pose proof u_bounds. pose proof (Rabs_pos (fst (P2R M))). pose proof (Rabs_pos (snd (P2R M))). nra.
  - assert (NX' : X <> P2R M) by (intros E; apply NX, dist_0, E).
    destruct (dist_int 0 A B M X ltac:(lia) GA GB GM NAB HL HO NX') as (Lo & Up). set (d := dist (P2R M) X) in *. pose proof (dist_nonneg (P2R M) X) as Pd. fold d in Pd. rewrite <- dist_sq in Lo, Up. fold d in Lo, Up.
    assert (Ld : / 60000 <= d). { destruct (Rle_or_lt (/ 60000) d) as [|N]; [auto|]. exfalso. assert (d * d <= / 60000 * / 60000) by nra. lra. }
    assert (Ud : d <= 60000) by nra.
    pose proof u_bounds as U. pose proof eta64_small as Et.
    set (a0 := Rabs (fst X)) in *. set (a1 := Rabs (snd X)) in *. pose proof (Rabs_pos (fst X)) as P0. pose proof (Rabs_pos (snd X)) as P1. fold a0 in P0. fold a1 in P1.
    assert (Bm : forall x, on_grid 0 20000 x -> Rabs (SF2R x) <= 20000). { intros x (_ & n & Bn & En). rewrite En, bp_0, Rmult_1_r, <- abs_IZR. apply IZR_le. lia. }
    pose proof (Bm _ (proj1 GM)) as Bm0. pose proof (Bm _ (proj2 GM)) as Bm1.
    assert (Cx : Rabs (fst X - SF2R (fst M)) <= d). { apply sq_abs_le; [exact Pd|]. unfold d. rewrite dist_sq. unfold dist2, sdot, vsub, P2R. cbn [fst snd]. pose proof (Rle_0_sqr (snd X - SF2R (snd M))) as Q. unfold Rsqr in Q. lra. }
    assert (Cy : Rabs (snd X - SF2R (snd M)) <= d). { apply sq_abs_le; [exact Pd|]. unfold d. rewrite dist_sq. unfold dist2, sdot, vsub, P2R. cbn [fst snd]. pose proof (Rle_0_sqr (fst X - SF2R (fst M))) as Q. unfold Rsqr in Q. lra. }
    assert (Ba0 : a0 <= 80000). { unfold a0. replace (fst X) with (fst X - SF2R (fst M) + SF2R (fst M)) by ring. eapply Rle_trans; [apply Rabs_triang|]. lra. }
    assert (Ba1 : a1 <= 80000). { unfold a1. replace (snd X) with (snd X - SF2R (snd M) + SF2R (snd M)) by ring. eapply Rle_trans; [apply Rabs_triang|]. lra. }
    fold a0 in E0. fold a1 in E1. set (e := u64 * (a0 + a1) + 2 * eta64).
    assert (He : 0 <= e <= / 50000000000) by (unfold e; nra).
    assert (MP : moderate P). { pose proof bp500_big as BB. split; [split; split; auto|]. split.
      - replace (SF2R (fst P)) with (SF2R (fst P) - fst X + fst X) by ring. eapply Rle_trans; [apply Rabs_triang|]. fold a0. pose proof (Rmult_le_compat u64 _ a0 _ ltac:(lra) P0 (proj2 U) Ba0). lra.
      - replace (SF2R (snd P)) with (SF2R (snd P) - snd X + snd X) by ring. eapply Rle_trans; [apply Rabs_triang|]. fold a1. pose proof (Rmult_le_compat u64 _ a1 _ ltac:(lra) P1 (proj2 U) Ba1). lra. }
    assert (DP : dist (P2R P) X <= e). { eapply Rle_trans; [apply dist_l1|]. unfold P2R at 1 2. cbn [fst snd]. unfold e. lra. }
    set (f := dist (P2R M) (P2R P)) in *. pose proof (dist_triangle (P2R M) (P2R P) X) as T1. pose proof (dist_triangle (P2R M) X (P2R P)) as T2. rewrite (dist_sym X (P2R P)) in T2. fold d f in T1, T2.
    assert (Df : d2R M P = f * f). { unfold f. rewrite dist_sq. unfold d2R, dist2, sdot, vsub, P2R. cbn [fst snd]. ring. }
    assert (Pf : / 70000 <= f) by lra.
    destruct (distance_ok m M P (on_grid_moderate 20000 M ltac:(lia) GM) MP ltac:(rewrite Df; nra)) as (Fz & _ & Ez & _). rewrite Df, sqrt_square in Ez by lra.
    split; [exact Fz|]. split; [exact HL|]. split; [exact HO|]. split; [|intros HM; exfalso; auto].
    replace (SF2R (distance64 m M P) - d) with (SF2R (distance64 m M P) - f + (f - d)) by ring. eapply Rle_trans; [apply Rabs_triang|].
    assert (Rabs (f - d) <= e) by (apply abs_le; lra). apply Rle_trans with (4 * u64 * (d + e) + e); [nra|]. 
    assert (eta64 <= u64 * / 10000000) by (rewrite u64_val; lra). unfold e in *. nra.
Qed.
