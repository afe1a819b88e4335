(** * Acute triangles, perpendicular lines, collinear integer points in binary64 *)

From Coq Require Import Reals ZArith Lia Lra Psatz Bool SpecFloat.
From Verif Require Import SpecF64 Base Spec ModelFloat PFloat PFloat2 PFloat3 PFloat4 PFloatCircle PFloatLine PFloatGrid PFloatMisc.
Local Open Scope R_scope.

(** ** Acute triangles *)

(** a side: its computed length and its exact square *)
Definition side (e : spec_float) (D : R) : Prop :=
  fin e /\ 0 < SF2R e /\ Rabs (SF2R e * SF2R e - D) <= 8 * u64 * D /\ / 100000000000000000000 <= D <= 8 * (bp 500 * bp 500).

Lemma side_square e D : side e D -> fin (SF64mul e e) /\ Rabs (SF2R (SF64mul e e) - D) <= 95 / 10 * u64 * D.
Proof.
  intros (F & P & E & BD). pose proof u_bounds as U. pose proof eta64_small as Et. pose proof u64_val as Uv.
  assert (UD : 0 <= u64 * D <= / 9000000000000000 * D) by (split; [apply Rmult_le_pos; lra|apply Rmult_le_compat_r; lra]). apply abs_bounds in E.
  assert (Be : Rabs (SF2R e) <= bp 502). { rewrite Rabs_right by lra. rewrite bp502. pose proof (bp500 _ eq_refl). pose proof (sq_nn (bp 500)). apply root_le; lra. }
  destruct (square_ok e F Be) as (F2 & _ & E2 & _). split; auto. set (s := SF2R e * SF2R e) in *.
  assert (Us : u64 * s <= u64 * (101 / 100 * D)) by (apply Rmult_le_compat_l; lra). assert (Ee : eta64 <= / 100 * (u64 * D)) by (rewrite Uv; lra).
  apply abs_bounds in E2. apply abs_le. lra.
Qed.

Lemma sorted_test e0 e1 e2 D0 D1 D2 : side e0 D0 -> side e1 D1 -> side e2 D2 -> SF2R e0 <= SF2R e2 -> SF2R e1 <= SF2R e2 ->
  let t := SFleb (SF64mul e2 e2) (SF64add (SF64mul e0 e0) (SF64mul e1 e1)) in
  (t = true -> D2 <= (1 + 21 * u64) * (D0 + D1) /\ D1 <= (1 + 21 * u64) * (D0 + D2) /\ D0 <= (1 + 21 * u64) * (D1 + D2)) /\
  (D2 <= (1 - 21 * u64) * (D0 + D1) -> t = true).
Proof.
  intros S0 S1 S2 L0 L1 t. destruct (side_square _ _ S0) as (F0 & E0). destruct (side_square _ _ S1) as (F1 & E1). destruct (side_square _ _ S2) as (F2 & E2).
  pose proof u_bounds as U. destruct S0 as (G0 & P0 & Q0 & B0), S1 as (G1 & P1 & Q1 & B1), S2 as (G2 & P2 & Q2 & B2).
  assert (U0 : 0 <= u64 * D0 <= / 9000000000000000 * D0) by (split; [apply Rmult_le_pos; lra|apply Rmult_le_compat_r; lra]).
  assert (U1 : 0 <= u64 * D1 <= / 9000000000000000 * D1) by (split; [apply Rmult_le_pos; lra|apply Rmult_le_compat_r; lra]).
  assert (U2 : 0 <= u64 * D2 <= / 9000000000000000 * D2) by (split; [apply Rmult_le_pos; lra|apply Rmult_le_compat_r; lra]).
  apply abs_bounds in E0, E1, E2, Q0, Q1, Q2. set (x0 := SF64mul e0 e0) in *. set (x1 := SF64mul e1 e1) in *. set (x2 := SF64mul e2 e2) in *.
  pose proof bp1020_big. pose proof (sq_nn (bp 500)). assert (bp 1020 <= bp 1023) by (apply bp_le; lia).
  destruct (fadd x0 x1 F0 F1) as (R1 & R2). { rewrite Rabs_right by lra. lra. }
  rewrite (Rabs_right (SF2R x0 + SF2R x1)) in R2 by lra. set (s := SF64add x0 x1) in *. apply abs_bounds in R2.
  assert (Us : 0 <= u64 * (SF2R x0 + SF2R x1) <= u64 * (101 / 100 * (D0 + D1))) by (split; [apply Rmult_le_pos; lra|apply Rmult_le_compat_l; lra]).
  assert (Le0 : SF2R e0 * SF2R e0 <= SF2R e2 * SF2R e2) by (apply Rmult_le_compat; lra). assert (Le1 : SF2R e1 * SF2R e1 <= SF2R e2 * SF2R e2) by (apply Rmult_le_compat; lra).
  assert (u2_0 : 0 <= u64 * (u64 * D0) <= / 9000000000000000 * (u64 * D0)) by (split; [apply Rmult_le_pos; lra|apply Rmult_le_compat_r; lra]).
  assert (u2_1 : 0 <= u64 * (u64 * D1) <= / 9000000000000000 * (u64 * D1)) by (split; [apply Rmult_le_pos; lra|apply Rmult_le_compat_r; lra]).
  assert (u2_2 : 0 <= u64 * (u64 * D2) <= / 9000000000000000 * (u64 * D2)) by (split; [apply Rmult_le_pos; lra|apply Rmult_le_compat_r; lra]).
  unfold t. rewrite (fle _ _ F2 (rounds_fin _ _ R1)). split.
  - intros T. assert (T2 : (1 - 95 / 10 * u64) * D2 <= (1 + 1055 / 100 * u64) * (D0 + D1)) by lra.
    assert (M : 0 < 1 - 95 / 10 * u64) by lra. split; [|split].
    + apply Rmult_le_reg_l with (1 - 95 / 10 * u64); [exact M|]. eapply Rle_trans; [exact T2|].
      replace ((1 - 95 / 10 * u64) * ((1 + 21 * u64) * (D0 + D1))) with (D0 + D1 + 115 / 10 * (u64 * D0 + u64 * D1) - 1995 / 10 * (u64 * (u64 * D0) + u64 * (u64 * D1))) by field. lra.
    + assert (D1 <= (1 + 17 * u64) * D2). { apply Rmult_le_reg_l with (1 - 8 * u64); [lra|]. replace ((1 - 8 * u64) * ((1 + 17 * u64) * D2)) with (D2 + 9 * (u64 * D2) - 136 * (u64 * (u64 * D2))) by ring. lra. } lra.
    + assert (D0 <= (1 + 17 * u64) * D2). { apply Rmult_le_reg_l with (1 - 8 * u64); [lra|]. replace ((1 - 8 * u64) * ((1 + 17 * u64) * D2)) with (D2 + 9 * (u64 * D2) - 136 * (u64 * (u64 * D2))) by ring. lra. } lra.
  - intros T. assert (u64 * D2 <= u64 * (101 / 100 * (D0 + D1))) by (apply Rmult_le_compat_l; lra). lra.
Qed.

Lemma is_acute64_ok m1 m2 m3 A B C : moderate A -> moderate B -> moderate C ->
  / 100000000000000000000 <= d2R B C -> / 100000000000000000000 <= d2R A C -> / 100000000000000000000 <= d2R A B ->
  let a := d2R B C in let b := d2R A C in let c := d2R A B in
  (is_acute64 m1 m2 m3 A B C = true -> a <= (1 + 21 * u64) * (b + c) /\ b <= (1 + 21 * u64) * (a + c) /\ c <= (1 + 21 * u64) * (a + b)) /\
  (a <= (1 - 21 * u64) * (b + c) -> b <= (1 - 21 * u64) * (a + c) -> c <= (1 - 21 * u64) * (a + b) -> is_acute64 m1 m2 m3 A B C = true).
Proof.
  intros HA HB HC Ha Hb Hc a b c.
  destruct (distance_ok m1 B C HB HC Ha) as (F1 & P1 & _ & E1 & B1). destruct (distance_ok m2 A C HA HC Hb) as (F2 & P2 & _ & E2 & B2). destruct (distance_ok m3 A B HA HB Hc) as (F3 & P3 & _ & E3 & B3).
  unfold is_acute64. set (x := distance64 m1 B C) in *. set (y := distance64 m2 A C) in *. set (z := distance64 m3 A B) in *.
  assert (Sx : side x a) by (split; [auto|split; [auto|split; [auto|split; auto]]]). assert (Sy : side y b) by (split; [auto|split; [auto|split; [auto|split; auto]]]). assert (Sz : side z c) by (split; [auto|split; [auto|split; [auto|split; auto]]]).
  clearbody x y z a b c. clear - F1 F2 F3 Sx Sy Sz. unfold sort3.
  pose proof (flt y x F2 F1) as T1. pose proof (flt z x F3 F1) as T2. pose proof (flt z y F3 F2) as T3.
  destruct (SFltb y x).
  - assert (L1 : SF2R y < SF2R x) by (apply T1; auto). destruct (SFltb z y); [|destruct (SFltb z x)].
    + assert (SF2R z < SF2R y) by (apply T3; auto). destruct (sorted_test z y x c b a Sz Sy Sx ltac:(lra) ltac:(lra)) as (K1 & K2). split; [intros T; apply K1 in T; rewrite (Rplus_comm b c), (Rplus_comm a c), (Rplus_comm a b); tauto|intros; apply K2; rewrite (Rplus_comm c b); auto].
    + assert (SF2R z < SF2R x) by (apply T2; auto). assert (~ SF2R z < SF2R y) by (intros K; apply T3 in K; discriminate).
      destruct (sorted_test y z x b c a Sy Sz Sx ltac:(lra) ltac:(lra)) as (K1 & K2). split; [intros T; apply K1 in T; rewrite (Rplus_comm a c), (Rplus_comm a b); tauto|intros; apply K2; auto].
    + assert (~ SF2R z < SF2R x) by (intros K; apply T2 in K; discriminate).
      destruct (sorted_test y x z b a c Sy Sx Sz ltac:(lra) ltac:(lra)) as (K1 & K2). split; [intros T; apply K1 in T; rewrite (Rplus_comm a b); tauto|intros; apply K2; rewrite (Rplus_comm b a); auto].
  - assert (L1 : ~ SF2R y < SF2R x) by (intros K; apply T1 in K; discriminate). destruct (SFltb z x); [|destruct (SFltb z y)].
    + assert (SF2R z < SF2R x) by (apply T2; auto). destruct (sorted_test z x y c a b Sz Sx Sy ltac:(lra) ltac:(lra)) as (K1 & K2). split; [intros T; apply K1 in T; rewrite (Rplus_comm b c), (Rplus_comm a c); tauto|intros; apply K2; rewrite (Rplus_comm c a); auto].
    + assert (SF2R z < SF2R y) by (apply T3; auto). assert (~ SF2R z < SF2R x) by (intros K; apply T2 in K; discriminate).
      destruct (sorted_test x z y a c b Sx Sz Sy ltac:(lra) ltac:(lra)) as (K1 & K2). split; [intros T; apply K1 in T; rewrite (Rplus_comm b c); tauto|intros; apply K2; auto].
    + assert (~ SF2R z < SF2R y) by (intros K; apply T3 in K; discriminate).
      destruct (sorted_test x y z a b c Sx Sy Sz ltac:(lra) ltac:(lra)) as (K1 & K2). split; [intros T; apply K1 in T; tauto|intros; apply K2; auto].
Qed.

(** ** Perpendicular lines *)

Lemma approx_zero x : fin x -> Rabs (SF2R x) <= bp 1000 ->
  (approx_equal64 x f0 = true -> Rabs (SF2R x) <= 10001 / 10000000000000) /\ (Rabs (SF2R x) <= 9999 / 10000000000000 -> approx_equal64 x f0 = true).
Proof.
  intros F B. pose proof u_bounds as U. pose proof eta64_small as Et. assert (F0 : fin f0) by (split; reflexivity). assert (V0 : SF2R f0 = 0) by reflexivity.
  assert (N1 : 1 <= bp 1000) by (rewrite <- bp_0; apply bp_le; lia). assert (N2 : 4 * bp 1000 <= bp 1021) by (replace (4 * bp 1000) with (bp (1000 + 1 + 1)) by (rewrite !bp_succ; ring); apply bp_le; lia).
  assert (N3 : bp 1021 <= bp 1023) by (apply bp_le; lia).
  set (X := SF2R x) in *. set (aX := Rabs X) in *. assert (PX : 0 <= aX) by apply Rabs_pos.
  destruct (isclose_ok x f0 F F0 ltac:(fold X; fold aX; lra) ltac:(rewrite V0, Rabs_R0; lra)) as (I1 & _). rewrite V0 in I1. fold X in I1. rewrite Rminus_0_r, Rabs_R0 in I1. fold aX in I1. rewrite Rmax_left in I1 by lra.
  assert (B1 : Rabs (X + 1) <= aX + 1) by (eapply Rle_trans; [apply Rabs_triang|rewrite Rabs_R1; unfold aX; lra]).
  destruct (fadd x f1 F fin_f1) as (R1 & R2). { rewrite val_f1. fold X. lra. } rewrite val_f1 in R2. fold X in R2. pose proof (rounds_fin _ _ R1) as F1. set (y := SF64add x f1) in *.
  replace (SF64add f0 f1) with f1 in * by reflexivity.
  assert (UB : 0 <= u64 * Rabs (X + 1) <= / 9000000000000000 * (aX + 1)) by (split; [apply Rmult_le_pos; [lra|apply Rabs_pos]|apply Rmult_le_compat; try lra; apply Rabs_pos]).
  assert (BY : Rabs (SF2R y) <= 2 * (aX + 1)) by (pose proof R2 as R2'; apply abs_close in R2'; lra).
  destruct (isclose_ok y f1 F1 fin_f1 ltac:(lra) ltac:(rewrite val_f1, Rabs_R1; lra)) as (J1 & J2). rewrite val_f1, Rabs_R1 in J1, J2.
  unfold approx_equal64. fold y. replace (SF64add f0 f1) with f1 by reflexivity. split.
  - intros H. apply orb_true_iff in H. destruct H as [H|H]; [apply I1 in H; lra|]. apply J1 in H.
    assert (Mx : Rmax (Rabs (SF2R y)) 1 <= 1 + aX + / 9000000000000000 * (aX + 1)). { apply Rmax_lub; [pose proof R2 as R2'; apply abs_close in R2'|]; lra. }
    assert (HX : aX <= Rabs (SF2R y - 1) + u64 * Rabs (X + 1)). { unfold aX. replace X with ((SF2R y - 1) + - (SF2R y - (X + 1))) at 1 by ring. eapply Rle_trans; [apply Rabs_triang|]. rewrite Rabs_Ropp. lra. } lra.
  - intros H. apply orb_true_iff. right. apply J2. pose proof (Rmax_r (Rabs (SF2R y)) 1).
    assert (Rabs (SF2R y - 1) <= aX + u64 * Rabs (X + 1)). { replace (SF2R y - 1) with (X + (SF2R y - (X + 1))) by ring. eapply Rle_trans; [apply Rabs_triang|]. fold aX. lra. } lra.
Qed.

Lemma is_perpendicular64_ok m A B C D : fin2 A -> fin2 B -> fin2 C -> fin2 D -> within (bp 490) A -> within (bp 490) B -> within (bp 490) C -> within (bp 490) D ->
  let u := vsub (P2R B) (P2R A) in let v := vsub (P2R D) (P2R C) in
  let err := 5 * u64 * (Rabs (fst u * fst v) + Rabs (snd u * snd v)) in
  (is_perpendicular64 m A B C D = true -> Rabs (sdot u v) <= 10002 / 10000000000000 + err) /\
  (Rabs (sdot u v) <= 9998 / 10000000000000 - err -> is_perpendicular64 m A B C D = true).
Proof.
  intros (Fa0 & Fa1) (Fb0 & Fb1) (Fc0 & Fc1) (Fd0 & Fd1) (Wa0 & Wa1) (Wb0 & Wb1) (Wc0 & Wc1) (Wd0 & Wd1) u v err. assert (Bb : bp 490 <= bp 1022) by (apply bp_le; lia).
  destruct (sub_coord _ _ _ Fb0 Fa0 Wb0 Wa0 Bb) as (F1 & E1 & B1 & _). destruct (sub_coord _ _ _ Fb1 Fa1 Wb1 Wa1 Bb) as (F2 & E2 & B2 & _).
  destruct (sub_coord _ _ _ Fd0 Fc0 Wd0 Wc0 Bb) as (F3 & E3 & B3 & _). destruct (sub_coord _ _ _ Fd1 Fc1 Wd1 Wc1 Bb) as (F4 & E4 & B4 & _).
  change (SF2R (fst B) - SF2R (fst A)) with (fst u) in *. change (SF2R (snd B) - SF2R (snd A)) with (snd u) in *. change (SF2R (fst D) - SF2R (fst C)) with (fst v) in *. change (SF2R (snd D) - SF2R (snd C)) with (snd v) in *.
  assert (Bp : forall x y, Rabs x <= 2 * bp 490 -> Rabs y <= 2 * bp 490 -> Rabs (x * y) <= 4 * (bp 490 * bp 490)).
  { intros x y Hx Hy. rewrite Rabs_mult. apply Rle_trans with (2 * bp 490 * (2 * bp 490)); [apply Rmult_le_compat; auto using Rabs_pos|lra]. }
  pose proof (Bp _ _ B1 B3) as P1. pose proof (Bp _ _ B2 B4) as P2. clear Bp. set (x := Rabs (fst u * fst v)) in *. set (y := Rabs (snd u * snd v)) in *. assert (0 <= x) by apply Rabs_pos. assert (0 <= y) by apply Rabs_pos.
  assert (N1 : bp 490 * bp 490 * 16 <= bp 1000). { rewrite <- bp_add. replace (bp (490 + 490) * 16) with (bp (490 + 490 + 1 + 1 + 1 + 1)) by (rewrite !bp_succ; ring). apply bp_le. lia. } assert (N2 : bp 1000 <= bp 1020) by (apply bp_le; lia). assert (N3 : 1 <= bp 490) by (rewrite <- bp_0; apply bp_le; lia). assert (N4 : 1 <= bp 490 * bp 490) by (replace 1 with (1 * 1) by ring; apply Rmult_le_compat; lra).
  destruct (sum2_diff m _ _ _ _ (fst u) (fst v) (snd u) (snd v) F1 F3 F2 F4 E1 E3 E2 E4) as (F & E); [fold x; fold y; lra|]. fold x in E. fold y in E.
  change (sum2 m (fst B - fst A)%f64 (fst D - fst C)%f64 (snd B - snd A)%f64 (snd D - snd C)%f64) with (dot64 m (fp_sub B A) (fp_sub D C)) in *. change (fst u * fst v + snd u * snd v) with (sdot u v) in E.
  pose proof u_bounds as U. pose proof eta64_small as Et. assert (Ux : 0 <= u64 * x <= / 9000000000000000 * x) by (split; [apply Rmult_le_pos; lra|apply Rmult_le_compat_r; lra]). assert (Uy : 0 <= u64 * y <= / 9000000000000000 * y) by (split; [apply Rmult_le_pos; lra|apply Rmult_le_compat_r; lra]).
  assert (Bs : Rabs (sdot u v) <= x + y) by apply Rabs_triang. set (d := dot64 m (fp_sub B A) (fp_sub D C)) in *.
  assert (E' : Rabs (sdot u v - SF2R d) <= 42 / 10 * u64 * (x + y) + 3 * eta64) by (rewrite Rabs_minus_sym; exact E). apply abs_close in E. apply abs_close in E'.
  destruct (approx_zero d F ltac:(lra)) as (K1 & K2). unfold is_perpendicular64. fold d. unfold err. split; intros H1.
  - apply K1 in H1. lra.
  - apply K2. lra.
Qed.

Lemma is_perpendicular64_grid m N A B C D : (0 <= N < 2 ^ 25)%Z -> on_grid2 0 N A -> on_grid2 0 N B -> on_grid2 0 N C -> on_grid2 0 N D ->
  (is_perpendicular64 m A B C D = true <-> sdot (vsub (P2R B) (P2R A)) (vsub (P2R D) (P2R C)) = 0).
Proof.
  intros HN (Ga0 & Ga1) (Gb0 & Gb1) (Gc0 & Gc1) (Gd0 & Gd1). assert (NN : (8 * (N * N) < 2 ^ 53)%Z) by (apply nn; lia).
  apply gv_of in Ga0, Ga1, Gb0, Gb1, Gc0, Gc1, Gd0, Gd1. destruct Ga0 as (a0 & Ga0), Ga1 as (a1 & Ga1), Gb0 as (b0 & Gb0), Gb1 as (b1 & Gb1), Gc0 as (c0 & Gc0), Gc1 as (c1 & Gc1), Gd0 as (d0 & Gd0), Gd1 as (d1 & Gd1).
  assert (R0 : (N + N < 2 ^ 53)%Z) by lia. assert (R1 : (-1074 <= 0 <= 970)%Z) by lia.
  pose proof (gv_sub _ _ _ _ _ _ _ R0 R1 Gb0 Ga0) as (F1 & Z1 & E1). pose proof (gv_sub _ _ _ _ _ _ _ R0 R1 Gb1 Ga1) as (F2 & Z2 & E2). pose proof (gv_sub _ _ _ _ _ _ _ R0 R1 Gd0 Gc0) as (F3 & Z3 & E3). pose proof (gv_sub _ _ _ _ _ _ _ R0 R1 Gd1 Gc1) as (F4 & Z4 & E4).
  pose proof (zprod _ _ _ Z1 Z3) as M1. pose proof (zprod _ _ _ Z2 Z4) as M2.
  destruct Ga0 as (_ & _ & Ea0), Ga1 as (_ & _ & Ea1), Gb0 as (_ & _ & Eb0), Gb1 as (_ & _ & Eb1), Gc0 as (_ & _ & Ec0), Gc1 as (_ & _ & Ec1), Gd0 as (_ & _ & Ed0), Gd1 as (_ & _ & Ed1).
  assert (Sd : sdot (vsub (P2R B) (P2R A)) (vsub (P2R D) (P2R C)) = IZR ((b0 - a0) * (d0 - c0) + (b1 - a1) * (d1 - c1))) by (unfold sdot, vsub, P2R; cbn [fst snd]; rewrite Ea0, Ea1, Eb0, Eb1, Ec0, Ec1, Ed0, Ed1, bp_0, plus_IZR, !mult_IZR, !minus_IZR; ring).
  set (p := ((b0 - a0) * (d0 - c0))%Z) in *. set (q := ((b1 - a1) * (d1 - c1))%Z) in *. assert (NN2 : ((N + N) * (N + N) = 4 * (N * N))%Z) by ring. rewrite NN2 in M1, M2. clear Z1 Z2 Z3 Z4 NN2.
  destruct (sum2_grid m _ _ _ _ _ _ _ _ 0 0 F1 F3 F2 F4 E1 E3 E2 E4) as (F & E); fold p; fold q; try (clear - M1 M2 NN; lia).
  unfold is_perpendicular64, dot64, fp_sub, fp_map2. cbn [fst snd]. set (d := sum2 m _ _ _ _) in *. change (0 + 0)%Z with 0%Z in E. rewrite bp_0, Rmult_1_r in E. fold p in E. fold q in E.
  assert (Bd : Rabs (SF2R d) <= bp 1000). { rewrite E, <- abs_IZR. apply Rle_trans with (bp 53); [|apply bp_le; lia]. rewrite bp_IZR by lia. apply IZR_le. clear - M1 M2 NN. lia. }
  destruct (approx_zero d F Bd) as (K1 & K2). rewrite Sd. rewrite E in K1, K2. set (z := (p + q)%Z) in *. clearbody z. clear - K1 K2. split; intros H.
  - apply K1 in H. rewrite <- abs_IZR in H. assert (H' : IZR (Z.abs z) < 1) by lra. apply (lt_IZR _ 1) in H'. f_equal. lia.
  - apply K2. rewrite H, Rabs_R0. lra.
Qed.

(** ** Collinear integer points *)

Lemma allclose_grid A B : on_grid2 0 2800 A -> on_grid2 0 2800 B -> allclose64 A B = true -> P2R A = P2R B.
Proof.
  intros GA GB H. assert (MA := on_grid_moderate 2800 A ltac:(lia) GA). assert (MB := on_grid_moderate 2800 B ltac:(lia) GB). destruct (allclose_true A B MA MB H) as (H0 & H1).
  destruct GA as ((_ & a0 & Ba0 & Ea0) & (_ & a1 & Ba1 & Ea1)), GB as ((_ & b0 & Bb0 & Eb0) & (_ & b1 & Bb1 & Eb1)). unfold P2R. rewrite Ea0, Ea1, Eb0, Eb1, bp_0, !Rmult_1_r, <- ?minus_IZR, <- ?abs_IZR in *.
  assert (K : forall a b, (Z.abs b <= 2800)%Z -> IZR (Z.abs (a - b)) <= 1000000001 / 1000000000 * (/ 100000000 + / 100000 * IZR (Z.abs b)) -> a = b).
  { clear. intros a b Bb Hab. apply IZR_le in Bb. assert (K : IZR (Z.abs (a - b)) < 1) by lra. apply (lt_IZR _ 1) in K. lia. }
  rewrite (K a0 b0 Bb0 H0), (K a1 b1 Bb1 H1). reflexivity.
Qed.

Lemma collinear64_grid m1 m2 A B C : on_grid2 0 2800 A -> on_grid2 0 2800 B -> on_grid2 0 2800 C ->
  exists r, collinear64 m1 m2 A B C = Ok r /\ (r = true <-> scross (vsub (P2R B) (P2R A)) (vsub (P2R C) (P2R A)) = 0).
Proof.
  intros GA GB GC.
  assert (W : forall P, on_grid2 0 2800 P -> fin2 P /\ within (bp 240) P).
  { clear. intros P ((F0 & n0 & B0 & E0) & (F1 & n1 & B1 & E1)). split; [split; auto|]. split; rewrite ?E0, ?E1, bp_0, Rmult_1_r, <- abs_IZR; (apply Rle_trans with (bp 53); [rewrite bp_IZR by lia; apply IZR_le; lia|apply bp_le; lia]). }
  destruct (W A GA) as (FA & WA), (W B GB) as (FB & WB), (W C GC) as (FC & WC). clear W.
  destruct (collinear64_ok m1 m2 A B C FA FB FC WA WB WC) as (r & E & K1 & K2). exists r. split; auto.
  set (u := vsub (P2R B) (P2R A)) in *. set (v := vsub (P2R C) (P2R A)) in *. split.
  - intros H. destruct (K1 H) as [H1|[H1|[H1|H1]]].
    + apply allclose_grid in H1; auto. unfold scross, u, v. rewrite H1. unfold vsub. cbn [fst snd]. ring.
    + apply allclose_grid in H1; auto. unfold scross, u, v. rewrite H1. unfold vsub. cbn [fst snd]. ring.
    + apply allclose_grid in H1; auto. unfold scross, u, v. rewrite H1. unfold vsub. cbn [fst snd]. ring.
    + destruct GA as ((_ & a0 & Ba0 & Ea0) & (_ & a1 & Ba1 & Ea1)), GB as ((_ & b0 & Bb0 & Eb0) & (_ & b1 & Bb1 & Eb1)), GC as ((_ & c0 & Bc0 & Ec0) & (_ & c1 & Bc1 & Ec1)).
      assert (Cr : scross u v = IZR ((b0 - a0) * (c1 - a1) - (b1 - a1) * (c0 - a0))) by (unfold scross, u, v, vsub, P2R; cbn [fst snd]; rewrite Ea0, Ea1, Eb0, Eb1, Ec0, Ec1, bp_0, minus_IZR, !mult_IZR, !minus_IZR; ring).
      assert (Dt : sdot u v = IZR ((b0 - a0) * (c0 - a0) + (b1 - a1) * (c1 - a1))) by (unfold sdot, u, v, vsub, P2R; cbn [fst snd]; rewrite Ea0, Ea1, Eb0, Eb1, Ec0, Ec1, bp_0, plus_IZR, !mult_IZR, !minus_IZR; ring).
      assert (M1 := zprod (b0 - a0) (c0 - a0) 5600 ltac:(clear - Ba0 Bb0; lia) ltac:(clear - Ba0 Bc0; lia)). assert (M2 := zprod (b1 - a1) (c1 - a1) 5600 ltac:(clear - Ba1 Bb1; lia) ltac:(clear - Ba1 Bc1; lia)).
      rewrite Cr, Dt, <- !abs_IZR in H1. rewrite Cr. set (z := ((b0 - a0) * (c1 - a1) - (b1 - a1) * (c0 - a0))%Z) in *. set (p := ((b0 - a0) * (c0 - a0))%Z) in *. set (q := ((b1 - a1) * (c1 - a1))%Z) in *.
      assert (Bd : IZR (Z.abs (p + q)) <= IZR 62720000) by (apply IZR_le; clear - M1 M2; lia). assert (H' : IZR (Z.abs z) < 1) by (clear - H1 Bd; lra). apply (lt_IZR _ 1) in H'. f_equal. clear - H'. lia.
  - intros H. apply K2. rewrite H, Rabs_R0. pose proof (Rabs_pos (sdot u v)). lra.
Qed.
