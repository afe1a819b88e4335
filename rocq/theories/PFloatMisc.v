(** * Orientation, angles, inversions, acute triangles and perpendicular lines in binary64 *)

From Coq Require Import Reals ZArith Lia Lra Psatz Bool SpecFloat.
From Verif Require Import SpecF64 Base Spec ModelFloat PFloat PFloat2 PFloat3 PFloat4 PFloatCircle PFloatLine PFloatGrid.
Local Open Scope R_scope.

(** ** Orientation *)

Lemma prod_round x y X Y : fin x -> fin y -> Rabs (SF2R x - X) <= u64 * Rabs X -> Rabs (SF2R y - Y) <= u64 * Rabs Y -> Rabs (X * Y) <= bp 1020 ->
  fin (SF64mul x y) /\ Rabs (SF2R (SF64mul x y) - X * Y) <= 31 / 10 * u64 * Rabs (X * Y) + eta64.
Proof.
  intros Fx Fy Ex Ey B. pose proof u_bounds as U. pose proof bp1023 as B2. pose proof eta64_small as Et.
  pose proof (prod_err _ _ _ _ Ex Ey) as P. set (T := Rabs (X * Y)) in *. assert (PT : 0 <= T) by apply Rabs_pos.
  assert (UT : 0 <= u64 * T <= / 9000000000000000 * T) by (split; [apply Rmult_le_pos; lra|apply Rmult_le_compat_r; lra]).
  pose proof P as P'. apply abs_close in P'. fold T in P'. assert (N4 : bp 1022 = 4 * bp 1020) by (replace 1022%Z with (1020 + 1 + 1)%Z by reflexivity; rewrite !bp_succ; ring).
  assert (M : rounds (SF64mul x y) (SF2R x * SF2R y)) by (apply fmul; auto; lra). split; [apply (rounds_fin _ _ M)|].
  pose proof (rounds_err _ _ M) as E. set (w := Rabs (SF2R x * SF2R y)) in *. assert (Uw : u64 * w <= u64 * (101 / 100 * T)) by (apply Rmult_le_compat_l; lra).
  apply abs_bounds in E, P. apply abs_le. lra.
Qed.

Lemma orientation64_sign A B C : moderate A -> moderate B -> moderate C ->
  let P := (SF2R (snd B) - SF2R (snd A)) * (SF2R (fst C) - SF2R (fst B)) in
  let Q := (SF2R (fst B) - SF2R (fst A)) * (SF2R (snd C) - SF2R (snd B)) in
  4 * u64 * (Rabs P + Rabs Q) + 2 * eta64 < Rabs (P - Q) ->
  (orientation64 A B C = 1%Z <-> 0 < P - Q) /\ (orientation64 A B C = (-1)%Z <-> P - Q < 0) /\ orientation64 A B C <> 0%Z.
Proof.
  intros ((Fa0 & Fa1) & (Wa0 & Wa1)) ((Fb0 & Fb1) & (Wb0 & Wb1)) ((Fc0 & Fc1) & (Wc0 & Wc1)) P Q H.
  assert (Bb : bp 500 <= bp 1022) by (apply bp_le; lia).
  destruct (sub_coord _ _ _ Fb1 Fa1 Wb1 Wa1 Bb) as (F1 & E1 & B1 & _). destruct (sub_coord _ _ _ Fc0 Fb0 Wc0 Wb0 Bb) as (F2 & E2 & B2 & _).
  destruct (sub_coord _ _ _ Fb0 Fa0 Wb0 Wa0 Bb) as (F3 & E3 & B3 & _). destruct (sub_coord _ _ _ Fc1 Fb1 Wc1 Wb1 Bb) as (F4 & E4 & B4 & _).
  pose proof bp1020_big as BB. destruct (bp500 _ eq_refl) as (B5 & _).
  assert (Bp : forall x y, Rabs x <= 2 * bp 500 -> Rabs y <= 2 * bp 500 -> Rabs (x * y) <= 4 * (bp 500 * bp 500)).
  { intros x y Hx Hy. rewrite Rabs_mult. apply Rle_trans with (2 * bp 500 * (2 * bp 500)); [apply Rmult_le_compat; auto using Rabs_pos|lra]. }
  pose proof (Bp _ _ B1 B2) as BP. pose proof (Bp _ _ B3 B4) as BQ. fold P in BP. fold Q in BQ. pose proof (sq_nn (bp 500)) as SN.
  destruct (prod_round _ _ _ _ F1 F2 E1 E2) as (F5 & E5); [fold P; lra|]. destruct (prod_round _ _ _ _ F3 F4 E3 E4) as (F6 & E6); [fold Q; lra|].
  fold P in E5. fold Q in E6. set (p := SF64mul (snd B - snd A)%f64 (fst C - fst B)%f64) in *. set (q := SF64mul (fst B - fst A)%f64 (snd C - snd B)%f64) in *.
  pose proof u_bounds as U. pose proof eta64_small as Et. set (aP := Rabs P) in *. set (aQ := Rabs Q) in *. assert (0 <= aP) by apply Rabs_pos. assert (0 <= aQ) by apply Rabs_pos.
  assert (UP : 0 <= u64 * aP <= / 9000000000000000 * aP) by (split; [apply Rmult_le_pos; lra|apply Rmult_le_compat_r; lra]). assert (UQ : 0 <= u64 * aQ <= / 9000000000000000 * aQ) by (split; [apply Rmult_le_pos; lra|apply Rmult_le_compat_r; lra]).
  assert (Bpq : Rabs (SF2R p - SF2R q) <= bp 1023).
  { apply abs_close in E5, E6. fold aP in E5. fold aQ in E6. unfold Rminus. eapply Rle_trans; [apply Rabs_triang|]. rewrite Rabs_Ropp. assert (bp 1020 <= bp 1023) by (apply bp_le; lia). assert (bp 500 <= bp 1020) by (apply bp_le; lia). lra. }
  destruct (fsub p q F5 F6 Bpq) as (R1 & R2). pose proof (rounds_fin _ _ R1) as F7. set (val := SF64sub p q) in *.
  destruct (sign_of val (SF2R val) F7 eq_refl) as (S1 & S2 & S3). fold (orientation64 A B C) in S1, S2, S3.
  change (if SFeqb val f0 then 0%Z else if SFltb f0 val then 1%Z else (-1)%Z) with (orientation64 A B C) in *.
  apply abs_bounds in E5, E6, R2. set (d := SF2R p - SF2R q) in *.
  destruct (Rle_dec 0 (P - Q)) as [Hs|Hs].
  - rewrite (Rabs_right (P - Q)) in H by lra. assert (Pd : 0 < d) by (unfold d; lra). rewrite (Rabs_right d) in R2 by lra. assert (Ud : u64 * d <= / 9000000000000000 * d) by (apply Rmult_le_compat_r; lra).
    assert (V : 0 < SF2R val) by lra. apply S1 in V. rewrite V. split; [|split; [|discriminate]]; split; intros; try lra; try discriminate; auto.
  - rewrite (Rabs_left (P - Q)) in H by lra. assert (Pd : d < 0) by (unfold d; lra). rewrite (Rabs_left d) in R2 by lra. assert (Ud : u64 * - d <= / 9000000000000000 * - d) by (apply Rmult_le_compat_r; lra).
    assert (V : SF2R val < 0) by lra. apply S3 in V. rewrite V. split; [|split; [|discriminate]]; split; intros; try lra; try discriminate; auto.
Qed.

(** ** Angles *)

(** a / b for approximations of T * B and B. *)
Lemma ratio a b T B s e f : 0 < B -> 0 <= s -> Rabs (a - T * B) <= e * s * B -> Rabs (b - B) <= f * B -> Rabs T <= s -> 0 <= e -> 0 <= f <= / 1000 ->
  Rabs (a / b - T) <= 1002 / 1000 * ((e + f) * s).
Proof.
  intros HB Hs Ha Hb HT He Hf. apply abs_bounds in Hb. assert (fB : f * B <= / 1000 * B) by (apply Rmult_le_compat_r; lra). assert (Pb : 999 / 1000 * B <= b) by lra.
  replace (a / b - T) with ((a - T * B + T * (B - b)) * / b) by (field; lra). rewrite Rabs_mult, (Rabs_right (/ b)) by (left; apply Rinv_0_lt_compat; lra).
  assert (N : Rabs (a - T * B + T * (B - b)) <= (e + f) * s * B).
  { eapply Rle_trans; [apply Rabs_triang|]. rewrite Rabs_mult. assert (Rabs T * Rabs (B - b) <= s * (f * B)) by (apply Rmult_le_compat; auto using Rabs_pos; apply abs_le; lra). lra. }
  apply Rmult_le_reg_r with b; [lra|]. rewrite Rmult_assoc, Rinv_l, Rmult_1_r by lra. assert (Pe : 0 <= (e + f) * s) by (apply Rmult_le_pos; lra).
  eapply Rle_trans; [exact N|]. assert ((e + f) * s * B <= (e + f) * s * (1002 / 1000 * b)) by (apply Rmult_le_compat_l; lra). lra.
Qed.

Lemma root_lower x : / 100000000000000000000 <= x -> / 10000000000 <= sqrt x.
Proof. intros H. apply root_le; [lra|apply sqrt_pos|]. rewrite sqrt_sqrt by lra. lra. Qed.

Lemma root_upper x : 0 <= x <= 8 * (bp 500 * bp 500) -> sqrt x <= 3 * bp 500.
Proof. intros H. destruct (bp500 _ eq_refl). apply root_le; [apply sqrt_pos|lra|]. rewrite sqrt_sqrt by lra. pose proof (sq_nn (bp 500)). lra. Qed.

Lemma cos_angle64_ok m1 m2 m3 A B C : moderate A -> moderate B -> moderate C -> / 100000000000000000000 <= d2R A B -> / 100000000000000000000 <= d2R A C ->
  let c := sdot (vsub (P2R C) (P2R A)) (vsub (P2R B) (P2R A)) / (sqrt (d2R A C) * sqrt (d2R A B)) in
  fin (cos_angle64 m1 m2 m3 A B C) /\ Rabs (SF2R (cos_angle64 m1 m2 m3 A B C) - c) <= 15 * u64 /\ -1 <= c <= 1.
Proof.
  intros HA HB HC DB DC c. destruct (distance_ok m1 A C HA HC DC) as (Fb & Pb & Eb & _ & BC). destruct (distance_ok m2 A B HA HB DB) as (Fc & Pc & Ec & _ & BB).
  unfold cos_angle64. change (SF64sqrt (dot64 m1 (fp_sub C A) (fp_sub C A))) with (distance64 m1 A C). change (SF64sqrt (dot64 m2 (fp_sub B A) (fp_sub B A))) with (distance64 m2 A B).
  set (b := distance64 m1 A C) in *. set (k := distance64 m2 A B) in *.
  pose proof (root_lower _ DC) as LL. pose proof (root_lower _ DB) as LK. assert (UL := root_upper _ (conj (Rle_trans _ _ _ (Rlt_le 0 (/ 100000000000000000000) ltac:(lra)) DC) BC)). assert (UK := root_upper _ (conj (Rle_trans _ _ _ (Rlt_le 0 (/ 100000000000000000000) ltac:(lra)) DB) BB)).
  assert (SL : sqrt (d2R A C) * sqrt (d2R A C) = d2R A C) by (apply sqrt_sqrt; lra). assert (SK : sqrt (d2R A B) * sqrt (d2R A B) = d2R A B) by (apply sqrt_sqrt; lra).
  set (L := sqrt (d2R A C)) in *. set (K := sqrt (d2R A B)) in *.
  destruct HA as ((Fa0 & Fa1) & (Wa0 & Wa1)), HB as ((Fb0 & Fb1) & (Wb0 & Wb1)), HC as ((Fc0 & Fc1) & (Wc0 & Wc1)).
  assert (Bb : bp 500 <= bp 1022) by (apply bp_le; lia). pose proof u_bounds as U. pose proof eta64_small as Et. pose proof u64_val as Uv.
  destruct (sub_coord _ _ _ Fc0 Fa0 Wc0 Wa0 Bb) as (F1 & E1 & B1 & _). destruct (sub_coord _ _ _ Fb0 Fa0 Wb0 Wa0 Bb) as (F2 & E2 & B2 & _).
  destruct (sub_coord _ _ _ Fc1 Fa1 Wc1 Wa1 Bb) as (F3 & E3 & B3 & _). destruct (sub_coord _ _ _ Fb1 Fa1 Wb1 Wa1 Bb) as (F4 & E4 & B4 & _).
  set (x0 := SF2R (fst C) - SF2R (fst A)) in *. set (x1 := SF2R (snd C) - SF2R (snd A)) in *. set (y0 := SF2R (fst B) - SF2R (fst A)) in *. set (y1 := SF2R (snd B) - SF2R (snd A)) in *.
  assert (LK2 : Rabs (x0 * y0) + Rabs (x1 * y1) <= L * K).
  { apply root_le; [apply Rplus_le_le_0_compat; apply Rabs_pos|apply Rmult_le_pos; lra|]. eapply Rle_trans; [apply abs_prod_le|]. replace (L * K * (L * K)) with (L * L * (K * K)) by ring. rewrite SL, SK. right. unfold d2R, x0, x1, y0, y1. ring. }
  assert (LKp : / 100000000000000000000 <= L * K) by (replace (/ 100000000000000000000) with (/ 10000000000 * / 10000000000) by lra; apply Rmult_le_compat; lra).
  assert (LKu : L * K <= 9 * (bp 500 * bp 500)) by (replace (9 * (bp 500 * bp 500)) with (3 * bp 500 * (3 * bp 500)) by ring; apply Rmult_le_compat; lra).
  pose proof bp1020_big as BG. pose proof (sq_nn (bp 500)) as SN. destruct (bp500 _ eq_refl) as (B5 & _).
  destruct (sum2_diff m3 _ _ _ _ x0 y0 x1 y1 F1 F2 F3 F4 E1 E2 E3 E4 ltac:(lra)) as (Fd & Ed).
  change (sum2 m3 (fst C - fst A)%f64 (fst B - fst A)%f64 (snd C - snd A)%f64 (snd B - snd A)%f64) with (dot64 m3 (fp_sub C A) (fp_sub B A)) in *.
  set (d := dot64 m3 (fp_sub C A) (fp_sub B A)) in *. set (dx := x0 * y0 + x1 * y1) in *.
  assert (Hc : c = dx / (L * K)) by reflexivity. assert (cLK : c * (L * K) = dx) by (rewrite Hc; field; split; lra).
  assert (ULK : 0 <= u64 * (L * K)) by (apply Rmult_le_pos; lra).
  assert (Ed' : Rabs (SF2R d - dx) <= 43 / 10 * u64 * (L * K)). { eapply Rle_trans; [exact Ed|]. assert (u64 * (Rabs (x0 * y0) + Rabs (x1 * y1)) <= u64 * (L * K)) by (apply Rmult_le_compat_l; lra). assert (3 * eta64 <= / 10 * (u64 * (L * K))) by (rewrite Uv; lra). lra. }
  assert (Bdx : Rabs dx <= L * K) by (eapply Rle_trans; [apply Rabs_triang|exact LK2]).
  assert (Bc : Rabs c <= 1). { rewrite Hc. unfold Rdiv. rewrite Rabs_mult, (Rabs_right (/ (L * K))) by (left; apply Rinv_0_lt_compat; lra). apply Rmult_le_reg_r with (L * K); [lra|]. rewrite Rmult_assoc, Rinv_l by lra. lra. }
  (* first division *)
  assert (Q1 : Rabs (SF2R d / SF2R b - c * K) <= 1002 / 1000 * ((43 / 10 * u64 + 4 * u64) * K)).
  { apply ratio with L; try lra; [|rewrite Rabs_mult, (Rabs_right K) by lra; rewrite <- (Rmult_1_l K) at 2; apply Rmult_le_compat_r; lra].
    replace (c * K * L) with dx by (rewrite <- cLK; ring). eapply Rle_trans; [exact Ed'|]. lra. }
  assert (UKK : 0 <= u64 * K <= / 9000000000000000 * K) by (split; [apply Rmult_le_pos; lra|apply Rmult_le_compat_r; lra]).
  assert (BcK : Rabs (c * K) <= K) by (rewrite Rabs_mult, (Rabs_right K) by lra; rewrite <- (Rmult_1_l K) at 2; apply Rmult_le_compat_r; lra).
  pose proof Q1 as Q1'. apply abs_close in Q1'. set (q1 := SF2R d / SF2R b) in *. assert (N4 : bp 500 <= bp 1020) by (apply bp_le; lia). assert (N5 : bp 1022 = 4 * bp 1020) by (replace 1022%Z with (1020 + 1 + 1)%Z by reflexivity; rewrite !bp_succ; ring). pose proof bp1023 as N6.
  assert (R1 : rounds (SF64div d b) q1) by (apply fdiv; auto; [lra|]; fold q1; lra). pose proof (rounds_err _ _ R1) as ER1. pose proof (rounds_fin _ _ R1) as FR1.
  set (x := SF64div d b) in *. assert (Uq1 : u64 * Rabs q1 <= u64 * (101 / 100 * K)) by (apply Rmult_le_compat_l; lra).
  assert (EtK : eta64 <= / 100 * (u64 * K)) by (rewrite Uv; lra).
  assert (Q2 : Rabs (SF2R x - c * K) <= 94 / 10 * u64 * 1 * K) by (apply abs_bounds in Q1, ER1; apply abs_le; lra).
  assert (Q3 : Rabs (SF2R x / SF2R k - c) <= 1002 / 1000 * ((94 / 10 * u64 + 4 * u64) * 1)) by (apply ratio with K; try lra).
  pose proof Q3 as Q3'. apply abs_close in Q3'. set (q2 := SF2R x / SF2R k) in *.
  assert (R2 : rounds (SF64div x k) q2). { apply fdiv; auto; [lra|]. fold q2. lra. }
  pose proof (rounds_err _ _ R2) as ER2. assert (Uq2 : u64 * Rabs q2 <= u64 * (101 / 100)) by (apply Rmult_le_compat_l; lra).
  assert (Et1 : eta64 <= / 100 * u64) by (rewrite Uv; lra).
  split; [apply (rounds_fin _ _ R2)|]. split; [apply abs_bounds in Q3, ER2; apply abs_le; lra|apply abs_bounds in Bc; lra].
Qed.

Lemma acos_no_error m1 m2 m3 A B C : moderate A -> moderate B -> moderate C -> / 100000000000000000000 <= d2R A B -> / 100000000000000000000 <= d2R A C ->
  let c := sdot (vsub (P2R C) (P2R A)) (vsub (P2R B) (P2R A)) / (sqrt (d2R A C) * sqrt (d2R A B)) in
  Rabs c <= 1 - 15 * u64 -> acos_raises64 (cos_angle64 m1 m2 m3 A B C) = false.
Proof.
  intros HA HB HC DB DC c H. destruct (cos_angle64_ok m1 m2 m3 A B C HA HB HC DB DC) as (F & E & _). fold c in E. apply abs_bounds in H, E.
  destruct (fopp f1 fin_f1) as (Fm & Vm). unfold acos_raises64. apply orb_false_iff. split; apply not_true_is_false; intros K.
  - apply (flt _ _ F Fm) in K. rewrite Vm, val_f1 in K. lra.
  - apply (flt _ _ fin_f1 F) in K. rewrite val_f1 in K. lra.
Qed.

(** ** Inversions *)

Lemma invert64_ok m P k M : moderate P -> fin k -> Rabs (SF2R k) <= bp 400 -> moderate M -> allclose64 P M = false ->
  exists I, invert64 m P k M = Some I /\ fin2 I /\
  forall f : spec_float * spec_float -> spec_float, f = fst \/ f = snd ->
    let p := SF2R (f P) in let t := SF2R k * (SF2R (f M) - SF2R (f P)) / d2R M P in
    Rabs (SF2R (f I) - (p + t)) <= u64 * Rabs (p + t) + 10 * u64 * Rabs t + 3 * eta64 * (1 + Rabs (SF2R (f M) - SF2R (f P))).
Proof.
  intros HP Fk Bk HM H. pose proof (not_allclose P M HP HM H) as HD. assert (Sym : d2R P M = d2R M P) by (unfold d2R; ring). rewrite Sym in HD.
  destruct HP as ((Fp0 & Fp1) & (Wp0 & Wp1)), HM as ((Fm0 & Fm1) & (Wm0 & Wm1)).
  destruct (dist2_ok m M P (conj Fm0 Fm1) (conj Fp0 Fp1) (conj Wm0 Wm1) (conj Wp0 Wp1)) as (Fd & Nd & Ed & BD).
  unfold invert64. rewrite H. set (v := fp_sub M P) in *. set (d := dot64 m v v) in *. set (D := d2R M P) in *.
  pose proof u_bounds as U. pose proof eta64_small as Et. pose proof u64_val as Uv. set (kk := SF2R k) in *.
  assert (UD : 0 <= u64 * D <= / 9000000000000000 * D) by (split; [apply Rmult_le_pos; lra|apply Rmult_le_compat_r; lra]).
  assert (Ee : 3 * eta64 <= / 100 * (u64 * D)) by (rewrite Uv; lra).
  assert (Ed' : Rabs (SF2R d - D) <= 44 / 10 * u64 * D) by (eapply Rle_trans; [exact Ed|lra]).
  assert (aD : Rabs (kk / D) = Rabs kk / D) by (unfold Rdiv; rewrite Rabs_mult, (Rabs_right (/ D)); auto; left; apply Rinv_0_lt_compat; lra).
  assert (Pk : 0 <= Rabs kk) by apply Rabs_pos. assert (iD : 0 < / D <= 20000000000000000) by (split; [apply Rinv_0_lt_compat; lra|]; rewrite <- (Rinv_inv 20000000000000000); apply Rinv_le_contravar; lra).
  set (Q := kk / D) in *. assert (PQ : 0 <= Rabs Q) by apply Rabs_pos.
  assert (BQ : Rabs Q <= bp 400 * 20000000000000000) by (rewrite aD; unfold Rdiv; apply Rmult_le_compat; lra).
  assert (B6 : bp 400 * 20000000000000000 <= bp 500). { replace 500%Z with (400 + 100)%Z by reflexivity. rewrite bp_add. apply Rmult_le_compat_l; [left; apply bp_pos|]. rewrite bp_IZR by lia. apply IZR_le. apply Z.leb_le. reflexivity. }
  assert (Q1 : Rabs (kk / SF2R d - Q) <= 1002 / 1000 * ((0 + 44 / 10 * u64) * Rabs Q)).
  { apply ratio with D; try lra. unfold Q. replace (kk - kk / D * D) with 0 by (field; lra). rewrite Rabs_R0. lra. }
  assert (UQ : 0 <= u64 * Rabs Q <= / 9000000000000000 * Rabs Q) by (split; [apply Rmult_le_pos; lra|apply Rmult_le_compat_r; lra]).
  pose proof Q1 as Q1'. apply abs_close in Q1'. apply abs_bounds in Ed'. set (q1 := kk / SF2R d) in *.
  assert (B7 : 2 * bp 500 <= bp 1020) by (replace (2 * bp 500) with (bp (500 + 1)) by apply bp_succ; apply bp_le; lia).
  assert (N5 : bp 1022 = 4 * bp 1020) by (replace 1022%Z with (1020 + 1 + 1)%Z by reflexivity; rewrite !bp_succ; ring). pose proof bp1023 as N6.
  assert (R1 : rounds (SF64div k d) q1) by (apply fdiv; auto; [lra|]; fold kk; fold q1; lra). pose proof (rounds_err _ _ R1) as ER1. pose proof (rounds_fin _ _ R1) as Fq.
  set (q := SF64div k d) in *. assert (Uq1 : u64 * Rabs q1 <= u64 * (101 / 100 * Rabs Q)) by (apply Rmult_le_compat_l; lra).
  assert (E2 : Rabs (SF2R q - Q) <= 55 / 10 * u64 * Rabs Q + eta64) by (apply abs_bounds in Q1, ER1; apply abs_le; lra).
  assert (Coord : forall f : spec_float * spec_float -> spec_float, fin (f P) -> fin (f M) -> Rabs (SF2R (f P)) <= bp 500 -> Rabs (SF2R (f M)) <= bp 500 ->
    (SF2R (f M) - SF2R (f P)) * (SF2R (f M) - SF2R (f P)) <= D ->
    let z := (f P + q * (f M - f P))%f64 in let p := SF2R (f P) in let t := SF2R k * (SF2R (f M) - SF2R (f P)) / D in
    fin z /\ Rabs (SF2R z - (p + t)) <= u64 * Rabs (p + t) + 10 * u64 * Rabs t + 3 * eta64 * (1 + Rabs (SF2R (f M) - SF2R (f P)))).
  { clear Wp0 Wp1 Wm0 Wm1 Fp0 Fp1 Fm0 Fm1 Ed Q1 ER1. intros f Fp Fm Wp Wm Hv z p t. assert (Bb : bp 500 <= bp 1022) by (apply bp_le; lia).
    destruct (sub_coord _ _ _ Fm Fp Wm Wp Bb) as (F1 & E1 & B1 & _). set (w := (f M - f P)%f64) in *. set (V := SF2R (f M) - SF2R (f P)) in *. set (aV := Rabs V) in *. assert (PV : 0 <= aV) by apply Rabs_pos.
    assert (Ht : t = Q * V) by (unfold t, Q; fold kk; field; lra). set (T := Rabs t) in *. assert (PT : 0 <= T) by apply Rabs_pos. assert (HT : T = Rabs Q * aV) by (unfold T; rewrite Ht, Rabs_mult; reflexivity).
    assert (BT : T <= bp 500).
    { rewrite HT, aD. assert (aVD : aV * / D <= 200000000).
      { assert (V2 : aV * aV <= D) by (unfold aV; rewrite <- Rabs_mult, Rabs_right; [exact Hv|apply Rle_ge, sq_nn]). apply root_le; [apply Rmult_le_pos; lra|lra|].
        replace (aV * / D * (aV * / D)) with (aV * aV * / D * / D) by ring. assert (aV * aV * / D <= 1) by (apply Rmult_le_reg_r with D; [lra|]; rewrite Rmult_assoc, Rinv_l by lra; lra). assert (0 <= aV * aV * / D) by (apply Rmult_le_pos; [apply sq_nn|lra]). apply Rle_trans with (1 * 20000000000000000); [apply Rmult_le_compat; lra|lra]. }
      unfold Rdiv. rewrite Rmult_assoc, (Rmult_comm (/ D)). apply Rle_trans with (bp 400 * 200000000); [apply Rmult_le_compat; auto; apply Rmult_le_pos; lra|]. pose proof (bp_pos 400). lra. }
    assert (UT : 0 <= u64 * T <= / 9000000000000000 * T) by (split; [apply Rmult_le_pos; lra|apply Rmult_le_compat_r; lra]).
    assert (UV : 0 <= u64 * aV <= / 9000000000000000 * aV) by (split; [apply Rmult_le_pos; lra|apply Rmult_le_compat_r; lra]).
    assert (Eta : 0 <= eta64 * aV) by (apply Rmult_le_pos; lra).
    (* exact product of the computed factors *)
    assert (EP : Rabs (SF2R q * SF2R w - t) <= 66 / 10 * (u64 * T) + 11 / 10 * (eta64 * aV)).
    { rewrite Ht. replace (SF2R q * SF2R w - Q * V) with ((SF2R q - Q) * SF2R w + Q * (SF2R w - V)) by ring. eapply Rle_trans; [apply Rabs_triang|]. rewrite !Rabs_mult.
      assert (A1 : Rabs (SF2R w) <= 101 / 100 * aV) by (apply abs_close in E1; fold aV in E1; lra).
      assert (A2 : Rabs (SF2R q - Q) * Rabs (SF2R w) <= (55 / 10 * u64 * Rabs Q + eta64) * (101 / 100 * aV)) by (apply Rmult_le_compat; auto using Rabs_pos).
      assert (A3 : Rabs Q * Rabs (SF2R w - V) <= Rabs Q * (u64 * aV)) by (apply Rmult_le_compat_l; auto).
      rewrite HT. replace ((55 / 10 * u64 * Rabs Q + eta64) * (101 / 100 * aV)) with (55 / 10 * (101 / 100) * (u64 * (Rabs Q * aV)) + 101 / 100 * (eta64 * aV)) in A2 by ring. replace (Rabs Q * (u64 * aV)) with (u64 * (Rabs Q * aV)) in A3 by ring. rewrite HT in UT. lra. }
    assert (BaV : eta64 * aV <= / 10 * bp 500). { apply Rle_trans with (/ 20 * (2 * bp 500)); [apply Rmult_le_compat; lra|]. lra. }
    pose proof EP as EP'. apply abs_close in EP'. fold T in EP'. set (pr := SF2R q * SF2R w) in *.
    assert (Mr : rounds (SF64mul q w) pr) by (apply fmul; auto; fold pr; lra). pose proof (rounds_err _ _ Mr) as EM. pose proof (rounds_fin _ _ Mr) as Fpr. set (y := SF64mul q w) in *.
    assert (Upr : u64 * Rabs pr <= u64 * (101 / 100 * T + 11 / 10 * (eta64 * aV))) by (apply Rmult_le_compat_l; lra).
    assert (UeV : u64 * (eta64 * aV) <= / 9000000000000000 * (eta64 * aV)) by (apply Rmult_le_compat_r; lra).
    assert (EY : Rabs (SF2R y - t) <= 77 / 10 * (u64 * T) + 12 / 10 * (eta64 * aV) + eta64) by (apply abs_bounds in EP, EM; apply abs_le; lra).
    pose proof EY as EY'. apply abs_close in EY'. fold T in EY'. assert (Wp' : Rabs p <= bp 500) by exact Wp. set (S := p + SF2R y). destruct (bp500 _ eq_refl) as (B5 & _). assert (BS : Rabs S <= bp 1023) by (unfold S; eapply Rle_trans; [apply Rabs_triang|lra]).
    destruct (fadd (f P) y Fp Fpr) as (R2 & R3); [exact BS|]. fold p in R2, R3. fold S in R2, R3. change (f P + y)%f64 with z in R2, R3. split; [apply (rounds_fin _ _ R2)|].
    assert (US : u64 * Rabs S <= u64 * (Rabs (p + t) + (77 / 10 * (u64 * T) + 12 / 10 * (eta64 * aV) + eta64))).
    { apply Rmult_le_compat_l; [lra|]. replace S with ((p + t) + (SF2R y - t)) by (unfold S; ring). eapply Rle_trans; [apply Rabs_triang|]. lra. }
    assert (U2 : u64 * (u64 * T) <= / 9000000000000000 * (u64 * T)) by (apply Rmult_le_compat_r; lra). assert (U3 : u64 * eta64 <= / 9000000000000000 * eta64) by (apply Rmult_le_compat_r; lra).
    assert (HS : S = p + SF2R y) by reflexivity. clearbody S. apply abs_bounds in R3, EY. apply abs_le. clearbody T. split; lra. }
  exists ((fst P + q * fst v)%f64, (snd P + q * snd v)%f64). split; [reflexivity|].
  assert (V0 : (SF2R (fst M) - SF2R (fst P)) * (SF2R (fst M) - SF2R (fst P)) <= D) by (unfold D, d2R; pose proof (sq_nn (SF2R (snd M) - SF2R (snd P))); lra).
  assert (V1 : (SF2R (snd M) - SF2R (snd P)) * (SF2R (snd M) - SF2R (snd P)) <= D) by (unfold D, d2R; pose proof (sq_nn (SF2R (fst M) - SF2R (fst P))); lra).
  pose proof (Coord fst Fp0 Fm0 Wp0 Wm0 V0) as (G0 & C0). pose proof (Coord snd Fp1 Fm1 Wp1 Wm1 V1) as (G1 & C1).
  split; [split; auto|]. intros f [->| ->]; auto.
Qed.
