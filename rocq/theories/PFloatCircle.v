(** * Circles in binary64 *)

From Coq Require Import Reals ZArith Lia Lra Psatz Bool SpecFloat.
From Verif Require Import SpecF64 Base ModelFloat PFloat PFloat2 PFloat3 PFloat4.
Local Open Scope R_scope.

Lemma sq_nn x : 0 <= x * x. Proof. nra. Qed.

Lemma bp1020_big : 64 * (bp 500 * bp 500) <= bp 1020.
Proof.
  rewrite <- bp_add. apply Rle_trans with (bp 6 * bp (500 + 500)); [|rewrite <- bp_add; apply bp_le; lia].
  apply Rmult_le_compat_r; [left; apply bp_pos|]. rewrite bp_IZR by lia. cbn. lra.
Qed.

Lemma bp502 : bp 502 = 4 * bp 500.
Proof. replace 502%Z with (500 + 1 + 1)%Z by reflexivity. rewrite !bp_succ. ring. Qed.

Lemma square_ok r : fin r -> Rabs (SF2R r) <= bp 502 ->
  let z := SF64mul r r in
  fin z /\ 0 <= SF2R z /\ Rabs (SF2R z - SF2R r * SF2R r) <= u64 * (SF2R r * SF2R r) + eta64 /\ SF2R r * SF2R r <= 16 * (bp 500 * bp 500).
Proof.
  intros F B z. destruct (bp500 _ eq_refl) as (B0 & B1). pose proof bp1023. pose proof bp1022_big. pose proof (abs_sq _ _ B) as S. rewrite bp502 in S. pose proof (sq_nn (SF2R r)) as N.
  assert (M : rounds z (SF2R r * SF2R r)) by (apply fmul; auto; rewrite Rabs_right by lra; nra).
  split; [apply (rounds_fin _ _ M)|]. split; [apply (rounds_nonneg _ _ M N)|]. split; [|lra]. pose proof (rounds_err _ _ M) as E. rewrite (Rabs_right (SF2R r * SF2R r)) in E by lra. exact E.
Qed.

(** approx_equal_ applied to approximations of D and R. *)
Lemma approx_equal_pert a b D S : fin a -> fin b -> 0 <= SF2R a -> 0 <= SF2R b -> 0 <= D <= 32 * (bp 500 * bp 500) -> 0 <= S <= 32 * (bp 500 * bp 500) ->
  Rabs (SF2R a - D) <= / 100000000000000 * D + 10 * eta64 -> Rabs (SF2R b - S) <= / 100000000000000 * S + 10 * eta64 ->
  (approx_equal64 a b = true -> Rabs (D - S) <= 1000100 / 1000000000000000 * (1 + Rmax D S)) /\
  (Rabs (D - S) <= 999900 / 1000000000000000 * (1 + Rmax D S) -> approx_equal64 a b = true).
Proof.
  intros Fa Fb Na Nb BD BS Ea Eb. pose proof bp1020_big as B. pose proof eta64_small as Et. apply abs_bounds in Ea, Eb. pose proof (bp500 _ eq_refl) as (B1 & _).
  assert (1 <= bp 500 * bp 500) by nra.
  destruct (approx_equal_ok a b Fa Fb ltac:(split; lra) ltac:(split; lra)) as (S1 & S2). split.
  - intros H1. specialize (S1 H1). apply abs_bounds in S1. apply abs_le. pose proof (Rmax_l D S). pose proof (Rmax_r D S).
    unfold Rmax in S1. destruct (Rle_dec (SF2R a) (SF2R b)); lra.
  - intros H1. apply S2. apply abs_bounds in H1. apply abs_le. pose proof (Rmax_l (SF2R a) (SF2R b)). pose proof (Rmax_r (SF2R a) (SF2R b)).
    unfold Rmax in H1. destruct (Rle_dec D S); lra.
Qed.

Lemma dist2_weak m P Q : moderate P -> moderate Q -> let v := fp_sub P Q in let z := dot64 m v v in
  fin z /\ 0 <= SF2R z /\ Rabs (SF2R z - d2R P Q) <= / 100000000000000 * d2R P Q + 10 * eta64 /\ 0 <= d2R P Q <= 32 * (bp 500 * bp 500).
Proof.
  intros (F & W) (F' & W') v z. destruct (dist2_ok m P Q F F' W W') as (A & B & C & D). change (dot64 m (fp_sub P Q) (fp_sub P Q)) with z in A, B, C. split; auto. split; auto.
  pose proof u_bounds. pose proof eta64_small. assert (u64 * d2R P Q <= / 9000000000000000 * d2R P Q) by (apply Rmult_le_compat_r; lra). pose proof (sq_nn (bp 500)). split; [lra|split; lra].
Qed.

Lemma square_weak r : fin r -> Rabs (SF2R r) <= bp 502 -> let z := SF64mul r r in
  fin z /\ 0 <= SF2R z /\ Rabs (SF2R z - SF2R r * SF2R r) <= / 100000000000000 * (SF2R r * SF2R r) + 10 * eta64 /\ 0 <= SF2R r * SF2R r <= 32 * (bp 500 * bp 500).
Proof.
  intros F W z. destruct (square_ok r F W) as (A & B & C & D). fold z in A, B, C. split; auto. split; auto. pose proof (sq_nn (SF2R r)).
  pose proof u_bounds. pose proof eta64_small. assert (u64 * (SF2R r * SF2R r) <= / 9000000000000000 * (SF2R r * SF2R r)) by (apply Rmult_le_compat_r; lra). pose proof (sq_nn (bp 500)). split; [lra|split; lra].
Qed.

(** ** [Circle.includes] *)

Lemma includes64_ok m c P : moderate (c64_center c) -> fin (c64_radius c) -> Rabs (SF2R (c64_radius c)) <= bp 502 -> moderate P ->
  let D := d2R P (c64_center c) in let S := SF2R (c64_radius c) * SF2R (c64_radius c) in
  (circle_includes64 m c P = true -> Rabs (D - S) <= 1000100 / 1000000000000000 * (1 + Rmax D S)) /\
  (Rabs (D - S) <= 999900 / 1000000000000000 * (1 + Rmax D S) -> circle_includes64 m c P = true).
Proof.
  intros HO Fr Br HP D S. destruct (dist2_weak m P _ HP HO) as (A1 & A2 & A3 & A4). destruct (square_weak _ Fr Br) as (C1 & C2 & C3 & C4).
  apply (approx_equal_pert _ _ D S A1 C1 A2 C2 A4 C4 A3 C3).
Qed.

(** ** [Circle.is_orthogonal] *)

Lemma orthogonal64_ok m c c2 : moderate (c64_center c) -> moderate (c64_center c2) ->
  fin (c64_radius c) -> Rabs (SF2R (c64_radius c)) <= bp 502 -> fin (c64_radius c2) -> Rabs (SF2R (c64_radius c2)) <= bp 502 ->
  let D := d2R (c64_center c) (c64_center c2) in
  let S := SF2R (c64_radius c) * SF2R (c64_radius c) + SF2R (c64_radius c2) * SF2R (c64_radius c2) in
  (is_orthogonal64 m c c2 = true -> Rabs (D - S) <= 1000100 / 1000000000000000 * (1 + Rmax D S)) /\
  (Rabs (D - S) <= 999900 / 1000000000000000 * (1 + Rmax D S) -> is_orthogonal64 m c c2 = true).
Proof.
  intros HO HO2 Fr Br Fr2 Br2 D S. destruct (dist2_weak m _ _ HO HO2) as (A1 & A2 & A3 & A4).
  destruct (square_ok _ Fr Br) as (C1 & C2 & C3 & C4). destruct (square_ok _ Fr2 Br2) as (D1 & D2 & D3 & D4).
  pose proof u_bounds as U. pose proof eta64_small as Et. destruct (bp500 _ eq_refl) as (B0 & B1). pose proof bp1023 as B2. pose proof bp1022_big as B3.
  set (r := SF2R (c64_radius c)) in *. set (r2 := SF2R (c64_radius c2)) in *. set (z1 := SF64mul (c64_radius c) (c64_radius c)) in *. set (z2 := SF64mul (c64_radius c2) (c64_radius c2)) in *.
  pose proof (sq_nn r) as N1. pose proof (sq_nn r2) as N2. set (R1 := r * r) in *. set (R2 := r2 * r2) in *. set (b2 := bp 500 * bp 500) in *.
  assert (K1 : 0 <= u64 * R1 <= / 9000000000000000 * R1) by (split; [apply Rmult_le_pos; lra|apply Rmult_le_compat_r; lra]).
  assert (K2 : 0 <= u64 * R2 <= / 9000000000000000 * R2) by (split; [apply Rmult_le_pos; lra|apply Rmult_le_compat_r; lra]).
  apply abs_bounds in C3, D3.
  destruct (fadd z1 z2 C1 D1) as (E1 & E2). { rewrite Rabs_right by lra. lra. }
  rewrite (Rabs_right (SF2R z1 + SF2R z2)) in E2 by lra. apply abs_bounds in E2.
  assert (K3 : 0 <= u64 * (SF2R z1 + SF2R z2) <= / 9000000000000000 * (SF2R z1 + SF2R z2)) by (split; [apply Rmult_le_pos; lra|apply Rmult_le_compat_r; lra]).
  unfold is_orthogonal64. fold z1 z2.
  apply (approx_equal_pert _ _ D S A1 (rounds_fin _ _ E1) A2); auto.
  - apply (rounds_nonneg _ _ E1). lra.
  - unfold S. fold b2. split; lra.
  - apply abs_le. unfold S. lra.
Qed.

(** ** [Circle.contains] and [Circle.power] *)

Lemma contains64_ok m c P : moderate (c64_center c) -> fin (c64_radius c) -> Rabs (SF2R (c64_radius c)) <= bp 502 -> moderate P ->
  let D := d2R P (c64_center c) in let S := SF2R (c64_radius c) * SF2R (c64_radius c) in
  (circle_contains64 m c P = true -> D <= S + 6 * u64 * S + 5 * eta64) /\
  (D <= S - 6 * u64 * S - 5 * eta64 -> circle_contains64 m c P = true).
Proof.
  intros (FO & WO) Fr Br (FP & WP) D S. destruct (dist2_ok m P _ FP FO WP WO) as (A1 & A2 & A3 & A4). destruct (square_ok _ Fr Br) as (C1 & C2 & C3 & C4).
  pose proof u_bounds as U. pose proof eta64_small as Et. fold D in A3, A4. fold S in C3, C4. pose proof (sq_nn (SF2R (c64_radius c))) as NS. fold S in NS. apply abs_bounds in A3, C3.
  unfold circle_contains64. rewrite (fle _ _ A1 C1). set (d := SF2R (dot64 m (fp_sub P (c64_center c)) (fp_sub P (c64_center c)))) in *. set (s := SF2R (SF64mul (c64_radius c) (c64_radius c))) in *. clearbody d s.
  assert (UU : u64 * (u64 * D) <= / 9000000000000000 * (u64 * D)) by (apply Rmult_le_compat_r; [apply Rmult_le_pos; lra|lra]).
  assert (UD : 0 <= u64 * D <= / 9000000000000000 * D) by (split; [apply Rmult_le_pos; lra|apply Rmult_le_compat_r; lra]).
  assert (US : 0 <= u64 * S <= / 9000000000000000 * S) by (split; [apply Rmult_le_pos; lra|apply Rmult_le_compat_r; lra]).
  split; intros H.
  - destruct (Rle_dec D S) as [L|L]; [lra|]. assert (D <= 2 * S + 10 * eta64) by lra.
    assert (K : D - 43 / 10 * u64 * D <= S + u64 * S + 4 * eta64) by lra.
    assert (U1 : D - S <= 43 / 10 * (u64 * D) + u64 * S + 4 * eta64) by lra.
    assert (U2 : u64 * D <= u64 * (S + (43 / 10 * (u64 * D) + u64 * S + 4 * eta64))) by (apply Rmult_le_compat_l; lra).
    assert (U3 : u64 * (u64 * S) <= / 9000000000000000 * (u64 * S)) by (apply Rmult_le_compat_r; lra).
    assert (U4 : u64 * eta64 <= / 9000000000000000 * eta64) by (apply Rmult_le_compat_r; lra). lra.
  - destruct (Rle_dec D S) as [L|L]; [|lra]. assert (u64 * D <= u64 * S) by (apply Rmult_le_compat_l; lra). lra.
Qed.

Lemma power64_ok m c P : moderate (c64_center c) -> fin (c64_radius c) -> Rabs (SF2R (c64_radius c)) <= bp 502 -> moderate P ->
  let D := d2R P (c64_center c) in let S := SF2R (c64_radius c) * SF2R (c64_radius c) in
  fin (circle_power64 m c P) /\ Rabs (SF2R (circle_power64 m c P) - (D - S)) <= 6 * u64 * (D + S) + 5 * eta64.
Proof.
  intros (FO & WO) Fr Br (FP & WP) D S. destruct (dist2_ok m P _ FP FO WP WO) as (A1 & A2 & A3 & A4). destruct (square_ok _ Fr Br) as (C1 & C2 & C3 & C4).
  pose proof u_bounds as U. pose proof eta64_small as Et. fold D in A3, A4. fold S in C3, C4. pose proof (sq_nn (SF2R (c64_radius c))) as NS. fold S in NS. apply abs_bounds in A3, C3.
  destruct (bp500 _ eq_refl) as (B0 & B1). pose proof bp1023 as B2. pose proof bp1022_big as B3.
  unfold circle_power64. set (dz := dot64 m (fp_sub P (c64_center c)) (fp_sub P (c64_center c))) in *. set (sz := SF64mul (c64_radius c) (c64_radius c)) in *.
  assert (UD : 0 <= u64 * D <= / 9000000000000000 * D) by (split; [apply Rmult_le_pos; lra|apply Rmult_le_compat_r; lra]).
  assert (US : 0 <= u64 * S <= / 9000000000000000 * S) by (split; [apply Rmult_le_pos; lra|apply Rmult_le_compat_r; lra]).
  assert (Ab : Rabs (SF2R dz - SF2R sz) <= 11 / 10 * (D + S) + 4 * eta64) by (apply abs_le; lra).
  destruct (fsub dz sz A1 C1 ltac:(lra)) as (R1 & R2). split; [apply (rounds_fin _ _ R1)|].
  assert (R3 : u64 * Rabs (SF2R dz - SF2R sz) <= u64 * (11 / 10 * (D + S) + 4 * eta64)) by (apply Rmult_le_compat_l; lra).
  assert (U4 : u64 * eta64 <= / 9000000000000000 * eta64) by (apply Rmult_le_compat_r; lra).
  apply abs_bounds in R2. apply abs_le. lra.
Qed.

(** ** [np.allclose] *)

Lemma npclose_ok x y : fin x -> fin y -> Rabs (SF2R x) <= bp 1000 -> Rabs (SF2R y) <= bp 1000 ->
  let t := / 100000000 + / 100000 * Rabs (SF2R y) in
  (npclose64 x y = true -> Rabs (SF2R x - SF2R y) <= 1000000001 / 1000000000 * t) /\
  (Rabs (SF2R x - SF2R y) <= 999999999 / 1000000000 * t -> npclose64 x y = true).
Proof.
  intros Fx Fy Bx By t. pose proof u_bounds as U. pose proof eta64_small as Et. destruct npow as (N1 & N2).
  assert (N3 : bp 1000 <= bp 1021) by (apply bp_le; lia). assert (N4 : bp 1022 = 2 * bp 1021) by (rewrite <- bp_succ; reflexivity).
  destruct (sub_coord x y _ Fx Fy Bx By ltac:(lra)) as (Fd & Ed & Bd & _). destruct (fabs _ Fd) as (Fd' & Vd).
  destruct (fabs y Fy) as (Fy' & Vy). pose proof val_f1em5 as T5. pose proof val_f1em8 as T8. set (t5 := SF2R f1em5) in *. set (t8 := SF2R f1em8) in *.
  set (Y := Rabs (SF2R y)) in *. assert (PY : 0 <= Y) by apply Rabs_pos. set (D := Rabs (SF2R x - SF2R y)) in *. assert (PD : 0 <= D) by apply Rabs_pos.
  assert (T5Y : (/ 100000 - / 1000000000000000000) * Y <= t5 * Y <= (/ 100000 + / 1000000000000000000) * Y) by (split; apply Rmult_le_compat_r; lra).
  assert (M : rounds (SF64mul f1em5 (SFabs y)) (t5 * Y)). { rewrite <- Vy. apply fmul; auto; [apply fin_f1em5|]. rewrite Vy. fold t5. rewrite Rabs_right by lra. lra. }
  pose proof (rounds_err _ _ M) as EM. rewrite (Rabs_right (t5 * Y)) in EM by lra. set (p := SF64mul f1em5 (SFabs y)) in *. apply abs_bounds in EM.
  assert (UM : 0 <= u64 * (t5 * Y) <= / 9000000000000000 * (t5 * Y)) by (split; [apply Rmult_le_pos; lra|apply Rmult_le_compat_r; lra]).
  destruct (fadd f1em8 p fin_f1em8 (rounds_fin _ _ M)) as (R1 & R2). { fold t8. rewrite Rabs_right by lra. lra. }
  fold t8 in R1, R2. rewrite (Rabs_right (t8 + SF2R p)) in R2 by lra. apply abs_bounds in R2. set (s := SF64add f1em8 p) in *.
  assert (US : 0 <= u64 * (t8 + SF2R p) <= / 9000000000000000 * (t8 + SF2R p)) by (split; [apply Rmult_le_pos; lra|apply Rmult_le_compat_r; lra]).
  apply abs_close in Ed. fold D in Ed. rewrite <- Vd in Ed.
  assert (UD : 0 <= u64 * D <= / 9000000000000000 * D) by (split; [apply Rmult_le_pos; lra|apply Rmult_le_compat_r; lra]).
  assert (Is : npclose64 x y = true <-> (SF2R (SFabs (SF64sub x y)) <= SF2R s \/ SF2R x = SF2R y)).
  { unfold npclose64. fold p. fold s. rewrite (proj2 Fy), andb_true_r, orb_true_iff, (feq _ _ Fx Fy), (fle _ _ Fd' (rounds_fin _ _ R1)). reflexivity. }
  rewrite Is. unfold t. split.
  - intros [H|H]; [lra|]. assert (D = 0) by (unfold D; rewrite H; replace (SF2R y - SF2R y) with 0 by ring; apply Rabs_R0). lra.
  - intros H. left. lra.
Qed.

(** ** Distances *)

Lemma distance_ok m A B : moderate A -> moderate B -> / 100000000000000000000 <= d2R A B ->
  let z := distance64 m A B in
  fin z /\ 0 < SF2R z /\ Rabs (SF2R z - sqrt (d2R A B)) <= 4 * u64 * sqrt (d2R A B) /\
  Rabs (SF2R z * SF2R z - d2R A B) <= 8 * u64 * d2R A B /\ d2R A B <= 8 * (bp 500 * bp 500).
Proof.
  intros (FA & WA) (FB & WB) HD z. assert (Sym : d2R B A = d2R A B) by (unfold d2R; ring).
  destruct (dist2_ok m B A FB FA WB WA) as (F & N & E & BD). rewrite Sym in *. unfold z, distance64. set (v := dot64 m (fp_sub B A) (fp_sub B A)) in *. set (D := d2R A B) in *.
  pose proof u_bounds as U. pose proof eta64_small as Et. pose proof u64_val as Uv.
  assert (Ee : eta64 <= / 100 * (u64 * D)) by (rewrite Uv; lra).
  assert (E' : Rabs (SF2R v - D) <= 44 / 10 * u64 * D) by (eapply Rle_trans; [apply E|]; lra). apply abs_bounds in E'.
  assert (UD : 0 <= u64 * D <= / 9000000000000000 * D) by (split; [apply Rmult_le_pos; lra|apply Rmult_le_compat_r; lra]).
  destruct (fsqrt v F N) as (R1 & R2). set (w := SF64sqrt v) in *. set (V := SF2R v) in *.
  pose proof (sqrt_sqrt V N) as Sv. pose proof (sqrt_sqrt D ltac:(lra)) as Sd. set (sv := sqrt V) in *. set (sd := sqrt D) in *.
  assert (Psd : 0 < sd) by (unfold sd; apply sqrt_lt_R0; lra). assert (Psv : 0 <= sv) by apply sqrt_pos.
  assert (Lo : 99 / 100 * sd <= sv) by nra. assert (Hi : sv <= 101 / 100 * sd) by nra.
  assert (Ds : Rabs (sv - sd) <= 23 / 10 * u64 * sd).
  { assert (K : (sv - sd) * (sv + sd) = V - D) by (rewrite <- Sv, <- Sd; ring). rewrite <- Sd in E'. apply abs_le. 
    assert (K2 : 0 <= u64 * sd) by (apply Rmult_le_pos; lra). split; apply Rmult_le_reg_r with (sv + sd); try lra; rewrite K; nra. }
  split; [apply (rounds_fin _ _ R1)|]. apply abs_bounds in Ds. pose proof (sq_err (SF2R w) sv) as Q. rewrite (Rabs_right sv) in Q by lra. specialize (Q R2). apply abs_bounds in R2.
  assert (Us : 0 <= u64 * sv <= u64 * (101 / 100 * sd)) by (split; [apply Rmult_le_pos; lra|apply Rmult_le_compat_l; lra]).
  assert (Ud : 0 <= u64 * sd <= / 9000000000000000 * sd) by (split; [apply Rmult_le_pos; lra|apply Rmult_le_compat_r; lra]).
  split; [lra|]. split; [apply abs_le; lra|]. split; [|lra].
  rewrite Sv in Q. apply abs_bounds in Q. apply abs_le.
  assert (UV : 0 <= u64 * V <= u64 * (101 / 100 * D)) by (split; [apply Rmult_le_pos; lra|apply Rmult_le_compat_l; lra]). lra.
Qed.

Lemma not_allclose A B : moderate A -> moderate B -> allclose64 A B = false -> 9 / 100000000000000000 <= d2R A B.
Proof.
  intros ((F1 & F2) & (W1 & W2)) ((G1 & G2) & (X1 & X2)) H. unfold allclose64 in H. assert (Bb : bp 500 <= bp 1000) by (apply bp_le; lia).
  destruct (npclose_ok _ _ F1 G1 ltac:(lra) ltac:(lra)) as (_ & K1). destruct (npclose_ok _ _ F2 G2 ltac:(lra) ltac:(lra)) as (_ & K2).
  pose proof (Rabs_pos (SF2R (fst B))). pose proof (Rabs_pos (SF2R (snd B))). unfold d2R.
  assert (Sq : forall x, 95 / 10000000000 < Rabs x -> 9 / 100000000000000000 <= x * x).
  { intros x Hx. replace (x * x) with (Rabs x * Rabs x) by (rewrite <- Rabs_mult, Rabs_right; nra). nra. }
  apply andb_false_iff in H. destruct H as [H|H].
  - destruct (Rle_dec (Rabs (SF2R (fst A) - SF2R (fst B))) (95 / 10000000000)) as [L|L]; [rewrite K1 in H by lra; discriminate|].
    specialize (Sq (SF2R (fst A) - SF2R (fst B)) ltac:(lra)). pose proof (sq_nn (SF2R (snd A) - SF2R (snd B))). lra.
  - destruct (Rle_dec (Rabs (SF2R (snd A) - SF2R (snd B))) (95 / 10000000000)) as [L|L]; [rewrite K2 in H by lra; discriminate|].
    specialize (Sq (SF2R (snd A) - SF2R (snd B)) ltac:(lra)). pose proof (sq_nn (SF2R (fst A) - SF2R (fst B))). lra.
Qed.

Lemma allclose_true A B : moderate A -> moderate B -> allclose64 A B = true ->
  Rabs (SF2R (fst A) - SF2R (fst B)) <= 1000000001 / 1000000000 * (/ 100000000 + / 100000 * Rabs (SF2R (fst B))) /\
  Rabs (SF2R (snd A) - SF2R (snd B)) <= 1000000001 / 1000000000 * (/ 100000000 + / 100000 * Rabs (SF2R (snd B))).
Proof.
  intros ((F1 & F2) & (W1 & W2)) ((G1 & G2) & (X1 & X2)) H. unfold allclose64 in H. assert (Bb : bp 500 <= bp 1000) by (apply bp_le; lia).
  destruct (npclose_ok _ _ F1 G1 ltac:(lra) ltac:(lra)) as (K1 & _). destruct (npclose_ok _ _ F2 G2 ltac:(lra) ltac:(lra)) as (K2 & _).
  apply andb_true_iff in H. destruct H as [H1 H2]. auto.
Qed.

Lemma mk_circle_ok C r : fin r -> 0 < SF2R r -> mk_circle64 C r = Ok (Circle64 C r).
Proof.
  intros F H. unfold mk_circle64. destruct (SFleb r f0) eqn:E; [|reflexivity]. apply (fle r f0 F fin_f0) in E. rewrite val_f0 in E. lra.
Qed.

Lemma root_le x b : 0 <= x -> 0 <= b -> x * x <= b * b -> x <= b.
Proof. intros. nra. Qed.

(** [circleOA(O, A)]: raises only if the points are close; otherwise a circle of the right
    radius, which includes A. *)
Lemma circleOA64_ok m O A : moderate O -> moderate A -> allclose64 O A = false ->
  exists c, circleOA64 m O A = Ok c /\ c64_center c = O /\ fin (c64_radius c) /\ Rabs (SF2R (c64_radius c) - sqrt (d2R O A)) <= 4 * u64 * sqrt (d2R O A) /\
    forall m', circle_includes64 m' c A = true.
Proof.
  intros HO HA H. pose proof (not_allclose O A HO HA H) as HD. destruct (distance_ok m O A HO HA ltac:(lra)) as (F & P & E & Q & BD).
  exists (Circle64 O (distance64 m O A)). unfold circleOA64. rewrite H. split; [apply mk_circle_ok; auto|]. split; [reflexivity|]. split; [exact F|]. split; [exact E|].
  intros m'. set (W := SF2R (distance64 m O A)) in *. set (D := d2R O A) in *. pose proof u_bounds as U. destruct (bp500 _ eq_refl) as (B0 & B1).
  assert (UD : 0 <= u64 * D <= / 9000000000000000 * D) by (split; [apply Rmult_le_pos; lra|apply Rmult_le_compat_r; lra]). apply abs_bounds in Q.
  assert (Sym : d2R A O = D) by (unfold D, d2R; ring).
  destruct (includes64_ok m' (Circle64 O (distance64 m O A)) A) as (_ & K); cbn [c64_center c64_radius]; auto.
  { fold W. rewrite Rabs_right by lra. rewrite bp502. apply root_le; lra. }
  apply K. cbn [c64_center c64_radius]. rewrite Sym. fold W. pose proof (Rmax_l D (W * W)). apply abs_le. lra.
Qed.

(** Midpoint. *)
Lemma mid_ok x y b : fin x -> fin y -> Rabs (SF2R x) <= b -> Rabs (SF2R y) <= b -> b <= bp 1000 ->
  let z := SF64div (SF64add x y) f2 in
  fin z /\ Rabs (SF2R z - (SF2R x + SF2R y) / 2) <= 21 / 10 * u64 * b + eta64.
Proof.
  intros Fx Fy Bx By Hb z. pose proof u_bounds as U. pose proof eta64_small as Et. destruct npow as (N1 & N2).
  assert (N3 : bp 1000 <= bp 1020) by (apply bp_le; lia). assert (N4 : bp 1022 = 4 * bp 1020) by (replace 1022%Z with (1020 + 1 + 1)%Z by reflexivity; rewrite !bp_succ; ring).
  pose proof (Rabs_triang (SF2R x) (SF2R y)) as Tr. pose proof (Rabs_pos (SF2R x)) as Px.
  destruct (fadd x y Fx Fy ltac:(lra)) as (R1 & R2). set (s := SF64add x y) in *. set (S := SF2R x + SF2R y) in *.
  assert (Us : u64 * Rabs S <= u64 * (2 * b)) by (apply Rmult_le_compat_l; lra).
  assert (Ub : 0 <= u64 * b <= / 9000000000000000 * b) by (split; [apply Rmult_le_pos; lra|apply Rmult_le_compat_r; lra]).
  assert (As : Rabs (SF2R s) <= 21 / 10 * b) by (apply abs_close in R2; lra).
  assert (Hd : Rabs (SF2R s / 2) = Rabs (SF2R s) / 2) by (unfold Rdiv; rewrite Rabs_mult, (Rabs_right (/ 2)) by lra; reflexivity).
  assert (D : rounds z (SF2R s / 2)). { rewrite <- val_f2. apply fdiv; auto; [apply (rounds_fin _ _ R1)|apply fin_f2|rewrite val_f2; lra|rewrite val_f2, Hd; lra]. }
  split; [apply (rounds_fin _ _ D)|]. pose proof (rounds_err _ _ D) as E. rewrite Hd in E.
  assert (U2 : u64 * (Rabs (SF2R s) / 2) <= u64 * (21 / 20 * b)) by (apply Rmult_le_compat_l; lra).
  apply abs_bounds in E, R2. apply abs_le. lra.
Qed.
