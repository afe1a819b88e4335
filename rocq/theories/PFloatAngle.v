(** * Points of a circle computed from an angle, in binary64 *)

From Coq Require Import Reals ZArith Lia Lra Psatz Bool SpecFloat.
From Verif Require Import SpecF64 Base Spec ModelFloat PFloat PFloat2 PFloat3 PFloat4 PFloatCircle PFloatCircle2.
Local Open Scope R_scope.

(** c + r * t for an approximation t of a number in [-1, 1]. *)
Lemma axpy_ok c r t T b : fin c -> fin r -> fin t -> Rabs (SF2R c) <= b -> 0 <= SF2R r <= bp 500 -> b <= bp 500 -> Rabs T <= 1 -> Rabs (SF2R t - T) <= 2 * u64 ->
  let z := SF64add c (SF64mul r t) in
  fin z /\ Rabs (SF2R z - (SF2R c + SF2R r * T)) <= 5 * u64 * SF2R r + u64 * b + 2 * eta64.
Proof.
  intros Fc Fr Ft Bc Br Bb BT Et z. pose proof u_bounds as U. pose proof eta64_small as Es. destruct (bp500 _ eq_refl) as (B0 & B1). pose proof bp1023 as B2.
  set (C := SF2R c) in *. set (r' := SF2R r) in *. set (t' := SF2R t) in *.
  assert (Bt : Rabs t' <= 11 / 10) by (apply abs_close in Et; lra).
  assert (Ap : Rabs (r' * t') <= 11 / 10 * r') by (rewrite Rabs_mult, (Rabs_right r') by lra; rewrite Rmult_comm; apply Rmult_le_compat_r; lra).
  assert (B3 : 2 * bp 500 <= bp 1022) by nra.
  assert (M : rounds (SF64mul r t) (r' * t')) by (apply fmul; auto; fold r' t'; lra). pose proof (rounds_err _ _ M) as EM. set (p := SF64mul r t) in *.
  assert (Ur : 0 <= u64 * r' <= / 9000000000000000 * r') by (split; [apply Rmult_le_pos; lra|apply Rmult_le_compat_r; lra]).
  assert (UM : u64 * Rabs (r' * t') <= u64 * (11 / 10 * r')) by (apply Rmult_le_compat_l; lra).
  assert (Et2 : Rabs (r' * t' - r' * T) <= 2 * u64 * r'). { replace (r' * t' - r' * T) with (r' * (t' - T)) by ring. rewrite Rabs_mult, (Rabs_right r') by lra. rewrite (Rmult_comm (2 * u64)). apply Rmult_le_compat_l; lra. }
  assert (Bp : Rabs (SF2R p) <= 12 / 10 * r' + eta64) by (apply abs_close in EM; lra).
  assert (AS : Rabs (C + SF2R p) <= b + (12 / 10 * r' + eta64)) by (eapply Rle_trans; [apply Rabs_triang|lra]).
  destruct (fadd c p Fc (rounds_fin _ _ M)) as (R1 & R2). { fold C. lra. }
  fold C in R1, R2. assert (UA : u64 * Rabs (C + SF2R p) <= u64 * (b + (12 / 10 * r' + eta64))) by (apply Rmult_le_compat_l; lra).
  assert (Ue : u64 * eta64 <= / 10 * eta64) by (apply Rmult_le_compat_r; lra).
  split; [apply (rounds_fin _ _ R1)|]. fold z in R2. apply abs_bounds in R2, EM, Et2. apply abs_le. lra.
Qed.

Lemma fangle_ok alpha (degrees : bool) : fin alpha -> Rabs (SF2R alpha) <= bp 1020 -> fin (if degrees then SF64mul alpha (SF64div fpi f180) else alpha).
Proof.
  intros F B. destruct degrees; auto. assert (Fc : fin (SF64div fpi f180)) by (split; reflexivity).
  assert (V : 0 <= SF2R (SF64div fpi f180) <= 1). { replace (SF64div fpi f180) with (S754_finite false 5030569068109113 (-58)) by reflexivity. rewrite val_lit. change (2 ^ 58)%Z with 288230376151711744%Z. lra. }
  apply (rounds_fin _ (SF2R alpha * SF2R (SF64div fpi f180))). apply fmul; auto. rewrite Rabs_mult, (Rabs_right (SF2R (SF64div fpi f180))) by lra.
  assert (bp 1020 <= bp 1023) by (apply bp_le; lia). pose proof (Rabs_pos (SF2R alpha)). nra.
Qed.

Lemma point_from_angle64_ok cosf sinf c alpha degrees b : libm_cos_sin cosf sinf ->
  fin2 (c64_center c) -> within b (c64_center c) -> fin (c64_radius c) -> 0 < SF2R (c64_radius c) <= bp 498 -> b <= 1048576 * SF2R (c64_radius c) -> b <= bp 498 ->
  fin alpha -> Rabs (SF2R alpha) <= bp 1020 ->
  let P := point_from_angle64 cosf sinf c alpha degrees in
  moderate P /\ forall m, circle_includes64 m c P = true.
Proof.
  intros HL (F0 & F1) (W0 & W1) Fr Br Bb Bb2 Fa Ba P. pose proof (fangle_ok alpha degrees Fa Ba) as Fang. unfold P, point_from_angle64.
  set (a := if degrees then SF64mul alpha (SF64div fpi f180) else alpha) in *. destruct (HL a Fang) as (Fc & Ec & Fs & Es). set (th := SF2R a) in *.
  pose proof u_bounds as U. pose proof eta64_small as Et. pose proof u64_val as Uv. assert (B98 : bp 500 = 4 * bp 498) by (replace 500%Z with (498 + 1 + 1)%Z by reflexivity; rewrite !bp_succ; ring).
  assert (B4 : 1 <= bp 498) by (rewrite <- bp_0; apply bp_le; lia).
  set (r := SF2R (c64_radius c)) in *. pose proof (COS_bound th) as CB. pose proof (SIN_bound th) as SB.
  destruct (axpy_ok _ _ _ (cos th) b F0 Fr Fc W0 ltac:(fold r; lra) ltac:(lra) ltac:(apply Rabs_le; lra) Ec) as (G0 & E0).
  destruct (axpy_ok _ _ _ (sin th) b F1 Fr Fs W1 ltac:(fold r; lra) ltac:(lra) ltac:(apply Rabs_le; lra) Es) as (G1 & E1).
  fold r in E0, E1. set (x := SF64add (fst (c64_center c)) (SF64mul (c64_radius c) (cosf a))) in *. set (y := SF64add (snd (c64_center c)) (SF64mul (c64_radius c) (sinf a))) in *.
  assert (Ur : 0 <= u64 * r <= / 9000000000000000 * r) by (split; [apply Rmult_le_pos; lra|apply Rmult_le_compat_r; lra]).
  assert (Ub : u64 * b <= u64 * (1048576 * r)) by (apply Rmult_le_compat_l; lra).
  set (e := 12 / 100000000000 * r + 2 * eta64). assert (He : 5 * u64 * r + u64 * b + 2 * eta64 <= e) by (unfold e; rewrite Uv in *; lra).
  assert (E0' : Rabs (SF2R x - (SF2R (fst (c64_center c)) + r * cos th)) <= e) by lra. assert (E1' : Rabs (SF2R y - (SF2R (snd (c64_center c)) + r * sin th)) <= e) by lra.
  assert (MC : moderate (c64_center c)) by (split; split; auto; lra).
  assert (rc : Rabs (r * cos th) <= r) by (rewrite Rabs_mult, (Rabs_right r) by lra; assert (Rabs (cos th) <= 1) by (apply Rabs_le; lra); rewrite <- (Rmult_1_r r) at 2; apply Rmult_le_compat_l; lra).
  assert (rs : Rabs (r * sin th) <= r) by (rewrite Rabs_mult, (Rabs_right r) by lra; assert (Rabs (sin th) <= 1) by (apply Rabs_le; lra); rewrite <- (Rmult_1_r r) at 2; apply Rmult_le_compat_l; lra).
  assert (MP : moderate (x, y)).
  { split; split; auto; cbn [fst snd].
    - apply abs_bounds in rc, E0', W0. apply abs_le. unfold e in *. lra.
    - apply abs_bounds in rs, E1', W1. apply abs_le. unfold e in *. lra. }
  split; [exact MP|]. intros m. destruct (includes64_ok m c (x, y)) as (_ & K); auto.
  { fold r. rewrite Rabs_right by lra. rewrite bp502. lra. }
  apply K. fold r. pose proof (sin2_cos2 th) as SC. unfold Rsqr in SC.
  pose proof (shift_sq (r * cos th) (r * sin th) (SF2R x - (SF2R (fst (c64_center c)) + r * cos th)) (SF2R y - (SF2R (snd (c64_center c)) + r * sin th)) r e) as Sh.
  assert (Sh' := Sh ltac:(replace (r * cos th * (r * cos th) + r * sin th * (r * sin th)) with (r * r * (sin th * sin th + cos th * cos th)) by ring; rewrite SC; ring) ltac:(lra) ltac:(unfold e; lra) E0' E1'). clear Sh.
  replace ((r * cos th + (SF2R x - (SF2R (fst (c64_center c)) + r * cos th))) * (r * cos th + (SF2R x - (SF2R (fst (c64_center c)) + r * cos th))) + (r * sin th + (SF2R y - (SF2R (snd (c64_center c)) + r * sin th))) * (r * sin th + (SF2R y - (SF2R (snd (c64_center c)) + r * sin th)))) with (d2R (x, y) (c64_center c)) in Sh' by (unfold d2R; cbn [fst snd]; ring).
  eapply Rle_trans; [apply Sh'|]. pose proof (Rmax_r (d2R (x, y) (c64_center c)) (r * r)) as Mx.
  apply Rle_trans with (999900 / 1000000000000000 * (1 + r * r)); [|lra]. unfold e. clear - Br Et. set (k := 12 / 100000000000) in *.
  assert (Re : r * eta64 <= / 1000000000000 * (r * r + 1)). { apply Rle_trans with (r * / 1000000000000); [apply Rmult_le_compat_l; lra|]. nra. }
  assert (Ee : eta64 * eta64 <= / 1000000000000 * / 1000000000000) by (apply Rmult_le_compat; lra). pose proof (sq_nn r).
  replace (4 * r * (k * r + 2 * eta64) + 2 * ((k * r + 2 * eta64) * (k * r + 2 * eta64))) with ((4 * k + 2 * k * k) * (r * r) + (8 + 8 * k) * (r * eta64) + 8 * (eta64 * eta64)) by ring. unfold k. lra.
Qed.
