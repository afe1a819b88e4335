(** * Circles in binary64: circleAB, points of a circle from an angle *)

From Coq Require Import Reals ZArith Lia Lra Psatz Bool SpecFloat.
From Verif Require Import SpecF64 Base ModelFloat PFloat PFloat2 PFloat3 PFloat4 PFloatCircle.
Local Open Scope R_scope.

(** Moving a point by a small vector changes the square of its distance little. *)
Lemma shift_sq h0 h1 d0 d1 s e : h0 * h0 + h1 * h1 = s * s -> 0 <= s -> 0 <= e -> Rabs d0 <= e -> Rabs d1 <= e ->
  Rabs ((h0 + d0) * (h0 + d0) + (h1 + d1) * (h1 + d1) - s * s) <= 4 * s * e + 2 * (e * e).
Proof.
  intros H Hs He H0 H1. assert (A0 : Rabs h0 <= s) by (apply Rabs_le; split; nra). assert (A1 : Rabs h1 <= s) by (apply Rabs_le; split; nra).
  replace ((h0 + d0) * (h0 + d0) + (h1 + d1) * (h1 + d1) - s * s) with (2 * (h0 * d0) + 2 * (h1 * d1) + (d0 * d0 + d1 * d1)) by (rewrite <- H; ring).
  assert (P0 : Rabs (h0 * d0) <= s * e) by (rewrite Rabs_mult; apply Rmult_le_compat; auto using Rabs_pos).
  assert (P1 : Rabs (h1 * d1) <= s * e) by (rewrite Rabs_mult; apply Rmult_le_compat; auto using Rabs_pos).
  pose proof (abs_sq _ _ H0). pose proof (abs_sq _ _ H1). pose proof (sq_nn d0). pose proof (sq_nn d1). apply abs_bounds in P0, P1. apply abs_le. lra.
Qed.

Lemma circleAB64_ok m A B b : fin2 A -> fin2 B -> within b A -> within b B -> b <= bp 499 -> allclose64 A B = false -> b <= 262144 * sqrt (d2R A B) ->
  exists c, circleAB64 m A B = Ok c /\ moderate (c64_center c) /\ fin (c64_radius c) /\
    Rabs (SF2R (c64_radius c) - sqrt (d2R A B) / 2) <= 3 * u64 * sqrt (d2R A B) /\
    Rabs (SF2R (fst (c64_center c)) - (SF2R (fst A) + SF2R (fst B)) / 2) <= 3 * u64 * b /\
    Rabs (SF2R (snd (c64_center c)) - (SF2R (snd A) + SF2R (snd B)) / 2) <= 3 * u64 * b /\
    forall m', circle_includes64 m' c A = true /\ circle_includes64 m' c B = true.
Proof.
  intros FA FB WA WB Hb H Hd. pose proof u_bounds as U. pose proof eta64_small as Et. pose proof u64_val as Uv. destruct (bp500 _ eq_refl) as (B0 & B1).
  assert (B9 : bp 500 = 2 * bp 499) by (rewrite <- bp_succ; reflexivity).
  assert (MA : moderate A) by (split; auto; destruct WA; split; lra). assert (MB : moderate B) by (split; auto; destruct WB; split; lra).
  pose proof (not_allclose A B MA MB H) as HD. destruct (distance_ok m A B MA MB ltac:(lra)) as (F & P & E & Q & BD).
  set (D := d2R A B) in *. pose proof (sqrt_sqrt D ltac:(lra)) as Sd. set (s := sqrt D) in *. assert (Ps : / 1000000000 <= s).
  { apply Rnot_lt_le. intros L. assert (0 <= s) by apply sqrt_pos. nra. }
  assert (Bb : b <= bp 1000) by (apply Rle_trans with (bp 499); auto; apply bp_le; lia).
  destruct FA as (FA0 & FA1), FB as (FB0 & FB1), WA as (WA0 & WA1), WB as (WB0 & WB1).
  destruct (mid_ok _ _ b FA0 FB0 WA0 WB0 Bb) as (G0 & E0). destruct (mid_ok _ _ b FA1 FB1 WA1 WB1 Bb) as (G1 & E1).
  set (c0 := SF64div (SF64add (fst A) (fst B)) f2) in *. set (c1 := SF64div (SF64add (snd A) (snd B)) f2) in *.
  assert (Pb : 0 <= b) by (apply Rle_trans with (Rabs (SF2R (fst A))); auto; apply Rabs_pos).
  (* some coordinate is not tiny, hence b is not tiny *)
  assert (Bs : s <= 3 * b).
  { apply Rnot_lt_le. intros L. apply abs_bounds in WA0, WA1, WB0, WB1. unfold D, d2R in Sd. nra. }
  assert (Es : s * u64 >= 0) by (apply Rle_ge, Rmult_le_pos; lra).
  assert (Ee : eta64 <= / 1000 * (u64 * b)) by (rewrite Uv; lra).
  assert (E0' : Rabs (SF2R c0 - (SF2R (fst A) + SF2R (fst B)) / 2) <= 22 / 10 * u64 * b) by lra.
  assert (E1' : Rabs (SF2R c1 - (SF2R (snd A) + SF2R (snd B)) / 2) <= 22 / 10 * u64 * b) by lra.
  assert (Ub : 0 <= u64 * b <= / 9000000000000000 * b) by (split; [apply Rmult_le_pos; lra|apply Rmult_le_compat_r; lra]).
  assert (Us : 0 <= u64 * s <= / 9000000000000000 * s) by (split; [apply Rmult_le_pos; lra|apply Rmult_le_compat_r; lra]).
  (* radius *)
  set (w := distance64 m A B) in *. set (W := SF2R w) in *. apply abs_bounds in E.
  assert (Ss : s <= 3 * bp 499) by lra.
  assert (b3 : 3 * bp 499 <= bp 1023) by (apply Rle_trans with (bp 2 * bp 499); [apply Rmult_le_compat_r; [left; apply bp_pos|rewrite bp_IZR by lia; cbn; lra]|rewrite <- bp_add; apply bp_le; lia]).
  assert (Rr : rounds (SF64div w f2) (W / 2)). { unfold W. rewrite <- val_f2. apply fdiv; auto; [apply fin_f2|rewrite val_f2; lra|]. rewrite val_f2. fold W. rewrite Rabs_right by lra. lra. }
  pose proof (rounds_err _ _ Rr) as Er. rewrite (Rabs_right (W / 2)) in Er by lra. set (r := SF64div w f2) in *. apply abs_bounds in Er.
  assert (Uw : 0 <= u64 * (W / 2) <= u64 * s) by (split; [apply Rmult_le_pos; lra|apply Rmult_le_compat_l; lra]).
  assert (Ees : eta64 <= / 1000 * (u64 * s)) by (rewrite Uv; lra).
  assert (Er2 : Rabs (SF2R r - s / 2) <= 26 / 10 * u64 * s).
  { assert (u64 * (W / 2) <= u64 * (51 / 100 * s)) by (apply Rmult_le_compat_l; lra). apply abs_le. lra. }
  assert (Fr : fin r) by apply (rounds_fin _ _ Rr). apply abs_bounds in Er2.
  assert (M0 : Rabs (SF2R c0) <= bp 500) by (apply abs_bounds in E0', WA0, WB0; apply abs_le; lra).
  assert (M1 : Rabs (SF2R c1) <= bp 500) by (apply abs_bounds in E1', WA1, WB1; apply abs_le; lra).
  exists (Circle64 (c0, c1) r). unfold circleAB64. rewrite H. cbn [fp_add fp_map2 fst snd]. fold c0 c1 w r.
  split; [apply mk_circle_ok; auto; lra|]. cbn [c64_center c64_radius fst snd].
  assert (MC : moderate (c0, c1)) by (split; split; auto).
  split; [exact MC|]. split; [exact Fr|]. split; [apply abs_le; lra|]. split; [lra|]. split; [lra|].
  (* inclusion *)
  set (e := 22 / 10 * u64 * b) in *. assert (Pe : 0 <= e) by (unfold e; lra).
  assert (He : e <= 7 / 100000000000 * s). { unfold e. rewrite Uv. lra. }
  assert (R2 : Rabs (SF2R r * SF2R r - s / 2 * (s / 2)) <= / 1000000000000 * (s * s)).
  { assert (K : Rabs (SF2R r - s / 2) <= / 2000000000000 * s) by (apply abs_le; lra). replace (SF2R r * SF2R r - s / 2 * (s / 2)) with ((SF2R r - s / 2) * (SF2R r + s / 2)) by field.
    rewrite Rabs_mult, (Rabs_right (SF2R r + s / 2)) by lra. apply Rle_trans with (/ 2000000000000 * s * (2 * s)); [apply Rmult_le_compat; auto using Rabs_pos; lra|lra]. }
  assert (Inc : forall X, moderate X -> Rabs (d2R X (c0, c1) - s / 2 * (s / 2)) <= 4 * (s / 2) * e + 2 * (e * e) -> forall m', circle_includes64 m' (Circle64 (c0, c1) r) X = true).
  { intros X MX HX m'. destruct (includes64_ok m' (Circle64 (c0, c1) r) X) as (_ & K); cbn [c64_center c64_radius]; auto.
    { rewrite Rabs_right by lra. rewrite bp502. lra. }
    apply K. cbn [c64_center c64_radius]. pose proof (Rmax_r (d2R X (c0, c1)) (SF2R r * SF2R r)) as Mx. apply abs_bounds in HX, R2.
    assert (S1 : s * e <= s * (7 / 100000000000 * s)) by (apply Rmult_le_compat_l; lra).
    assert (S2 : e * e <= (7 / 100000000000 * s) * (7 / 100000000000 * s)) by (apply Rmult_le_compat; lra).
    assert (S3 : 0 <= s * s) by nra. apply abs_le. lra. }
  assert (Dh : forall h0 h1, D = 4 * (h0 * h0 + h1 * h1) -> h0 * h0 + h1 * h1 = s / 2 * (s / 2)) by (intros; lra).
  intros m'. split; apply Inc; auto.
  - replace (d2R A (c0, c1)) with (((SF2R (fst A) - SF2R (fst B)) / 2 + ((SF2R (fst A) + SF2R (fst B)) / 2 - SF2R c0)) * ((SF2R (fst A) - SF2R (fst B)) / 2 + ((SF2R (fst A) + SF2R (fst B)) / 2 - SF2R c0)) + ((SF2R (snd A) - SF2R (snd B)) / 2 + ((SF2R (snd A) + SF2R (snd B)) / 2 - SF2R c1)) * ((SF2R (snd A) - SF2R (snd B)) / 2 + ((SF2R (snd A) + SF2R (snd B)) / 2 - SF2R c1))) by (unfold d2R; cbn [fst snd]; field).
    apply shift_sq; try lra; [apply Dh; unfold D, d2R; field|rewrite Rabs_minus_sym; exact E0'|rewrite Rabs_minus_sym; exact E1'].
  - replace (d2R B (c0, c1)) with (((SF2R (fst B) - SF2R (fst A)) / 2 + ((SF2R (fst A) + SF2R (fst B)) / 2 - SF2R c0)) * ((SF2R (fst B) - SF2R (fst A)) / 2 + ((SF2R (fst A) + SF2R (fst B)) / 2 - SF2R c0)) + ((SF2R (snd B) - SF2R (snd A)) / 2 + ((SF2R (snd A) + SF2R (snd B)) / 2 - SF2R c1)) * ((SF2R (snd B) - SF2R (snd A)) / 2 + ((SF2R (snd A) + SF2R (snd B)) / 2 - SF2R c1))) by (unfold d2R; cbn [fst snd]; field).
    apply shift_sq; try lra; [apply Dh; unfold D, d2R; field|rewrite Rabs_minus_sym; exact E0'|rewrite Rabs_minus_sym; exact E1'].
Qed.
