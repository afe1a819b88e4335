(** * The binary64 number math.pi, and angles converted from degrees *)

From Coq Require Import Reals ZArith Lia Lra Psatz Bool SpecFloat.
From Coq Require Import Ratan Machin.
From Verif Require Import SpecF64 Base Spec ModelFloat PFloat PFloat2 PFloat3 PFloat4 PFloatCircle2 PFloatAngle.
Local Open Scope R_scope.

Lemma ratan3 n : Ratan_seq (/ 3) n = / IZR (3 ^ Z.of_nat (2 * n + 1) * Z.of_nat (2 * n + 1)).
Proof.
  unfold Ratan_seq. rewrite INR_IZR_INZ, mult_IZR, Rinv_mult. unfold Rdiv. f_equal. rewrite pow_inv. f_equal. rewrite <- pow_IZR. reflexivity.
Qed.

Lemma ratan7 n : Ratan_seq (/ 7) n = / IZR (7 ^ Z.of_nat (2 * n + 1) * Z.of_nat (2 * n + 1)).
Proof.
  unfold Ratan_seq. rewrite INR_IZR_INZ, mult_IZR, Rinv_mult. unfold Rdiv. f_equal. rewrite pow_inv. f_equal. rewrite <- pow_IZR. reflexivity.
Qed.

Lemma PI_bounds : 3141592653589793228 / 1000000000000000000 <= PI <= 3141592653589793248 / 1000000000000000000.
Proof.
  pose proof (PI_2_3_7_ineq 8) as (A & _). pose proof (PI_2_3_7_ineq 9) as (_ & B).
  unfold tg_alt, PI_2_3_7_tg in A, B. cbn [Nat.mul Nat.add sum_f_R0] in A, B.
  rewrite !ratan3, !ratan7 in A. rewrite !ratan3, !ratan7 in B.
  repeat match type of A with context [IZR (?x * ?y)%Z] => let v := eval vm_compute in (x * y)%Z in change (x * y)%Z with v in A end.
  repeat match type of B with context [IZR (?x * ?y)%Z] => let v := eval vm_compute in (x * y)%Z in change (x * y)%Z with v in B end.
  cbn [pow] in A, B. ring_simplify in A. ring_simplify in B. split; [clear B|clear A]; lra.
Qed.

Lemma fpi_ok : fin fpi /\ Rabs (SF2R fpi - PI) <= 4 / 10 * u64 * PI.
Proof.
  split; [split; reflexivity|]. pose proof PI_bounds as P. unfold fpi. rewrite val_lit. change (2 ^ 51)%Z with 2251799813685248%Z. rewrite u64_val. apply abs_le. lra.
Qed.

Lemma f180_ok : fin f180 /\ SF2R f180 = 180.
Proof. split; [split; reflexivity|]. unfold f180. rewrite val_lit. change (2 ^ 45)%Z with 35184372088832%Z. lra. Qed.

(** the quotient math.pi / 180 *)
Lemma fdeg_ok : fin (SF64div fpi f180) /\ Rabs (SF2R (SF64div fpi f180) - PI / 180) <= 15 / 10 * u64 * (PI / 180).
Proof.
  destruct fpi_ok as (Fp & Ep). destruct f180_ok as (F1 & E1). pose proof PI_bounds as P. pose proof u_bounds as U. split; [split; reflexivity|].
  replace (SF64div fpi f180) with (S754_finite false 5030569068109113 (-58)) by reflexivity. rewrite val_lit. change (2 ^ 58)%Z with 288230376151711744%Z. rewrite u64_val. apply abs_le. lra.
Qed.

Lemma angle64_ok alpha (degrees : bool) : fin alpha -> Rabs (SF2R alpha) <= bp 1020 ->
  let a := if degrees then SF64mul alpha (SF64div fpi f180) else alpha in
  let A := if degrees then SF2R alpha * PI / 180 else SF2R alpha in
  fin a /\ Rabs (SF2R a - A) <= 3 * u64 * Rabs A + eta64.
Proof.
  intros F B a A. split; [apply fangle_ok; auto|]. pose proof u_bounds as U. pose proof eta64_small as Et. unfold a, A. destruct degrees.
  - destruct fdeg_ok as (Fd & Ed). pose proof PI_bounds as P. set (d := SF64div fpi f180) in *. set (x := SF2R alpha) in *. set (k := PI / 180) in *. assert (Hk : 0 < k <= / 50) by (unfold k; lra).
    replace (x * PI / 180) with (x * k) by (unfold k; field). assert (Ux : u64 * k <= / 9000000000000000 * k) by (apply Rmult_le_compat_r; lra).
    assert (V : Rabs (x * SF2R d - x * k) <= 15 / 10 * (u64 * Rabs (x * k))).
    { replace (x * SF2R d - x * k) with (x * (SF2R d - k)) by ring. rewrite !Rabs_mult, (Rabs_right k) by lra. replace (15 / 10 * (u64 * (Rabs x * k))) with (Rabs x * (15 / 10 * u64 * k)) by ring. apply Rmult_le_compat_l; auto using Rabs_pos. }
    set (y := x * k) in *. assert (Uy : 0 <= u64 * Rabs y <= / 9000000000000000 * Rabs y) by (split; [apply Rmult_le_pos; [lra|apply Rabs_pos]|apply Rmult_le_compat_r; [apply Rabs_pos|lra]]).
    assert (By : Rabs y <= Rabs x). { unfold y. rewrite Rabs_mult, (Rabs_right k) by lra. pose proof (Rabs_pos x). nra. }
    pose proof V as V'. apply abs_close in V'. assert (B3 : 2 * bp 1020 <= bp 1023) by (rewrite <- bp_succ; apply bp_le; lia).
    assert (R : rounds (SF64mul alpha d) (x * SF2R d)). { apply fmul; auto. fold x. pose proof (Rabs_pos y). lra. }
    pose proof (rounds_err _ _ R) as E. assert (Uz : u64 * Rabs (x * SF2R d) <= u64 * (11 / 10 * Rabs y)) by (apply Rmult_le_compat_l; [lra|]; pose proof (Rabs_pos y); lra).
    apply abs_bounds in E, V. apply abs_le. lra.
  - rewrite Rminus_diag_eq, Rabs_R0 by reflexivity. pose proof (Rabs_pos (SF2R alpha)). assert (0 <= u64 * Rabs (SF2R alpha)) by (apply Rmult_le_pos; lra). lra.
Qed.

Lemma cos_lip a b : Rabs (cos a - cos b) <= Rabs (a - b).
Proof.
  destruct (Req_dec a b) as [->|N]; [rewrite !Rminus_diag_eq, Rabs_R0 by reflexivity; lra|].
  destruct (Rtotal_order a b) as [L|[L|L]]; [|contradiction|].
  - destruct (MVT_cor2 cos (fun x => - sin x) a b L) as (c & E & _). { intros. apply derivable_pt_lim_cos. } rewrite (Rabs_minus_sym (cos a)), (Rabs_minus_sym a), E, Rabs_mult.
    assert (Rabs (- sin c) <= 1) by (rewrite Rabs_Ropp; apply abs_le; apply SIN_bound). pose proof (Rabs_pos (b - a)). nra.
  - destruct (MVT_cor2 cos (fun x => - sin x) b a L) as (c & E & _). { intros. apply derivable_pt_lim_cos. } rewrite E, Rabs_mult.
    assert (Rabs (- sin c) <= 1) by (rewrite Rabs_Ropp; apply abs_le; apply SIN_bound). pose proof (Rabs_pos (a - b)). nra.
Qed.

Lemma sin_lip a b : Rabs (sin a - sin b) <= Rabs (a - b).
Proof.
  rewrite <- !cos_shift. eapply Rle_trans; [apply cos_lip|]. replace (PI / 2 - a - (PI / 2 - b)) with (- (a - b)) by ring. rewrite Rabs_Ropp. lra.
Qed.

(** the point of a circle with a given angle, against the exact point *)
Lemma point_from_angle64_position cosf sinf c alpha (degrees : bool) b : libm_cos_sin cosf sinf ->
  fin2 (c64_center c) -> within b (c64_center c) -> fin (c64_radius c) -> 0 <= SF2R (c64_radius c) <= bp 500 -> b <= bp 500 ->
  fin alpha -> Rabs (SF2R alpha) <= bp 1020 ->
  let A := if degrees then SF2R alpha * PI / 180 else SF2R alpha in let r := SF2R (c64_radius c) in
  let P := point_from_angle64 cosf sinf c alpha degrees in
  fin2 P /\
  Rabs (SF2R (fst P) - (SF2R (fst (c64_center c)) + r * cos A)) <= u64 * b + (5 + 3 * Rabs A) * u64 * r + eta64 * (2 + r) /\
  Rabs (SF2R (snd P) - (SF2R (snd (c64_center c)) + r * sin A)) <= u64 * b + (5 + 3 * Rabs A) * u64 * r + eta64 * (2 + r).
Proof.
  intros HL (Fc0 & Fc1) (Wc0 & Wc1) Fr Br Bb Fa Ba A r P. destruct (angle64_ok alpha degrees Fa Ba) as (Fx & Ex). fold A in Ex. unfold point_from_angle64 in P.
  set (a := if degrees then SF64mul alpha (SF64div fpi f180) else alpha) in *. destruct (HL _ Fx) as (Fcc & Ecc & Fss & Ess).
  assert (H1 : Rabs (cos (SF2R a)) <= 1) by (apply abs_le; apply COS_bound). assert (H2 : Rabs (sin (SF2R a)) <= 1) by (apply abs_le; apply SIN_bound).
  destruct (axpy_ok _ _ _ _ b Fc0 Fr Fcc Wc0 Br Bb H1 Ecc) as (G0 & K0). destruct (axpy_ok _ _ _ _ b Fc1 Fr Fss Wc1 Br Bb H2 Ess) as (G1 & K1).
  fold r in K0, K1, Br. split; [split; [exact G0|exact G1]|].
  assert (L : forall t T, Rabs (t - T) <= Rabs (SF2R a - A) -> Rabs (r * t - r * T) <= r * (3 * u64 * Rabs A + eta64)).
  { intros t T Ht. replace (r * t - r * T) with (r * (t - T)) by ring. rewrite Rabs_mult, (Rabs_right r) by lra. apply Rmult_le_compat_l; lra. }
  pose proof (L _ _ (cos_lip (SF2R a) A)) as L0. pose proof (L _ _ (sin_lip (SF2R a) A)) as L1. clear L.
  change (fst P) with (SF64add (fst (c64_center c)) (SF64mul (c64_radius c) (cosf a))). change (snd P) with (SF64add (snd (c64_center c)) (SF64mul (c64_radius c) (sinf a))).
  split; [apply abs_bounds in K0, L0|apply abs_bounds in K1, L1]; apply abs_le; lra.
Qed.
