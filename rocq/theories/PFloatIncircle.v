(** * The incircle of a triangle in binary64 *)

From Coq Require Import Reals ZArith Lia Lra Psatz Bool SpecFloat.
From Verif Require Import SpecF64 SpecExtremal SpecFloatIncircle Base Spec BaseLemmas SpecLemmas ModelInternal ModelLine ModelCircle ModelTriangle ModelFloat ModelFloatInter ModelFloatIncircle PFloat PFloat2 PFloat3 PFloat4 PFloatCircle PFloatGrid PFloatInter PCircle PTriangle PTriangle2 PExtremal PFloatCC PFloatCC2 PFloatCC4 PFloatEx.
Local Open Scope R_scope.

Lemma ap_div e f n p M X Y x y : 0 <= e <= 30 -> 0 <= f <= 30 -> (n + p <= 200)%Z -> ap e n M X x -> ap f p Y Y y -> ap (e + f + 11 / 10) (n + p) (M / Y) (X / Y) (SF64div x y).
Proof.
  intros He Hf Hn A B. pose proof (ap_val _ _ _ _ _ He A) as V. destruct A as (Fx & E1 & B1 & S1), B as (Fy & E2 & B2 & S2). pose proof (sc_pos _ _ S1) as P1. pose proof (sc_pos _ _ S2) as P2. pose proof u_bounds as U.
  assert (S : sc (n + p) (M / Y)). { apply sc_mul; auto. destruct S2 as (A1 & A2). split; [replace (bp (- p)) with (/ bp p)|replace (bp p) with (/ bp (- p))]; try (apply Rinv_le_contravar; auto; apply bp_pos);
    apply Rmult_eq_reg_l with (bp p); try (pose proof (bp_pos p); lra); [rewrite Rinv_r by (pose proof (bp_pos p); lra)|apply Rmult_eq_reg_l with (bp (- p)); [rewrite (Rmult_comm (bp p)), <- Rmult_assoc, Rinv_r, Rmult_1_l by (pose proof (bp_pos (- p)); lra)|pose proof (bp_pos (- p)); lra]].
    - rewrite <- bp_add. replace (p + - p)%Z with 0%Z by ring. rewrite bp_0. reflexivity.
    - rewrite <- Rmult_assoc, <- bp_add. replace (- p + p)%Z with 0%Z by ring. rewrite bp_0. ring. }
  pose proof (sc_pos _ _ S) as PS. pose proof (sc_eta _ _ Hn S) as Et. pose proof (ap_big _ _ Hn S) as Bg. pose proof bp1023 as BB.
  assert (fu : 0 <= f * (u64 * Y) <= / 100000000000000 * Y). { split; [repeat apply Rmult_le_pos; lra|]. rewrite <- Rmult_assoc. apply Rmult_le_compat_r; [lra|]. nra. }
  assert (Yl : (1 - / 100000000000000) * Y <= SF2R y) by (apply abs_bounds in E2; lra). assert (Yp : 0 < SF2R y) by lra.
  assert (Iy : / SF2R y <= 1000001 / 1000000 * / Y). { apply Rmult_le_reg_l with (SF2R y); auto. rewrite Rinv_r by lra. replace (SF2R y * (1000001 / 1000000 * / Y)) with (1000001 / 1000000 * (SF2R y * / Y)) by ring.
    assert ((1 - / 100000000000000) <= SF2R y * / Y). { apply Rmult_le_reg_r with Y; auto. rewrite Rmult_assoc, Rinv_l, Rmult_1_r by lra. lra. } lra. }
  assert (Iy0 : 0 < / SF2R y) by (apply Rinv_0_lt_compat; auto). assert (I0 : 0 < / Y) by (apply Rinv_0_lt_compat; auto). pose proof (Rabs_pos (SF2R x)) as Px.
  assert (Bq : Rabs (SF2R x / SF2R y) <= 101 / 100 * (M / Y)). { unfold Rdiv. rewrite Rabs_mult, (Rabs_right (/ SF2R y)) by lra. apply Rle_trans with (1001 / 1000 * M * (1000001 / 1000000 * / Y)); [apply Rmult_le_compat; lra|]. replace (1001 * / 1000 * M * (1000001 * / 1000000 * / Y)) with (1001 * / 1000 * 1000001 * / 1000000 * (M * / Y)) by ring. unfold Rdiv in PS. replace (1001 / 1000 * M * (1000001 / 1000000 * / Y)) with (1001 / 1000 * (1000001 / 1000000) * (M * / Y)) by ring. apply Rmult_le_compat_r; lra. }
  assert (Rz : rounds (SF64div x y) (SF2R x / SF2R y)) by (apply fdiv; auto; lra). pose proof (rounds_err_le _ _ _ Rz Bq) as Ez. split; [apply (rounds_fin _ _ Rz)|]. split; [|split; auto].
  - set (T := u64 * (M / Y)) in *. assert (PT : 0 <= T) by (unfold T; apply Rmult_le_pos; lra).
    assert (Q : Rabs (SF2R x / SF2R y - X / Y) <= (e + f) * (1000001 / 1000000) * T).
    { replace (SF2R x / SF2R y - X / Y) with ((SF2R x - X) * / SF2R y + X * / Y * ((Y - SF2R y) * / SF2R y)) by (field; lra). eapply Rle_trans; [apply Rabs_triang|]. rewrite !Rabs_mult, (Rabs_right (/ SF2R y)), (Rabs_right (/ Y)), (Rabs_minus_sym Y) by lra.
      assert (Rabs (SF2R x - X) * / SF2R y <= e * (u64 * M) * (1000001 / 1000000 * / Y)) by (apply Rmult_le_compat; auto; try lra; apply Rabs_pos).
      assert (G1 : Rabs X * / Y <= M * / Y) by (apply Rmult_le_compat_r; lra). assert (G2 : Rabs (SF2R y - Y) * / SF2R y <= f * (u64 * Y) * (1000001 / 1000000 * / Y)) by (apply Rmult_le_compat; auto; try lra; apply Rabs_pos).
      assert (G0 : 0 <= Rabs X * / Y) by (apply Rmult_le_pos; [apply Rabs_pos|lra]). assert (G0' : 0 <= Rabs (SF2R y - Y) * / SF2R y) by (apply Rmult_le_pos; [apply Rabs_pos|lra]).
      pose proof (Rmult_le_compat _ _ _ _ G0 G0' G1 G2) as G3.
      replace ((e + f) * (1000001 / 1000000) * T) with (e * (u64 * M) * (1000001 / 1000000 * / Y) + M * / Y * (f * (u64 * Y) * (1000001 / 1000000 * / Y))) by (unfold T; field; lra). lra. }
    replace (SF2R (SF64div x y) - X / Y) with ((SF2R (SF64div x y) - SF2R x / SF2R y) + (SF2R x / SF2R y - X / Y)) by ring. eapply Rle_trans; [apply Rabs_triang|]. assert (u64 * (101 / 100 * (M / Y)) = 101 / 100 * T) by (unfold T; ring).
    assert ((e + f) * (1000001 / 1000000) * T <= (e + f) * T + / 1000 * T). { replace ((e + f) * T + / 1000 * T) with ((e + f + / 1000) * T) by ring. apply Rmult_le_compat_r; lra. } lra.
  - unfold Rdiv. rewrite Rabs_mult, (Rabs_right (/ Y)) by lra. apply Rmult_le_compat_r; lra.
Qed.

(** a computed number is known up to a relative error *)
Definition rel (d X : R) (x : spec_float) : Prop := fin x /\ Rabs (SF2R x - X) <= d * X /\ bp (-150) <= X <= bp 200.

Lemma rel_mul d e X Y x y : 0 <= d <= / 10 -> 0 <= e <= / 10 -> bp (-150) <= X * Y <= bp 200 -> rel d X x -> rel e Y y -> rel (d + e + d * e + 13 / 10 * u64) (X * Y) (SF64mul x y).
Proof.
  intros Hd He HB (Fx & E1 & B1) (Fy & E2 & B2). pose proof u_bounds as U. assert (PX : 0 < X) by (pose proof (bp_pos (-150)); lra). assert (PY : 0 < Y) by (pose proof (bp_pos (-150)); lra). set (Z := X * Y) in *. assert (PZ : 0 < Z) by (pose proof (bp_pos (-150)); lra).
  assert (Q : Rabs (SF2R x * SF2R y - Z) <= (d + e + d * e) * Z). { unfold Z. replace (SF2R x * SF2R y - X * Y) with ((SF2R x - X) * Y + X * (SF2R y - Y) + (SF2R x - X) * (SF2R y - Y)) by ring. eapply Rle_trans; [apply Rabs_triang|]. eapply Rle_trans; [apply Rplus_le_compat_r, Rabs_triang|]. rewrite !Rabs_mult, (Rabs_right Y), (Rabs_right X) by lra.
    assert (Rabs (SF2R x - X) * Y <= d * X * Y) by (apply Rmult_le_compat_r; lra). assert (X * Rabs (SF2R y - Y) <= X * (e * Y)) by (apply Rmult_le_compat_l; lra). assert (Rabs (SF2R x - X) * Rabs (SF2R y - Y) <= d * X * (e * Y)) by (apply Rmult_le_compat; auto; apply Rabs_pos). lra. }
  assert (Bde : d + e + d * e <= 21 / 100) by nra. assert ((d + e + d * e) * Z <= 21 / 100 * Z) by (apply Rmult_le_compat_r; lra).
  assert (Bz : Rabs (SF2R x * SF2R y) <= 121 / 100 * Z). { apply abs_bounds in Q. apply Rabs_le. lra. }
  assert (S : sc 200 Z). { split; [apply Rle_trans with (bp (-150)); [apply bp_le; lia|lra]|lra]. } pose proof (sc_eta 200 Z ltac:(lia) S) as Et. pose proof (ap_big 200 Z ltac:(lia) S) as Bg. pose proof bp1023 as BB.
  assert (Rz : rounds (SF64mul x y) (SF2R x * SF2R y)) by (apply fmul; auto; lra). pose proof (rounds_err_le _ _ _ Rz Bz) as Ez. split; [apply (rounds_fin _ _ Rz)|]. split; auto.
  assert (0 <= u64 * Z) by (apply Rmult_le_pos; lra). replace (SF2R (SF64mul x y) - Z) with ((SF2R (SF64mul x y) - SF2R x * SF2R y) + (SF2R x * SF2R y - Z)) by ring. eapply Rle_trans; [apply Rabs_triang|]. lra.
Qed.

Lemma sqrt_rel P Q d : 0 < P -> 0 <= d <= / 2 -> Rabs (Q - P) <= d * P -> Rabs (sqrt Q - sqrt P) <= d * sqrt P.
Proof.
  intros HP Hd H. apply abs_bounds in H. assert (HQ : 0 <= Q) by nra. pose proof (sqrt_pos Q) as S1. pose proof (sqrt_lt_R0 P HP) as S2. pose proof (sqrt_sqrt Q HQ) as E1. pose proof (sqrt_sqrt P ltac:(lra)) as E2. set (q := sqrt Q) in *. set (p := sqrt P) in *. clearbody q p.
  apply Rmult_le_reg_r with p; auto. apply Rle_trans with (Rabs (q - p) * (q + p)); [apply Rmult_le_compat_l; [apply Rabs_pos|lra]|]. rewrite <- (Rabs_right (q + p)) by lra. rewrite <- Rabs_mult. apply Rabs_le. replace ((q - p) * (q + p)) with (q * q - p * p) by ring. rewrite E1. replace (d * p * p) with (d * (p * p)) by ring. rewrite E2. lra.
Qed.

Lemma rel_div d e X Y x y : 0 <= d <= / 10 -> 0 <= e <= / 1000000 -> bp (-150) <= X / Y <= bp 200 -> rel d X x -> rel e Y y -> rel ((d + e) * (100001 / 100000) + 13 / 10 * u64) (X / Y) (SF64div x y).
Proof.
  intros Hd He HB (Fx & E1 & B1) (Fy & E2 & B2). pose proof u_bounds as U. pose proof (bp_pos (-150)) as P150. assert (PX : 0 < X) by lra. assert (PY : 0 < Y) by lra. set (Z := X / Y) in *. assert (PZ : 0 < Z) by lra.
  assert (EX : X = Z * Y) by (unfold Z; field; lra). assert (Q0 := E2). apply abs_bounds in Q0. assert (e * Y <= / 1000000 * Y) by (apply Rmult_le_compat_r; lra). assert (Yp : 0 < SF2R y) by lra.
  assert (Q : Rabs (SF2R x / SF2R y - Z) <= (d + e) * (100001 / 100000) * Z).
  { replace (SF2R x / SF2R y - Z) with ((SF2R x - X - Z * (SF2R y - Y)) * / SF2R y) by (rewrite EX; field; lra). rewrite Rabs_mult, (Rabs_right (/ SF2R y)) by (left; apply Rinv_0_lt_compat; auto). apply Rmult_le_reg_r with (SF2R y); auto. rewrite Rmult_assoc, Rinv_l, Rmult_1_r by lra.
    apply Rle_trans with ((d + e) * X). { unfold Rminus at 1. eapply Rle_trans; [apply Rabs_triang|]. rewrite Rabs_Ropp, Rabs_mult, (Rabs_right Z) by lra. assert (Z * Rabs (SF2R y - Y) <= Z * (e * Y)) by (apply Rmult_le_compat_l; lra). replace (Z * (e * Y)) with (e * X) in * by (rewrite EX; ring). lra. }
    rewrite EX. replace ((d + e) * (100001 / 100000) * Z * SF2R y) with ((d + e) * Z * (100001 / 100000 * SF2R y)) by ring. replace ((d + e) * (Z * Y)) with ((d + e) * Z * Y) by ring. apply Rmult_le_compat_l; [apply Rmult_le_pos; lra|]. lra. }
  assert ((d + e) * (100001 / 100000) * Z <= 21 / 100 * Z) by (apply Rmult_le_compat_r; lra). assert (Bz : Rabs (SF2R x / SF2R y) <= 121 / 100 * Z). { apply abs_bounds in Q. apply Rabs_le. lra. }
  assert (S : sc 200 Z). { split; [apply Rle_trans with (bp (-150)); [apply bp_le; lia|lra]|lra]. } pose proof (sc_eta 200 Z ltac:(lia) S) as Et. pose proof (ap_big 200 Z ltac:(lia) S) as Bg. pose proof bp1023 as BB.
  assert (Rz : rounds (SF64div x y) (SF2R x / SF2R y)) by (apply fdiv; auto; lra). pose proof (rounds_err_le _ _ _ Rz Bz) as Ez. split; [apply (rounds_fin _ _ Rz)|]. split; auto.
  assert (0 <= u64 * Z) by (apply Rmult_le_pos; lra). replace (SF2R (SF64div x y) - Z) with ((SF2R (SF64div x y) - SF2R x / SF2R y) + (SF2R x / SF2R y - Z)) by ring. eapply Rle_trans; [apply Rabs_triang|]. lra.
Qed.

(** ** The sides *)

Lemma side_ap m A B : on_grid2 0 1048576 A -> on_grid2 0 1048576 B -> P2R A <> P2R B -> let d := dist (P2R A) (P2R B) in
  1 <= d <= bp 22 /\ ap 1 22 d d (distance64 m A B).
Proof.
  intros GA GB N d. destruct (dist2_grid m 0 1048576 B A ltac:(lia) ltac:(lia) GB GA) as (k & Bk & Fk & Ek & Dk). cbv zeta in *. change (0 + 0)%Z with 0%Z in *. rewrite bp_0, Rmult_1_r in *.
  assert (Ed : dist2 (P2R A) (P2R B) = IZR k) by (rewrite <- Dk, d2R_dist2; unspec; ring).
  assert (K1 : (1 <= k)%Z). { destruct (Z.eq_dec k 0) as [Z|]; [|lia]. exfalso. apply N. apply dist2_zero. rewrite Ed, Z. reflexivity. }
  assert (D2 : d * d = IZR k) by (unfold d; rewrite dist_sq; auto). assert (D0 : 0 <= d) by (unfold d; apply dist_nonneg).
  assert (H1 : 1 <= IZR k) by (apply IZR_le; auto).
  assert (H2 : IZR k <= bp 22 * bp 22). { rewrite <- Dk. destruct GA as ((_ & a & Ba & Ea) & (_ & b & Bb & Eb)), GB as ((_ & c & Bc & Ec) & (_ & e & Be & Ee)). rewrite bp_0, Rmult_1_r in *. unfold d2R. rewrite Ea, Eb, Ec, Ee, <- !minus_IZR, <- !mult_IZR, <- plus_IZR, <- bp_add, bp_IZR by lia. apply IZR_le. assert (Z1 := zprod (c - a) (c - a) 2097152 ltac:(lia) ltac:(lia)). assert (Z2 := zprod (e - b) (e - b) 2097152 ltac:(lia) ltac:(lia)). lia. }
  assert (B22 : 0 < bp 22) by apply bp_pos. assert (Bd : 1 <= d <= bp 22) by (split; apply Rnot_lt_le; intros K; nra). split; auto.
  destruct (fsqrt _ Fk ltac:(rewrite Ek; lra)) as (Rz & Ez). rewrite Ek in Ez. assert (Es : sqrt (IZR k) = d) by (rewrite <- D2; apply sqrt_square; auto). rewrite Es in Ez. unfold distance64. cbv zeta.
  split; [apply (rounds_fin _ _ Rz)|]. rewrite Rmult_1_l. split; [exact Ez|]. split; [rewrite Rabs_right; lra|]. split; [|apply Bd]. apply Rle_trans with (bp 0); [apply bp_le; lia|rewrite bp_0; apply Bd].
Qed.

Section Inc.
Variables (m : how) (A B C : fpt).
Hypotheses (GA : on_grid2 0 1048576 A) (GB : on_grid2 0 1048576 B) (GC : on_grid2 0 1048576 C) (NC : ~ collinear (P2R A) (P2R B) (P2R C)).
Let a := dist (P2R B) (P2R C).
Let b := dist (P2R A) (P2R C).
Let c := dist (P2R A) (P2R B).
Let p := a + b + c.
Let fa := distance64 m B C.
Let fb := distance64 m A C.
Let fc := distance64 m B A.
Let fp := SF64add (SF64add fa fb) fc.

Lemma sides_ap : (1 <= a <= bp 22 /\ 1 <= b <= bp 22 /\ 1 <= c <= bp 22) /\ ap 1 22 a a fa /\ ap 1 22 b b fb /\ ap 1 22 c c fc /\ ap (32 / 10) 24 p p fp /\
  0 < b + c - a /\ 0 < a + c - b /\ 0 < a + b - c.
Proof.
  assert (K : dbl (P2R A) (P2R B) (P2R C) <> 0) by (apply not_collinear_dbl; auto). destruct (dbl_distinct _ _ _ K) as (N1 & N2 & N3). destruct (sides_ineq _ _ _ K) as (I1 & I2 & I3).
  destruct (side_ap m B C GB GC) as (Ba & Ha); [congruence|]. destruct (side_ap m A C GA GC) as (Bb & Hb); [congruence|]. destruct (side_ap m B A GB GA) as (Bc & Hc); [congruence|]. rewrite (dist_sym (P2R B) (P2R A)) in Bc, Hc.
  fold a in Ba, Ha, I1, I2, I3. fold b in Bb, Hb, I1, I2, I3. fold c in Bc, Hc, I1, I2, I3. fold fa in Ha. fold fb in Hb. fold fc in Hc. split; auto. split; auto. split; auto. split; auto. split; [|lra].
  pose proof (ap_add 1 22 a b a b fa fb ltac:(lra) ltac:(lia) Ha Hb) as H1. cbv iota in H1.
  pose proof (ap_add (21 / 10) 23 (a + b) c (a + b) c _ fc ltac:(lra) ltac:(lia) (ap_weaken (1 + 11 / 10) (21 / 10) (22 + 1) 23 _ _ _ ltac:(lra) ltac:(lia) H1) (ap_weaken 1 (21 / 10) 22 23 _ _ _ ltac:(lra) ltac:(lia) Hc)) as H2. cbv iota in H2.
  eapply ap_weaken; [| |exact H2]; [lra|lia].
Qed.

Lemma coord_inc x y z X : fin x -> fin y -> fin z -> 1 <= X <= bp 20 -> Rabs (SF2R x) <= X -> Rabs (SF2R y) <= X -> Rabs (SF2R z) <= X ->
  let w := SF64div (SF64add (SF64add (SF64mul fa x) (SF64mul fb y)) (SF64mul fc z)) fp in
  fin w /\ Rabs (SF2R w - (a / p * SF2R x + b / p * SF2R y + c / p * SF2R z)) <= 9 * u64 * X.
Proof.
  intros Fx Fy Fz HX Hx Hy Hz w. destruct sides_ap as ((Ba & Bb & Bc) & Ha & Hb & Hc & Hp & _). assert (SX : sc 22 X). { split; [apply Rle_trans with (bp 0); [apply bp_le; lia|rewrite bp_0; lra]|apply Rle_trans with (bp 20); [lra|apply bp_le; lia]]. }
  pose proof (ap_mul 1 0 22 22 _ _ _ _ _ _ ltac:(lra) ltac:(lra) ltac:(lia) Ha (ap_exact 22 X _ x Fx eq_refl Hx SX)) as T1. pose proof (ap_mul 1 0 22 22 _ _ _ _ _ _ ltac:(lra) ltac:(lra) ltac:(lia) Hb (ap_exact 22 X _ y Fy eq_refl Hy SX)) as T2. pose proof (ap_mul 1 0 22 22 _ _ _ _ _ _ ltac:(lra) ltac:(lra) ltac:(lia) Hc (ap_exact 22 X _ z Fz eq_refl Hz SX)) as T3.
  pose proof (ap_add (1 + 0 + 11 / 10) (22 + 22) _ _ _ _ _ _ ltac:(lra) ltac:(lia) T1 T2) as T4. cbv iota in T4.
  pose proof (ap_add (1 + 0 + 11 / 10 + 11 / 10) (22 + 22 + 1) _ _ _ _ _ _ ltac:(lra) ltac:(lia) T4 (ap_weaken (1 + 0 + 11 / 10) (1 + 0 + 11 / 10 + 11 / 10) (22 + 22) (22 + 22 + 1) _ _ _ ltac:(lra) ltac:(lia) T3)) as T5. cbv iota in T5.
  pose proof (ap_div (1 + 0 + 11 / 10 + 11 / 10 + 11 / 10) (32 / 10) (22 + 22 + 1 + 1) 24 _ _ _ _ _ ltac:(lra) ltac:(lra) ltac:(lia) T5 Hp) as (F & E & _ & _). fold w in F, E. split; auto. assert (Pp : 0 < p) by (unfold p; lra).
  replace (a / p * SF2R x + b / p * SF2R y + c / p * SF2R z) with ((a * SF2R x + b * SF2R y + c * SF2R z) / p) by (field; lra). eapply Rle_trans; [exact E|]. replace ((a * X + b * X + c * X) / p) with X by (unfold p; field; fold p; lra). pose proof u_bounds. assert (0 <= u64 * X) by (apply Rmult_le_pos; lra). lra.
Qed.

Let s := p / 2.
Let fs := SF64div fp f2.
Definition slender := p / (b + c - a) + p / (a + c - b) + p / (a + b - c).

Lemma part_rel t ft : ap 1 22 t t ft -> 1 <= t < s -> u64 * (s / (s - t)) <= / 100000 -> bp (-60) <= s - t <= bp 30 /\ rel (108 / 10 * (u64 * (s / (s - t)))) (s - t) (SF64sub fs ft).
Proof.
  intros Ht Bt HU. destruct sides_ap as ((Ba & Bb & Bc) & _ & _ & _ & Hp & _). pose proof (ap_half (32 / 10) 24 p p fp ltac:(lra) ltac:(lia) Hp) as Hs. fold s fs in Hs. pose proof u_bounds as U. pose proof u64_val as Uv.
  pose proof (ap_sub (32 / 10 + 11 / 10) (24 + 1) _ _ _ _ _ _ ltac:(lra) ltac:(lia) Hs (ap_weaken 1 (32 / 10 + 11 / 10) 22 (24 + 1) _ _ _ ltac:(lra) ltac:(lia) Ht)) as (F & E & _ & _). cbv iota in F, E.
  assert (B24 : s <= bp 30). { destruct Hs as (_ & _ & _ & _ & Q). apply Rle_trans with (bp (24 + 1)); auto. apply bp_le. lia. }
  assert (L : bp (-60) <= s - t). { assert (Q : u64 * s <= / 100000 * (s - t)). { apply Rmult_le_compat_r with (r := s - t) in HU; [|lra]. replace (u64 * (s / (s - t)) * (s - t)) with (u64 * s) in HU by (field; lra). exact HU. }
    apply Rle_trans with u64; [replace u64 with (bp (-53)) by reflexivity; apply bp_le; lia|]. assert (u64 * 1 <= u64 * s) by (apply Rmult_le_compat_l; lra). lra. }
  split; [lra|]. split; auto. split. { eapply Rle_trans; [exact E|]. replace (108 / 10 * (u64 * (s / (s - t))) * (s - t)) with (54 / 10 * (u64 * (s + s))) by (field; lra). assert (u64 * (s + t) <= u64 * (s + s)) by (apply Rmult_le_compat_l; lra). lra. }
  split; [apply Rle_trans with (bp (-60)); auto; apply bp_le; lia|apply Rle_trans with (bp 30); [lra|apply bp_le; lia]].
Qed.

Lemma radius_rel : u64 * slender <= / 100000 -> let P := SF64mul (SF64mul (SF64mul fs (SF64sub fs fa)) (SF64sub fs fb)) (SF64sub fs fc) in
  fin P /\ 0 <= SF2R P /\ let r := sqrt (s * (s - a) * (s - b) * (s - c)) / s in let fr := SF64div (SF64sqrt P) fs in fin fr /\ 0 < r /\ Rabs (SF2R fr - r) <= 20 * (u64 * slender) * r.
Proof.
  intros HU P. destruct sides_ap as ((Ba & Bb & Bc) & Ha & Hb & Hc & Hp & I1 & I2 & I3). pose proof (ap_half (32 / 10) 24 p p fp ltac:(lra) ltac:(lia) Hp) as Hs. fold s fs in Hs. pose proof u_bounds as U.
  assert (Sl : slender = s / (s - a) + s / (s - b) + s / (s - c)) by (unfold slender, s, p; field; lra).
  assert (La : 1 <= a < s) by (unfold s, p; lra). assert (Lb : 1 <= b < s) by (unfold s, p; lra). assert (Lc : 1 <= c < s) by (unfold s, p; lra).
  assert (G : forall t, 1 <= t < s -> 1 < s / (s - t)). { intros t Bt. apply Rmult_lt_reg_r with (s - t); [lra|]. replace (s / (s - t) * (s - t)) with s by (field; lra). lra. }
  pose proof (G _ La) as Ga. pose proof (G _ Lb) as Gb. pose proof (G _ Lc) as Gc. rewrite Sl in HU |- *. clear G.
  set (xa := s / (s - a)) in *. set (xb := s / (s - b)) in *. set (xc := s / (s - c)) in *.
  assert (Ua : u64 * 1 <= u64 * xa) by (apply Rmult_le_compat_l; lra). assert (Ub : u64 * 1 <= u64 * xb) by (apply Rmult_le_compat_l; lra). assert (Uc : u64 * 1 <= u64 * xc) by (apply Rmult_le_compat_l; lra).
  rewrite Rmult_1_r in Ua, Ub, Uc. rewrite !Rmult_plus_distr_l in HU. rewrite !Rmult_plus_distr_l.
  destruct (part_rel a fa Ha La ltac:(fold xa; lra)) as (Ra & Pa). destruct (part_rel b fb Hb Lb ltac:(fold xb; lra)) as (Rb & Pb). destruct (part_rel c fc Hc Lc ltac:(fold xc; lra)) as (Rc & Pc).
  fold xa in Pa. fold xb in Pb. fold xc in Pc. set (ea := u64 * xa) in *. set (eb := u64 * xb) in *. set (ec := u64 * xc) in *.
  assert (Bs : bp 0 <= s <= bp 30). { destruct Hs as (_ & _ & _ & _ & Q). split; [rewrite bp_0; lra|]. apply Rle_trans with (bp (24 + 1)); auto. apply bp_le. lia. }
  assert (Ps : rel (43 / 10 * u64) s fs). { destruct Hs as (F & E & _ & _). split; auto. split; [eapply Rle_trans; [exact E|lra]|]. split; [apply Rle_trans with (bp 0); [apply bp_le; lia|lra]|apply Rle_trans with (bp 30); [lra|apply bp_le; lia]]. }
  assert (Mb : forall n n' q q' x y, bp n <= x <= bp q -> bp n' <= y <= bp q' -> bp (n + n') <= x * y <= bp (q + q')). { intros n n' q q' x y X1 X2. rewrite !bp_add. pose proof (bp_pos n). pose proof (bp_pos n'). split; apply Rmult_le_compat; lra. }
  assert (Wk : forall n q x, bp n <= x <= bp q -> (-150 <= n)%Z -> (q <= 200)%Z -> bp (-150) <= x <= bp 200). { intros n q x X1 Hn Hq. assert (bp (-150) <= bp n) by (apply bp_le; auto). assert (bp q <= bp 200) by (apply bp_le; auto). lra. }
  assert (B1 := Mb _ _ _ _ _ _ Bs Ra). assert (B2 := Mb _ _ _ _ _ _ B1 Rb).
  assert (B3 : bp (-2) <= s * (s - a) * (s - b) * (s - c) <= bp 150).
  { assert (B3 := Mb _ _ _ _ _ _ B2 Rc). split; [|apply Rle_trans with (bp (30 + 30 + 30 + 30)); [apply B3|apply bp_le; lia]].
    assert (K : dbl (P2R A) (P2R B) (P2R C) <> 0) by (apply not_collinear_dbl; auto). pose proof (sides_heron (P2R A) (P2R B) (P2R C)) as H. cbv zeta in H. fold a b c in H.
    assert (Q : s * (s - a) * (s - b) * (s - c) = dbl (P2R A) (P2R B) (P2R C) * dbl (P2R A) (P2R B) (P2R C) / 4) by (unfold s, p; lra). rewrite Q.
    assert (Z : exists n, dbl (P2R A) (P2R B) (P2R C) = IZR n). { destruct GA as ((_ & u1 & _ & V1) & (_ & u2 & _ & V2)), GB as ((_ & u3 & _ & V3) & (_ & u4 & _ & V4)), GC as ((_ & u5 & _ & V5) & (_ & u6 & _ & V6)). rewrite bp_0, Rmult_1_r in *. unfold dbl, P2R. unspec. cbn [fst snd]. rewrite V1, V2, V3, V4, V5, V6. rewrite <- !minus_IZR, <- !mult_IZR, <- !minus_IZR. eexists. reflexivity. }
    destruct Z as (n & Z). rewrite Z in K |- *. assert (n <> 0%Z) by (intros ->; auto). rewrite <- mult_IZR. assert (1 <= IZR (n * n)) by (apply IZR_le; nia). change (bp (-2)) with (/ bp 2). rewrite bp_IZR by lia. change (2 ^ 2)%Z with 4%Z. lra. }
  pose proof (rel_mul (43 / 10 * u64) (108 / 10 * ea) _ _ _ _ ltac:(lra) ltac:(lra) (Wk _ _ _ B1 ltac:(lia) ltac:(lia)) Ps Pa) as T1. set (d1 := 43 / 10 * u64 + 108 / 10 * ea + 43 / 10 * u64 * (108 / 10 * ea) + 13 / 10 * u64) in *.
  assert (D1 : 0 <= d1 <= 5601 / 1000 * u64 + 108001 / 10000 * ea). { assert (0 <= 43 / 10 * u64 * (108 / 10 * ea) <= 43 / 10 * u64 * (11 / 100000)). { split; [apply Rmult_le_pos; lra|]. apply Rmult_le_compat_l; lra. } unfold d1. lra. }
  pose proof (rel_mul d1 (108 / 10 * eb) _ _ _ _ ltac:(lra) ltac:(lra) (Wk _ _ _ B2 ltac:(lia) ltac:(lia)) T1 Pb) as T2. set (d2 := d1 + 108 / 10 * eb + d1 * (108 / 10 * eb) + 13 / 10 * u64) in *.
  assert (D2 : 0 <= d2 <= 6910 / 1000 * u64 + 10802 / 1000 * (ea + eb)). { assert (0 <= d1 * (108 / 10 * eb) <= d1 * (11 / 100000)) by (split; [apply Rmult_le_pos; lra|apply Rmult_le_compat_l; lra]). unfold d2. lra. }
  pose proof (rel_mul d2 (108 / 10 * ec) _ _ _ _ ltac:(lra) ltac:(lra) (Wk _ _ _ B3 ltac:(lia) ltac:(lia)) T2 Pc) as T3. fold P in T3. set (d3 := d2 + 108 / 10 * ec + d2 * (108 / 10 * ec) + 13 / 10 * u64) in *.
  assert (D3 : 0 <= d3 <= 83000 / 10000 * u64 + 10805 / 1000 * (ea + eb + ec)). { assert (0 <= d2 * (108 / 10 * ec) <= d2 * (11 / 100000)) by (split; [apply Rmult_le_pos; lra|apply Rmult_le_compat_l; lra]). unfold d3. lra. }
  clear T1 T2. destruct T3 as (FP & EP & _). set (Q := s * (s - a) * (s - b) * (s - c)) in *. assert (Q0 : 0 < Q) by (pose proof (bp_pos (-2)); lra). split; auto.
  assert (P0 : 0 <= SF2R P). { apply abs_bounds in EP. assert (d3 * Q <= / 2 * Q) by (apply Rmult_le_compat_r; lra). lra. } split; auto. intros r fr.
  destruct (fsqrt P FP P0) as (Rz & Ez). pose proof (sqrt_rel Q (SF2R P) d3 Q0 ltac:(lra) EP) as Eq. set (q := sqrt Q) in *. assert (q0 : 0 < q) by (apply sqrt_lt_R0; auto).
  assert (Rq : rel (d3 + 11 / 10 * u64) q (SF64sqrt P)). { split; [apply (rounds_fin _ _ Rz)|]. split.
    - replace (SF2R (SF64sqrt P) - q) with ((SF2R (SF64sqrt P) - sqrt (SF2R P)) + (sqrt (SF2R P) - q)) by ring. eapply Rle_trans; [apply Rabs_triang|]. assert (d3 * q <= / 100 * q) by (apply Rmult_le_compat_r; lra). apply abs_bounds in Eq. assert (u64 * sqrt (SF2R P) <= u64 * (101 / 100 * q)) by (apply Rmult_le_compat_l; lra). assert (0 <= u64 * q) by (apply Rmult_le_pos; lra). assert (Rabs (sqrt (SF2R P) - q) <= d3 * q) by (apply Rabs_le; lra). lra.
    - assert (qq : q * q = Q) by (unfold q; apply sqrt_sqrt; lra). split; apply Rnot_lt_le; intros K.
      + assert (bp (-150) <= bp (-2)) by (apply bp_le; lia). assert (bp (-2) <= / 4) by (change (bp (-2)) with (/ bp 2); rewrite bp_IZR by lia; change (2 ^ 2)%Z with 4%Z; lra). nra.
      + assert (bp 150 <= bp 200) by (apply bp_le; lia). assert (1 <= bp 150) by (rewrite <- bp_0; apply bp_le; lia). nra. }
  assert (Rr : bp (-150) <= q / s <= bp 200). { destruct Rq as (_ & _ & Q1 & Q2). assert (qq : q * q = Q) by (unfold q; apply sqrt_sqrt; lra). assert (q1 : / 2 <= q). { assert (bp (-2) = / 4) by (change (bp (-2)) with (/ bp 2); rewrite bp_IZR by lia; change (2 ^ 2)%Z with 4%Z; lra). apply Rnot_lt_le. intros K. nra. } unfold Rdiv. split.
    - apply Rle_trans with (bp (-1) * bp (-30)); [rewrite <- bp_add; apply bp_le; lia|]. apply Rmult_le_compat; try (left; apply bp_pos); [change (bp (-1)) with (/ bp 1); rewrite bp_IZR by lia; change (2 ^ 1)%Z with 2%Z; lra|]. change (bp (-30)) with (/ bp 30). apply Rinv_le_contravar; lra.
    - apply Rle_trans with (q * 1); [|lra]. apply Rmult_le_compat_l; [lra|]. rewrite <- Rinv_1. apply Rinv_le_contravar; rewrite bp_0 in Bs; lra. }
  pose proof (rel_div (d3 + 11 / 10 * u64) (43 / 10 * u64) q s _ _ ltac:(lra) ltac:(lra) Rr Rq Ps) as (F & E & _). fold r fr in F, E. split; auto. assert (r0 : 0 < r) by (unfold r; apply Rdiv_lt_0_compat; lra). split; auto.
  eapply Rle_trans; [exact E|]. apply Rmult_le_compat_r; lra.
Qed.
End Inc.

Lemma incircle64_value m A B C : on_grid2 0 1048576 A -> on_grid2 0 1048576 B -> on_grid2 0 1048576 C -> ~ collinear (P2R A) (P2R B) (P2R C) ->
  u64 * slenderness (P2R A) (P2R B) (P2R C) <= / 100000 ->
  exists c I r, incircle64 m A B C = Ok c /\ 0 < r /\ disc_in_triangle (P2R A) (P2R B) (P2R C) I r /\
    (forall O q, 0 <= q -> disc_in_triangle (P2R A) (P2R B) (P2R C) O q -> q <= r /\ (q = r -> O = I)) /\
    fin2 (c64_center c) /\ fin (c64_radius c) /\
    (forall X, 1 <= X <= 1048576 -> in_square X (P2R A) -> in_square X (P2R B) -> in_square X (P2R C) -> in_square (9 * u64 * X) (vsub (P2R (c64_center c)) I)) /\
    Rabs (SF2R (c64_radius c) - r) <= 20 * (u64 * slenderness (P2R A) (P2R B) (P2R C)) * r.
Proof.
  intros GA GB GC N HU. assert (K : dbl (P2R A) (P2R B) (P2R C) <> 0) by (apply not_collinear_dbl; auto).
  destruct (incircle_total _ _ _ K) as (Ei & Hr). destruct (incircle_largest _ _ _ N) as (ci & Ec & HI & HL). cbv zeta in Ei. rewrite Ei in Ec. injection Ec as <-. cbn [cO cr] in HI, HL. cbv zeta in Hr.
  pose proof (radius_rel m A B C GA GB GC N HU) as RR. cbv zeta in RR. destruct RR as (FP & P0 & Fr & r0 & Er). pose proof (sides_area (P2R A) (P2R B) (P2R C)) as Sa. cbv zeta in Sa. rewrite Sa in r0, Er. clear Sa.
  change (slender A B C) with (slenderness (P2R A) (P2R B) (P2R C)) in Er.
  set (a := dist (P2R B) (P2R C)) in *. set (b := dist (P2R A) (P2R C)) in *. set (c := dist (P2R A) (P2R B)) in *. set (D := dbl (P2R A) (P2R B) (P2R C)) in *.
  set (r := Rabs D / (a + b + c)) in *.
  assert (Pp : 0 < a + b + c). { destruct (sides_pos _ _ _ K) as (Q1 & Q2 & Q3). fold a b c in Q1, Q2, Q3. lra. }
  assert (Er0 : Rabs D / 2 / ((a + b + c) / 2) = r) by (unfold r; field; lra). rewrite Er0 in r0, Er.
  set (Q := SF64mul _ _) in FP, P0, Fr, Er. set (fr := SF64div (SF64sqrt Q) _) in Fr, Er. set (w := slenderness _ _ _) in *.
  pose proof u_bounds as U. assert (Pr : 0 < SF2R fr). { apply abs_bounds in Er. assert (20 * (u64 * w) * r <= / 2 * r) by (apply Rmult_le_compat_r; lra). lra. }
  destruct GA as (GA1 & GA2), GB as (GB1 & GB2), GC as (GC1 & GC2).
  assert (W : forall x y z X, fin x -> fin y -> fin z -> 1 <= X <= 1048576 -> Rabs (SF2R x) <= X -> Rabs (SF2R y) <= X -> Rabs (SF2R z) <= X -> let w := SF64div (SF64add (SF64add (SF64mul (distance64 m B C) x) (SF64mul (distance64 m A C) y)) (SF64mul (distance64 m B A) z)) (SF64add (SF64add (distance64 m B C) (distance64 m A C)) (distance64 m B A)) in
     fin w /\ Rabs (SF2R w - (a / (a + b + c) * SF2R x + b / (a + b + c) * SF2R y + c / (a + b + c) * SF2R z)) <= 9 * u64 * X).
  { intros x y z X F1 F2 F3 HX B1 B2 B3. apply (coord_inc m A B C (conj GA1 GA2) (conj GB1 GB2) (conj GC1 GC2) N x y z X); auto. rewrite bp_IZR by lia. change (2 ^ 20)%Z with 1048576%Z. exact HX. }
  assert (Gf : forall x, on_grid 0 1048576 x -> fin x /\ Rabs (SF2R x) <= 1048576). { intros x (F & n & Hn & E). split; auto. rewrite E, bp_0, Rmult_1_r, <- abs_IZR. apply IZR_le. lia. }
  destruct (Gf _ GA1) as (F1 & B1), (Gf _ GA2) as (F2 & B2), (Gf _ GB1) as (F3 & B3), (Gf _ GB2) as (F4 & B4), (Gf _ GC1) as (F5 & B5), (Gf _ GC2) as (F6 & B6).
  eexists. exists (SpecTriangle.bary (a / (a + b + c)) (b / (a + b + c)) (c / (a + b + c)) (P2R A) (P2R B) (P2R C)), r. split.
  { unfold incircle64, py_sqrt64. cbv zeta. fold Q. destruct (SFltb Q f0) eqn:T1. { apply flt in T1; auto using fin_f0. rewrite val_f0 in T1. exfalso. lra. }
    cbn [bind]. fold fr. unfold mk_circle64. destruct (SFleb fr f0) eqn:T2. { apply fle in T2; auto using fin_f0. rewrite val_f0 in T2. exfalso. lra. } reflexivity. }
  cbn [c64_center c64_radius]. split; [exact Hr|]. split; [exact HI|]. split; [exact HL|]. split.
  { split; cbn [fst snd]; [apply (W _ _ _ 1048576 F1 F3 F5 ltac:(lra) B1 B3 B5)|apply (W _ _ _ 1048576 F2 F4 F6 ltac:(lra) B2 B4 B6)]. }
  split; [exact Fr|]. split; [|exact Er]. intros X HX (X1 & X2) (X3 & X4) (X5 & X6).
  split; unfold SpecTriangle.bary, vsub, P2R in *; cbn [fst snd] in *; [apply W|apply W]; auto.
Qed.

(** ** Small integers *)
Lemma slender_le A B C : on_grid2 0 140 A -> on_grid2 0 140 B -> on_grid2 0 140 C -> ~ collinear (P2R A) (P2R B) (P2R C) -> u64 * slenderness (P2R A) (P2R B) (P2R C) <= / 100000.
Proof.
  intros GA GB GC N. assert (K : dbl (P2R A) (P2R B) (P2R C) <> 0) by (apply not_collinear_dbl; auto).
  pose proof (sides_heron (P2R A) (P2R B) (P2R C)) as H. cbv zeta in H. destruct (sides_pos _ _ _ K) as (Pa & Pb & Pc). destruct (sides_ineq _ _ _ K) as (I1 & I2 & I3).
  pose proof (dist_sq (P2R B) (P2R C)) as Sa. pose proof (dist_sq (P2R A) (P2R C)) as Sb. pose proof (dist_sq (P2R A) (P2R B)) as Sc.
  unfold slenderness. set (a := dist (P2R B) (P2R C)) in *. set (b := dist (P2R A) (P2R C)) in *. set (c := dist (P2R A) (P2R B)) in *.
  assert (Q1 : 1 <= dbl (P2R A) (P2R B) (P2R C) * dbl (P2R A) (P2R B) (P2R C)).
  { assert (Z : exists n, dbl (P2R A) (P2R B) (P2R C) = IZR n). { destruct GA as ((_ & u1 & _ & V1) & (_ & u2 & _ & V2)), GB as ((_ & u3 & _ & V3) & (_ & u4 & _ & V4)), GC as ((_ & u5 & _ & V5) & (_ & u6 & _ & V6)). rewrite bp_0, Rmult_1_r in *. unfold dbl, P2R. unspec. cbn [fst snd]. rewrite V1, V2, V3, V4, V5, V6. rewrite <- !minus_IZR, <- !mult_IZR, <- !minus_IZR. eexists. reflexivity. }
    destruct Z as (n & Z). rewrite Z in K |- *. assert (n <> 0%Z) by (intros ->; auto). rewrite <- mult_IZR. apply IZR_le. nia. }
  set (W := a * a + b * b + c * c).
  assert (HW : W <= 16 * (140 * 140)).
  { assert (Gf : forall x, on_grid 0 140 x -> -140 <= SF2R x <= 140). { intros x (F & n & Hn & E). rewrite E, bp_0, Rmult_1_r. split; apply IZR_le; lia. }
    assert (M : forall x y z, -140 <= x <= 140 -> -140 <= y <= 140 -> -140 <= z <= 140 -> (x - y) * (x - y) + (x - z) * (x - z) + (y - z) * (y - z) <= 8 * (140 * 140)). { intros x y z X Y Z. destruct (Rle_lt_dec x y), (Rle_lt_dec y z), (Rle_lt_dec x z); nra. }
    destruct GA as (GA1 & GA2), GB as (GB1 & GB2), GC as (GC1 & GC2). pose proof (M _ _ _ (Gf _ GA1) (Gf _ GB1) (Gf _ GC1)). pose proof (M _ _ _ (Gf _ GA2) (Gf _ GB2) (Gf _ GC2)). unfold W. rewrite Sa, Sb, Sc. unfold P2R. unspec. cbn [fst snd]. lra. }
  set (p := a + b + c) in *. assert (P0 : 0 < p) by (unfold p; lra).
  assert (L : forall t u v, 0 < u -> 0 < v -> 0 < t -> 4 <= p * t * u * v -> forall k, u * v <= k -> p / t <= p * p * k / 4).
  { intros t u v U V T H4 k Hk. apply Rmult_le_reg_r with t; auto. unfold Rdiv at 1. rewrite Rmult_assoc, Rinv_l, Rmult_1_r by lra. replace (p * p * k / 4 * t) with (p * (p * t * k) / 4) by field.
    assert (p * t * (u * v) <= p * t * k) by (apply Rmult_le_compat_l; [apply Rmult_le_pos; lra|auto]). assert (4 <= p * t * k) by lra. assert (p * 4 <= p * (p * t * k)) by (apply Rmult_le_compat_l; lra). lra. }
  assert (S1 := L (b + c - a) (a + c - b) (a + b - c) ltac:(lra) ltac:(lra) ltac:(lra) ltac:(lra) (a * a) ltac:(pose proof (Rle_0_sqr (b - c)) as Z0; unfold Rsqr in Z0; lra)).
  assert (S2 := L (a + c - b) (b + c - a) (a + b - c) ltac:(lra) ltac:(lra) ltac:(lra) ltac:(lra) (b * b) ltac:(pose proof (Rle_0_sqr (a - c)) as Z0; unfold Rsqr in Z0; lra)).
  assert (S3 := L (a + b - c) (b + c - a) (a + c - b) ltac:(lra) ltac:(lra) ltac:(lra) ltac:(lra) (c * c) ltac:(pose proof (Rle_0_sqr (a - b)) as Z0; unfold Rsqr in Z0; lra)).
  clear L. assert (pW : p * p <= 3 * W). { unfold p, W. pose proof (Rle_0_sqr (a - b)) as Z1. pose proof (Rle_0_sqr (a - c)) as Z2. pose proof (Rle_0_sqr (b - c)) as Z3. unfold Rsqr in *. lra. }
  assert (W0 : 0 <= W). { unfold W. pose proof (Rle_0_sqr a) as Z1. pose proof (Rle_0_sqr b) as Z2. pose proof (Rle_0_sqr c) as Z3. unfold Rsqr in *. lra. }
  assert (T : p / (b + c - a) + p / (a + c - b) + p / (a + b - c) <= p * p * W / 4) by (unfold W; lra).
  assert (T2 : p * p * W <= 3 * W * W) by (apply Rmult_le_compat_r; lra). assert (T3 : W * W <= 16 * (140 * 140) * (16 * (140 * 140))) by (apply Rmult_le_compat; lra).
  pose proof u_bounds as U. apply Rle_trans with (/ 9000000000000000 * (3 * (16 * (140 * 140) * (16 * (140 * 140))) / 4)); [|lra]. apply Rmult_le_compat; try lra. repeat apply Rplus_le_le_0_compat; left; apply Rdiv_lt_0_compat; lra.
Qed.

Lemma incircle64_raises m : exists A B C, on_grid2 0 10000 A /\ on_grid2 0 10000 B /\ on_grid2 0 10000 C /\ ~ collinear (P2R A) (P2R B) (P2R C) /\ incircle64 m A B C = Raise ValueError.
Proof.
  exists (fz 0, fz 0), (fz 9224, fz 7427), (fz 5133, fz 4133). do 3 (split; [apply fz_grid2; lia|]). split.
  - rewrite !fz_P2R by lia. apply not_collinear_dbl. unfold dbl. unspec. lra.
  - destruct m; vm_compute; reflexivity.
Qed.
