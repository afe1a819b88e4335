(** * Circle.angle in binary64: the value *)

From Coq Require Import Reals ZArith Lia Lra Psatz Bool SpecFloat.
From Verif Require Import SpecF64 SpecLibm Base Spec BaseLemmas SpecLemmas ModelInternal ModelLine ModelCircle ModelFloat ModelFloatInter ModelFloatCC PFloat PFloat2 PFloat3 PFloat4 PFloatCircle PFloatGrid PFloatPi PFloatInter PCircle PFloatCC PFloatCC2.
Local Open Scope R_scope.

(** [x] is [X] up to [e] roundings at the scale [M] *)
Definition sc (n : Z) (M : R) : Prop := bp (- n) <= M <= bp n.
Definition ap (e : R) (n : Z) (M X : R) (x : spec_float) : Prop := fin x /\ Rabs (SF2R x - X) <= e * (u64 * M) /\ Rabs X <= M /\ sc n M.

Lemma sc_pos n M : sc n M -> 0 < M.
Proof. intros (A & _). pose proof (bp_pos (- n)). lra. Qed.
Lemma sc_mul n p M N : sc n M -> sc p N -> sc (n + p) (M * N).
Proof.
  intros (A & B) (C & D). pose proof (bp_pos (- n)). pose proof (bp_pos (- p)). split.
  - replace (- (n + p))%Z with (- n + - p)%Z by ring. rewrite bp_add. apply Rmult_le_compat; lra.
  - rewrite bp_add. apply Rmult_le_compat; lra.
Qed.
Lemma sc_le n p M : (n <= p)%Z -> sc n M -> sc p M.
Proof. intros H (A & B). assert (bp (- p) <= bp (- n)) by (apply bp_le; lia). assert (bp n <= bp p) by (apply bp_le; lia). split; lra. Qed.
Lemma sc_add n M N : sc n M -> sc n N -> sc (n + 1) (M + N).
Proof. intros (A & B) (C & D). assert (bp (- (n + 1)) <= bp (- n)) by (apply bp_le; lia). pose proof (bp_pos (- n)). split; [lra|]. rewrite bp_succ. lra. Qed.

Lemma sc_eta n M : (n <= 200)%Z -> sc n M -> eta64 <= / 1000 * (u64 * M).
Proof.
  intros H (A & _). assert (bp (-200) <= M) by (apply Rle_trans with (bp (- n)); auto; apply bp_le; lia). pose proof u_bounds as U.
  assert (eta64 <= / 1000 * (u64 * bp (-200))). { replace u64 with (bp (-53)) by reflexivity. rewrite <- bp_add. assert (bp (-10) <= / 1000). { change (bp (-10)) with (/ bp 10). rewrite bp_IZR by lia. change (2 ^ 10)%Z with 1024%Z. lra. }
    apply Rle_trans with (bp (-10) * bp (-53 + -200)). - rewrite <- bp_add. unfold eta64. apply bp_le. lia. - apply Rmult_le_compat_r; auto. left. apply bp_pos. }
  assert (u64 * bp (-200) <= u64 * M) by (apply Rmult_le_compat_l; lra). lra.
Qed.

Lemma ap_val e n M X x : 0 <= e <= 30 -> ap e n M X x -> Rabs (SF2R x) <= 1001 / 1000 * M.
Proof.
  intros He (F & E & B & S). pose proof (sc_pos _ _ S) as P. pose proof u_bounds as U. assert (e * (u64 * M) <= / 1000 * M). { rewrite <- Rmult_assoc. apply Rmult_le_compat_r; [lra|]. nra. }
  replace (SF2R x) with (X + (SF2R x - X)) by ring. eapply Rle_trans; [apply Rabs_triang|]. lra.
Qed.

Lemma ap_weaken e f n p M X x : e <= f -> (n <= p)%Z -> ap e n M X x -> ap f p M X x.
Proof.
  intros H Hn (F & E & B & S). split; auto. pose proof (sc_pos _ _ S) as P. pose proof u_bounds as U. split; [|split; [auto|eapply sc_le; eauto]]. eapply Rle_trans; [exact E|]. apply Rmult_le_compat_r; auto. apply Rmult_le_pos; lra.
Qed.

Lemma ap_scale e n M N X x : M <= N -> 0 <= e -> sc n N -> ap e n M X x -> ap e n N X x.
Proof.
  intros H He Sn (F & E & B & S). pose proof u_bounds as U. split; auto. split; [|split; [lra|auto]]. eapply Rle_trans; [exact E|]. apply Rmult_le_compat_l; auto. apply Rmult_le_compat_l; lra.
Qed.

Lemma ap_big n M : (n <= 200)%Z -> sc n M -> 4 * M <= bp 1022.
Proof. intros H (_ & B). assert (bp n <= bp 200) by (apply bp_le; lia). assert (4 * bp 200 <= bp 1022). { replace (4 * bp 200) with (bp (200 + 1 + 1)) by (rewrite !bp_succ; ring). apply bp_le. lia. } lra. Qed.

(** the product of the computed numbers, before rounding *)
Lemma ap_prod e f n p M N X Y x y : 0 <= e <= 30 -> 0 <= f <= 30 -> ap e n M X x -> ap f p N Y y ->
  Rabs (SF2R x * SF2R y - X * Y) <= (e + f + / 1000) * (u64 * (M * N)) /\ Rabs (SF2R x * SF2R y) <= 101 / 100 * (M * N) /\ Rabs (X * Y) <= M * N.
Proof.
  intros He Hf A B. pose proof (ap_val _ _ _ _ _ He A) as V1. pose proof (ap_val _ _ _ _ _ Hf B) as V2. destruct A as (_ & E1 & B1 & S1), B as (_ & E2 & B2 & S2). pose proof (sc_pos _ _ S1) as P1. pose proof (sc_pos _ _ S2) as P2. pose proof u_bounds as U. assert (PMN : 0 < M * N) by (apply Rmult_lt_0_compat; auto).
  pose proof (Rabs_pos (SF2R x)). pose proof (Rabs_pos (SF2R y)). pose proof (Rabs_pos X). pose proof (Rabs_pos Y). split; [|split].
  - replace (SF2R x * SF2R y - X * Y) with ((SF2R x - X) * Y + X * (SF2R y - Y) + (SF2R x - X) * (SF2R y - Y)) by ring.
    eapply Rle_trans; [apply Rabs_triang|]. eapply Rle_trans; [apply Rplus_le_compat_r, Rabs_triang|]. rewrite !Rabs_mult.
    assert (T1 : Rabs (SF2R x - X) * Rabs Y <= e * (u64 * M) * N) by (apply Rmult_le_compat; auto; apply Rabs_pos). assert (T2 : Rabs X * Rabs (SF2R y - Y) <= M * (f * (u64 * N))) by (apply Rmult_le_compat; auto; apply Rabs_pos).
    assert (T3 : Rabs (SF2R x - X) * Rabs (SF2R y - Y) <= e * (u64 * M) * (f * (u64 * N))) by (apply Rmult_le_compat; auto; apply Rabs_pos).
    assert (T4 : e * (u64 * M) * (f * (u64 * N)) <= / 1000 * (u64 * (M * N))). { replace (e * (u64 * M) * (f * (u64 * N))) with (e * f * u64 * (u64 * (M * N))) by ring. apply Rmult_le_compat_r; [apply Rmult_le_pos; lra|]. assert (e * f <= 900) by nra. assert (0 <= e * f) by nra. nra. }
    replace ((e + f + / 1000) * (u64 * (M * N))) with (e * (u64 * M) * N + M * (f * (u64 * N)) + / 1000 * (u64 * (M * N))) by ring. lra.
  - rewrite Rabs_mult. apply Rle_trans with (1001 / 1000 * M * (1001 / 1000 * N)); [apply Rmult_le_compat; auto|]. replace (1001 / 1000 * M * (1001 / 1000 * N)) with (1001 * 1001 / 1000000 * (M * N)) by field. apply Rmult_le_compat_r; lra.
  - rewrite Rabs_mult. apply Rmult_le_compat; auto.
Qed.

Lemma ap_mul e f n p M N X Y x y : 0 <= e <= 30 -> 0 <= f <= 30 -> (n + p <= 200)%Z -> ap e n M X x -> ap f p N Y y -> ap (e + f + 11 / 10) (n + p) (M * N) (X * Y) (SF64mul x y).
Proof.
  intros He Hf Hn A B. destruct (ap_prod _ _ _ _ _ _ _ _ _ _ He Hf A B) as (E & V & W). destruct A as (Fx & _ & _ & S1), B as (Fy & _ & _ & S2). pose proof (sc_mul _ _ _ _ S1 S2) as S. pose proof (sc_pos _ _ S) as P. pose proof (sc_eta _ _ Hn S) as Et. pose proof (ap_big _ _ Hn S) as Bg. pose proof bp1023 as BB. pose proof u_bounds as U.
  assert (Rz : rounds (SF64mul x y) (SF2R x * SF2R y)) by (apply fmul; auto; lra). pose proof (rounds_err_le _ _ _ Rz V) as Ez. split; [apply (rounds_fin _ _ Rz)|]. split; [|split; auto].
  assert (0 <= u64 * (M * N)) by (apply Rmult_le_pos; lra). replace (SF2R (SF64mul x y) - X * Y) with ((SF2R (SF64mul x y) - SF2R x * SF2R y) + (SF2R x * SF2R y - X * Y)) by ring. eapply Rle_trans; [apply Rabs_triang|]. lra.
Qed.

Lemma ap_sum2 m e f n p M N A B C D a b c d : 0 <= e <= 30 -> 0 <= f <= 30 -> (n + p < 200)%Z -> ap e n M A a -> ap f p N B b -> ap e n M C c -> ap f p N D d ->
  ap (e + f + 22 / 10) (n + p + 1) (2 * (M * N)) (A * B + C * D) (sum2 m a b c d).
Proof.
  intros He Hf Hn HA HB HC HD. destruct (ap_prod _ _ _ _ _ _ _ _ _ _ He Hf HA HB) as (E & V & W). destruct (ap_prod _ _ _ _ _ _ _ _ _ _ He Hf HC HD) as (E' & V' & W').
  destruct HA as (Fa & _ & _ & S1), HB as (Fb & _ & _ & S2), HC as (Fc & _), HD as (Fd & _). pose proof (sc_mul _ _ _ _ S1 S2) as S. pose proof (sc_pos _ _ S) as P. assert (Hn' : (n + p <= 200)%Z) by lia. pose proof (sc_eta _ _ Hn' S) as Et. pose proof (ap_big _ _ Hn' S) as Bg. pose proof u_bounds as U.
  destruct (sum2_ok m a b c d Fa Fb Fc Fd ltac:(lra)) as (Fz & Ez & _). cbv zeta in Ez. split; auto. set (z := SF2R (sum2 m a b c d)) in *. set (T := u64 * (M * N)) in *. assert (PT : 0 <= T) by (unfold T; apply Rmult_le_pos; lra).
  assert (Ez' : Rabs (z - (SF2R a * SF2R b + SF2R c * SF2R d)) <= 21 / 10 * (202 / 100 * T) + 3 * (/ 1000 * T)). { eapply Rle_trans; [exact Ez|]. apply Rplus_le_compat; [|lra]. rewrite Rmult_assoc. apply Rmult_le_compat_l; [lra|]. unfold T. replace (202 / 100 * (u64 * (M * N))) with (u64 * (202 / 100 * (M * N))) by ring. apply Rmult_le_compat_l; lra. }
  split; [|split].
  - replace (z - (A * B + C * D)) with ((z - (SF2R a * SF2R b + SF2R c * SF2R d)) + ((SF2R a * SF2R b - A * B) + (SF2R c * SF2R d - C * D))) by ring. eapply Rle_trans; [apply Rabs_triang|]. eapply Rle_trans; [apply Rplus_le_compat_l, Rabs_triang|].
    replace ((e + f + 22 / 10) * (u64 * (2 * (M * N)))) with (2 * (e + f + 22 / 10) * T) by (unfold T; ring). lra.
  - eapply Rle_trans; [apply Rabs_triang|]. lra.
  - replace (2 * (M * N)) with (M * N + M * N) by ring. apply sc_add; auto.
Qed.

Lemma ap_addsub (s : bool) e n M N X Y x y : 0 <= e <= 30 -> (n < 200)%Z -> ap e n M X x -> ap e n N Y y ->
  ap (e + 11 / 10) (n + 1) (M + N) (if s then X + Y else X - Y) (if s then SF64add x y else SF64sub x y).
Proof.
  intros He Hn A B. pose proof (ap_val _ _ _ _ _ He A) as V1. pose proof (ap_val _ _ _ _ _ He B) as V2. destruct A as (Fx & E1 & B1 & S1), B as (Fy & E2 & B2 & S2). pose proof (sc_pos _ _ S1) as P1. pose proof (sc_pos _ _ S2) as P2. pose proof (sc_add _ _ _ S1 S2) as S. assert (Hn' : (n + 1 <= 200)%Z) by lia. pose proof (ap_big _ _ Hn' S) as Bg. pose proof bp1023 as BB. pose proof u_bounds as U.
  assert (PT : 0 <= u64 * (M + N)) by (apply Rmult_le_pos; lra). replace ((e + 11 / 10) * (u64 * (M + N))) with (e * (u64 * M) + e * (u64 * N) + 11 / 10 * (u64 * (M + N))) by ring.
  apply abs_bounds in V1, V2. assert (K : forall z v w, rounds z v -> Rabs (SF2R z - v) <= u64 * Rabs v -> Rabs v <= 1001 / 1000 * (M + N) -> Rabs (v - w) <= e * (u64 * M) + e * (u64 * N) -> fin z /\ Rabs (SF2R z - w) <= e * (u64 * M) + e * (u64 * N) + 11 / 10 * (u64 * (M + N))).
  { intros z v w R0 E0 Bv Ew. split; [apply (rounds_fin _ _ R0)|]. replace (SF2R z - w) with ((SF2R z - v) + (v - w)) by ring. eapply Rle_trans; [apply Rabs_triang|]. assert (u64 * Rabs v <= u64 * (1001 / 1000 * (M + N))) by (apply Rmult_le_compat_l; lra). lra. }
  apply abs_bounds in E1, E2, B1, B2. unfold ap. destruct s.
  - destruct (fadd x y Fx Fy) as (R0 & E0); [apply Rabs_le; lra|]. destruct (K _ _ (X + Y) R0 E0) as (F & E); [apply Rabs_le; lra|apply Rabs_le; lra|]. split; auto. split; [lra|]. split; auto. apply Rabs_le. lra.
  - destruct (fsub x y Fx Fy) as (R0 & E0); [apply Rabs_le; lra|]. destruct (K _ _ (X - Y) R0 E0) as (F & E); [apply Rabs_le; lra|apply Rabs_le; lra|]. split; auto. split; [lra|]. split; auto. apply Rabs_le. lra.
Qed.
Definition ap_add := ap_addsub true.
Definition ap_sub := ap_addsub false.

Lemma ap_half e n M X x : 0 <= e <= 30 -> (n < 200)%Z -> ap e n M X x -> ap (e + 11 / 10) (n + 1) (M / 2) (X / 2) (SF64div x f2).
Proof.
  intros He Hn A. pose proof (ap_val _ _ _ _ _ He A) as V. destruct A as (F & E & B & S). pose proof (sc_pos _ _ S) as P. pose proof u_bounds as U. assert (F2 : fin f2) by (split; reflexivity). assert (V2 : SF2R f2 = 2) by (unfold f2; rewrite val_lit; cbn; lra).
  assert (Sh : sc (n + 1) (M / 2)). { destruct S as (A1 & A2). assert (bp n <= bp (n + 1)) by (apply bp_le; lia). split; [|lra]. replace (- n)%Z with (- (n + 1) + 1)%Z in A1 by ring. rewrite bp_succ in A1. lra. }
  assert (Hn' : (n + 1 <= 200)%Z) by lia. pose proof (sc_eta _ _ Hn' Sh) as Et. pose proof (ap_big _ _ Hn' Sh) as Bg. pose proof bp1023 as BB. apply abs_bounds in V.
  assert (Bv : Rabs (SF2R x / SF2R f2) <= 1001 / 1000 * (M / 2)) by (rewrite V2; apply Rabs_le; lra).
  assert (Rz : rounds (SF64div x f2) (SF2R x / SF2R f2)) by (apply fdiv; auto; [lra|lra]). pose proof (rounds_err_le _ _ _ Rz Bv) as Ez. split; [apply (rounds_fin _ _ Rz)|]. split; [|split; auto; apply abs_bounds in B; apply Rabs_le; lra].
  rewrite V2 in Ez. apply abs_bounds in Ez, E. apply Rabs_le. assert (0 <= u64 * M) by (apply Rmult_le_pos; lra). lra.
Qed.

Lemma ap_exact n M X x : fin x -> SF2R x = X -> Rabs X <= M -> sc n M -> ap 0 n M X x.
Proof. intros F E B S. split; auto. rewrite E, Rminus_diag_eq, Rabs_R0 by reflexivity. split; [lra|]. auto. Qed.

(** ** The cosine *)

Lemma sc_num n M k : sc n M -> 1 <= k <= 4 -> sc (n + 2) (k * M).
Proof. intros S H. replace (n + 2)%Z with (2 + n)%Z by ring. apply sc_mul; auto. split; [apply Rle_trans with (bp 0); [apply bp_le; lia|rewrite bp_0; lra]|rewrite bp_IZR by lia; cbn; lra]. Qed.

Lemma inv_ap r rho : fin r -> SF2R r = rho -> 1 <= rho <= bp 20 -> ap 1 20 (/ rho) (/ rho) (SF64div f1 r).
Proof.
  intros F E B. assert (F1 : fin f1) by (split; reflexivity). assert (S : sc 20 (/ rho)). { split; [change (bp (- 20)) with (/ bp 20); apply Rinv_le_contravar; [lra|apply B]|]. apply Rle_trans with 1; [rewrite <- Rinv_1; apply Rinv_le_contravar; lra|]. rewrite bp_IZR by lia. cbn. lra. }
  pose proof (sc_pos _ _ S) as P. assert (Q : SF2R f1 / SF2R r = / rho) by (rewrite val_f1, E; unfold Rdiv; ring). assert (H20 : (20 <= 200)%Z) by lia. pose proof (ap_big _ _ H20 S) as Bg. pose proof bp1023 as BB.
  assert (Rz : rounds (SF64div f1 r) (/ rho)). { rewrite <- Q. apply fdiv; auto; rewrite ?E, ?Q; [lra|]. rewrite <- E, Q, Rabs_right; lra. }
  split; [apply (rounds_fin _ _ Rz)|]. split; [|split; [rewrite Rabs_right; lra|auto]]. rewrite Rmult_1_l. rewrite <- (Rabs_right (/ rho)) at 2 by lra. apply Rz. rewrite Rabs_right by lra. apply Rle_trans with (bp (- 20)); [apply bp_le; lia|apply S].
Qed.

Section Cos.
Variables (m : how) (c1 c2 : circle64).
Let C1 := c64_center c1.
Let C2 := c64_center c2.
Let r1 := SF2R (c64_radius c1).
Let r2 := SF2R (c64_radius c2).
Let x1 := SF2R (fst C1).
Let y1 := SF2R (snd C1).
Let x2 := SF2R (fst C2).
Let y2 := SF2R (snd C2).
Let S1 := x1 * x1 + y1 * y1 + r1 * r1.
Let S2 := x2 * x2 + y2 * y2 + r2 * r2.

Definition cos64 : spec_float :=
  let b1 := (f1 / c64_radius c1)%f64 in
  let b2 := (f1 / c64_radius c2)%f64 in
  let a1 := (b1 * fst C1, b1 * snd C1)%f64 in
  let a2 := (b2 * fst C2, b2 * snd C2)%f64 in
  let bprime1 := (c64_radius c1 * (dot64 m a1 a1 - f1))%f64 in
  let bprime2 := (c64_radius c2 * (dot64 m a2 a2 - f1))%f64 in
  (b1 * bprime2 / f2 + b2 * bprime1 / f2 - dot64 m a1 a2)%f64.

Lemma half_part C c r rho : on_grid2 0 1048576 C -> on_grid 0 1048576 c -> SF2R c = rho -> r = c -> 0 < rho ->
  let x := SF2R (fst C) in let y := SF2R (snd C) in let L := sqrt (x * x + y * y + rho * rho) in let b := SF64div f1 c in
  let a := (SF64mul b (fst C), SF64mul b (snd C)) in
  1 <= rho <= bp 20 /\ L * L = x * x + y * y + rho * rho /\ sc 22 L /\ rho <= L /\
  ap 1 20 (/ rho) (/ rho) b /\ ap (21 / 10) 42 (/ rho * L) (/ rho * x) (fst a) /\ ap (21 / 10) 42 (/ rho * L) (/ rho * y) (snd a) /\
  ap (87 / 10) 109 (rho * (3 * (/ rho * L * (/ rho * L)))) (rho * (/ rho * x * (/ rho * x) + / rho * y * (/ rho * y) - 1)) (SF64mul c (SF64sub (dot64 m a a) f1)).
Proof.
  intros (G0 & G1) G2 ER _ R0 x y L b a. destruct G0 as (F0 & p & Bp & Ep), G1 as (F1 & q & Bq & Eq), G2 as (F2 & n & Bn & En). rewrite bp_0, Rmult_1_r in Ep, Eq, En.
  assert (B20 : bp 20 = 1048576) by (rewrite bp_IZR by lia; reflexivity).
  assert (HR : 1 <= rho <= bp 20). { rewrite ER in En. rewrite En in R0 |- *. apply lt_IZR in R0. rewrite B20. split; apply IZR_le; lia. }
  assert (Hx : Rabs x <= bp 20) by (unfold x; rewrite Ep, <- abs_IZR, B20; apply IZR_le; lia). assert (Hy : Rabs y <= bp 20) by (unfold y; rewrite Eq, <- abs_IZR, B20; apply IZR_le; lia).
  assert (Px : 0 <= x * x) by nra. assert (Py : 0 <= y * y) by nra.
  assert (HL : L * L = x * x + y * y + rho * rho) by (unfold L; apply sqrt_sqrt; nra). assert (L0 : 0 <= L) by (unfold L; apply sqrt_pos). clearbody L.
  assert (RL : rho <= L) by (apply Rnot_lt_le; intros Q; nra). assert (xL : Rabs x <= L) by (apply Rabs_le; split; apply Rnot_lt_le; intros Q; nra). assert (yL : Rabs y <= L) by (apply Rabs_le; split; apply Rnot_lt_le; intros Q; nra).
  assert (SL : sc 22 L). { split; [apply Rle_trans with (bp 0); [apply bp_le; lia|rewrite bp_0; lra]|]. apply abs_bounds in Hx, Hy. assert (bp 22 = 4 * bp 20) by (change 22%Z with (20 + 1 + 1)%Z; rewrite !bp_succ; ring). assert (x * x <= bp 20 * bp 20) by nra. assert (y * y <= bp 20 * bp 20) by nra. assert (rho * rho <= bp 20 * bp 20) by nra. apply Rnot_lt_le; intros Q. pose proof (bp_pos 20). nra. }
  assert (SR : sc 22 rho). { split; [apply Rle_trans with (bp 0); [apply bp_le; lia|rewrite bp_0; lra]|]. destruct SL. lra. }
  split; auto. split; auto. split; auto. split; auto. pose proof (inv_ap c rho F2 ER HR) as Hb. fold b in Hb. split; auto.
  assert (Ax : ap (21 / 10) 42 (/ rho * L) (/ rho * x) (fst a)). { eapply ap_weaken; [| |eapply (ap_mul 1 0 20 22); [lra|lra|lia|exact Hb|apply (ap_exact 22 L x); auto]]; [lra|lia]. }
  assert (Ay : ap (21 / 10) 42 (/ rho * L) (/ rho * y) (snd a)). { eapply ap_weaken; [| |eapply (ap_mul 1 0 20 22); [lra|lra|lia|exact Hb|apply (ap_exact 22 L y); auto]]; [lra|lia]. }
  split; auto. split; auto. pose proof (ap_sum2 m (21 / 10) (21 / 10) 42 42 _ _ _ _ _ _ _ _ _ _ ltac:(lra) ltac:(lra) ltac:(lia) Ax Ax Ay Ay) as Hd. fold (dot64 m a a) in Hd.
  set (W := / rho * L * (/ rho * L)) in *. assert (W1 : 1 <= W). { assert (1 <= / rho * L). { apply Rmult_le_reg_l with rho; [lra|]. rewrite <- Rmult_assoc, Rinv_r by lra. lra. } unfold W. nra. }
  assert (SW : sc 84 W) by (apply (sc_mul 42 42); apply (sc_mul 20 22); auto; apply Hb). assert (F1' : fin f1) by (split; reflexivity).
  assert (H1 : ap 0 85 W 1 f1). { apply ap_exact; auto; [apply val_f1|rewrite Rabs_R1; auto|]. eapply sc_le; [|exact SW]. lia. }
  assert (Hs : ap (76 / 10) 86 (2 * W + W) (/ rho * x * (/ rho * x) + / rho * y * (/ rho * y) - 1) (SF64sub (dot64 m a a) f1)).
  { eapply ap_weaken; [| |eapply (ap_sub (65 / 10) 85); [lra|lia| |]]; [lra|lia| |].
    - eapply ap_weaken; [| |exact Hd]; [lra|lia].
    - eapply ap_weaken; [| |exact H1]; [lra|lia]. }
  replace (2 * W + W) with (3 * W) in Hs by ring. eapply ap_weaken; [| |eapply (ap_mul 0 (76 / 10) 22 86); [lra|lra|lia| |exact Hs]]; [lra|lia|]. apply ap_exact; auto. rewrite Rabs_right; lra.
Qed.

Hypotheses (G1 : on_grid2 0 1048576 C1) (G2 : on_grid2 0 1048576 C2) (H1 : on_grid 0 1048576 (c64_radius c1)) (H2 : on_grid 0 1048576 (c64_radius c2)) (P1 : 0 < r1) (P2 : 0 < r2).

Lemma cos64_ok : fin cos64 /\ Rabs (SF2R cos64 - (dist2 (P2R C1) (P2R C2) - r1 * r1 - r2 * r2) / (2 * r1 * r2)) <= 40 * u64 * ((S1 + S2) / (r1 * r2)).
Proof.
  destruct (half_part C1 (c64_radius c1) _ r1 G1 H1 eq_refl eq_refl P1) as (Q1 & E1 & SL1 & RL1 & B1 & AX1 & AY1 & D1).
  destruct (half_part C2 (c64_radius c2) _ r2 G2 H2 eq_refl eq_refl P2) as (Q2 & E2 & SL2 & RL2 & B2 & AX2 & AY2 & D2).
  fold x1 y1 r1 S1 x2 y2 r2 S2 in E1, E2, SL1, SL2, RL1, RL2, AX1, AY1, AX2, AY2, D1, D2. set (L1 := sqrt S1) in *. set (L2 := sqrt S2) in *. cbv zeta in *. unfold cos64. cbv zeta.
  set (b1 := SF64div f1 (c64_radius c1)) in *. set (b2 := SF64div f1 (c64_radius c2)) in *. set (a1 := (SF64mul b1 (fst C1), SF64mul b1 (snd C1))) in *. set (a2 := (SF64mul b2 (fst C2), SF64mul b2 (snd C2))) in *.
  set (p1 := SF64mul (c64_radius c1) (SF64sub (dot64 m a1 a1) f1)) in *. set (p2 := SF64mul (c64_radius c2) (SF64sub (dot64 m a2 a2) f1)) in *.
  pose proof (ap_half (1 + 87 / 10 + 11 / 10) (20 + 109) _ _ _ ltac:(lra) ltac:(lia) (ap_mul 1 (87 / 10) 20 109 _ _ _ _ _ _ ltac:(lra) ltac:(lra) ltac:(lia) B1 D2)) as T1.
  pose proof (ap_half (1 + 87 / 10 + 11 / 10) (20 + 109) _ _ _ ltac:(lra) ltac:(lia) (ap_mul 1 (87 / 10) 20 109 _ _ _ _ _ _ ltac:(lra) ltac:(lra) ltac:(lia) B2 D1)) as T2.
  pose proof (ap_add (1 + 87 / 10 + 11 / 10 + 11 / 10) (20 + 109 + 1) _ _ _ _ _ _ ltac:(lra) ltac:(lia) T1 T2) as T3. cbv iota in T3.
  pose proof (ap_sum2 m (21 / 10) (21 / 10) 42 42 _ _ _ _ _ _ _ _ _ _ ltac:(lra) ltac:(lra) ltac:(lia) AX1 AX2 AY1 AY2) as T4. fold (dot64 m a1 a2) in T4.
  pose proof (ap_sub (1 + 87 / 10 + 11 / 10 + 11 / 10 + 11 / 10) (20 + 109 + 1 + 1) _ _ _ _ _ _ ltac:(lra) ltac:(lia) T3 (ap_weaken (21 / 10 + 21 / 10 + 22 / 10) (1 + 87 / 10 + 11 / 10 + 11 / 10 + 11 / 10) (42 + 42 + 1) (20 + 109 + 1 + 1) _ _ _ ltac:(lra) ltac:(lia) T4)) as T5. cbv iota in T5.
  destruct T5 as (F & E & _ & _). split; [exact F|]. clear T1 T2 T3 T4 B1 B2 AX1 AX2 AY1 AY2 D1 D2. set (z := SF2R _) in E |- *. clearbody z.
  assert (K : 0 < / (r1 * r2)) by (apply Rinv_0_lt_compat, Rmult_lt_0_compat; lra). assert (L12 : 2 * (L1 * L2) <= S1 + S2) by (rewrite <- E1, <- E2; pose proof (Rle_0_sqr (L1 - L2)) as Sq; unfold Rsqr in Sq; lra).
  match type of E with Rabs (_ - ?v) <= _ => replace ((dist2 (P2R C1) (P2R C2) - r1 * r1 - r2 * r2) / (2 * r1 * r2)) with v end.
  2: { unfold dist2, P2R. unspec. fold x1 y1 x2 y2. field. lra. }
  eapply Rle_trans; [exact E|]. pose proof u_bounds as U.
  match goal with |- _ * (u64 * ?v) <= _ => replace v with ((3 / 2 * (L1 * L1 + L2 * L2) + 2 * (L1 * L2)) * / (r1 * r2)) by (field; lra) end. rewrite E1, E2. replace ((S1 + S2) / (r1 * r2)) with ((S1 + S2) * / (r1 * r2)) by reflexivity.
  set (k := / (r1 * r2)) in *. assert ((3 / 2 * (S1 + S2) + 2 * (L1 * L2)) * k <= 5 / 2 * (S1 + S2) * k) by (apply Rmult_le_compat_r; lra).
  assert (0 <= (S1 + S2) * k). { apply Rmult_le_pos; [|lra]. rewrite <- E1, <- E2. nra. }
  assert (u64 * ((3 / 2 * (S1 + S2) + 2 * (L1 * L2)) * k) <= u64 * (5 / 2 * (S1 + S2) * k)) by (apply Rmult_le_compat_l; lra). assert (0 <= u64 * ((S1 + S2) * k)) by (apply Rmult_le_pos; lra).
  lra.
Qed.
End Cos.

(** ** The angle *)

Lemma fin_opp1 : fin (SFopp f1) /\ SF2R (SFopp f1) = -1.
Proof. split; [split; reflexivity|]. pose proof val_f1 as V. unfold f1 in *. cbn [SFopp SF2R sgnR negb] in *. lra. Qed.

Lemma crossing O1 r1 O2 r2 M N : 0 < r1 -> 0 < r2 -> (O1, r1) <> (O2, r2) -> M <> N -> on_circle O1 r1 M /\ on_circle O2 r2 M -> on_circle O1 r1 N /\ on_circle O2 r2 N ->
  (r1 - r2) * (r1 - r2) < dist2 O1 O2 < (r1 + r2) * (r1 + r2).
Proof.
  intros R1 R2 Ne MN HM HN.
  assert (B : (r1 - r2) * (r1 - r2) <= dist2 O1 O2 <= (r1 + r2) * (r1 + r2)). { split; apply Rnot_lt_le; intros Q; [apply (common_none O1 O2 r1 r2 R1 R2 (or_introl Q) M HM)|apply (common_none O1 O2 r1 r2 R1 R2 (or_intror Q) M HM)]. }
  assert (D : 0 < dist2 O1 O2). { destruct (Rle_lt_or_eq_dec 0 _ (dist2_nonneg O1 O2)) as [|E]; auto. exfalso. apply Ne. rewrite <- E in B. pose proof (Rle_0_sqr (r1 - r2)) as S. unfold Rsqr in S. assert (Z : (r1 - r2) * (r1 - r2) = 0) by lra. apply Rmult_integral in Z. f_equal; [apply dist2_zero; auto|destruct Z; lra]. }
  destruct (Req_dec (dist2 O1 O2) ((r1 + r2) * (r1 + r2))) as [E|E1]; [|destruct (Req_dec (dist2 O1 O2) ((r1 - r2) * (r1 - r2))) as [E|E2]; [|lra]].
  - exfalso. destruct (common_one O1 O2 r1 r2 R1 R2 D ltac:(lra)) as (X & _ & U). apply MN. rewrite (U M HM), (U N HN). reflexivity.
  - exfalso. destruct (common_one O1 O2 r1 r2 R1 R2 D ltac:(lra)) as (X & _ & U). apply MN. rewrite (U M HM), (U N HN). reflexivity.
Qed.

Lemma angle64_value acosf atan2f : libm_acos_atan2 acosf atan2f -> forall m c1 c2 M N,
  on_grid2 0 1048576 (c64_center c1) -> on_grid2 0 1048576 (c64_center c2) -> on_grid 0 1048576 (c64_radius c1) -> on_grid 0 1048576 (c64_radius c2) ->
  let O1 := P2R (c64_center c1) in let O2 := P2R (c64_center c2) in let r1 := SF2R (c64_radius c1) in let r2 := SF2R (c64_radius c2) in
  0 < r1 -> 0 < r2 -> (O1, r1) <> (O2, r2) -> M <> N -> on_circle O1 r1 M /\ on_circle O2 r2 M -> on_circle O1 r1 N /\ on_circle O2 r2 N ->
  exists a, circle_angle64 m acosf c1 c2 = Ok (Some a) /\ fin a /\
    - 8 * u64 <= SF2R a <= PI + 8 * u64 /\
    Rabs (cos (SF2R a) - sdot (vsub M O1) (vsub O2 M) / (r1 * r2)) <= 40 * u64 * ((dist2 (0, 0) O1 + dist2 (0, 0) O2 + r1 * r1 + r2 * r2) / (r1 * r2)) + 8 * u64.
Proof.
  intros (HA & _) m c1 c2 M N G1 G2 H1 H2 O1 O2 r1 r2 R1 R2 Ne MN HM HN. pose proof (crossing O1 r1 O2 r2 M N R1 R2 Ne MN HM HN) as X.
  pose proof (apart64_int m c1 c2 G1 G2 H1 H2) as A. cbv zeta in A. rewrite d2R_dist2 in A. fold O1 O2 r1 r2 in A. unfold circle_angle64. cbv zeta. destruct (apart64 _ _ _); [exfalso; destruct (proj1 A eq_refl); lra|].
  fold (cos64 m c1 c2). destruct (cos64_ok m c1 c2 G1 G2 H1 H2 R1 R2) as (F & E). fold O1 O2 r1 r2 in E.
  set (S := dist2 (0, 0) O1 + dist2 (0, 0) O2 + r1 * r1 + r2 * r2).
  match type of E with _ <= 40 * u64 * (?s / _) => replace s with S in E by (unfold S, O1, O2, P2R; unspec; unfold r1, r2; ring) end.
  set (ct := (dist2 O1 O2 - r1 * r1 - r2 * r2) / (2 * r1 * r2)) in *.
  assert (Ect : sdot (vsub M O1) (vsub O2 M) / (r1 * r2) = ct). { destruct HM as (HM1 & HM2). apply on_circle_sq in HM1; [|lra]. apply on_circle_sq in HM2; [|lra]. unfold ct. rewrite <- HM1, <- HM2. clear - R1 R2. unspec. field. lra. }
  pose proof u_bounds as U. assert (P : 0 < r1 * r2) by (apply Rmult_lt_0_compat; auto).
  destruct (cc_ints m c1 c2 G1 G2 H1 H2) as (kd & ks & kt & Bk & (Fd & Ed) & (Fs & Es) & (Ft & Et) & Dd & Ds & Dt). cbv zeta in *. rewrite d2R_dist2 in Dd. fold O1 O2 r1 r2 in Dd, Ds, Dt.
  rewrite Dd in X. rewrite Ds, Dt in X. destruct X as (X1 & X2). apply lt_IZR in X1, X2. assert (Y1 : IZR kt + 1 <= IZR kd) by (rewrite <- plus_IZR; apply IZR_le; lia). assert (Y2 : IZR kd + 1 <= IZR ks) by (rewrite <- plus_IZR; apply IZR_le; lia).
  rewrite <- Dd, <- Dt in Y1. rewrite <- Dd, <- Ds in Y2.
  assert (I : 0 < / (2 * (r1 * r2))) by (apply Rinv_0_lt_compat; lra).
  assert (C1 : -1 + / (2 * (r1 * r2)) <= ct <= 1 - / (2 * (r1 * r2))).
  { set (d := dist2 O1 O2) in *. assert (EE : ct = (d - r1 * r1 - r2 * r2) * / (2 * (r1 * r2))) by (unfold ct; field; lra). rewrite EE. clear EE. clearbody d. clear ct E Ect.
    assert (EJ : 2 * (r1 * r2) * / (2 * (r1 * r2)) = 1) by (field; lra). set (J := / (2 * (r1 * r2))) in *. clearbody J.
    assert ((- (2 * (r1 * r2)) + 1) * J <= (d - r1 * r1 - r2 * r2) * J) by (apply Rmult_le_compat_r; lra). assert ((d - r1 * r1 - r2 * r2) * J <= (2 * (r1 * r2) - 1) * J) by (apply Rmult_le_compat_r; lra). lra. }
  assert (BS : 0 <= S <= 10000000000000). { destruct G1 as ((_ & a & Ba & Ea) & (_ & b & Bb & Eb)), G2 as ((_ & c & Bc & Ec) & (_ & d & Bd & Ed')), H1 as (_ & e & Be & Ee), H2 as (_ & f & Bf & Ef). rewrite bp_0, Rmult_1_r in *. unfold S, O1, O2, P2R, r1, r2. unspec. cbn [fst snd]. rewrite Ea, Eb, Ec, Ed', Ee, Ef.
    assert (Sq : forall n, (Z.abs n <= 1048576)%Z -> 0 <= IZR n * IZR n <= 1100000000000). { intros n Hn. rewrite <- mult_IZR. assert (PP := zprod n n _ Hn Hn). pose proof (Z.square_nonneg n). split; apply IZR_le; lia. }
    pose proof (Sq a Ba). pose proof (Sq b Bb). pose proof (Sq c Bc). pose proof (Sq d Bd). pose proof (Sq e Be). pose proof (Sq f Bf). lra. }
  assert (BE : 40 * u64 * (S / (r1 * r2)) <= / (2 * (r1 * r2))). { replace (40 * u64 * (S / (r1 * r2))) with (80 * u64 * S * / (2 * (r1 * r2))) by (field; lra). rewrite <- (Rmult_1_l (/ (2 * (r1 * r2)))) at 2. apply Rmult_le_compat_r; [lra|]. assert (u64 * S <= / 9000000000000000 * 10000000000000) by (apply Rmult_le_compat; lra). lra. }
  assert (Rg : -1 <= SF2R (cos64 m c1 c2) <= 1) by (assert (E' := E); apply abs_bounds in E'; lra).
  destruct (HA _ F Rg) as (Fa & Ea). exists (acosf (cos64 m c1 c2)). split.
  { unfold acos64. assert (F1 : fin f1) by (split; reflexivity). destruct (fin_opp1) as (F1' & V1). rewrite (proj2 (fle _ _ F1' F)), (proj2 (fle _ _ F F1)) by (rewrite ?V1, ?val_f1; lra). reflexivity. }
  split; auto. pose proof (acos_bound (SF2R (cos64 m c1 c2))) as AB. assert (Ea' := Ea). apply abs_bounds in Ea'. split; [lra|]. rewrite Ect.
  pose proof (cos_lip (SF2R (acosf (cos64 m c1 c2))) (acos (SF2R (cos64 m c1 c2)))) as CL. rewrite cos_acos in CL by auto.
  match goal with |- Rabs (?a - ct) <= _ => replace (a - ct) with ((a - SF2R (cos64 m c1 c2)) + (SF2R (cos64 m c1 c2) - ct)) by ring end. eapply Rle_trans; [apply Rabs_triang|]. lra.
Qed.
