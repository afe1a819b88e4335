(** * Homotheties and axis scalings as affine maps, in binary64: proofs *)

From Coq Require Import Reals ZArith Lia Lra Psatz Bool SpecFloat.
From Verif Require Import SpecF64 SpecFloatSame Base Spec BaseLemmas SpecLemmas ModelFloat ModelFloatTransfo ModelFloatAsAffine PFloat PFloat2 PFloat3 PFloat4 PFloatCircle PFloatGrid PFloatEx PFloatTransfo.
Local Open Scope R_scope.

Lemma add_comm64 x y : SF64add x y = SF64add y x \/ exists s t, SF64add x y = S754_zero s /\ SF64add y x = S754_zero t.
Proof.
  destruct x as [sx|sx| |sx mx ex], y as [sy|sy| |sy my ey]; try (left; reflexivity).
  - destruct sx, sy; left; reflexivity.
  - destruct sx, sy; left; reflexivity.
  - left. unfold SF64add, SFadd. rewrite (Z.min_comm ex ey). cbv zeta. rewrite Z.add_comm. reflexivity.
Qed.

Lemma add_zero_l t x : same (SF64add (S754_zero t) x) x.
Proof. destruct x as [s| | |]; try (left; reflexivity). destruct t, s; right; do 2 eexists; split; reflexivity. Qed.
Lemma add_zero_r t x : same (SF64add x (S754_zero t)) x.
Proof. destruct x as [s| | |]; try (left; reflexivity). destruct t, s; right; do 2 eexists; split; reflexivity. Qed.

Lemma mul_f0 y : is_finite y = true -> exists t, SF64mul f0 y = S754_zero t.
Proof. destruct y; try discriminate; intros _; eexists; reflexivity. Qed.
Lemma fma_zero x y t : SF64fma x y (S754_zero t) = SF64add (SF64mul x y) (S754_zero t).
Proof. destruct x, y; reflexivity. Qed.
Lemma fma_f0 y z : SF64fma f0 y z = SF64add (SF64mul f0 y) z.
Proof. destruct y; reflexivity. Qed.

Lemma sum2_f0_r m s x y : is_finite y = true -> same (sum2 m s x f0 y) (SF64mul s x).
Proof.
  intros F. destruct (mul_f0 y F) as (t & T). destruct m; cbn [sum2].
  - rewrite T. apply add_zero_r.
  - rewrite T, fma_zero. apply add_zero_r.
  - rewrite fma_f0, T. apply add_zero_l.
Qed.
Lemma sum2_f0_l m s x y : is_finite y = true -> same (sum2 m f0 y s x) (SF64mul s x).
Proof.
  intros F. destruct (mul_f0 y F) as (t & T). destruct m; cbn [sum2].
  - rewrite T. apply add_zero_l.
  - rewrite fma_f0, T. apply add_zero_l.
  - rewrite T, fma_zero. apply add_zero_r.
Qed.

Lemma same_add x y b : same x y -> same (SF64add x b) (SF64add b y).
Proof.
  intros [E|(s & t & E1 & E2)].
  - subst y. exact (add_comm64 x b).
  - subst x y. destruct b as [r|r| |r n e]; try (left; reflexivity). destruct s, t, r; right; do 2 eexists; split; reflexivity.
Qed.

Lemma homothety_as_affine64_same m1 m2 O s M : fin2 M -> same2 (affine_transform64 m1 m2 (homothety_as_affine64 O s) M) (homothety64 O s M).
Proof.
  intros ((_ & F0) & (_ & F1)). unfold affine_transform64, homothety_as_affine64, affine64, homothety64, fp_map2. cbn [a64_row1 a64_row2 a64_b fst snd]. split; cbn [fst snd]; apply same_add.
  - apply sum2_f0_r. exact F1.
  - apply sum2_f0_l. exact F0.
Qed.

(** ** Axis scalings *)

Lemma scl_on_grid g K N s o m : (0 <= K)%Z -> (0 <= N)%Z -> ((2 * K + 1) * N < 2 ^ 53)%Z -> (2 * N < 2 ^ 53)%Z -> (-1074 <= g <= 970)%Z -> on_grid 0 K s -> on_grid g N o -> on_grid g 0 m ->
  on_grid g ((K + 1) * N) (SF64add (SF64mul s (SF64sub m o)) o).
Proof.
  intros HK HN HB HK2 HG (Fs & k & Bk & Ek) (Fo & o' & Bo & Eo) (Fm & m' & Bm & Em).
  destruct (sub_grid m o _ _ _ Fm Fo Em Eo ltac:(lia) ltac:(lia)) as (F1 & H1). assert (X1 : (Z.abs (k * (m' - o')) <= K * N)%Z) by (apply zb; lia).
  destruct (mul_grid s _ _ _ _ _ Fs F1 Ek H1 ltac:(nia) ltac:(lia)) as (F2 & H2). destruct (add_grid _ o _ _ _ F2 Fo H2 Eo ltac:(nia) ltac:(lia)) as (F4 & H4).
  split; [exact F4|]. exists (k * (m' - o') + o')%Z. split; [lia|]. rewrite H4. reflexivity.
Qed.

Lemma scaling_xy_as_affine64_grid m1 m2 g K N O sx sy M : (0 <= K)%Z -> (0 <= N)%Z -> ((2 * K + 1) * ((K + 1) * N) < 2 ^ 53)%Z -> (2 * N < 2 ^ 53)%Z -> (-1074 <= g <= 970)%Z -> on_grid2 0 K (sx, sy) -> on_grid2 g N O -> on_grid2 g N M ->
  P2R (affine_transform64 m1 m2 (scaling_xy_as_affine64 O sx sy) M) = P2R (scaling_xy64 O sx sy M).
Proof.
  intros HK HN HB HK2 HG (S0 & S1) GO GM. cbn [fst snd] in S0, S1. assert (HB' : ((2 * K + 1) * N < 2 ^ 53)%Z) by nia.
  assert (Z0 : on_grid g 0 f0) by (split; [apply fin_f0|exists 0%Z; split; [lia|rewrite val_f0; ring]]). assert (Zn : forall h B, (0 <= B)%Z -> on_grid h B f0) by (intros h B HBd; split; [apply fin_f0|exists 0%Z; split; [lia|rewrite val_f0; ring]]).
  assert (GZ : on_grid2 g N (f0, f0)) by (split; apply Zn; auto).
  rewrite (scaling_xy64_grid g K N O sx sy M HK HN HB' HK2 HG (conj S0 S1) GO GM). unfold affine_transform64, scaling_xy_as_affine64. cbn [a64_row1 a64_row2 a64_b fst snd].
  assert (Gb : on_grid2 g ((K + 1) * N) (scaling_xy64 O sx sy (f0, f0))). { destruct GO as (O0 & O1). split; unfold scaling_xy64, fp_sub, fp_map2; cbn [fst snd]; apply (scl_on_grid g K N); auto. }
  assert (W : forall x, on_grid g N x -> on_grid g ((K + 1) * N) x) by (intros x (F & n & B & E); split; [exact F|exists n; split; [nia|exact E]]).
  rewrite (affine64_grid m1 m2 g K ((K + 1) * N) sx f0 f0 sy _ M HK ltac:(nia) HB HG (conj S0 (Zn 0%Z K HK)) (conj (Zn 0%Z K HK) S1) Gb (conj (W _ (proj1 GM)) (W _ (proj2 GM)))).
  pose proof (scaling_xy64_grid g K N O sx sy (f0, f0) HK HN HB' HK2 HG (conj S0 S1) GO GZ) as V. cbn [fst snd] in V. rewrite val_f0 in V. revert V. generalize (scaling_xy64 O sx sy (f0, f0)). intros b V. unfold P2R in V. injection V as V0 V1. rewrite V0, V1, val_f0. f_equal; ring.
Qed.

Lemma scaling_xy_as_affine64_refuted m1 m2 : exists O sx sy, moderate O /\ moderate (sx, sy) /\ P2R (scaling_xy64 O sx sy O) = P2R O /\ P2R (affine_transform64 m1 m2 (scaling_xy_as_affine64 O sx sy) O) <> P2R O.
Proof.
  exists (fq 1 10, fz 0), (fz 4), (fz 1). assert (M0 : moderate (fq 1 10, fz 0)) by apply fq_moderate1. assert (M1 : moderate (fz 4, fz 1)) by (apply fzm; lia). split; [exact M0|]. split; [exact M1|].
  split; [apply scaling_xy64_centre; [exact M0|exact (proj1 M1)]|]. intro E. apply (f_equal fst) in E. cbn [fst P2R] in E.
  revert E. destruct m1; apply sf_neq; [split; reflexivity|split; reflexivity|reflexivity|split; reflexivity|split; reflexivity|reflexivity|split; reflexivity|split; reflexivity|reflexivity].
Qed.

Lemma affine_transform64_grid m1 m2 g K N f M : (0 <= K)%Z -> (0 <= N)%Z -> ((2 * K + 1) * N < 2 ^ 53)%Z -> (-1074 <= g <= 970)%Z -> on_grid2 0 K (a64_row1 f) -> on_grid2 0 K (a64_row2 f) -> on_grid2 g N (a64_b f) -> on_grid2 g N M ->
  P2R (affine_transform64 m1 m2 f M) = vadd (sdot (P2R (a64_row1 f)) (P2R M), sdot (P2R (a64_row2 f)) (P2R M)) (P2R (a64_b f)).
Proof.
  intros HK HN HB HG G1 G2 Gb GM. unfold affine_transform64. destruct f as [[a b] [c d] e]. cbn [a64_row1 a64_row2 a64_b fst snd] in *.
  rewrite (affine64_grid m1 m2 g K N a b c d e M HK HN HB HG G1 G2 Gb GM). reflexivity.
Qed.
