(** * Exact computations: multiples of a power of two *)

From Coq Require Import Reals ZArith Lia Lra Psatz Bool SpecFloat.
From Verif Require Import SpecF64 Base Spec ModelFloat PFloat PFloat2 PFloat3 PFloat4 PFloatCircle PFloatLine.
Local Open Scope R_scope.

Lemma repr_pos p e s : (Zpos p < 2 ^ 53)%Z -> (-1074 <= e <= 971)%Z -> exists w, fin w /\ SF2R w = sgnR s * (IZR (Zpos p) * bp e).
Proof.
  intros Hp He. set (d := Zdigits2 (Zpos p)). assert (D : (0 < d <= 53)%Z) by (split; [apply Zdigits_pos; lia|apply Zdigits_le; lia]).
  set (e' := Z.max (d + e - 53) (-1074)). set (m := (Zpos p * 2 ^ (e - e'))%Z).
  assert (Le : (0 <= e - e')%Z) by lia. pose proof (Z.pow_pos_nonneg 2 (e - e') ltac:(lia) Le) as Pw. assert (Pm : (0 < m)%Z) by (unfold m; lia).
  assert (Dm : Zdigits2 m = (d + (e - e'))%Z) by (apply Zdigits_shift; lia).
  exists (S754_finite s (Z.to_pos m) e'). split.
  - split; [|reflexivity]. apply canonical_iff. change (Zpos (digits2_pos (Z.to_pos m))) with (Zdigits2 (Zpos (Z.to_pos m))). rewrite Z2Pos.id by auto. rewrite Dm, fexp64_eq. unfold e'. lia.
  - cbn [SF2R]. f_equal. rewrite Z2Pos.id by auto. unfold m. rewrite mult_IZR, <- (bp_IZR (e - e')) by auto. rewrite Rmult_assoc, <- bp_add. f_equal. f_equal. lia.
Qed.

(** k * 2^e is a binary64 number. *)
Lemma repr k e : (Z.abs k < 2 ^ 53)%Z -> (-1074 <= e <= 971)%Z -> exists w, fin w /\ SF2R w = IZR k * bp e.
Proof.
  intros Hk He. destruct k as [|p|p].
  - exists f0. split; [split; reflexivity|]. cbn. ring.
  - destruct (repr_pos p e false Hk He) as (w & F & E). exists w. split; auto. rewrite E. cbn [sgnR]. ring.
  - destruct (repr_pos p e true Hk He) as (w & F & E). exists w. split; auto. rewrite E. cbn [sgnR]. change (Zneg p) with (- Zpos p)%Z. rewrite opp_IZR. ring.
Qed.

Lemma rounds_repr z k e : rounds z (IZR k * bp e) -> (Z.abs k < 2 ^ 53)%Z -> (-1074 <= e <= 971)%Z -> fin z /\ SF2R z = IZR k * bp e.
Proof. intros H Hk He. destruct (repr k e Hk He) as (w & F & E). split; [apply (rounds_fin _ _ H)|]. rewrite <- E in H. rewrite <- E. apply (rounds_exact _ _ H F). Qed.

Lemma grid_big k g : (Z.abs k < 2 ^ 53)%Z -> (g <= 970)%Z -> Rabs (IZR k * bp g) <= bp 1023.
Proof.
  intros Hk Hg. rewrite Rabs_mult, (Rabs_right (bp g)) by (left; apply bp_pos). rewrite <- abs_IZR.
  apply Rle_trans with (bp 53 * bp g); [|rewrite <- bp_add; apply bp_le; lia]. apply Rmult_le_compat_r; [left; apply bp_pos|]. rewrite bp_IZR by lia. apply IZR_le. lia.
Qed.

Lemma add_grid x y a b g : fin x -> fin y -> SF2R x = IZR a * bp g -> SF2R y = IZR b * bp g -> (Z.abs (a + b) < 2 ^ 53)%Z -> (-1074 <= g <= 970)%Z ->
  fin (SF64add x y) /\ SF2R (SF64add x y) = IZR (a + b) * bp g.
Proof.
  intros Fx Fy Ex Ey H G. assert (E : SF2R x + SF2R y = IZR (a + b) * bp g) by (rewrite Ex, Ey, plus_IZR; ring).
  apply rounds_repr; try lia. rewrite <- E. apply fadd; auto. rewrite E. apply grid_big; lia.
Qed.

Lemma sub_grid x y a b g : fin x -> fin y -> SF2R x = IZR a * bp g -> SF2R y = IZR b * bp g -> (Z.abs (a - b) < 2 ^ 53)%Z -> (-1074 <= g <= 970)%Z ->
  fin (SF64sub x y) /\ SF2R (SF64sub x y) = IZR (a - b) * bp g.
Proof.
  intros Fx Fy Ex Ey H G. assert (E : SF2R x - SF2R y = IZR (a - b) * bp g) by (rewrite Ex, Ey, minus_IZR; ring).
  apply rounds_repr; try lia. rewrite <- E. apply fsub; auto. rewrite E. apply grid_big; lia.
Qed.

Lemma mul_grid x y a b g h : fin x -> fin y -> SF2R x = IZR a * bp g -> SF2R y = IZR b * bp h -> (Z.abs (a * b) < 2 ^ 53)%Z -> (-1074 <= g + h <= 970)%Z ->
  fin (SF64mul x y) /\ SF2R (SF64mul x y) = IZR (a * b) * bp (g + h).
Proof.
  intros Fx Fy Ex Ey H G. assert (E : SF2R x * SF2R y = IZR (a * b) * bp (g + h)) by (rewrite Ex, Ey, mult_IZR, bp_add; ring).
  apply rounds_repr; try lia. rewrite <- E. apply fmul; auto. rewrite E. apply grid_big; lia.
Qed.

Lemma sum2_grid m x y z w a b c d g h : fin x -> fin y -> fin z -> fin w -> SF2R x = IZR a * bp g -> SF2R y = IZR b * bp h -> SF2R z = IZR c * bp g -> SF2R w = IZR d * bp h ->
  (Z.abs (a * b) < 2 ^ 53)%Z -> (Z.abs (c * d) < 2 ^ 53)%Z -> (Z.abs (a * b + c * d) < 2 ^ 53)%Z -> (-1074 <= g + h <= 970)%Z ->
  fin (sum2 m x y z w) /\ SF2R (sum2 m x y z w) = IZR (a * b + c * d) * bp (g + h).
Proof.
  intros Fx Fy Fz Fw Ex Ey Ez Ew H1 H2 H3 G.
  destruct (mul_grid x y a b g h Fx Fy Ex Ey H1 G) as (F1 & E1). destruct (mul_grid z w c d g h Fz Fw Ez Ew H2 G) as (F2 & E2).
  destruct m; cbn [sum2].
  - apply add_grid; auto.
  - assert (E : SF2R x * SF2R y + SF2R (SF64mul z w) = IZR (a * b + c * d) * bp (g + h)) by (rewrite E2, Ex, Ey, plus_IZR, !mult_IZR, bp_add; ring).
    apply rounds_repr; auto; try lia. rewrite <- E. apply ffma; auto. rewrite E. apply grid_big; auto; lia.
  - assert (E : SF2R z * SF2R w + SF2R (SF64mul x y) = IZR (a * b + c * d) * bp (g + h)) by (rewrite E1, Ez, Ew, plus_IZR, !mult_IZR, bp_add; ring).
    apply rounds_repr; auto; try lia. rewrite <- E. apply ffma; auto. rewrite E. apply grid_big; auto; lia.
Qed.

(** ** Orientation *)

Lemma sign_of val s : fin val -> (SF2R val = s) ->
  let o := if SFeqb val f0 then 0%Z else if SFltb f0 val then 1%Z else (-1)%Z in
  (o = 1%Z <-> 0 < s) /\ (o = 0%Z <-> s = 0) /\ (o = (-1)%Z <-> s < 0).
Proof.
  intros F E o. assert (F0 : fin f0) by (split; reflexivity). pose proof (feq val f0 F F0) as Q. pose proof (flt f0 val F0 F) as L. change (SF2R f0) with 0 in Q, L. rewrite E in Q, L. unfold o.
  destruct (SFeqb val f0); [|destruct (SFltb f0 val)].
  - assert (s = 0) by (apply Q; auto). subst. split; [|split]; split; intros; try lra; try lia.
  - assert (0 < s) by (apply L; auto). split; [|split]; split; intros; try lra; try lia.
  - assert (s <> 0) by (intros K; apply Q in K; discriminate). assert (~ 0 < s) by (intros K; apply L in K; discriminate). split; [|split]; split; intros; try lra; try lia.
Qed.

Ltac zabs := repeat match goal with H : (Z.abs _ <= _)%Z |- _ => apply Z.abs_le in H end.

Lemma zprod a b M : (Z.abs a <= M -> Z.abs b <= M -> Z.abs (a * b) <= M * M)%Z.
Proof. intros. rewrite Z.abs_mul. apply Z.mul_le_mono_nonneg; lia. Qed.

Lemma zprod2 a b M N : (Z.abs a <= M -> Z.abs b <= N -> Z.abs (a * b) <= M * N)%Z.
Proof. intros. rewrite Z.abs_mul. apply Z.mul_le_mono_nonneg; lia. Qed.

Lemma nn N : (0 <= N < 2 ^ 25 -> 8 * (N * N) < 2 ^ 53)%Z.
Proof. intros H. assert (N * N <= 33554431 * 33554431)%Z by (apply Z.mul_le_mono_nonneg; lia). lia. Qed.

Lemma orientation64_grid g N A B C : (0 <= N < 2 ^ 25)%Z -> (-537 <= g <= 400)%Z -> on_grid2 g N A -> on_grid2 g N B -> on_grid2 g N C ->
  let V := - scross (vsub (P2R B) (P2R A)) (vsub (P2R C) (P2R A)) in
  (orientation64 A B C = 1%Z <-> 0 < V) /\ (orientation64 A B C = 0%Z <-> V = 0) /\ (orientation64 A B C = (-1)%Z <-> V < 0).
Proof.
  intros HN Hg ((Fa0 & a0 & Ba0 & Ea0) & (Fa1 & a1 & Ba1 & Ea1)) ((Fb0 & b0 & Bb0 & Eb0) & (Fb1 & b1 & Bb1 & Eb1)) ((Fc0 & c0 & Bc0 & Ec0) & (Fc1 & c1 & Bc1 & Ec1)) V.
  destruct (sub_grid _ _ _ _ g Fb1 Fa1 Eb1 Ea1 ltac:(lia) ltac:(lia)) as (F1 & E1). destruct (sub_grid _ _ _ _ g Fc0 Fb0 Ec0 Eb0 ltac:(lia) ltac:(lia)) as (F2 & E2).
  destruct (sub_grid _ _ _ _ g Fb0 Fa0 Eb0 Ea0 ltac:(lia) ltac:(lia)) as (F3 & E3). destruct (sub_grid _ _ _ _ g Fc1 Fb1 Ec1 Eb1 ltac:(lia) ltac:(lia)) as (F4 & E4).
  assert (P1 := zprod (b1 - a1) (c0 - b0) (2 * N) ltac:(lia) ltac:(lia)). assert (P2 := zprod (b0 - a0) (c1 - b1) (2 * N) ltac:(lia) ltac:(lia)).
  assert (NN : (8 * (N * N) < 2 ^ 53)%Z) by (apply nn; lia).
  destruct (mul_grid _ _ _ _ g g F1 F2 E1 E2 ltac:(lia) ltac:(lia)) as (F5 & E5). destruct (mul_grid _ _ _ _ g g F3 F4 E3 E4 ltac:(lia) ltac:(lia)) as (F6 & E6).
  destruct (sub_grid _ _ _ _ _ F5 F6 E5 E6 ltac:(lia) ltac:(lia)) as (F7 & E7).
  apply (sign_of _ V F7). rewrite E7. unfold V, scross, vsub, P2R. cbn [fst snd]. rewrite Ea0, Ea1, Eb0, Eb1, Ec0, Ec1, minus_IZR, !mult_IZR, !minus_IZR, bp_add. ring.
Qed.

(** ** Circles *)

Lemma dist2_grid m g N P Q : (0 <= N < 2 ^ 25)%Z -> (-537 <= g <= 400)%Z -> on_grid2 g N P -> on_grid2 g N Q ->
  let v := fp_sub P Q in exists k, (0 <= k < 2 ^ 53)%Z /\ fin (dot64 m v v) /\ SF2R (dot64 m v v) = IZR k * bp (g + g) /\ d2R P Q = IZR k * bp (g + g).
Proof.
  intros HN Hg ((Fa0 & a0 & Ba0 & Ea0) & (Fa1 & a1 & Ba1 & Ea1)) ((Fb0 & b0 & Bb0 & Eb0) & (Fb1 & b1 & Bb1 & Eb1)) v.
  destruct (sub_grid _ _ _ _ g Fa0 Fb0 Ea0 Eb0 ltac:(lia) ltac:(lia)) as (F1 & E1). destruct (sub_grid _ _ _ _ g Fa1 Fb1 Ea1 Eb1 ltac:(lia) ltac:(lia)) as (F2 & E2).
  assert (P1 := zprod (a0 - b0) (a0 - b0) (2 * N) ltac:(lia) ltac:(lia)). assert (P2 := zprod (a1 - b1) (a1 - b1) (2 * N) ltac:(lia) ltac:(lia)).
  assert (NN : (8 * (N * N) < 2 ^ 53)%Z) by (apply nn; lia). pose proof (Z.square_nonneg (a0 - b0)). pose proof (Z.square_nonneg (a1 - b1)).
  exists ((a0 - b0) * (a0 - b0) + (a1 - b1) * (a1 - b1))%Z. split; [lia|].
  destruct (sum2_grid m _ _ _ _ _ _ _ _ g g F1 F1 F2 F2 E1 E1 E2 E2 ltac:(lia) ltac:(lia) ltac:(lia) ltac:(lia)) as (F3 & E3).
  split; [exact F3|]. split; [exact E3|]. unfold d2R. rewrite Ea0, Ea1, Eb0, Eb1, plus_IZR, !mult_IZR, !minus_IZR, bp_add. ring.
Qed.

Lemma square_grid g r : (-537 <= g <= 400)%Z -> on_grid g 94906265 r -> exists k, (0 <= k < 2 ^ 53)%Z /\ fin (SF64mul r r) /\ SF2R (SF64mul r r) = IZR k * bp (g + g) /\ SF2R r * SF2R r = IZR k * bp (g + g).
Proof.
  intros Hg (F & n & B & E). assert (P := zprod n n _ B B). pose proof (Z.square_nonneg n). exists (n * n)%Z. split; [lia|].
  destruct (mul_grid r r n n g g F F E E ltac:(lia) ltac:(lia)) as (F1 & E1). split; auto. split; auto. rewrite E, mult_IZR, bp_add. ring.
Qed.

Lemma contains64_grid m g N c P : (0 <= N < 2 ^ 25)%Z -> (-537 <= g <= 400)%Z -> on_grid2 g N (c64_center c) -> on_grid2 g N P -> on_grid g 94906265 (c64_radius c) ->
  (circle_contains64 m c P = true <-> d2R P (c64_center c) <= SF2R (c64_radius c) * SF2R (c64_radius c)) /\
  SF2R (circle_power64 m c P) = d2R P (c64_center c) - SF2R (c64_radius c) * SF2R (c64_radius c).
Proof.
  intros HN Hg GC GP GR. destruct (dist2_grid m g N P _ HN Hg GP GC) as (k & Bk & Fk & Ek & Dk). destruct (square_grid g _ Hg GR) as (l & Bl & Fl & El & Sl). split.
  - unfold circle_contains64. rewrite (fle _ _ Fk Fl), Ek, El, Dk, Sl. tauto.
  - unfold circle_power64. destruct (sub_grid _ _ _ _ _ Fk Fl Ek El ltac:(lia) ltac:(lia)) as (_ & E). rewrite E, Dk, Sl, minus_IZR. ring.
Qed.

(** For integers up to 10000 the tolerance of [includes] is smaller than 1. *)
Lemma on_grid_moderate N P : (N < 2 ^ 53)%Z -> on_grid2 0 N P -> moderate P.
Proof.
  intros HN ((F0 & n0 & B0 & E0) & (F1 & n1 & B1 & E1)).
  assert (K : forall n, (Z.abs n <= N)%Z -> Rabs (IZR n * bp 0) <= bp 500). { intros n B. rewrite bp_0, Rmult_1_r, <- abs_IZR. apply Rle_trans with (bp 53); [rewrite bp_IZR by lia; apply IZR_le; lia|apply bp_le; lia]. }
  split; split; auto; rewrite ?E0, ?E1; auto.
Qed.

Lemma includes64_grid m c P : on_grid2 0 10000 (c64_center c) -> on_grid2 0 10000 P -> on_grid 0 30000 (c64_radius c) ->
  (circle_includes64 m c P = true <-> d2R P (c64_center c) = SF2R (c64_radius c) * SF2R (c64_radius c)).
Proof.
  intros GC GP GR. assert (GR' : on_grid 0 94906265 (c64_radius c)) by (destruct GR as (F & n & B & E); split; auto; exists n; split; auto; lia).
  destruct (dist2_grid m 0 10000 P _ ltac:(lia) ltac:(lia) GP GC) as (k & Bk & Fk & Ek & Dk). destruct (square_grid 0 _ ltac:(lia) GR') as (l & Bl & Fl & El & Sl).
  assert (MC := on_grid_moderate 10000 _ ltac:(lia) GC). assert (MP := on_grid_moderate 10000 _ ltac:(lia) GP). destruct GR as (FR & n & Bn & En).
  assert (BR : Rabs (SF2R (c64_radius c)) <= bp 502). { rewrite En, bp_0, Rmult_1_r, <- abs_IZR. apply Rle_trans with (bp 53); [rewrite bp_IZR by lia; apply IZR_le; lia|apply bp_le; lia]. }
  destruct (includes64_ok m c P MC FR BR MP) as (K1 & K2). change (0 + 0)%Z with 0%Z in *. rewrite bp_0, !Rmult_1_r in *.
  assert (Bl' : (l <= 900000000)%Z). { apply le_IZR. rewrite <- Sl, En. rewrite <- mult_IZR. apply IZR_le. pose proof (zprod n n _ Bn Bn). lia. }
  assert (Bk' : (k <= 800000000)%Z).
  { destruct GC as ((_ & a0 & B0 & E0) & (_ & a1 & B1 & E1)), GP as ((_ & b0 & C0 & G0) & (_ & b1 & C1 & G1)). apply le_IZR. rewrite <- Dk. unfold d2R. rewrite E0, E1, G0, G1, bp_0, !Rmult_1_r, <- !minus_IZR, <- !mult_IZR, <- plus_IZR. apply IZR_le.
    pose proof (zprod (b0 - a0) (b0 - a0) 20000 ltac:(lia) ltac:(lia)). pose proof (zprod (b1 - a1) (b1 - a1) 20000 ltac:(lia) ltac:(lia)). lia. }
  rewrite Dk, Sl in *. split; intros H.
  - apply K1 in H. assert (Mx : Rmax (IZR k) (IZR l) <= IZR 900000000) by (apply Rmax_lub; apply IZR_le; lia).
    f_equal. rewrite <- minus_IZR, <- abs_IZR in H. assert (IZR (Z.abs (k - l)) < 1) by lra. apply (lt_IZR _ 1) in H0. lia.
  - apply K2. rewrite H. unfold Rminus. rewrite Rplus_opp_r, Rabs_R0. pose proof (Rmax_l (IZR l) (IZR l)). assert (0 <= IZR l) by (apply IZR_le; lia). lra.
Qed.

(** ** Lines *)

(** [x] is k * 2^g with |k| <= M: rules that keep the bounds. *)
Definition gv (g M : Z) (x : spec_float) (k : Z) : Prop := fin x /\ (Z.abs k <= M)%Z /\ SF2R x = IZR k * bp g.

Lemma gv_sub g M N x y a b : (M + N < 2 ^ 53)%Z -> (-1074 <= g <= 970)%Z -> gv g M x a -> gv g N y b -> gv g (M + N) (SF64sub x y) (a - b).
Proof. intros H G (F1 & B1 & E1) (F2 & B2 & E2). destruct (sub_grid x y a b g F1 F2 E1 E2 ltac:(lia) G) as (F & E). split; auto. split; auto. lia. Qed.

Lemma gv_mul g h M N x y a b : (M * N < 2 ^ 53)%Z -> (-1074 <= g + h <= 970)%Z -> gv g M x a -> gv h N y b -> gv (g + h) (M * N) (SF64mul x y) (a * b).
Proof. intros H G (F1 & B1 & E1) (F2 & B2 & E2). pose proof (zprod2 a b M N B1 B2) as P. destruct (mul_grid x y a b g h F1 F2 E1 E2 ltac:(lia) G) as (F & E). split; auto. Qed.

Lemma gv_det g h M N r1 r2 a b c d : (M * N + M * N < 2 ^ 53)%Z -> (-1074 <= g + h <= 970)%Z ->
  gv g M (fst r1) a -> gv h N (snd r1) b -> gv g M (fst r2) c -> gv h N (snd r2) d -> gv (g + h) (M * N + M * N) (det64 r1 r2) (a * d - c * b).
Proof.
  intros H G G1 G2 G3 G4. assert (0 <= M * N)%Z by (destruct G1 as (_ & B1 & _), G2 as (_ & B2 & _); apply Z.mul_nonneg_nonneg; lia).
  unfold det64. apply gv_sub; auto; apply gv_mul; auto; lia.
Qed.

Lemma gv_of g N x : on_grid g N x -> exists k, gv g N x k.
Proof. intros (F & n & B & E). exists n. split; auto. Qed.

Lemma is_parallel64_grid N P1 P2 Q1 Q2 : (0 <= N < 2 ^ 25)%Z -> on_grid2 0 N P1 -> on_grid2 0 N P2 -> on_grid2 0 N Q1 -> on_grid2 0 N Q2 ->
  (is_parallel64 P1 P2 Q1 Q2 = true <-> scross (vsub (P2R P2) (P2R P1)) (vsub (P2R Q2) (P2R Q1)) = 0).
Proof.
  intros HN (Ga0 & Ga1) (Gb0 & Gb1) (Gc0 & Gc1) (Gd0 & Gd1). assert (NN : (8 * (N * N) < 2 ^ 53)%Z) by (apply nn; lia).
  apply gv_of in Ga0, Ga1, Gb0, Gb1, Gc0, Gc1, Gd0, Gd1. destruct Ga0 as (a0 & Ga0), Ga1 as (a1 & Ga1), Gb0 as (b0 & Gb0), Gb1 as (b1 & Gb1), Gc0 as (c0 & Gc0), Gc1 as (c1 & Gc1), Gd0 as (d0 & Gd0), Gd1 as (d1 & Gd1).
  assert (R0 : (N + N < 2 ^ 53)%Z) by lia. assert (R1 : (-1074 <= 0 <= 970)%Z) by lia.
  assert (R2 : ((N + N) * (N + N) + (N + N) * (N + N) < 2 ^ 53)%Z) by (clear - NN; lia).
  pose proof (gv_det 0 0 _ _ (fst P1 - fst P2, snd P1 - snd P2)%f64 (fst Q1 - fst Q2, snd Q1 - snd Q2)%f64 _ _ _ _ R2 R1 (gv_sub _ _ _ _ _ _ _ R0 R1 Ga0 Gb0) (gv_sub _ _ _ _ _ _ _ R0 R1 Ga1 Gb1) (gv_sub _ _ _ _ _ _ _ R0 R1 Gc0 Gd0) (gv_sub _ _ _ _ _ _ _ R0 R1 Gc1 Gd1)) as (F & _ & E).
  unfold is_parallel64. set (D := det64 _ _) in *. destruct (fabs D F) as (FA & EA). assert (FS : fin fsepsilon) by (split; reflexivity). rewrite (flt _ _ FA FS), EA, E.
  assert (VS : 0 < SF2R fsepsilon < 1) by (unfold fsepsilon; rewrite val_lit; change (2 ^ 78)%Z with 302231454903657293676544%Z; lra).
  change (0 + 0)%Z with 0%Z. rewrite bp_0, Rmult_1_r, <- abs_IZR.
  destruct Ga0 as (_ & _ & Ea0), Ga1 as (_ & _ & Ea1), Gb0 as (_ & _ & Eb0), Gb1 as (_ & _ & Eb1), Gc0 as (_ & _ & Ec0), Gc1 as (_ & _ & Ec1), Gd0 as (_ & _ & Ed0), Gd1 as (_ & _ & Ed1).
  replace (scross (vsub (P2R P2) (P2R P1)) (vsub (P2R Q2) (P2R Q1))) with (IZR ((a0 - b0) * (c1 - d1) - (c0 - d0) * (a1 - b1))) by (unfold scross, vsub, P2R; cbn [fst snd]; rewrite Ea0, Ea1, Eb0, Eb1, Ec0, Ec1, Ed0, Ed1, bp_0, !minus_IZR, !mult_IZR, !minus_IZR; ring).
  set (z := ((a0 - b0) * (c1 - d1) - (c0 - d0) * (a1 - b1))%Z). clearbody z. clear - VS. split; intros H.
  - assert (H' : IZR (Z.abs z) < 1) by lra. apply (lt_IZR _ 1) in H'. f_equal. lia.
  - apply (eq_IZR _ 0) in H. rewrite H. change (Z.abs 0) with 0%Z. lra.
Qed.

(** The intersection of two lines through integer points: parallel lines are recognised, and
    otherwise each coordinate is the binary64 number nearest to the exact one. *)
Lemma intersection64_grid g P1 P2 Q1 Q2 : (-300 <= g <= 200)%Z -> on_grid2 g 65536 P1 -> on_grid2 g 65536 P2 -> on_grid2 g 65536 Q1 -> on_grid2 g 65536 Q2 ->
  let u := vsub (P2R P2) (P2R P1) in let v := vsub (P2R Q2) (P2R Q1) in
  (scross u v = 0 -> line_line_intersection64 P1 P2 Q1 Q2 = None) /\
  (scross u v <> 0 -> exists I X, line_line_intersection64 P1 P2 Q1 Q2 = Some I /\
    scross u (vsub X (P2R P1)) = 0 /\ scross v (vsub X (P2R Q1)) = 0 /\ rounds (fst I) (fst X) /\ rounds (snd I) (snd X)).
Proof.
  intros Hg (Ga0 & Ga1) (Gb0 & Gb1) (Gc0 & Gc1) (Gd0 & Gd1) u v.
  apply gv_of in Ga0, Ga1, Gb0, Gb1, Gc0, Gc1, Gd0, Gd1. destruct Ga0 as (a0 & Ga0), Ga1 as (a1 & Ga1), Gb0 as (b0 & Gb0), Gb1 as (b1 & Gb1), Gc0 as (c0 & Gc0), Gc1 as (c1 & Gc1), Gd0 as (d0 & Gd0), Gd1 as (d1 & Gd1).
  assert (R0 : (65536 + 65536 < 2 ^ 53)%Z) by reflexivity. assert (R1 : (-1074 <= g <= 970)%Z) by lia. assert (R2 : (-1074 <= g + g <= 970)%Z) by lia. assert (R3 : (-1074 <= g + g + g <= 970)%Z) by lia.
  pose proof (gv_sub _ _ _ _ _ _ _ R0 R1 Ga0 Gb0) as X1. pose proof (gv_sub _ _ _ _ _ _ _ R0 R1 Ga1 Gb1) as Y1. pose proof (gv_sub _ _ _ _ _ _ _ R0 R1 Gc0 Gd0) as X2. pose proof (gv_sub _ _ _ _ _ _ _ R0 R1 Gc1 Gd1) as Y2.
  change (65536 + 65536)%Z with 131072%Z in *.
  pose proof (gv_det g g 131072 131072 (fst P1 - fst P2, snd P1 - snd P2)%f64 (fst Q1 - fst Q2, snd Q1 - snd Q2)%f64 _ _ _ _ eq_refl R2 X1 Y1 X2 Y2) as (F & _ & E).
  pose proof (gv_det g g 65536 65536 P1 P2 _ _ _ _ eq_refl R2 Ga0 Ga1 Gb0 Gb1) as D1. pose proof (gv_det g g 65536 65536 Q1 Q2 _ _ _ _ eq_refl R2 Gc0 Gc1 Gd0 Gd1) as D2.
  change (65536 * 65536 + 65536 * 65536)%Z with 8589934592%Z in D1, D2.
  pose proof (gv_det (g + g) g 8589934592 131072 (det64 P1 P2, (fst P1 - fst P2)%f64) (det64 Q1 Q2, (fst Q1 - fst Q2)%f64) _ _ _ _ eq_refl R3 D1 X1 D2 X2) as (G3 & B3 & H3).
  pose proof (gv_det (g + g) g 8589934592 131072 (det64 P1 P2, (snd P1 - snd P2)%f64) (det64 Q1 Q2, (snd Q1 - snd Q2)%f64) _ _ _ _ eq_refl R3 D1 Y1 D2 Y2) as (G4 & B4 & H4).
  change (8589934592 * 131072 + 8589934592 * 131072)%Z with 2251799813685248%Z in B3, B4.
  unfold line_line_intersection64. set (D := det64 (_ - _, _)%f64 _) in *. assert (FZ : fin f0) by (split; reflexivity).
  destruct Ga0 as (_ & _ & Ea0), Ga1 as (_ & _ & Ea1), Gb0 as (_ & _ & Eb0), Gb1 as (_ & _ & Eb1), Gc0 as (_ & _ & Ec0), Gc1 as (_ & _ & Ec1), Gd0 as (_ & _ & Ed0), Gd1 as (_ & _ & Ed1).
  clear X1 Y1 X2 Y2 D1 D2.
  set (kD := ((a0 - b0) * (c1 - d1) - (c0 - d0) * (a1 - b1))%Z) in *.
  assert (Cr : scross u v = IZR kD * bp (g + g)) by (unfold kD, scross, u, v, vsub, P2R; cbn [fst snd]; rewrite Ea0, Ea1, Eb0, Eb1, Ec0, Ec1, Ed0, Ed1, bp_add, !minus_IZR, !mult_IZR, !minus_IZR; ring).
  assert (DQ : SFeqb D f0 = true <-> scross u v = 0) by (rewrite (feq D f0 F FZ), E, Cr; reflexivity).
  split; intros H; [apply DQ in H; rewrite H; reflexivity|]. destruct (SFeqb D f0); [exfalso; apply H, DQ; reflexivity|]. clear DQ.
  set (nx := det64 _ (_, (fst Q1 - fst Q2)%f64)) in *. set (ny := det64 (det64 P1 P2, (snd P1 - snd P2)%f64) (det64 Q1 Q2, (snd Q1 - snd Q2)%f64)) in *.
  assert (KD : kD <> 0%Z) by (intros K; apply H; rewrite Cr, K; ring). assert (KDR : IZR kD <> 0) by (intros K; apply (eq_IZR _ 0) in K; auto).
  pose proof (bp_pos g) as Bg. pose proof (bp_pos (g + g)) as Bgg.
  assert (Quo : forall n k, fin n -> SF2R n = IZR k * bp (g + g + g) -> (Z.abs k <= 2251799813685248)%Z -> rounds (SF64div n D) (SF2R n / SF2R D)).
  { clear - R1 F E KD KDR Bg Bgg. intros n k Fn En Bk. apply fdiv; auto; rewrite E; [apply Rmult_integral_contrapositive_currified; lra|]. rewrite En, bp_add. replace (IZR k * (bp (g + g) * bp g) / (IZR kD * bp (g + g))) with (IZR k * bp g * / IZR kD) by (field; split; lra).
    assert (A1 : Rabs (/ IZR kD) <= 1). { rewrite Rabs_inv, <- abs_IZR. rewrite <- Rinv_1. apply Rinv_le_contravar; [lra|]. apply IZR_le. clear - KD. lia. }
    rewrite Rabs_mult. assert (GB := grid_big k g ltac:(clear - Bk; lia) ltac:(clear - R1; lia)). pose proof (Rabs_pos (IZR k * bp g)). pose proof (Rabs_pos (/ IZR kD)).
    eapply Rle_trans; [|exact GB]. rewrite <- (Rmult_1_r (Rabs (IZR k * bp g))) at 2. apply Rmult_le_compat_l; auto. }
  exists (SF64div nx D, SF64div ny D), (SF2R nx / SF2R D, SF2R ny / SF2R D). split; [reflexivity|]. cbn [fst snd].
  assert (Qx := Quo nx _ G3 H3 B3). assert (Qy := Quo ny _ G4 H4 B4). clear Quo. split; [|split; [|split; auto]].
  - unfold scross, u, vsub, P2R. cbn [fst snd]. rewrite H3, H4, E, Ea0, Ea1, Eb0, Eb1, !bp_add. unfold kD in *. rewrite !minus_IZR, !mult_IZR, !minus_IZR, !mult_IZR in *. field. split; lra.
  - unfold scross, v, vsub, P2R. cbn [fst snd]. rewrite H3, H4, E, Ec0, Ec1, Ed0, Ed1, !bp_add. unfold kD in *. rewrite !minus_IZR, !mult_IZR, !minus_IZR, !mult_IZR in *. field. split; lra.
Qed.
