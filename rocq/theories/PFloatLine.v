(** * Lines in binary64: collinearity *)

From Coq Require Import Reals ZArith Lia Lra Psatz Bool SpecFloat.
From Verif Require Import SpecF64 Base Spec ModelFloat PFloat PFloat2 PFloat3 PFloat4 PFloatCircle.
Local Open Scope R_scope.

(** ** Absorption: the next number of the format *)

Lemma gap a w : fin a -> fin w -> 0 < SF2R a -> SF2R a < SF2R w -> SF2R a + u64 * SF2R a < SF2R w.
Proof.
  intros (Va & Fa) (Vw & Fw) Ha Hw. destruct a as [s|s| |s m e]; try discriminate; [cbn in Ha; lra|]. destruct w as [t|t| |t n f]; try discriminate; [cbn [SF2R] in Hw, Ha; lra|].
  assert (Ps : s = false). { destruct s; auto. exfalso. cbn [SF2R sgnR] in Ha. pose proof (bp_pos e). assert (0 < IZR (Zpos m)) by (apply IZR_lt; lia). nra. }
  assert (Pt : t = false). { destruct t; auto. exfalso. cbn [SF2R sgnR] in Hw, Ha. pose proof (bp_pos f). assert (0 < IZR (Zpos n)) by (apply IZR_lt; lia). nra. }
  subst s t. cbn [SF2R sgnR] in *. rewrite !Rmult_1_l in *.
  assert (Le : (e <= f)%Z). { destruct (Z_lt_le_dec f e) as [L|L]; auto. pose proof (finite_lt n f m e Vw Va L). lra. }
  assert (Hm : (Zpos m < 2 ^ 53)%Z).
  { apply canonical_iff in Va. destruct Va as (Va & _). rewrite fexp64_eq in Va. pose proof (digits_bounds m) as Dm. apply Z.lt_le_trans with (2 ^ Zpos (digits2_pos m))%Z; [lia|apply Z.pow_le_mono_r; lia]. }
  pose proof (bp_pos e) as He. assert (Ef : bp f = IZR (2 ^ (f - e)) * bp e) by (rewrite <- bp_IZR, <- bp_add by lia; f_equal; lia).
  rewrite Ef in *. assert (Lz : (Zpos m < Zpos n * 2 ^ (f - e))%Z). { apply lt_IZR. rewrite mult_IZR. apply Rmult_lt_reg_r with (bp e); auto. lra. }
  assert (Hn : IZR (Zpos m) + 1 <= IZR (Zpos n) * IZR (2 ^ (f - e))) by (rewrite <- mult_IZR, <- plus_IZR; apply IZR_le; lia).
  assert (Hu : u64 * IZR (Zpos m) < 1). { rewrite u64_val. assert (IZR (Zpos m) < IZR (2 ^ 53)) by (apply IZR_lt; auto). change (2 ^ 53)%Z with 9007199254740992%Z in *. lra. }
  assert (K : IZR (Zpos m) + u64 * IZR (Zpos m) < IZR (Zpos n) * IZR (2 ^ (f - e))) by lra.
  apply Rmult_lt_compat_r with (r := bp e) in K; auto. lra.
Qed.

(** fl(a + b) = a when b is at most 2^-54 a, and only when b is at most about 2^-53 a. *)
Lemma absorb a b : fin a -> fin b -> 0 < SF2R a -> 0 <= SF2R b -> SF2R a + SF2R b <= bp 1023 -> let s := SF64add a b in
  fin s /\ SF2R a <= SF2R s /\ (SF2R b <= u64 / 2 * SF2R a -> SF2R s = SF2R a) /\ (SF2R s = SF2R a -> SF2R b <= u64 * (SF2R a + SF2R b)).
Proof.
  intros Fa Fb Ha Hb L s. pose proof u_bounds as U. destruct (fadd a b Fa Fb) as (R1 & R2). { rewrite Rabs_right by lra. lra. }
  fold s in R1, R2. assert (Fs : fin s) by apply (rounds_fin _ _ R1). assert (Ge : SF2R a <= SF2R s) by (apply (rounds_ge s (SF2R a + SF2R b)); auto; lra).
  rewrite (Rabs_right (SF2R a + SF2R b)) in R2 by lra. split; [auto|]. split; [auto|]. split.
  - intros Small. destruct (Rle_lt_or_eq_dec _ _ Ge) as [Lt|Eq]; [|auto]. exfalso. pose proof (gap a s Fa Fs Ha Lt) as G.
    destruct R1 as (_ & _ & N & _). destruct Fa as (Va & Fa'). specialize (N a Va Fa'). rewrite (Rabs_left1 (SF2R a - (SF2R a + SF2R b))) in N by lra. apply abs_bounds in N. lra.
  - intros E. rewrite E in R2. apply abs_bounds in R2. lra.
Qed.

Definition fpred1 : spec_float := S754_finite false 9007199254740991 (-53).

Lemma fpred1_ok : fin fpred1 /\ SF2R fpred1 = 1 - u64.
Proof. split; [split; reflexivity|]. unfold fpred1. rewrite val_lit, u64_val. change (2 ^ 53)%Z with 9007199254740992%Z. lra. Qed.

(** fl(a / s) >= 1 exactly if s = a, for s >= a > 0. *)
Lemma quotient_one a s : fin a -> fin s -> 0 < SF2R a -> SF2R a <= SF2R s -> (SFleb f1 (SF64div a s) = true <-> SF2R s = SF2R a).
Proof.
  intros Fa Fs Ha L. pose proof u_bounds as U. assert (Q : 0 < SF2R a / SF2R s <= 1).
  { split; [apply Rdiv_lt_0_compat; lra|]. apply Rmult_le_reg_r with (SF2R s); [lra|]. unfold Rdiv. rewrite Rmult_assoc, Rinv_l by lra. lra. }
  assert (R1 : rounds (SF64div a s) (SF2R a / SF2R s)). { apply fdiv; auto; [lra|]. rewrite Rabs_right by lra. pose proof bp1023. pose proof bp1022_big. lra. }
  rewrite (fle _ _ fin_f1 (rounds_fin _ _ R1)), val_f1. destruct fpred1_ok as (Fp & Vp). split.
  - intros H. destruct (Rle_lt_or_eq_dec _ _ L) as [Lt|Eq]; [|auto]. exfalso. pose proof (gap a s Fa Fs Ha Lt) as G.
    set (x := SF2R a / SF2R s) in *. assert (Ex : x * SF2R s = SF2R a) by (unfold x; field; lra).
    assert (Hx : x < 1 - u64 + u64 * u64). { apply Rmult_lt_reg_r with (SF2R s); [lra|]. rewrite Ex. assert (0 < 1 - u64 + u64 * u64) by nra. apply Rlt_trans with ((1 - u64 + u64 * u64) * (SF2R a + u64 * SF2R a)); [|apply Rmult_lt_compat_l; auto]. ring_simplify. assert (0 < u64 ^ 3) by (apply pow_lt; lra). nra. }
    destruct (Rle_dec x (1 - u64)) as [Lx|Lx].
    + rewrite <- Vp in Lx. pose proof (rounds_le _ _ _ R1 Fp Lx). rewrite Vp in *. lra.
    + destruct R1 as (_ & _ & N & _). destruct Fp as (V & F). specialize (N fpred1 V F). rewrite Vp in N. rewrite (Rabs_left1 (1 - u64 - x)) in N by lra. apply abs_bounds in N. nra.
  - intros E. rewrite E in R1. replace (SF2R a / SF2R a) with (SF2R f1) in R1 by (rewrite val_f1; field; lra). rewrite (rounds_exact _ _ R1 fin_f1), val_f1. lra.
Qed.

(** ** The real and imaginary part *)

Lemma prod_err x y x' y' : Rabs (x' - x) <= u64 * Rabs x -> Rabs (y' - y) <= u64 * Rabs y -> Rabs (x' * y' - x * y) <= 201 / 100 * u64 * Rabs (x * y).
Proof.
  intros Hx Hy. pose proof u_bounds as U. replace (x' * y' - x * y) with ((x' - x) * (y' - y) + (x' - x) * y + x * (y' - y)) by ring.
  pose proof (Rabs_triang ((x' - x) * (y' - y) + (x' - x) * y) (x * (y' - y))) as T1. pose proof (Rabs_triang ((x' - x) * (y' - y)) ((x' - x) * y)) as T2. rewrite (Rabs_mult x (y' - y)) in T1. rewrite (Rabs_mult (x' - x) (y' - y)), (Rabs_mult (x' - x) y) in T2.
  pose proof (Rabs_pos x) as Px. pose proof (Rabs_pos y) as Py. pose proof (Rabs_pos (x' - x)) as Pdx. pose proof (Rabs_pos (y' - y)) as Pdy.
  assert (M1 : Rabs (x' - x) * Rabs (y' - y) <= u64 * Rabs x * (u64 * Rabs y)) by (apply Rmult_le_compat; auto).
  assert (M2 : Rabs (x' - x) * Rabs y <= u64 * Rabs x * Rabs y) by (apply Rmult_le_compat_r; auto).
  assert (M3 : Rabs x * Rabs (y' - y) <= Rabs x * (u64 * Rabs y)) by (apply Rmult_le_compat_l; auto).
  rewrite Rabs_mult. set (p := Rabs x * Rabs y) in *. assert (Pp : 0 <= p) by (unfold p; apply Rmult_le_pos; auto).
  assert (M4 : u64 * Rabs x * (u64 * Rabs y) <= / 100 * u64 * p). { replace (u64 * Rabs x * (u64 * Rabs y)) with (u64 * u64 * p) by (unfold p; ring). apply Rmult_le_compat_r; auto. nra. }
  replace (u64 * Rabs x * Rabs y) with (u64 * p) in M2 by (unfold p; ring). replace (Rabs x * (u64 * Rabs y)) with (u64 * p) in M3 by (unfold p; ring). 
  eapply Rle_trans; [apply T1|]. lra.
Qed.

(** Sum of two products of rounded differences. *)
Lemma sum2_diff m a b c d A B C D : fin a -> fin b -> fin c -> fin d ->
  Rabs (SF2R a - A) <= u64 * Rabs A -> Rabs (SF2R b - B) <= u64 * Rabs B -> Rabs (SF2R c - C) <= u64 * Rabs C -> Rabs (SF2R d - D) <= u64 * Rabs D ->
  Rabs (A * B) + Rabs (C * D) <= bp 1020 ->
  fin (sum2 m a b c d) /\ Rabs (SF2R (sum2 m a b c d) - (A * B + C * D)) <= 42 / 10 * u64 * (Rabs (A * B) + Rabs (C * D)) + 3 * eta64.
Proof.
  intros Fa Fb Fc Fd Ea Eb Ec Ed L. pose proof u_bounds as U. pose proof (prod_err _ _ _ _ Ea Eb) as P1. pose proof (prod_err _ _ _ _ Ec Ed) as P2.
  set (X := Rabs (A * B)) in *. set (Y := Rabs (C * D)) in *. assert (PX : 0 <= X) by apply Rabs_pos. assert (PY : 0 <= Y) by apply Rabs_pos.
  assert (K1 : 0 <= u64 * X <= / 9000000000000000 * X) by (split; [apply Rmult_le_pos; lra|apply Rmult_le_compat_r; lra]).
  assert (K2 : 0 <= u64 * Y <= / 9000000000000000 * Y) by (split; [apply Rmult_le_pos; lra|apply Rmult_le_compat_r; lra]).
  pose proof (abs_close _ _ _ P1) as C1. pose proof (abs_close _ _ _ P2) as C2. fold X in C1. fold Y in C2.
  assert (N4 : bp 1022 = 4 * bp 1020) by (replace 1022%Z with (1020 + 1 + 1)%Z by reflexivity; rewrite !bp_succ; ring).
  destruct (sum2_ok m a b c d Fa Fb Fc Fd ltac:(lra)) as (S1 & S2 & _). split; [exact S1|].
  assert (K3 : u64 * (Rabs (SF2R a * SF2R b) + Rabs (SF2R c * SF2R d)) <= u64 * (101 / 100 * (X + Y))) by (apply Rmult_le_compat_l; lra).
  apply abs_bounds in P1, P2, S2. apply abs_le. lra.
Qed.

(** Squares of approximations: what the comparison in [collinear_] decides. *)
Lemma abs_prod_le a b c d : (Rabs (a * b) + Rabs (c * d)) * (Rabs (a * b) + Rabs (c * d)) <= (a * a + c * c) * (b * b + d * d).
Proof.
  rewrite !Rabs_mult. set (p := Rabs a). set (q := Rabs b). set (r := Rabs c). set (t := Rabs d).
  replace (a * a) with (p * p) by (unfold p; rewrite <- Rabs_mult, Rabs_right; nra). replace (b * b) with (q * q) by (unfold q; rewrite <- Rabs_mult, Rabs_right; nra).
  replace (c * c) with (r * r) by (unfold r; rewrite <- Rabs_mult, Rabs_right; nra). replace (d * d) with (t * t) by (unfold t; rewrite <- Rabs_mult, Rabs_right; nra).
  pose proof (sq_nn (p * t - r * q)). nra.
Qed.

Lemma abs_root x y L : L * L = x * x + y * y -> 0 <= L -> Rabs x <= L.
Proof. intros H P. apply Rabs_le. split; nra. Qed.

Lemma sq_lower a d L e : 0 <= a -> 0 <= d <= L -> 0 <= e -> d - e * L <= a -> d * d - 2 * e * (L * L) <= a * a.
Proof.
  intros Ha Hd He H. destruct (Rle_dec 0 (d - e * L)) as [P|P].
  - assert ((d - e * L) * (d - e * L) <= a * a) by (apply Rmult_le_compat; auto). assert (0 <= e * L) by (apply Rmult_le_pos; lra). assert (e * L * d <= e * L * L) by (apply Rmult_le_compat_l; lra). nra.
  - assert (d * d <= e * L * L) by (apply Rmult_le_compat; lra). assert (0 <= a * a) by nra. assert (0 <= e * (L * L)) by (apply Rmult_le_pos; nra). lra.
Qed.

Lemma collinear64_ok m1 m2 A B C : fin2 A -> fin2 B -> fin2 C -> within (bp 240) A -> within (bp 240) B -> within (bp 240) C ->
  let dt := sdot (vsub (P2R B) (P2R A)) (vsub (P2R C) (P2R A)) in
  let cr := scross (vsub (P2R B) (P2R A)) (vsub (P2R C) (P2R A)) in
  exists r, collinear64 m1 m2 A B C = Ok r /\
    (r = true -> allclose64 A B = true \/ allclose64 A C = true \/ allclose64 B C = true \/ Rabs cr <= / 67108864 * Rabs dt) /\
    (Rabs cr <= / 268435456 * Rabs dt -> r = true).
Proof.
  intros FA FB FC WA WB WC dt cr. unfold collinear64. destruct (allclose64 A B) eqn:C1; [exists true; cbn; tauto|]. destruct (allclose64 A C) eqn:C2; [exists true; cbn; tauto|]. destruct (allclose64 B C) eqn:C3; [exists true; cbn; tauto|].
  cbn [orb]. pose proof u_bounds as U. pose proof eta64_small as Et. pose proof u64_val as Uv.
  assert (B1 : bp 240 <= bp 500) by (apply bp_le; lia).
  assert (MA : moderate A) by (split; auto; destruct WA; split; lra). assert (MB : moderate B) by (split; auto; destruct WB; split; lra). assert (MC : moderate C) by (split; auto; destruct WC; split; lra).
  pose proof (not_allclose A B MA MB C1) as D1. pose proof (not_allclose A C MA MC C2) as D2. clear MA MB MC.
  destruct FA as (FA0 & FA1), FB as (FB0 & FB1), FC as (FC0 & FC1), WA as (WA0 & WA1), WB as (WB0 & WB1), WC as (WC0 & WC1).
  assert (B2 : bp 240 <= bp 1022) by (apply bp_le; lia). set (b := bp 240) in *.
  assert (Pb : 1 <= b) by (unfold b; rewrite <- bp_0; apply bp_le; lia).
  destruct (sub_coord _ _ b FB0 FA0 WB0 WA0 B2) as (Fx1 & Ex1 & Bx1 & _). destruct (sub_coord _ _ b FB1 FA1 WB1 WA1 B2) as (Fy1 & Ey1 & By1 & _).
  destruct (sub_coord _ _ b FC0 FA0 WC0 WA0 B2) as (Fx2 & Ex2 & Bx2 & _). destruct (sub_coord _ _ b FC1 FA1 WC1 WA1 B2) as (Fy2 & Ey2 & By2 & _).
  unfold fp_sub, fp_map2. cbn [fst snd].
  set (fx1 := SF64sub (fst B) (fst A)) in *. set (fy1 := SF64sub (snd B) (snd A)) in *. set (fx2 := SF64sub (fst C) (fst A)) in *. set (fy2 := SF64sub (snd C) (snd A)) in *.
  assert (Ed : dt = (SF2R (fst B) - SF2R (fst A)) * (SF2R (fst C) - SF2R (fst A)) + (SF2R (snd B) - SF2R (snd A)) * (SF2R (snd C) - SF2R (snd A))) by reflexivity.
  assert (Ec : cr = (SF2R (fst B) - SF2R (fst A)) * (SF2R (snd C) - SF2R (snd A)) - (SF2R (snd B) - SF2R (snd A)) * (SF2R (fst C) - SF2R (fst A))) by reflexivity.
  unfold d2R in D1, D2. clearbody dt cr. 
  set (x1 := SF2R (fst B) - SF2R (fst A)) in *. set (y1 := SF2R (snd B) - SF2R (snd A)) in *. set (x2 := SF2R (fst C) - SF2R (fst A)) in *. set (y2 := SF2R (snd C) - SF2R (snd A)) in *.
  replace ((SF2R (fst A) - SF2R (fst B)) * (SF2R (fst A) - SF2R (fst B)) + (SF2R (snd A) - SF2R (snd B)) * (SF2R (snd A) - SF2R (snd B))) with (x1 * x1 + y1 * y1) in D1 by (unfold x1, y1; ring).
  replace ((SF2R (fst A) - SF2R (fst C)) * (SF2R (fst A) - SF2R (fst C)) + (SF2R (snd A) - SF2R (snd C)) * (SF2R (snd A) - SF2R (snd C))) with (x2 * x2 + y2 * y2) in D2 by (unfold x2, y2; ring).
  clearbody x1 y1 x2 y2.
  (* the length product *)
  set (N1 := x1 * x1 + y1 * y1) in *. set (N2 := x2 * x2 + y2 * y2) in *. assert (P1 : 0 <= N1 * N2) by (apply Rmult_le_pos; lra).
  pose proof (sqrt_sqrt _ P1) as SL. set (L := sqrt (N1 * N2)) in *. assert (PL0 : 0 <= L) by apply sqrt_pos.
  assert (LL : L * L = dt * dt + cr * cr) by (rewrite SL, Ed, Ec; unfold N1, N2; ring).
  assert (PL : / 20000000000000000 <= L).
  { apply Rnot_lt_le. intros H. assert (9 / 100000000000000000 * (9 / 100000000000000000) <= N1 * N2) by (apply Rmult_le_compat; lra). assert (L * L <= / 20000000000000000 * / 20000000000000000) by (apply Rmult_le_compat; lra). lra. }
  assert (BN1 : N1 <= 8 * (b * b)) by (unfold N1; pose proof (abs_sq _ _ Bx1); pose proof (abs_sq _ _ By1); lra).
  assert (BN2 : N2 <= 8 * (b * b)) by (unfold N2; pose proof (abs_sq _ _ Bx2); pose proof (abs_sq _ _ By2); lra).
  assert (BL : L <= 8 * (b * b)). { apply root_le; [lra|pose proof (sq_nn b); lra|]. rewrite SL. apply Rmult_le_compat; lra. }
  assert (Big : 1000 * (8 * (b * b)) * (8 * (b * b)) <= bp 1020).
  { replace (1000 * (8 * (b * b)) * (8 * (b * b))) with (64000 * (b * b * b * b)) by ring. unfold b. rewrite <- !bp_add. apply Rle_trans with (bp 16 * bp (240 + 240 + 240 + 240)); [apply Rmult_le_compat_r; [left; apply bp_pos|rewrite bp_IZR by lia; cbn; lra]|rewrite <- bp_add; apply bp_le; lia]. }
  assert (b2 : 1 <= b * b) by nra.
  assert (T1 : Rabs (x1 * x2) + Rabs (y1 * y2) <= L). { apply root_le; [pose proof (Rabs_pos (x1 * x2)); pose proof (Rabs_pos (y1 * y2)); lra|auto|]. rewrite SL. apply abs_prod_le. }
  assert (T2 : Rabs (x1 * y2) + Rabs (- y1 * x2) <= L). { apply root_le; [pose proof (Rabs_pos (x1 * y2)); pose proof (Rabs_pos (- y1 * x2)); lra|auto|]. rewrite SL. pose proof (abs_prod_le x1 y2 (- y1) x2) as K. unfold N1, N2. lra. }
  (* real and imaginary parts *)
  destruct (fopp fy1 Fy1) as (Foy & Voy). destruct (fopp _ Foy) as (Fooy & Vooy). rewrite Voy in Vooy. rewrite Ropp_involutive in Vooy.
  assert (Eooy : Rabs (SF2R (SFopp (SFopp fy1)) - y1) <= u64 * Rabs y1) by (rewrite Vooy; exact Ey1).
  assert (Eoy : Rabs (SF2R (SFopp fy1) - - y1) <= u64 * Rabs (- y1)). { rewrite Voy. replace (- SF2R fy1 - - y1) with (- (SF2R fy1 - y1)) by ring. rewrite !Rabs_Ropp. exact Ey1. }
  assert (LB : L <= bp 1020). { apply Rle_trans with (8 * (b * b)); auto. apply Rle_trans with (1000 * (8 * (b * b)) * (8 * (b * b))); auto. assert (1 <= 1000 * (8 * (b * b))) by lra. rewrite <- (Rmult_1_l (8 * (b * b))) at 1. apply Rmult_le_compat_r; lra. }
  destruct (sum2_diff m1 fx1 fx2 (SFopp (SFopp fy1)) fy2 x1 x2 y1 y2) as (Fre & Ere); auto; [lra|].
  destruct (sum2_diff m2 fx1 fy2 (SFopp fy1) fx2 x1 y2 (- y1) x2) as (Fim & Eim); auto; [lra|].
  set (re := sum2 m1 fx1 fx2 (SFopp (SFopp fy1)) fy2) in *. set (im := sum2 m2 fx1 fy2 (SFopp fy1) fx2) in *.
  rewrite <- Ed in Ere. replace (x1 * y2 + - y1 * x2) with cr in Eim by (rewrite Ec; ring).
  assert (Ee : eta64 <= / 10000 * (u64 * L)) by (rewrite Uv; lra).
  assert (UL : 0 <= u64 * L <= / 9000000000000000 * L) by (split; [apply Rmult_le_pos; lra|apply Rmult_le_compat_r; lra]).
  assert (UT1 : u64 * (Rabs (x1 * x2) + Rabs (y1 * y2)) <= u64 * L) by (apply Rmult_le_compat_l; lra). assert (UT2 : u64 * (Rabs (x1 * y2) + Rabs (- y1 * x2)) <= u64 * L) by (apply Rmult_le_compat_l; lra).
  assert (Ere' : Rabs (SF2R re - dt) <= / 1000000000000000 * L) by lra. assert (Eim' : Rabs (SF2R im - cr) <= / 1000000000000000 * L) by lra.
  clear Ere Eim UT1 UT2 T1 T2 Ex1 Ey1 Ex2 Ey2 Eooy Eoy. clearbody re im.
  set (X := SF2R re) in *. set (Y := SF2R im) in *.
  assert (AdL : Rabs dt <= L). { apply (abs_root _ cr); auto. } assert (AcL : Rabs cr <= L). { apply (abs_root _ dt); auto. lra. }
  pose proof (abs_close _ _ _ Ere') as AX. pose proof (abs_close _ _ _ Eim') as AY.
  assert (SX : X * X = Rabs X * Rabs X) by (rewrite <- Rabs_mult, Rabs_right; nra). assert (SY : Y * Y = Rabs Y * Rabs Y) by (rewrite <- Rabs_mult, Rabs_right; nra).
  assert (LL' : L * L = Rabs dt * Rabs dt + Rabs cr * Rabs cr) by (rewrite LL; f_equal; rewrite <- Rabs_mult, Rabs_right; nra).
  pose proof (Rabs_pos dt) as Pdt. pose proof (Rabs_pos cr) as Pcr. pose proof (Rabs_pos X) as PX. pose proof (Rabs_pos Y) as PY.
  set (aX := Rabs X) in *. set (aY := Rabs Y) in *. set (ad := Rabs dt) in *. set (ac := Rabs cr) in *.
  assert (LLb : L * L <= 8 * (b * b) * (8 * (b * b))) by (apply Rmult_le_compat; lra).
  assert (L2 : 0 < L * L) by (apply Rmult_lt_0_compat; lra). assert (L2s : / 400000000000000000000000000000000 <= L * L) by (apply Rle_trans with (/ 20000000000000000 * / 20000000000000000); [lra|apply Rmult_le_compat; lra]).
  assert (X2b : X * X <= 4 * (L * L)) by (rewrite SX; replace (4 * (L * L)) with (2 * L * (2 * L)) by ring; apply Rmult_le_compat; lra). assert (Y2b : Y * Y <= 4 * (L * L)) by (rewrite SY; replace (4 * (L * L)) with (2 * L * (2 * L)) by ring; apply Rmult_le_compat; lra).
  assert (N1022 : bp 1022 = 4 * bp 1020) by (replace 1022%Z with (1020 + 1 + 1)%Z by reflexivity; rewrite !bp_succ; ring). pose proof bp1023 as N1023.
  pose proof (sq_nn X) as NX. pose proof (sq_nn Y) as NY.
  assert (MX : rounds (SF64mul re re) (X * X)) by (apply fmul; auto; fold X; rewrite Rabs_right by lra; lra).
  assert (MY : rounds (SF64mul im im) (Y * Y)) by (apply fmul; auto; fold Y; rewrite Rabs_right by lra; lra).
  pose proof (rounds_err _ _ MX) as EX. pose proof (rounds_err _ _ MY) as EY. rewrite (Rabs_right (X * X)) in EX by lra. rewrite (Rabs_right (Y * Y)) in EY by lra.
  pose proof (rounds_nonneg _ _ MX NX) as PX2. pose proof (rounds_nonneg _ _ MY NY) as PY2. pose proof (rounds_fin _ _ MX) as FX2. pose proof (rounds_fin _ _ MY) as FY2.
  set (x2' := SF64mul re re) in *. set (y2' := SF64mul im im) in *. apply abs_bounds in EX, EY.
  assert (UX : 0 <= u64 * (X * X) <= / 9000000000000000 * (X * X)) by (split; [apply Rmult_le_pos; lra|apply Rmult_le_compat_r; lra]).
  assert (UY : 0 <= u64 * (Y * Y) <= / 9000000000000000 * (Y * Y)) by (split; [apply Rmult_le_pos; lra|apply Rmult_le_compat_r; lra]).
  set (RX := SF2R x2') in *. set (RY := SF2R y2') in *.
  assert (Sum : RX + RY <= bp 1023) by lra.
  assert (Lo : 9 / 10 * (L * L) <= X * X + Y * Y).
  { rewrite SX, SY. assert (ad - / 1000000000000000 * L <= aX) by lra. assert (ac - / 1000000000000000 * L <= aY) by lra.
    pose proof (sq_lower aX ad L (/ 1000000000000000) PX (conj Pdt AdL) ltac:(lra) ltac:(lra)). pose proof (sq_lower aY ac L (/ 1000000000000000) PY (conj Pcr AcL) ltac:(lra) ltac:(lra)). lra. }
  destruct (fadd x2' y2' FX2 FY2) as (RS & ES). { fold RX RY. rewrite Rabs_right by lra. lra. }
  fold RX RY in RS, ES. rewrite (Rabs_right (RX + RY)) in ES by lra. apply abs_bounds in ES. set (s := SF64add x2' y2') in *. pose proof (rounds_fin _ _ RS) as Fs.
  assert (USum : 0 <= u64 * (RX + RY) <= / 9000000000000000 * (RX + RY)) by (split; [apply Rmult_le_pos; lra|apply Rmult_le_compat_r; lra]).
  assert (Ps : 0 < SF2R s) by lra.
  destruct (SFeqb s f0) eqn:Es; [exfalso; apply (feq s f0 Fs fin_f0) in Es; rewrite val_f0 in Es; lra|].
  eexists. split; [reflexivity|]. split.
  - intros H. right. right. right.
    destruct (Rle_lt_or_eq_dec _ _ PX2) as [PX2'|Z].
    + destruct (absorb x2' y2' FX2 FY2 PX2' PY2 Sum) as (_ & Ge & _ & Abs). fold RX RY in Ge, Abs. fold s in Ge, Abs.
      apply (quotient_one x2' s FX2 Fs PX2' Ge) in H. specialize (Abs H).
      assert (K1 : RY <= 1112 / 10000000000000000000 * (RX + RY)) by (rewrite Uv in Abs; lra).
      assert (K2 : Y * Y <= 1113 / 10000000000000000000 * (X * X)) by lra.
      assert (K3 : aY <= 1056 / 100000000000 * aX). { apply root_le; [lra|lra|]. rewrite SX, SY in K2. pose proof (sq_nn aX). lra. }
      assert (K4 : ac <= 106 / 10000000000 * ad + / 100000000000000 * L) by lra.
      assert (K5 : L <= ad + ac). { apply root_le; [lra|lra|]. rewrite LL'. pose proof (Rmult_le_pos _ _ Pdt Pcr). lra. }
      lra.
    + exfalso. assert (QZ : SFleb f1 (SF64div x2' s) = false).
      { assert (R0 : rounds (SF64div x2' s) (RX / SF2R s)). { apply fdiv; auto; [lra|]. fold RX. rewrite <- Z. unfold Rdiv. rewrite Rmult_0_l, Rabs_R0. left. apply bp_pos. }
        rewrite <- Z in R0. unfold Rdiv in R0. rewrite Rmult_0_l in R0. destruct (SFleb f1 (SF64div x2' s)) eqn:Q; auto. apply (fle _ _ fin_f1 (rounds_fin _ _ R0)) in Q. rewrite val_f1 in Q.
        pose proof (rounds_nonpos _ _ R0 ltac:(lra)). lra. }
      congruence.
  - intros H. assert (K1 : ac * ac <= / 72000000000000000 * (ad * ad)) by (apply Rle_trans with (/ 268435456 * ad * (/ 268435456 * ad)); [apply Rmult_le_compat; lra|pose proof (sq_nn ad); lra]).
        assert (K4 : aY <= 3727 / 1000000000000 * L) by lra.
    assert (K5 : ad >= 999999 / 1000000 * L). { apply Rle_ge. apply root_le; [lra|lra|]. pose proof (sq_nn ad). lra. }
    assert (X2 : X * X >= 99999 / 100000 * (L * L)). { rewrite SX. apply Rle_ge. apply Rle_trans with (999998 / 1000000 * L * (999998 / 1000000 * L)); [lra|apply Rmult_le_compat; lra]. }
    assert (Y2 : Y * Y <= 1390 / 100000000000000000000 * (L * L)). { rewrite SY. apply Rle_trans with (3727 / 1000000000000 * L * (3727 / 1000000000000 * L)); [apply Rmult_le_compat; lra|lra]. }
    assert (PX2' : 0 < RX) by lra.
    destruct (absorb x2' y2' FX2 FY2 PX2' PY2 Sum) as (_ & Ge & Abs & _). fold RX RY in Ge, Abs. fold s in Ge, Abs.
    apply (quotient_one x2' s FX2 Fs PX2' Ge). apply Abs. rewrite Uv. lra.
Qed.

Lemma line_includes64_eq m1 m2 A B M : line_includes64 m1 m2 A B M = collinear64 m1 m2 A B M.
Proof. unfold line_includes64. destruct (collinear64 m1 m2 A B M) as [[]|e]; reflexivity. Qed.
