(** * Binary64: the operations on finite numbers of moderate size, fma, sums of two products *)

From Coq Require Import Reals ZArith Lia Lra Bool SpecFloat.
From Verif Require Import SpecF64 Base ModelFloat PFloat PFloat2.
Local Open Scope R_scope.

Lemma u64_val : u64 = / 9007199254740992.
Proof. unfold u64. replace (bp (-53)) with (/ bp 53) by reflexivity. rewrite bp_IZR by lia. reflexivity. Qed.

Lemma eta64_small : 0 < eta64 <= / 1000000000000000000000000000000000000000000000000000000000000.
Proof.
  split; [apply bp_pos|]. unfold eta64. apply Rle_trans with (bp (-200)); [apply bp_le; lia|].
  replace (bp (-200)) with (/ bp 200) by (unfold bp; reflexivity). rewrite bp_IZR by lia. apply Rinv_le_contravar; [lra|]. apply IZR_le. apply Z.leb_le. reflexivity.
Qed.

Lemma eta_min : 2 * eta64 = bp (-1074).
Proof. unfold eta64. rewrite <- bp_succ. reflexivity. Qed.

(** ** Nearest *)

Lemma rounds_fin z r : rounds z r -> fin z.
Proof. intros (A & B & _). split; auto. Qed.

Lemma rounds_err z r : rounds z r -> Rabs (SF2R z - r) <= u64 * Rabs r + eta64.
Proof. intros (_ & _ & _ & A & _). exact A. Qed.

Lemma fin_f0 : fin f0. Proof. split; reflexivity. Qed.
Lemma fin_f1 : fin f1. Proof. split; reflexivity. Qed.
Lemma fin_f2 : fin f2. Proof. split; reflexivity. Qed.
Lemma fin_f1em9 : fin f1em9. Proof. split; reflexivity. Qed.
Lemma fin_f1em8 : fin f1em8. Proof. split; reflexivity. Qed.
Lemma fin_f1em5 : fin f1em5. Proof. split; reflexivity. Qed.

Lemma val_f0 : SF2R f0 = 0. Proof. reflexivity. Qed.
Lemma val_f1 : SF2R f1 = 1.
Proof. cbn [SF2R f1 sgnR]. change 4503599627370496%Z with (2 ^ 52)%Z. rewrite <- (bp_IZR 52), <- bp_add by lia. cbn. lra. Qed.
Lemma val_f2 : SF2R f2 = 2.
Proof. cbn [SF2R f2 sgnR]. change 4503599627370496%Z with (2 ^ 52)%Z. rewrite <- (bp_IZR 52), <- bp_add, bp_IZR by lia. cbn [Z.add Z.pos_sub Pos.pred_double Z.succ_double Z.pred_double Z.double]. change (2 ^ (52 + -51))%Z with 2%Z. lra. Qed.

(** A bound for a literal m * 2^-n. *)
Lemma val_lit m n : SF2R (S754_finite false m (Zneg n)) = IZR (Zpos m) / IZR (2 ^ Zpos n).
Proof.
  cbn [SF2R sgnR]. assert (E : bp (Zneg n) * bp (Zpos n) = 1) by (rewrite <- bp_add; replace (Zneg n + Zpos n)%Z with 0%Z by lia; reflexivity).
  rewrite <- (bp_IZR (Zpos n)) by lia. pose proof (bp_pos (Zpos n)). field_simplify_eq; [|lra]. rewrite Rmult_assoc, E. ring.
Qed.

Lemma val_f1em9 : / 1000000000 - / 10000000000000000000000 <= SF2R f1em9 <= / 1000000000 + / 10000000000000000000000.
Proof. unfold f1em9. rewrite val_lit. change (2 ^ 82)%Z with 4835703278458516698824704%Z. lra. Qed.
Lemma val_f1em8 : / 100000000 - / 1000000000000000000000 <= SF2R f1em8 <= / 100000000 + / 1000000000000000000000.
Proof. unfold f1em8. rewrite val_lit. change (2 ^ 79)%Z with 604462909807314587353088%Z. lra. Qed.
Lemma val_f1em5 : / 100000 - / 1000000000000000000 <= SF2R f1em5 <= / 100000 + / 1000000000000000000.
Proof. unfold f1em5. rewrite val_lit. change (2 ^ 69)%Z with 590295810358705651712%Z. lra. Qed.

Lemma rounds_nonneg z r : rounds z r -> 0 <= r -> 0 <= SF2R z.
Proof.
  intros (_ & _ & N & _) H. pose proof (N f0 eq_refl eq_refl) as K. rewrite val_f0 in K.
  replace (0 - r) with (- r) in K by ring. rewrite Rabs_Ropp, (Rabs_right r) in K by lra. apply abs_bounds in K. lra.
Qed.

Lemma rounds_nonpos z r : rounds z r -> r <= 0 -> SF2R z <= 0.
Proof.
  intros (_ & _ & N & _) H. pose proof (N f0 eq_refl eq_refl) as K. rewrite val_f0 in K.
  replace (0 - r) with (- r) in K by ring. rewrite (Rabs_right (- r)) in K by lra. apply abs_bounds in K. lra.
Qed.

(** Between a number of the format and [r] there is no other: rounding does not cross numbers of the format. *)
Lemma rounds_ge z r w : rounds z r -> fin w -> SF2R w <= r -> SF2R w <= SF2R z.
Proof.
  intros (_ & _ & N & _) (Vw & Fw) H. pose proof (N w Vw Fw) as K. rewrite (Rabs_left1 (SF2R w - r)) in K by lra. apply abs_bounds in K. lra.
Qed.
Lemma rounds_le z r w : rounds z r -> fin w -> r <= SF2R w -> SF2R z <= SF2R w.
Proof.
  intros (_ & _ & N & _) (Vw & Fw) H. pose proof (N w Vw Fw) as K. rewrite (Rabs_right (SF2R w - r)) in K by lra. apply abs_bounds in K. lra.
Qed.
Lemma rounds_exact z w : rounds z (SF2R w) -> fin w -> SF2R z = SF2R w.
Proof. intros H F. apply Rle_antisym; [apply (rounds_le z (SF2R w))|apply (rounds_ge z (SF2R w))]; auto; lra. Qed.

(** ** The operations *)

Lemma fadd x y : fin x -> fin y -> Rabs (SF2R x + SF2R y) <= bp 1023 -> let z := SF64add x y in
  rounds z (SF2R x + SF2R y) /\ Rabs (SF2R z - (SF2R x + SF2R y)) <= u64 * Rabs (SF2R x + SF2R y).
Proof. intros (Vx & Fx) (Vy & Fy) L z. destruct (add_ok x y Vx Vy) as (_ & A & B). destruct (A (B Fx Fy L)) as (_ & _ & C & D). auto. Qed.

Lemma fsub x y : fin x -> fin y -> Rabs (SF2R x - SF2R y) <= bp 1023 -> let z := SF64sub x y in
  rounds z (SF2R x - SF2R y) /\ Rabs (SF2R z - (SF2R x - SF2R y)) <= u64 * Rabs (SF2R x - SF2R y).
Proof. intros (Vx & Fx) (Vy & Fy) L z. destruct (sub_ok x y Vx Vy) as (_ & A & B). destruct (A (B Fx Fy L)) as (_ & _ & C & D). auto. Qed.

Lemma fmul x y : fin x -> fin y -> Rabs (SF2R x * SF2R y) <= bp 1023 -> rounds (SF64mul x y) (SF2R x * SF2R y).
Proof. intros (Vx & Fx) (Vy & Fy) L. destruct (mul_ok x y Vx Vy) as (_ & A & B). destruct (A (B Fx Fy L)) as (_ & _ & C). auto. Qed.

Lemma fdiv x y : fin x -> fin y -> SF2R y <> 0 -> Rabs (SF2R x / SF2R y) <= bp 1023 -> rounds (SF64div x y) (SF2R x / SF2R y).
Proof. intros (Vx & Fx) (Vy & Fy) N L. destruct (div_ok x y Vx Vy) as (_ & A & B). destruct (A (B Fx Fy N L) Fy) as (_ & _ & C). auto. Qed.

(** A finite number is zero or at least 2^-1074 in absolute value. *)
Lemma fin_min x : fin x -> SF2R x <> 0 -> bp (-1074) <= Rabs (SF2R x).
Proof.
  intros (V & F) N. destruct x as [s|s| |s m e]; try discriminate; [exfalso; apply N; reflexivity|]. cbn [SF2R]. rewrite sgnR_abs.
  pose proof (valid_exp _ _ _ V) as He. pose proof (bp_pos e) as Hb. assert (1 <= IZR (Zpos m)) by (apply IZR_le; lia). rewrite Rabs_right by nra.
  apply Rle_trans with (bp e); [apply bp_le; lia|nra].
Qed.

Lemma fsqrt x : fin x -> 0 <= SF2R x -> let z := SF64sqrt x in
  rounds z (sqrt (SF2R x)) /\ Rabs (SF2R z - sqrt (SF2R x)) <= u64 * sqrt (SF2R x).
Proof.
  intros (Vx & Fx) L z. destruct (sqrt_ok x Vx) as (_ & A & B). destruct (A (B Fx L)) as (_ & _ & C). split; [exact C|].
  pose proof (sqrt_pos (SF2R x)) as Hp. destruct (Req_dec (SF2R x) 0) as [E|N].
  - rewrite E, sqrt_0 in *. pose proof (rounds_exact _ f0 C fin_f0) as K. fold (SF64sqrt x) in K. fold z in K. rewrite K, val_f0. rewrite Rminus_0_r, Rabs_R0. lra.
  - destruct C as (_ & _ & _ & _ & C). rewrite (Rabs_right (sqrt (SF2R x))) in C by lra. apply C.
    pose proof (fin_min x (conj Vx Fx) N) as M. rewrite Rabs_right in M by lra. apply Rle_trans with (sqrt (bp (-1074))).
    + replace (bp (-1074)) with (bp (-537) * bp (-537)) by (rewrite <- bp_add; reflexivity). rewrite sqrt_square by (left; apply bp_pos). apply bp_le. lia.
    + apply sqrt_le_1_alt. exact M.
Qed.

Lemma fopp x : fin x -> fin (SFopp x) /\ SF2R (SFopp x) = - SF2R x.
Proof. intros (V & F). split; [split; [apply opp_valid; auto|rewrite opp_finite; auto]|apply opp_value]. Qed.

Lemma fabs x : fin x -> fin (SFabs x) /\ SF2R (SFabs x) = Rabs (SF2R x).
Proof.
  intros (V & F). destruct x as [s|s| |s m e]; try discriminate.
  - cbn [SFabs]. split; [split; reflexivity|]. change (0 = Rabs 0). rewrite Rabs_R0. reflexivity.
  - cbn [SFabs]. split; [split; [exact V|reflexivity]|]. cbn [SF2R]. rewrite sgnR_abs. pose proof (bp_pos e). assert (0 < IZR (Zpos m)) by (apply IZR_lt; lia). rewrite Rabs_right by nra. cbn [sgnR]. ring.
Qed.

Lemma fle x y : fin x -> fin y -> (SFleb x y = true <-> SF2R x <= SF2R y).
Proof. intros (V & F) (V' & F'). apply leb_ok; auto. Qed.
Lemma flt x y : fin x -> fin y -> (SFltb x y = true <-> SF2R x < SF2R y).
Proof. intros (V & F) (V' & F'). apply ltb_ok; auto. Qed.
Lemma feq x y : fin x -> fin y -> (SFeqb x y = true <-> SF2R x = SF2R y).
Proof. intros (V & F) (V' & F'). apply eqb_ok; auto. Qed.

(** ** Fused multiply-add *)

Lemma ffma x y z : fin x -> fin y -> fin z -> Rabs (SF2R x * SF2R y + SF2R z) <= bp 1023 -> rounds (SF64fma x y z) (SF2R x * SF2R y + SF2R z).
Proof.
  intros Fx Fy Fz L.
  assert (Zero : SF2R x * SF2R y = 0 -> (exists s, SF64mul x y = S754_zero s) -> rounds (SF64add (SF64mul x y) z) (SF2R x * SF2R y + SF2R z)).
  { intros E (s & Es). rewrite Es, E in *. change 0 with (SF2R (S754_zero s)). apply fadd; auto. split; reflexivity. }
  destruct x as [sx|sx| |sx mx ex]; try (destruct Fx; discriminate); destruct y as [sy|sy| |sy my ey]; try (destruct Fy; discriminate); try (apply Zero; [cbn [SF2R]; ring|eexists; reflexivity]).
  destruct z as [sz|sz| |sz mz ez]; try (destruct Fz; discriminate).
  - unfold SF64fma. change (SF2R (S754_zero sz)) with 0 in *. rewrite Rplus_0_r in *. pose proof (fmul _ _ Fx Fy L) as M. set (p := SF64mul (S754_finite sx mx ex) (S754_finite sy my ey)) in *.
    assert (Fp : fin p) by (apply (rounds_fin _ _ M)).
    assert (Ep : SF2R (SF64add p (S754_zero sz)) = SF2R p /\ fin (SF64add p (S754_zero sz))).
    { unfold SF64add. destruct Fp as (Vp & Ip). destruct p as [sp|sp| |sp mp epp]; try discriminate; cbn [SFadd].
      - destruct (Bool.eqb sp sz); split; try reflexivity; split; reflexivity.
      - split; [reflexivity|]. split; auto. }
    destruct Ep as (Ep & Fp'). destruct M as (_ & _ & M3 & M4 & M5). destruct Fp' as (V' & F'). split; [auto|]. split; [auto|]. rewrite Ep. auto.
  - unfold SF64fma. set (e := Z.min (ex + ey) ez).
    match goal with |- context [binary_normalize prec emax ?m e false] => destruct (normalize_ok m e false) as (N1 & N2 & N3 & N4); assert (E : IZR m * bp e = SF2R (S754_finite sx mx ex) * SF2R (S754_finite sy my ey) + SF2R (S754_finite sz mz ez)) end.
    { rewrite plus_IZR, Rmult_plus_distr_r, !cond_opp_val by lia. cbn [SF2R]. rewrite xorb_sgn, bp_add, Pos2Z.inj_mul, mult_IZR. ring. }
    rewrite E in *. apply N1. apply N4. exact L.
Qed.
