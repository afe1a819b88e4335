(** * Scalings in a direction, in binary64: proofs *)

From Coq Require Import Reals ZArith Lia Lra Psatz Bool SpecFloat.
From Verif Require Import SpecF64 SpecLibm SpecFloatScaling Base Spec BaseLemmas SpecLemmas ModelFloat ModelFloatScaling PFloat PFloat2 PFloat3 PFloat4 PFloatCircle PFloatGrid PFloatPi PFloatInter PFloatCC PFloatCC2 PFloatCC4 PFloatEx PFloatInv PFloatTransfo.
Local Open Scope R_scope.

Lemma ap_opp e n M X x : ap e n M X x -> ap e n M (- X) (SFopp x).
Proof. intros (F & E & B & S). destruct (fin_opp x F) as (F' & V). split; auto. rewrite V, Rabs_Ropp. replace (- SF2R x - - X) with (- (SF2R x - X)) by ring. rewrite Rabs_Ropp. auto. Qed.

Section Scal.
Variables (cosf sinf : spec_float -> spec_float) (atan2f : spec_float -> spec_float -> spec_float) (acosf : spec_float -> spec_float).
Hypothesis (HC : libm_cos_sin cosf sinf) (HA : libm_acos_atan2 acosf atan2f).

Lemma scal_angle w : fin2 w -> P2R w <> (0, 0) -> let t := SFopp (atan2f (snd w) (fst w)) in let L := sqrt (SF2R (fst w) * SF2R (fst w) + SF2R (snd w) * SF2R (snd w)) in
  exists a b, 0 < L /\ a * a + b * b = 1 /\ SF2R (fst w) = L * a /\ SF2R (snd w) = - (L * b) /\ ap 10 0 1 a (cosf t) /\ ap 10 0 1 b (sinf t).
Proof.
  intros (F0 & F1) N t L. destruct HA as (_ & HT). destruct (HT (snd w) (fst w) F1 F0 N) as (Ft & Et). set (phi := atan2 (SF2R (snd w)) (SF2R (fst w))) in *.
  destruct (fin_opp _ Ft) as (Fo & Eo). fold t in Fo, Eo. destruct (HC t Fo) as (Fc & Ec & Fs & Es). destruct (cos_sin_atan2 (SF2R (snd w)) (SF2R (fst w)) N) as (C1 & C2). fold phi in C1, C2. fold L in C1, C2.
  assert (L0 : 0 < L). { apply sqrt_lt_R0. pose proof (Rle_0_sqr (SF2R (fst w))) as Z0. pose proof (Rle_0_sqr (SF2R (snd w))) as Z1. unfold Rsqr in *. destruct (Req_dec (SF2R (fst w)) 0) as [E|E]; [destruct (Req_dec (SF2R (snd w)) 0) as [E'|E']|]; [exfalso; apply N; unfold P2R; rewrite E, E'; reflexivity| |]; nra. }
  exists (cos (- phi)), (sin (- phi)). split; auto. split; [pose proof (sin2_cos2 (- phi)) as Q; unfold Rsqr in Q; lra|]. split; [rewrite cos_neg, C1; field; lra|]. split; [rewrite sin_neg, C2; field; lra|].
  assert (D : Rabs (SF2R t - - phi) <= 8 * u64). { rewrite Eo. replace (- SF2R (atan2f (snd w) (fst w)) - - phi) with (- (SF2R (atan2f (snd w) (fst w)) - phi)) by ring. rewrite Rabs_Ropp. exact Et. }
  assert (S0 : sc 0 1) by (split; change (- 0)%Z with 0%Z; rewrite bp_0; lra).
  split; (split; [auto|]); (split; [|split; [apply Rabs_le; first [pose proof (COS_bound (- phi)); lra|pose proof (SIN_bound (- phi)); lra]|auto]]).
  - pose proof (cos_lip (SF2R t) (- phi)). replace (SF2R (cosf t) - cos (- phi)) with ((SF2R (cosf t) - cos (SF2R t)) + (cos (SF2R t) - cos (- phi))) by ring. eapply Rle_trans; [apply Rabs_triang|]. lra.
  - pose proof (sin_lip (SF2R t) (- phi)). replace (SF2R (sinf t) - sin (- phi)) with ((SF2R (sinf t) - sin (SF2R t)) + (sin (SF2R t) - sin (- phi))) by ring. eapply Rle_trans; [apply Rabs_triang|]. lra.
Qed.

Lemma scaling64_ok Q w s M S K : fin2 Q -> fin2 w -> fin s -> fin2 M -> P2R w <> (0, 0) -> bp (-60) <= S <= bp 60 -> 1 <= K <= bp 60 -> within S Q -> within S M -> Rabs (SF2R s) <= K ->
  let z := scaling64 cosf sinf atan2f Q w s M in
  exists T, stretched (P2R Q) (P2R w) (SF2R s) (P2R M) T /\ fin2 z /\
    Rabs (SF2R (fst z) - fst T) <= 250 * u64 * (K * S) /\ Rabs (SF2R (snd z) - snd T) <= 250 * u64 * (K * S).
Proof.
  intros (Q0 & Q1) Fw Fs (M0 & M1) Nw HS HK (WQ0 & WQ1) (WM0 & WM1) Ws z. destruct (scal_angle w Fw Nw) as (a & b & L0 & AB & Wx & Wy & Ca & Sb). cbv zeta in *. set (t := SFopp (atan2f (snd w) (fst w))) in *. set (L := sqrt _) in *.
  pose proof u_bounds as U. pose proof (bp_pos (-60)) as P60. assert (S0 : 0 < S) by lra. assert (SS : sc 60 S) by exact HS. assert (b60 : bp (-60) <= 1) by (rewrite <- bp_0; apply bp_le; lia). assert (SK : sc 60 K) by (split; [change (- (60))%Z with (-60)%Z; lra|lra]).
  pose proof (ap_exact 60 S _ _ Q0 eq_refl WQ0 SS) as AQ0. pose proof (ap_exact 60 S _ _ Q1 eq_refl WQ1 SS) as AQ1. pose proof (ap_exact 60 S _ _ M0 eq_refl WM0 SS) as AM0. pose proof (ap_exact 60 S _ _ M1 eq_refl WM1 SS) as AM1. pose proof (ap_exact 60 K _ _ Fs eq_refl Ws SK) as As.
  pose proof (ap_opp _ _ _ _ _ AQ0) as NQ0. pose proof (ap_opp _ _ _ _ _ AQ1) as NQ1.
  pose proof (ap_add 0 60 _ _ _ _ _ _ ltac:(lra) ltac:(lia) AM0 NQ0) as D0. pose proof (ap_add 0 60 _ _ _ _ _ _ ltac:(lra) ltac:(lia) AM1 NQ1) as D1. cbv iota in D0, D1.
  set (dx := SF2R (fst M) + - SF2R (fst Q)) in *. set (dy := SF2R (snd M) + - SF2R (snd Q)) in *. set (fx := SF64add (fst M) (SFopp (fst Q))) in *. set (fy := SF64add (snd M) (SFopp (snd Q))) in *.
  pose proof (ap_mul 10 (0 + 11 / 10) 0 (60 + 1) _ _ _ _ _ _ ltac:(lra) ltac:(lra) ltac:(lia) Ca D0) as P1. pose proof (ap_mul 10 (0 + 11 / 10) 0 (60 + 1) _ _ _ _ _ _ ltac:(lra) ltac:(lra) ltac:(lia) Sb D1) as P2.
  pose proof (ap_mul 10 (0 + 11 / 10) 0 (60 + 1) _ _ _ _ _ _ ltac:(lra) ltac:(lra) ltac:(lia) Sb D0) as P3. pose proof (ap_mul 10 (0 + 11 / 10) 0 (60 + 1) _ _ _ _ _ _ ltac:(lra) ltac:(lra) ltac:(lia) Ca D1) as P4.
  pose proof (ap_sub (10 + (0 + 11 / 10) + 11 / 10) (0 + (60 + 1)) _ _ _ _ _ _ ltac:(lra) ltac:(lia) P1 P2) as X1. pose proof (ap_add (10 + (0 + 11 / 10) + 11 / 10) (0 + (60 + 1)) _ _ _ _ _ _ ltac:(lra) ltac:(lia) P3 P4) as Y1. cbv iota in X1, Y1. clear P1 P2 P3 P4.
  set (x1 := SF64sub (SF64mul (cosf t) fx) _) in X1. set (y1 := SF64add (SF64mul (sinf t) fx) _) in Y1. set (X := a * dx - b * dy) in *. set (Y := b * dx + a * dy) in *. set (M4 := 1 * (S + S) + 1 * (S + S)) in *.
  pose proof (ap_mul 0 (10 + (0 + 11 / 10) + 11 / 10 + 11 / 10) 60 (0 + (60 + 1) + 1) _ _ _ _ _ _ ltac:(lra) ltac:(lra) ltac:(lia) As X1) as X2.
  assert (M40 : 0 < M4) by (unfold M4; lra). assert (SM : M4 <= K * M4) by (apply Rle_trans with (1 * M4); [lra|apply Rmult_le_compat_r; lra]).
  assert (S2 : sc (60 + (0 + (60 + 1) + 1)) (K * M4)) by apply X2.
  pose proof (ap_scale (0 + (10 + (0 + 11 / 10) + 11 / 10 + 11 / 10) + 11 / 10) (60 + (0 + (60 + 1) + 1)) M4 (K * M4) _ _ SM ltac:(lra) S2 (ap_weaken (10 + (0 + 11 / 10) + 11 / 10 + 11 / 10) (0 + (10 + (0 + 11 / 10) + 11 / 10 + 11 / 10) + 11 / 10) (0 + (60 + 1) + 1) (60 + (0 + (60 + 1) + 1)) _ _ _ ltac:(lra) ltac:(lia) Y1)) as Y2.
  set (e2 := 0 + (10 + (0 + 11 / 10) + 11 / 10 + 11 / 10) + 11 / 10) in *. set (n2 := (60 + (0 + (60 + 1) + 1))%Z) in *. pose proof (ap_opp _ _ _ _ _ Sb) as Nb.
  pose proof (ap_mul 10 e2 0 n2 _ _ _ _ _ _ ltac:(lra) ltac:(unfold e2; lra) ltac:(lia) Ca X2) as P1. pose proof (ap_mul 10 e2 0 n2 _ _ _ _ _ _ ltac:(lra) ltac:(unfold e2; lra) ltac:(lia) Nb Y2) as P2.
  pose proof (ap_mul 10 e2 0 n2 _ _ _ _ _ _ ltac:(lra) ltac:(unfold e2; lra) ltac:(lia) Nb X2) as P3. pose proof (ap_mul 10 e2 0 n2 _ _ _ _ _ _ ltac:(lra) ltac:(unfold e2; lra) ltac:(lia) Ca Y2) as P4.
  pose proof (ap_sub (10 + e2 + 11 / 10) (0 + n2) _ _ _ _ _ _ ltac:(unfold e2; lra) ltac:(lia) P1 P2) as X3. pose proof (ap_add (10 + e2 + 11 / 10) (0 + n2) _ _ _ _ _ _ ltac:(unfold e2; lra) ltac:(lia) P3 P4) as Y3. cbv iota in X3, Y3. clear P1 P2 P3 P4.
  pose proof (ap_sub (10 + e2 + 11 / 10 + 11 / 10) (0 + n2 + 1) _ _ _ _ _ _ ltac:(unfold e2; lra) ltac:(lia) X3 (ap_weaken 0 (10 + e2 + 11 / 10 + 11 / 10) 60 (0 + n2 + 1) _ _ _ ltac:(unfold e2; lra) ltac:(lia) NQ0)) as (FX & EX & _).
  pose proof (ap_sub (10 + e2 + 11 / 10 + 11 / 10) (0 + n2 + 1) _ _ _ _ _ _ ltac:(unfold e2; lra) ltac:(lia) Y3 (ap_weaken 0 (10 + e2 + 11 / 10 + 11 / 10) 60 (0 + n2 + 1) _ _ _ ltac:(unfold e2; lra) ltac:(lia) NQ1)) as (FY & EY & _). cbv iota in FX, EX, FY, EY.
  set (sg := SF2R s) in *.
  exists (a * (sg * X) - - b * Y - - SF2R (fst Q), - b * (sg * X) + a * Y - - SF2R (snd Q)). split.
  - exists (X / L), (b * Y, a * Y). split; [unfold orthogonal, sdot, P2R; cbn [fst snd]; rewrite Wx, Wy; ring|].
    assert (T1 : X / L * SF2R (fst w) = a * X) by (rewrite Wx; field; lra). assert (T2 : X / L * SF2R (snd w) = - b * X) by (rewrite Wy; field; lra). split.
    + unfold P2R, vsub, vadd, vscal. cbn [fst snd]. rewrite T1, T2. f_equal.
      * transitivity ((a * a + b * b) * dx); [rewrite AB; unfold dx; ring|unfold X, Y; ring].
      * transitivity ((a * a + b * b) * dy); [rewrite AB; unfold dy; ring|unfold X, Y; ring].
    + unfold P2R, vadd, vscal. cbn [fst snd]. rewrite !(Rmult_assoc sg), T1, T2. f_equal; ring.
  - split; [split; [exact FX|exact FY]|]. cbn [fst snd]. assert (KS : S <= K * S) by (apply Rle_trans with (1 * S); [lra|apply Rmult_le_compat_r; lra]). assert (uKS : u64 * S <= u64 * (K * S)) by (apply Rmult_le_compat_l; lra). assert (0 <= u64 * (K * S)) by (apply Rmult_le_pos; [lra|apply Rmult_le_pos; lra]).
    assert (EE : forall r, r <= (10 + e2 + 11 / 10 + 11 / 10 + 11 / 10) * (u64 * (1 * (K * M4) + 1 * (K * M4) + S)) -> r <= 250 * u64 * (K * S)).
    { intros r Hr. eapply Rle_trans; [exact Hr|]. replace (u64 * (1 * (K * M4) + 1 * (K * M4) + S)) with (8 * (u64 * (K * S)) + u64 * S) by (unfold M4; ring). unfold e2. lra. }
    split; apply EE; [exact EX|exact EY].
Qed.

(** ** The centre *)

Lemma zmul x y : fin x -> fin y -> SF2R x = 0 \/ SF2R y = 0 -> fin (SF64mul x y) /\ SF2R (SF64mul x y) = 0.
Proof.
  intros Fx Fy H. assert (E : SF2R x * SF2R y = 0) by (destruct H as [H|H]; rewrite H; ring). pose proof (fmul x y Fx Fy) as Z. rewrite E, Rabs_R0 in Z. specialize (Z bpos).
  split; [exact (rounds_fin _ _ Z)|exact (rounds0 _ Z)].
Qed.
Lemma zadd x y : fin x -> fin y -> SF2R x + SF2R y = 0 -> fin (SF64add x y) /\ SF2R (SF64add x y) = 0.
Proof. intros Fx Fy H. rewrite <- val_f0. apply fadd_exact; [auto|auto|apply fin_f0|rewrite val_f0; exact H|rewrite val_f0, Rabs_R0; apply bpos]. Qed.
Lemma zsub x y : fin x -> fin y -> SF2R x - SF2R y = 0 -> fin (SF64sub x y) /\ SF2R (SF64sub x y) = 0.
Proof. intros Fx Fy H. rewrite <- val_f0. apply fsub_exact; [auto|auto|apply fin_f0|rewrite val_f0; exact H|rewrite val_f0, Rabs_R0; apply bpos]. Qed.

Lemma scaling64_centre Q w s M : fin2 Q -> fin2 w -> fin s -> fin2 M -> P2R w <> (0, 0) -> within (bp 1000) Q -> P2R M = P2R Q ->
  let z := scaling64 cosf sinf atan2f Q w s M in fin2 z /\ P2R z = P2R Q.
Proof.
  intros (Q0 & Q1) Fw Fs (M0 & M1) Nw (W0 & W1) E z. injection E as Ex Ey. destruct (scal_angle w Fw Nw) as (a & b & _ & _ & _ & _ & (Fc & _) & (Fn & _)). unfold z, scaling64, fp_add, fp_sub, fp_map2. cbn [fst snd]. set (t := SFopp (atan2f (snd w) (fst w))) in *.
  destruct (fin_opp _ Q0) as (N0 & V0). destruct (fin_opp _ Q1) as (N1 & V1). destruct (fin_opp _ Fn) as (Nn & _).
  destruct (zadd _ _ M0 N0 ltac:(rewrite V0, Ex; ring)) as (A0 & B0). destruct (zadd _ _ M1 N1 ltac:(rewrite V1, Ey; ring)) as (A1 & B1).
  destruct (zmul _ _ Fc A0 (or_intror B0)) as (C0 & D0). destruct (zmul _ _ Fn A1 (or_intror B1)) as (C1 & D1). destruct (zmul _ _ Fn A0 (or_intror B0)) as (C2 & D2). destruct (zmul _ _ Fc A1 (or_intror B1)) as (C3 & D3).
  destruct (zsub _ _ C0 C1 ltac:(rewrite D0, D1; ring)) as (X1 & Y1). destruct (zadd _ _ C2 C3 ltac:(rewrite D2, D3; ring)) as (X2 & Y2). destruct (zmul _ _ Fs X1 (or_intror Y1)) as (X3 & Y3).
  destruct (zmul _ _ Fc X3 (or_intror Y3)) as (G0 & H0). destruct (zmul _ _ Nn X2 (or_intror Y2)) as (G1 & H1). destruct (zmul _ _ Nn X3 (or_intror Y3)) as (G2 & H2). destruct (zmul _ _ Fc X2 (or_intror Y2)) as (G3 & H3).
  destruct (zsub _ _ G0 G1 ltac:(rewrite H0, H1; ring)) as (I1 & J1). destruct (zadd _ _ G2 G3 ltac:(rewrite H2, H3; ring)) as (I2 & J2).
  assert (LE : bp 1000 <= bp 1023) by (apply bp_le; lia).
  destruct (fsub_exact _ _ (fst Q) I1 N0 Q0 ltac:(rewrite J1, V0; ring) ltac:(lra)) as (K1 & L1). destruct (fsub_exact _ _ (snd Q) I2 N1 Q1 ltac:(rewrite J2, V1; ring) ltac:(lra)) as (K2 & L2).
  split; [split; auto|]. unfold P2R. cbn [fst snd]. rewrite L1, L2. reflexivity.
Qed.
End Scal.

Lemma stretched_unique Q w s M T T' : w <> (0, 0) -> stretched Q w s M T -> stretched Q w s M T' -> T = T'.
Proof.
  intros N (k & n & O & D & E) (k' & n' & O' & D' & E'). destruct Q as [q0 q1], w as [w0 w1], M as [m0 m1], n as [n0 n1], n' as [n0' n1']. unfold orthogonal, sdot, vsub, vadd, vscal in *. cbn [fst snd] in *.
  injection D as D0 D1. injection D' as D0' D1'. assert (P : 0 < w0 * w0 + w1 * w1). { pose proof (Rle_0_sqr w0) as Z0. pose proof (Rle_0_sqr w1) as Z1. unfold Rsqr in *. destruct (Req_dec w0 0) as [F|F]; [destruct (Req_dec w1 0) as [G|G]|]; [exfalso; apply N; subst; reflexivity| |]; nra. }
  assert (K : k = k'). { apply Rmult_eq_reg_r with (w0 * w0 + w1 * w1); [|lra]. transitivity ((m0 - q0) * w0 + (m1 - q1) * w1); [rewrite D0, D1|rewrite D0', D1']; lra. }
  subst k' T T'. assert (n0 = n0') by lra. assert (n1 = n1') by lra. subst. reflexivity.
Qed.
