(** * Two circles in binary64: accuracy of the points *)

From Coq Require Import Reals ZArith Lia Lra Psatz Bool SpecFloat.
From Verif Require Import SpecF64 SpecLibm Base Spec BaseLemmas SpecLemmas ModelInternal ModelLine ModelCircle ModelFloat ModelFloatInter ModelFloatCC PFloat PFloat2 PFloat3 PFloat4 PFloatCircle PFloatGrid PFloatPi PFloatInter PCircle PFloatCC PFloatCC2 PFloatEx.
Local Open Scope R_scope.

(** ** The assumption can be met *)

Definition approx_r (c : R) : spec_float := binary_normalize prec emax (up (c * bp 60)) (-60) false.

Lemma approx_r_ok c : -4 <= c <= 4 -> fin (approx_r c) /\ Rabs (SF2R (approx_r c) - c) <= 8 * u64.
Proof.
  intros H. unfold approx_r. set (n := up (c * bp 60)). destruct (archimed (c * bp 60)) as (A1 & A2). fold n in A1, A2. pose proof (bp_pos 60) as P60.
  assert (I : bp (-60) * bp 60 = 1) by (rewrite <- bp_add; reflexivity). pose proof (bp_pos (-60)) as Pm. assert (E60 : bp (-60) = / IZR (2 ^ 60)) by (change (bp (-60)) with (/ bp 60); rewrite bp_IZR by lia; reflexivity). change (2 ^ 60)%Z with 1152921504606846976%Z in E60.
  set (r := IZR n * bp (-60)). assert (Er : 0 <= r - c <= bp (-60)).
  { unfold r. replace (IZR n * bp (-60) - c) with ((IZR n - c * bp 60) * bp (-60)) by (rewrite Rmult_minus_distr_r, Rmult_assoc, (Rmult_comm (bp 60)), I; ring). split; [apply Rmult_le_pos; lra|]. rewrite <- (Rmult_1_l (bp (-60))) at 2. apply Rmult_le_compat_r; lra. }
  assert (Br : Rabs r <= 401 / 100) by (apply abs_le; lra). destruct (normalize_ok n (-60) false) as (A & V & _ & B). fold r in A, B.
  assert (Fz : is_finite (binary_normalize prec emax n (-60) false) = true). { apply B. assert (8 <= bp 1023). { apply Rle_trans with (bp 3); [rewrite bp_IZR by lia; change (2 ^ 3)%Z with 8%Z; lra|apply bp_le; lia]. } lra. }
  destruct (A Fz) as (R1 & R2). specialize (R2 ltac:(lia)). split; [apply (rounds_fin _ _ R1)|]. pose proof u_bounds as U. pose proof u64_val as Uv.
  assert (u64 * Rabs r <= u64 * (401 / 100)) by (apply Rmult_le_compat_l; lra). apply abs_bounds in R2. apply abs_le. lra.
Qed.

Lemma libm_inverse_exists : libm_acos_atan2 (fun x => approx_r (acos (SF2R x))) (fun y x => approx_r (atan2 (SF2R y) (SF2R x))).
Proof.
  pose proof PI_4 as P4. split.
  - intros x _ _. apply approx_r_ok. pose proof (acos_bound (SF2R x)). lra.
  - intros y x _ _ _. apply approx_r_ok. pose proof (atan2_range (SF2R y) (SF2R x)). lra.
Qed.

(** ** The cosine *)

Lemma cosine64_ok num l r N kl r1 : fin num -> fin l -> fin r -> SF2R num = N -> SF2R l = IZR kl -> SF2R r = r1 -> (1 <= kl < 2 ^ 50)%Z -> 1 <= r1 <= 1048576 ->
  Rabs N <= r1 * sqrt (4 * IZR kl) ->
  let c := N / (r1 * sqrt (4 * IZR kl)) in
  let c0 := SF64div num (SF64mul r (SF64sqrt (SF64mul f4 l))) in
  fin c0 /\ Rabs (SF2R c0 - c) <= 4 * u64.
Proof.
  intros Fn Fl Fr En El Er Bl Br BN c c0. pose proof u_bounds as U. pose proof eta64_small as Et.
  assert (F4 : fin f4) by (split; reflexivity). assert (V4 : SF2R f4 = IZR 4 * bp 0) by (unfold f4; rewrite val_lit, bp_0; cbn; lra). assert (El' : SF2R l = IZR kl * bp 0) by (rewrite bp_0; lra).
  destruct (mul_grid f4 l 4 kl 0 0 F4 Fl V4 El' ltac:(lia) ltac:(lia)) as (Fm & Em). change (0 + 0)%Z with 0%Z in Em. rewrite bp_0, Rmult_1_r, mult_IZR in Em.
  assert (K1 : 1 <= IZR kl <= bp 50) by (split; [apply IZR_le; lia|rewrite bp_IZR by lia; apply IZR_le; lia]).
  destruct (fsqrt _ Fm ltac:(rewrite Em; lra)) as (Rs & Es). rewrite Em in Es. set (s := SF64sqrt (SF64mul f4 l)) in *. pose proof (rounds_fin _ _ Rs) as Fs. set (S := sqrt (4 * IZR kl)) in *.
  assert (S2 : S * S = 4 * IZR kl) by (unfold S; apply sqrt_sqrt; lra). assert (S0 : 0 <= S) by (unfold S; apply sqrt_pos). assert (S1 : 2 <= S) by (apply Rnot_lt_le; intros Q; nra). assert (S3 : S <= bp 51).
  { replace (bp 51) with (2 * bp 50) by (rewrite <- bp_succ; reflexivity). assert (1 <= bp 50) by (rewrite <- bp_0; apply bp_le; lia). apply Rnot_lt_le. intros Q. nra. }
  set (D := r1 * S) in *. assert (D1 : 2 <= D) by (unfold D; nra). assert (D2 : D <= bp 80). { unfold D. replace 1048576 with (bp 20) in Br by (rewrite bp_IZR by lia; reflexivity). apply Rle_trans with (bp 20 * bp 51); [apply Rmult_le_compat; lra|rewrite <- bp_add; apply bp_le; lia]. }
  assert (B80 : 4 * bp 80 <= bp 1023). { replace (4 * bp 80) with (bp (80 + 1 + 1)) by (rewrite !bp_succ; ring). apply bp_le. lia. }
  pose proof (u_mul D ltac:(lra)) as UD. apply abs_bounds in Es.
  assert (Es2 : Rabs (r1 * SF2R s - D) <= u64 * D). { replace (r1 * SF2R s - D) with (r1 * (SF2R s - S)) by (unfold D; ring). rewrite Rabs_mult, (Rabs_right r1) by lra. unfold D. replace (u64 * (r1 * S)) with (r1 * (u64 * S)) by ring. apply Rmult_le_compat_l; [lra|]. apply Rabs_le. lra. }
  apply abs_bounds in Es2. assert (Bd : Rabs (r1 * SF2R s) <= D + u64 * D) by (apply Rabs_le; lra).
  assert (Rd : rounds (SF64mul r s) (r1 * SF2R s)) by (rewrite <- Er; apply fmul; auto; rewrite Er; lra). pose proof (rounds_fin _ _ Rd) as Fd. pose proof (rounds_err_le _ _ _ Rd Bd) as Ed. rewrite Rmult_plus_distr_l in Ed. pose proof (u_mul (u64 * D) ltac:(lra)) as UUD. apply abs_bounds in Ed.
  set (d := SF64mul r s) in *. assert (uD : 2 * u64 <= u64 * D) by (rewrite (Rmult_comm 2); apply Rmult_le_compat_l; lra).
  assert (ue : eta64 <= u64 / 1000) by (pose proof u64_val; lra).
  assert (Ed2 : Rabs (SF2R d - D) <= 201 / 100 * (u64 * D)) by (apply Rabs_le; lra). apply abs_bounds in Ed2.
  assert (Pd : 99 / 100 * D <= SF2R d) by lra.
  assert (C1 : Rabs c <= 1). { unfold c, Rdiv. rewrite Rabs_mult, (Rabs_right (/ D)) by (left; apply Rinv_0_lt_compat; lra). apply (Rmult_le_reg_r D); [lra|]. rewrite Rmult_assoc, Rinv_l by lra. lra. }
  assert (Q1 : Rabs (N / SF2R d - c) <= 204 / 100 * u64).
  { replace (N / SF2R d - c) with (c * ((D - SF2R d) / SF2R d)) by (unfold c; field; lra). rewrite Rabs_mult. rewrite <- (Rmult_1_l (204 / 100 * u64)). apply Rmult_le_compat; try apply Rabs_pos; auto.
    unfold Rdiv at 1. rewrite Rabs_mult, (Rabs_right (/ SF2R d)) by (left; apply Rinv_0_lt_compat; lra). apply (Rmult_le_reg_r (SF2R d)); [lra|]. rewrite Rmult_assoc, Rinv_l, Rmult_1_r by lra.
    apply Rle_trans with (201 / 100 * (u64 * D)); [apply Rabs_le; lra|]. assert (u64 * (99 / 100 * D) <= u64 * SF2R d) by (apply Rmult_le_compat_l; lra).
    assert (u64 * SF2R d >= u64 * D - u64 * (201 / 100 * (u64 * D))). { rewrite <- Rmult_minus_distr_l. apply Rle_ge. apply Rmult_le_compat_l; lra. } replace (u64 * (201 / 100 * (u64 * D))) with (201 / 100 * (u64 * (u64 * D))) in H0 by ring. lra. }
  apply abs_bounds in Q1, C1. assert (Bq : Rabs (N / SF2R d) <= 1001 / 1000) by (apply Rabs_le; lra).
  assert (Rc : rounds c0 (N / SF2R d)) by (rewrite <- En; apply fdiv; auto; rewrite ?En; try lra). pose proof (rounds_err_le _ _ _ Rc Bq) as Ec. apply abs_bounds in Ec.
  split; [apply (rounds_fin _ _ Rc)|]. apply Rabs_le. lra.
Qed.

Lemma clamp64_ok c0 c : fin c0 -> -1 <= c <= 1 -> Rabs (SF2R c0 - c) <= 4 * u64 ->
  let c1 := if SFltb f1 c0 then f1 else c0 in let z := if SFltb c1 (SFopp f1) then SFopp f1 else c1 in
  fin z /\ -1 <= SF2R z <= 1 /\ Rabs (SF2R z - c) <= 4 * u64.
Proof.
  intros F Hc H c1 z. assert (Fm : fin (SFopp f1)) by (split; reflexivity). assert (Vm : SF2R (SFopp f1) = -1). { cbn [SFopp f1 negb]. pose proof val_f1 as V. cbn [SF2R f1 sgnR] in *. lra. }
  pose proof val_f1 as V1. pose proof fin_f1 as F1. apply abs_bounds in H. pose proof u_bounds as U. pose proof (flt f1 c0 F1 F) as T1. rewrite V1 in T1.
  assert (K : fin c1 /\ SF2R c1 <= 1 /\ Rabs (SF2R c1 - c) <= 4 * u64). { unfold c1. destruct (SFltb f1 c0); [pose proof (proj1 T1 eq_refl)|assert (~ 1 < SF2R c0) by (intros Q; apply T1 in Q; discriminate)]; (split; [auto|split; [lra|apply Rabs_le; lra]]). }
  destruct K as (K1 & K2 & K3). apply abs_bounds in K3. pose proof (flt c1 _ K1 Fm) as T2. rewrite Vm in T2. unfold z. destruct (SFltb c1 (SFopp f1)); [pose proof (proj1 T2 eq_refl)|assert (~ SF2R c1 < -1) by (intros Q; apply T2 in Q; discriminate)]; (split; [auto|split; [lra|apply Rabs_le; lra]]).
Qed.

(** ** A point of given angle *)

Lemma coord64_ok o r t e o1 r1 C : fin o -> fin r -> fin t -> SF2R o = o1 -> SF2R r = r1 -> Rabs (SF2R t - C) <= 2 * u64 -> -1 <= C <= 1 -> e = SF64add o (SF64mul r t) -> 1 <= r1 <= 1048576 -> Rabs o1 <= 65536 ->
  fin e /\ Rabs (SF2R e - (o1 + r1 * C)) <= 5 * u64 * (r1 + Rabs o1).
Proof.
  intros Fo Fr Ft Eo Er Et HC -> Br Bo. pose proof u_bounds as U. pose proof eta64_small as E0. assert (ue : eta64 <= u64 / 1000) by (pose proof u64_val; lra).
  assert (Big : 4000000 <= bp 1023). { apply Rle_trans with (bp 30); [rewrite bp_IZR by lia; cbn; lra|apply bp_le; lia]. }
  apply abs_bounds in Et. pose proof (u_mul r1 ltac:(lra)) as U1. pose proof (u_mul (u64 * r1) ltac:(lra)) as U2. assert (U3 : u64 * 1 <= u64 * r1) by (apply Rmult_le_compat_l; lra).
  assert (P1 : Rabs (r1 * SF2R t - r1 * C) <= 2 * (u64 * r1)). { rewrite <- Rmult_minus_distr_l, Rabs_mult, (Rabs_right r1) by lra. replace (2 * (u64 * r1)) with (r1 * (2 * u64)) by ring. apply Rmult_le_compat_l; [lra|apply Rabs_le; lra]. }
  assert (P2 : Rabs (r1 * C) <= r1). { rewrite Rabs_mult, (Rabs_right r1) by lra. rewrite <- (Rmult_1_r r1) at 2. apply Rmult_le_compat_l; [lra|apply Rabs_le; lra]. }
  apply abs_bounds in P1, P2. assert (P3 : Rabs (r1 * SF2R t) <= r1 + 2 * (u64 * r1)) by (apply Rabs_le; lra).
  assert (Rm : rounds (SF64mul r t) (r1 * SF2R t)) by (rewrite <- Er; apply fmul; auto; rewrite Er; lra). pose proof (rounds_fin _ _ Rm) as Fm. pose proof (rounds_err_le _ _ _ Rm P3) as Em. rewrite Rmult_plus_distr_l in Em. replace (u64 * (2 * (u64 * r1))) with (2 * (u64 * (u64 * r1))) in Em by ring. apply abs_bounds in Em.
  set (p := SF64mul r t) in *. pose proof (Rabs_pos o1) as Po. pose proof (u_mul (Rabs o1) Po) as U4. assert (Bo2 := Rle_refl (Rabs o1)). apply abs_bounds in Bo2.
  assert (P4 : Rabs (SF2R o + SF2R p) <= Rabs o1 + r1 + 4 * (u64 * r1)) by (rewrite Eo; apply Rabs_le; lra).
  destruct (fadd o p Fo Fm ltac:(lra)) as (Ra & Ea). split; [apply (rounds_fin _ _ Ra)|]. assert (Ea' : Rabs (SF2R (SF64add o p) - (SF2R o + SF2R p)) <= u64 * (Rabs o1 + r1 + 4 * (u64 * r1))) by (eapply Rle_trans; [exact Ea|apply Rmult_le_compat_l; lra]).
  rewrite !Rmult_plus_distr_l in Ea'. replace (u64 * (4 * (u64 * r1))) with (4 * (u64 * (u64 * r1))) in Ea' by ring. apply abs_bounds in Ea'. rewrite Eo in *.
  replace (5 * u64 * (r1 + Rabs o1)) with (5 * (u64 * r1) + 5 * (u64 * Rabs o1)) by ring. apply Rabs_le. lra.
Qed.

Section Point.
Variables (acosf cosf sinf : spec_float -> spec_float) (atan2f : spec_float -> spec_float -> spec_float).
Hypotheses (HL : libm_cos_sin cosf sinf) (HI : libm_acos_atan2 acosf atan2f).

Lemma point64_near (plus : bool) o r x y cz O1 O2 r1 r2 c : fin2 o -> fin r -> fin x -> fin y -> fin cz -> P2R o = O1 -> SF2R r = r1 -> SF2R x = fst O1 - fst O2 -> SF2R y = snd O1 - snd O2 -> O1 <> O2 ->
  1 <= r1 <= 1048576 -> Rabs (fst O1) <= 65536 -> Rabs (snd O1) <= 65536 -> -1 <= SF2R cz <= 1 -> Rabs (SF2R cz - c) <= 4 * u64 -> 2 * r1 * dist O1 O2 * c = r2 * r2 - r1 * r1 - dist2 O1 O2 ->
  let th := if plus then SF64add (atan2f y x) (acosf cz) else SF64sub (atan2f y x) (acosf cz) in
  near_common O1 r1 O2 r2 (if plus then 1 else -1) (SF64add (fst o) (SF64mul r (cosf th)), SF64add (snd o) (SF64mul r (sinf th))).
Proof.
  intros (Fo0 & Fo1) Fr Fx Fy Fc Eo Er Ex Ey Hne Br B0 B1 Hc Ec EQ th. destruct HI as (HA & HT). pose proof u_bounds as U. pose proof eta64_small as E0.
  destruct (HA cz Fc Hc) as (FA & EA). assert (Hxy : (SF2R x, SF2R y) <> (0, 0)). { rewrite Ex, Ey. intros Q. injection Q as Q1 Q2. apply Hne. destruct O1, O2; cbn [fst snd] in *. f_equal; lra. }
  destruct (HT y x Fy Fx Hxy) as (FT & ET). set (A := acos (SF2R cz)) in *. set (phi := atan2 (SF2R y) (SF2R x)) in *. pose proof (acos_bound (SF2R cz)) as BA. fold A in BA. pose proof (atan2_range (SF2R y) (SF2R x)) as BT. fold phi in BT.
  assert (P3 : PI <= 32 / 10) by (pose proof PI_bounds; lra). apply abs_bounds in EA, ET.
  assert (Big : 8 <= bp 1023). { apply Rle_trans with (bp 3); [rewrite bp_IZR by lia; cbn; lra|apply bp_le; lia]. }
  set (sg := if plus then 1 else -1). assert (Sg : sg = 1 \/ sg = -1) by (unfold sg; destruct plus; auto).
  assert (Th : fin th /\ Rabs (SF2R th - (phi + sg * A)) <= 23 * u64).
  { unfold th, sg. destruct plus.
    - assert (BB : Rabs (SF2R (atan2f y x) + SF2R (acosf cz)) <= 7) by (apply Rabs_le; lra). destruct (fadd _ _ FT FA ltac:(lra)) as (Ra & Ea). split; [apply (rounds_fin _ _ Ra)|]. assert (Ea' : Rabs (SF2R (SF64add (atan2f y x) (acosf cz)) - (SF2R (atan2f y x) + SF2R (acosf cz))) <= u64 * 7) by (eapply Rle_trans; [exact Ea|apply Rmult_le_compat_l; lra]). apply abs_bounds in Ea'. apply Rabs_le. lra.
    - assert (BB : Rabs (SF2R (atan2f y x) - SF2R (acosf cz)) <= 7) by (apply Rabs_le; lra). destruct (fsub _ _ FT FA ltac:(lra)) as (Ra & Ea). split; [apply (rounds_fin _ _ Ra)|]. assert (Ea' : Rabs (SF2R (SF64sub (atan2f y x) (acosf cz)) - (SF2R (atan2f y x) - SF2R (acosf cz))) <= u64 * 7) by (eapply Rle_trans; [exact Ea|apply Rmult_le_compat_l; lra]). apply abs_bounds in Ea'. apply Rabs_le. lra. }
  destruct Th as (Fth & Eth). clearbody th. set (t := SF2R th) in *. destruct (HL th Fth) as (Fcos & Ecos & Fsin & Esin). fold t in Ecos, Esin.
  set (d := dist O1 O2). assert (Hd : 0 < d) by (unfold d; apply dist_pos; auto). assert (Dd : d * d = dist2 O1 O2) by (unfold d; apply dist_sq).
  assert (Dxy : SF2R x * SF2R x + SF2R y * SF2R y = d * d) by (rewrite Dd, Ex, Ey; unspec; ring).
  assert (Sd : sqrt (SF2R x * SF2R x + SF2R y * SF2R y) = d) by (rewrite Dxy; apply sqrt_square; lra).
  destruct (cos_sin_atan2 (SF2R y) (SF2R x) Hxy) as (Cp & Sp). fold phi in Cp, Sp. rewrite Sd in Cp, Sp.
  assert (Cx : d * cos phi = SF2R x) by (rewrite Cp; field; lra). assert (Sy : d * sin phi = SF2R y) by (rewrite Sp; field; lra).
  unfold near_common. fold d. exists (fst O1 + r1 * cos t, snd O1 + r1 * sin t). split; [|split; [|split]].
  - apply on_circle_sq; [lra|]. unspec. transitivity (r1 * r1 * (cos t * cos t + sin t * sin t)); [ring|]. rewrite cs1. ring.
  - assert (E1 : dist2 O2 (fst O1 + r1 * cos t, snd O1 + r1 * sin t) = d * d + r1 * r1 + 2 * r1 * d * cos (t - phi)).
    { transitivity ((SF2R x + r1 * cos t) * (SF2R x + r1 * cos t) + (SF2R y + r1 * sin t) * (SF2R y + r1 * sin t)); [rewrite Ex, Ey; unspec; ring|].
      transitivity (SF2R x * SF2R x + SF2R y * SF2R y + r1 * r1 * (cos t * cos t + sin t * sin t) + 2 * r1 * (cos t * SF2R x + sin t * SF2R y)); [ring|]. rewrite cs1, Dxy, <- Cx, <- Sy, cos_minus. ring. }
    rewrite E1. replace (d * d + r1 * r1 + 2 * r1 * d * cos (t - phi) - r2 * r2) with (2 * (r1 * d) * (cos (t - phi) - c)) by (fold d in EQ; rewrite <- Dd in EQ; transitivity (2 * r1 * d * cos (t - phi) - 2 * r1 * d * c); [ring|lra]).
    assert (Rd : 0 < r1 * d) by (apply Rmult_lt_0_compat; lra). rewrite Rabs_mult, (Rabs_right (2 * (r1 * d))) by lra. replace (54 * u64 * (r1 * d)) with (2 * (r1 * d) * (27 * u64)) by ring. apply Rmult_le_compat_l; [lra|].
    pose proof (cos_lip (t - phi) (sg * A)) as L. replace (t - phi - sg * A) with (t - (phi + sg * A)) in L by ring. assert (L2 : Rabs (cos (t - phi) - cos (sg * A)) <= 23 * u64) by lra.
    assert (EC : cos (sg * A) = SF2R cz). { destruct Sg as [-> | ->]; [rewrite Rmult_1_l|replace (-1 * A) with (- A) by ring; rewrite cos_neg]; unfold A; apply cos_acos; lra. }
    rewrite EC in L2. apply abs_bounds in L2, Ec. apply Rabs_le. lra.
  - assert (E1 : scross (vsub O1 O2) (vsub (fst O1 + r1 * cos t, snd O1 + r1 * sin t) O1) = r1 * d * sin (t - phi)).
    { transitivity (r1 * (SF2R x * sin t - SF2R y * cos t)); [rewrite Ex, Ey; unspec; ring|]. rewrite <- Cx, <- Sy, sin_minus. ring. }
    rewrite E1. assert (Rd : 0 < r1 * d) by (apply Rmult_lt_0_compat; lra). replace (- (23 * u64 * (r1 * d))) with (r1 * d * - (23 * u64)) by ring. replace (sg * (r1 * d * sin (t - phi))) with (r1 * d * (sg * sin (t - phi))) by ring. apply Rmult_le_compat_l; [lra|].
    pose proof (sin_lip (t - phi) (sg * A)) as L. replace (t - phi - sg * A) with (t - (phi + sg * A)) in L by ring. assert (L2 : Rabs (sin (t - phi) - sin (sg * A)) <= 23 * u64) by lra. apply abs_bounds in L2.
    pose proof (sin_ge_0 A ltac:(lra) ltac:(lra)) as SA. destruct Sg as [G|G]; rewrite G in *; [rewrite Rmult_1_l in L2|replace (-1 * A) with (- A) in L2 by ring; rewrite sin_neg in L2]; lra.
  - assert (Eo0 : SF2R (fst o) = fst O1) by (rewrite <- Eo; reflexivity). assert (Eo1 : SF2R (snd o) = snd O1) by (rewrite <- Eo; reflexivity).
    destruct (coord64_ok (fst o) r (cosf th) _ (fst O1) r1 (cos t) Fo0 Fr Fcos Eo0 Er Ecos (COS_bound t) eq_refl Br B0) as (K1 & K2). destruct (coord64_ok (snd o) r (sinf th) _ (snd O1) r1 (sin t) Fo1 Fr Fsin Eo1 Er Esin (SIN_bound t) eq_refl Br B1) as (K3 & K4).
    split; [split; assumption|]. cbn [fst snd]. auto.
Qed.

Lemma intersection_cc64_points m c1 c2 : on_grid 0 1048576 (c64_radius c1) -> on_grid 0 1048576 (c64_radius c2) -> 0 < SF2R (c64_radius c1) -> 0 < SF2R (c64_radius c2) ->
  on_grid2 0 65536 (c64_center c1) -> on_grid2 0 65536 (c64_center c2) ->
  let near := near_common (P2R (c64_center c1)) (SF2R (c64_radius c1)) (P2R (c64_center c2)) (SF2R (c64_radius c2)) in
  match intersection_circle_circle64 m acosf cosf sinf atan2f c1 c2 with
  | Points64 (IOne64 P) => near 1 P
  | Points64 (ITwo64 P Q) => near 1 P /\ near (-1) Q
  | _ => True
  end.
Proof.
  intros R1 R2 P1 P2 G1 G2 near. pose proof (circle_is_equal64_int c1 c2 G1 G2 R1 R2 P1 P2) as Q. unfold near.
  set (O1 := P2R (c64_center c1)) in *. set (O2 := P2R (c64_center c2)) in *. set (r1 := SF2R (c64_radius c1)) in *. set (r2 := SF2R (c64_radius c2)) in *.
  assert (G1' := on_grid2_weaken 0 65536 1048576 _ ltac:(lia) G1). assert (G2' := on_grid2_weaken 0 65536 1048576 _ ltac:(lia) G2).
  pose proof (apart64_int m c1 c2 G1' G2' R1 R2) as A. cbv zeta in A. rewrite d2R_dist2 in A. fold O1 O2 r1 r2 in A.
  unfold intersection_circle_circle64. destruct (circle_is_equal64 c1 c2); [exact I|]. assert (NQ : ~ (O1 = O2 /\ r1 = r2)) by (intros K; apply Q in K; discriminate). clear Q.
  cbv zeta. destruct (apart64 _ _ _); [exact I|].
  assert (B : (r1 - r2) * (r1 - r2) <= dist2 O1 O2 <= (r1 + r2) * (r1 + r2)). { split; apply Rnot_lt_le; intros K; assert (false = true) by (apply A; auto); discriminate. }
  assert (D : 0 < dist2 O1 O2). { destruct (Rle_lt_or_eq_dec 0 _ (dist2_nonneg O1 O2)) as [|E]; auto. exfalso. apply NQ. split; [apply dist2_zero; auto|]. rewrite <- E in B. destruct B as (B & _). pose proof (Rle_0_sqr (r1 - r2)) as S. unfold Rsqr in S. assert (Z : (r1 - r2) * (r1 - r2) = 0) by lra. apply Rmult_integral in Z. destruct Z; lra. }
  assert (Hne : O1 <> O2) by (intros E; rewrite E in D; revert D; unspec; lra).
  (* exact quantities *)
  destruct R1 as (Fr1 & n1 & Bn1 & En1), R2 as (Fr2 & n2 & Bn2 & En2). pose proof (zprod n1 n1 1048576 ltac:(lia) ltac:(lia)) as Z1. pose proof (zprod n2 n2 1048576 ltac:(lia) ltac:(lia)) as Z2.
  destruct (mul_grid _ _ _ _ 0 0 Fr1 Fr1 En1 En1 ltac:(lia) ltac:(lia)) as (Fs1 & Es1). destruct (mul_grid _ _ _ _ 0 0 Fr2 Fr2 En2 En2 ltac:(lia) ltac:(lia)) as (Fs2 & Es2).
  destruct (sub_grid _ _ _ _ _ Fs2 Fs1 Es2 Es1 ltac:(lia) ltac:(lia)) as (Fk & Ek).
  destruct (dist2_grid Separate 0 65536 _ _ ltac:(lia) ltac:(lia) G1 G2) as (kl & Bl & Fl & El & Dl). rewrite d2R_dist2 in Dl. fold O1 O2 in Dl. change (0 + 0)%Z with 0%Z in *.
  set (v := fp_sub (c64_center c1) (c64_center c2)) in *. change (dot64 Separate v v) with (SF64add (SF64mul (fst v) (fst v)) (SF64mul (snd v) (snd v))) in Fl, El. set (l := SF64add (SF64mul (fst v) (fst v)) _) in *.
  destruct G1 as ((Fx1 & a0 & A0 & W0) & (Fy1 & a1 & A1 & W1)), G2 as ((Fx2 & b0 & C0 & V0) & (Fy2 & b1 & C1 & V1)).
  destruct (sub_grid _ _ _ _ 0 Fx1 Fx2 W0 V0 ltac:(lia) ltac:(lia)) as (Fvx & Evx). destruct (sub_grid _ _ _ _ 0 Fy1 Fy2 W1 V1 ltac:(lia) ltac:(lia)) as (Fvy & Evy).
  change (SF64sub (fst (c64_center c1)) (fst (c64_center c2))) with (fst v) in Fvx, Evx. change (SF64sub (snd (c64_center c1)) (snd (c64_center c2))) with (snd v) in Fvy, Evy.
  rewrite bp_0, Rmult_1_r in Dl. assert (Bl2 : (1 <= kl <= 34359738368)%Z).
  { split; [rewrite Dl in D; apply lt_IZR in D; lia|]. apply le_IZR. rewrite <- Dl. unfold O1, O2. rewrite <- d2R_dist2. unfold d2R. rewrite W0, W1, V0, V1, bp_0, !Rmult_1_r, <- !minus_IZR, <- !mult_IZR, <- plus_IZR. apply IZR_le.
    pose proof (zprod (a0 - b0) (a0 - b0) 131072 ltac:(lia) ltac:(lia)). pose proof (zprod (a1 - b1) (a1 - b1) 131072 ltac:(lia) ltac:(lia)). lia. }
  destruct (sub_grid _ _ _ _ _ Fk Fl Ek El ltac:(lia) ltac:(lia)) as (Fn & En). rewrite bp_0, Rmult_1_r in *. set (num := SF64sub (SF64sub _ _) l) in *.
  fold r1 in En1. fold r2 in En2. assert (Br1 : 1 <= r1 <= 1048576). { rewrite En1 in *. apply lt_IZR in P1. split; apply IZR_le; lia. }
  assert (EN : IZR (n2 * n2 - n1 * n1 - kl) = r2 * r2 - r1 * r1 - dist2 O1 O2) by (rewrite !minus_IZR, !mult_IZR, <- En1, <- En2, Dl; reflexivity). rewrite EN in En.
  set (d := dist O1 O2). assert (Hd : 0 < d) by (unfold d; apply dist_pos; auto). assert (Dd : d * d = dist2 O1 O2) by (unfold d; apply dist_sq).
  assert (ES : sqrt (4 * IZR kl) = 2 * d) by (rewrite <- Dl, <- Dd; replace (4 * (d * d)) with ((2 * d) * (2 * d)) by ring; apply sqrt_square; lra).
  assert (BN : Rabs (r2 * r2 - r1 * r1 - dist2 O1 O2) <= r1 * sqrt (4 * IZR kl)).
  { rewrite ES. rewrite <- Dd in *. apply Rabs_le. assert (H1 : d <= r1 + r2) by (apply Rnot_lt_le; intros K; nra). assert (H2 : r2 <= r1 + d) by (apply Rnot_lt_le; intros K; nra). assert (H3 : r1 <= r2 + d) by (apply Rnot_lt_le; intros K; nra). split; nra. }
  destruct (cosine64_ok num l (c64_radius c1) _ kl r1 Fn Fl Fr1 En El eq_refl ltac:(lia) Br1 BN) as (Fc0 & Ec0). cbv zeta in Ec0. rewrite ES in BN, Ec0. set (c := (r2 * r2 - r1 * r1 - dist2 O1 O2) / (r1 * (2 * d))) in *.
  assert (Rd : 0 < r1 * d) by (apply Rmult_lt_0_compat; lra).
  assert (Hc : -1 <= c <= 1). { apply abs_bounds in BN. unfold c. split; [apply (Rmult_le_reg_r (r1 * (2 * d))); [lra|]; unfold Rdiv; rewrite Rmult_assoc, Rinv_l by lra; lra|apply (Rmult_le_reg_r (r1 * (2 * d))); [lra|]; unfold Rdiv; rewrite Rmult_assoc, Rinv_l by lra; lra]. }
  destruct (clamp64_ok _ _ Fc0 Hc Ec0) as (Fcz & Hcz & Ecz). cbv zeta in Fcz, Hcz, Ecz. set (cz := if SFltb _ (SFopp f1) then _ else _) in *. clearbody cz.
  assert (EQ : 2 * r1 * d * c = r2 * r2 - r1 * r1 - dist2 O1 O2) by (unfold c; field; lra).
  assert (Ex : SF2R (fst v) = fst O1 - fst O2) by (rewrite Evx, minus_IZR, <- W0, <- V0; reflexivity). assert (Ey : SF2R (snd v) = snd O1 - snd O2) by (rewrite Evy, minus_IZR, <- W1, <- V1; reflexivity).
  assert (B0 : Rabs (fst O1) <= 65536) by (unfold O1, P2R; cbn [fst]; rewrite W0, <- abs_IZR; apply IZR_le; lia). assert (B1 : Rabs (snd O1) <= 65536) by (unfold O1, P2R; cbn [snd]; rewrite W1, <- abs_IZR; apply IZR_le; lia).
  pose proof (fun b => point64_near b (c64_center c1) (c64_radius c1) (fst v) (snd v) cz O1 O2 r1 r2 c (conj Fx1 Fy1) Fr1 Fvx Fvy Fcz eq_refl eq_refl Ex Ey Hne Br1 B0 B1 Hcz Ecz EQ) as N.
  pose proof (N true) as N1. pose proof (N false) as N2. cbv zeta in N1, N2. cbn iota in N1, N2. destruct (_ || _); auto.
Qed.
End Point.
