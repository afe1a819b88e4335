(** * Images of circles under homotheties, in binary64: proofs *)

From Coq Require Import Reals ZArith Lia Lra Psatz Bool SpecFloat.
From Verif Require Import SpecF64 Base Spec BaseLemmas SpecLemmas ModelFloat ModelFloatTransfo ModelFloatHomCircle PFloat PFloat2 PFloat3 PFloat4 PFloatCircle PFloatGrid PFloatEx PFloatTransfo PFloatTol.
Local Open Scope R_scope.

Definition fmin : spec_float := S754_finite false 1 (-1074).
Lemma fmin_ok : fin fmin /\ SF2R fmin = 2 * eta64.
Proof. split; [split; reflexivity|]. unfold fmin, eta64. replace (-1074)%Z with (-1075 + 1)%Z by reflexivity. cbn [SF2R sgnR]. rewrite bp_succ. ring. Qed.

Lemma rounds_tiny z x : rounds z x -> 0 <= x -> (x < eta64 -> SF2R z = 0) /\ (eta64 < x -> 0 < SF2R z).
Proof.
  intros H X. pose proof (rounds_fin _ _ H) as F. pose proof H as (_ & _ & N & _). assert (E0 : 0 < eta64) by apply bp_pos. split; intros B.
  - destruct (Req_dec (SF2R z) 0) as [E|E]; auto. exfalso. pose proof (fin_min z F E) as M. assert (Q : bp (-1074) = 2 * eta64) by (unfold eta64; rewrite <- bp_succ; reflexivity). rewrite Q in M.
    pose proof (N f0 eq_refl eq_refl) as K. rewrite val_f0 in K. replace (0 - x) with (- x) in K by ring. rewrite Rabs_Ropp, (Rabs_right x) in K by lra. revert M K. unfold Rabs. destruct (Rcase_abs (SF2R z)), (Rcase_abs (SF2R z - x)); lra.
  - destruct (Rlt_le_dec 0 (SF2R z)) as [P|P]; auto. exfalso. destruct fmin_ok as ((V & Fm) & Em). pose proof (N fmin V Fm) as K. rewrite Em in K. revert K. unfold Rabs. destruct (Rcase_abs (SF2R z - x)), (Rcase_abs (2 * eta64 - x)); lra.
Qed.

Lemma homothety_circle64_ok O s c : moderate O -> moderate (c64_center c) -> fin s -> Rabs (SF2R s) <= bp 500 -> fin (c64_radius c) -> 0 < SF2R (c64_radius c) <= bp 502 ->
  let r := Rabs (SF2R s) * SF2R (c64_radius c) in
  (r < eta64 -> homothety_circle64 O s c = Raise ValueError) /\
  (eta64 < r -> exists c', homothety_circle64 O s c = Ok c' /\ rounds (c64_radius c') r /\ 0 < SF2R (c64_radius c') /\ fin2 (c64_center c') /\
     forall f : spec_float * spec_float -> spec_float, f = fst \/ f = snd ->
       let a := (1 - SF2R s) * SF2R (f O) in let m := SF2R s * SF2R (f (c64_center c)) in
       Rabs (SF2R (f (c64_center c')) - (a + m)) <= u64 * Rabs (a + m) + 3 * u64 * Rabs a + 2 * u64 * Rabs m + 3 * eta64).
Proof.
  intros MO MC Fs Bs Fr (R0 & R1) r. destruct (fabs s Fs) as (Fa & Ea). pose proof (Rabs_pos (SF2R s)) as As. pose proof (bp_pos 500) as P500.
  assert (L : Rabs (SF2R (SFabs s) * SF2R (c64_radius c)) <= bp 1023). { rewrite Ea, Rabs_right by nra. apply Rle_trans with (bp 500 * bp 502); [apply Rmult_le_compat; lra|]. rewrite <- bp_add. apply bp_le. lia. }
  pose proof (fmul _ _ Fa Fr L) as H. rewrite Ea in H. fold r in H. assert (r0 : 0 <= r) by (unfold r; nra). destruct (rounds_tiny _ _ H r0) as (T1 & T2). pose proof (rounds_fin _ _ H) as Fz.
  destruct (circle_init64 (homothety64 O s (c64_center c)) _ Fz) as (I1 & I2). split; intros B.
  - apply I2. rewrite (T1 B). lra.
  - exists (Circle64 (homothety64 O s (c64_center c)) (SF64mul (SFabs s) (c64_radius c))). split; [exact (I1 (T2 B))|]. cbn [c64_radius c64_center]. split; [exact H|]. split; [exact (T2 B)|]. exact (homothety64_ok O s (c64_center c) MO MC Fs Bs).
Qed.

Lemma hom_on_grid g K N s c m : (0 <= K)%Z -> (0 <= N)%Z -> ((2 * K + 1) * N < 2 ^ 53)%Z -> (K + 1 < 2 ^ 53)%Z -> (-1074 <= g <= 970)%Z -> on_grid 0 K s -> on_grid g N c -> on_grid g N m ->
  on_grid g ((2 * K + 1) * N) (SF64add (SF64mul (SF64sub f1 s) c) (SF64mul s m)).
Proof.
  intros HK HN HB HK2 HG (Fs & k & Bk & Ek) (Fc & c' & Bc & Ec) (Fm & m' & Bm & Em).
  assert (E1 : SF2R f1 = IZR 1 * bp 0) by (rewrite val_f1, bp0; ring).
  destruct (sub_grid f1 s 1 k 0 fin_f1 Fs E1 Ek ltac:(lia) ltac:(lia)) as (F1 & H1).
  assert (X1 : (Z.abs ((1 - k) * c') <= (K + 1) * N)%Z) by (apply zb; lia). assert (X2 : (Z.abs (k * m') <= K * N)%Z) by (apply zb; lia).
  destruct (mul_grid _ c _ _ _ _ F1 Fc H1 Ec ltac:(nia) ltac:(lia)) as (F2 & H2). destruct (mul_grid s m _ _ _ _ Fs Fm Ek Em ltac:(nia) ltac:(lia)) as (F3 & H3).
  destruct (add_grid _ _ _ _ _ F2 F3 H2 H3 ltac:(lia) ltac:(lia)) as (F4 & H4). split; [exact F4|]. exists ((1 - k) * c' + k * m')%Z. split; [lia|]. rewrite H4. reflexivity.
Qed.

Lemma homothety_circle64_grid m g K N O s c : (0 <= K)%Z -> (0 <= N)%Z -> ((2 * K + 1) * N < 2 ^ 25)%Z -> (K + 1 < 2 ^ 53)%Z -> (-537 <= g <= 400)%Z ->
  on_grid 0 K s -> SF2R s <> 0 -> on_grid2 g N O -> on_grid2 g N (c64_center c) -> on_grid g N (c64_radius c) -> 0 < SF2R (c64_radius c) ->
  exists c', homothety_circle64 O s c = Ok c' /\
    P2R (c64_center c') = vadd (vscal (1 - SF2R s) (P2R O)) (vscal (SF2R s) (P2R (c64_center c))) /\ SF2R (c64_radius c') = Rabs (SF2R s) * SF2R (c64_radius c) /\
    forall M, on_grid2 g N M -> circle_contains64 m c' (homothety64 O s M) = circle_contains64 m c M.
Proof.
  intros HK HN HB HK2 HG Gs Ns GO GC Gr R0. assert (HB' : ((2 * K + 1) * N < 2 ^ 53)%Z) by lia. assert (HG' : (-1074 <= g <= 970)%Z) by lia.
  assert (HM : forall M, on_grid2 g N M -> on_grid2 g ((2 * K + 1) * N) (homothety64 O s M)). { intros M (G0 & G1). destruct GO as (O0 & O1). split; apply (hom_on_grid g K N); auto. }
  pose proof Gs as (Fs & k & Bk & Ek). destruct Gr as (Fr & n & Bn & En). destruct (fabs s Fs) as (Fa & Ea).
  assert (Ea' : SF2R (SFabs s) = IZR (Z.abs k) * bp 0) by (rewrite Ea, Ek, bp0, !Rmult_1_r, abs_IZR; reflexivity).
  assert (KN : (Z.abs (Z.abs k * n) <= K * N)%Z) by (apply zb; lia). destruct (mul_grid _ _ _ _ _ _ Fa Fr Ea' En ltac:(nia) ltac:(lia)) as (Fz & Ez). change (0 + g)%Z with g in Ez.
  assert (V : SF2R (SF64mul (SFabs s) (c64_radius c)) = Rabs (SF2R s) * SF2R (c64_radius c)) by (rewrite Ez, <- Ea, Ea', En, bp0, mult_IZR; ring).
  pose proof (Rabs_pos_lt _ Ns) as As. assert (P : 0 < SF2R (SF64mul (SFabs s) (c64_radius c))) by (rewrite V; apply Rmult_lt_0_compat; auto).
  exists (Circle64 (homothety64 O s (c64_center c)) (SF64mul (SFabs s) (c64_radius c))). split; [exact (proj1 (circle_init64 _ _ Fz) P)|]. cbn [c64_center c64_radius].
  assert (HZ : forall M, on_grid2 g N M -> P2R (homothety64 O s M) = vadd (vscal (1 - SF2R s) (P2R O)) (vscal (SF2R s) (P2R M))) by (intros M GM; exact (homothety64_grid g K N O s M HK HN HB' HK2 HG' Gs GO GM)).
  split; [exact (HZ _ GC)|]. split; [exact V|]. intros M GM.
  assert (N25 : (0 <= N < 2 ^ 25)%Z) by nia. assert (B1 : (0 <= (2 * K + 1) * N < 2 ^ 25)%Z) by nia.
  assert (G1 : on_grid g 94906265 (c64_radius c)) by (split; [exact Fr|exists n; split; [lia|exact En]]).
  assert (G2 : on_grid g 94906265 (SF64mul (SFabs s) (c64_radius c))) by (split; [exact Fz|exists (Z.abs k * n)%Z; split; [nia|exact Ez]]).
  destruct (contains64_grid m g N c M N25 HG GC GM G1) as (C1 & _).
  destruct (contains64_grid m g _ (Circle64 (homothety64 O s (c64_center c)) (SF64mul (SFabs s) (c64_radius c))) (homothety64 O s M) B1 HG (HM _ GC) (HM _ GM) G2) as (C2 & _). cbn [c64_center c64_radius] in C2.
  assert (D : d2R (homothety64 O s M) (homothety64 O s (c64_center c)) = SF2R s * SF2R s * d2R M (c64_center c)).
  { generalize (HZ M GM) (HZ _ GC). generalize (homothety64 O s M) (homothety64 O s (c64_center c)). intros Z1 Z2 E1 E2. unfold P2R, vadd, vscal in E1, E2. cbn [fst snd] in E1, E2. injection E1 as E1x E1y. injection E2 as E2x E2y. unfold d2R. rewrite E1x, E1y, E2x, E2y. ring. }
  assert (R2 : Rabs (SF2R s) * Rabs (SF2R s) = SF2R s * SF2R s) by (rewrite <- Rabs_mult; apply Rabs_right; nra). assert (S0 : 0 < SF2R s * SF2R s) by nra.
  rewrite D, V in C2. replace (Rabs (SF2R s) * SF2R (c64_radius c) * (Rabs (SF2R s) * SF2R (c64_radius c))) with (SF2R s * SF2R s * (SF2R (c64_radius c) * SF2R (c64_radius c))) in C2 by (rewrite <- R2; ring).
  apply eq_true_iff_eq. rewrite C1, C2. split; intros Q; [apply Rmult_le_reg_l with (SF2R s * SF2R s); auto|apply Rmult_le_compat_l; lra].
Qed.

(** ** A factor that is not 0 *)

Lemma homothety_circle64_raises : exists O s c, moderate O /\ fin s /\ 0 < SF2R s /\ moderate (c64_center c) /\ fin (c64_radius c) /\ 0 < SF2R (c64_radius c) /\ homothety_circle64 O s c = Raise ValueError.
Proof.
  assert (Z : moderate (fz 0, fz 0)). { pose proof (bp_pos 500). assert (V : SF2R (fz 0) = 0) by (apply fz_ok; lia). assert (F : fin (fz 0)) by (apply fz_ok; lia). split; split; cbn [fst snd]; auto; rewrite V, Rabs_R0; lra. }
  destruct fmin_ok as (F & E). pose proof (bp_pos (-1075)) as P. fold eta64 in P.
  exists (fz 0, fz 0), fmin, (Circle64 (fz 0, fz 0) fmin). cbn [c64_center c64_radius]. do 6 (split; [auto; lra|]). vm_compute. reflexivity.
Qed.
