(** * Images of circles by an inversion in binary64 *)

From Coq Require Import Reals ZArith Lia Lra Psatz Bool SpecFloat.
From Verif Require Import SpecF64 SpecFloatInv Base Spec BaseLemmas SpecLemmas ModelInternal ModelLine ModelCircle ModelFloat ModelFloatInter ModelFloatInv PFloat PFloat2 PFloat3 PFloat4 PFloatCircle PFloatGrid PFloatInter PFloatMisc PFloatTransfo PCircle PInvBase PInversion PFloatEx PFloatCC PFloatCC2.
Local Open Scope R_scope.

(** ** Relative errors *)

Lemma mul_rel x y : fin x -> fin y -> (SF2R x * SF2R y = 0 \/ bp (-1022) <= Rabs (SF2R x * SF2R y)) -> Rabs (SF2R x * SF2R y) <= bp 1023 ->
  fin (SF64mul x y) /\ Rabs (SF2R (SF64mul x y) - SF2R x * SF2R y) <= u64 * Rabs (SF2R x * SF2R y).
Proof.
  intros Fx Fy H B. pose proof (fmul x y Fx Fy B) as R. split; [apply (rounds_fin _ _ R)|]. destruct H as [H|H].
  - rewrite H in R |- *. rewrite (rounds0 _ R), Rminus_0_r, Rabs_R0. pose proof u_bounds. lra.
  - apply R. exact H.
Qed.

Lemma rel2 x y z e : 0 <= e <= 1 -> Rabs (y - x) <= u64 * Rabs x -> Rabs (z - y) <= e * Rabs y -> Rabs (z - x) <= (u64 + e + u64 * e) * Rabs x.
Proof.
  intros He H1 H2. pose proof u_bounds as U. assert (Rabs y <= Rabs x + u64 * Rabs x). { replace y with (x + (y - x)) by ring. eapply Rle_trans; [apply Rabs_triang|]. lra. }
  replace (z - x) with ((z - y) + (y - x)) by ring. eapply Rle_trans; [apply Rabs_triang|]. assert (e * Rabs y <= e * (Rabs x + u64 * Rabs x)) by (apply Rmult_le_compat_l; lra). lra.
Qed.

(** [D1] is exact. *)
Definition D1_64 (c0 : fpt) (c : circle64) : spec_float :=
  let c1 := c64_center c in
  ((fst c1 - fst c0) * (fst c1 - fst c0) + (snd c1 - snd c0) * (snd c1 - snd c0) - c64_radius c * c64_radius c)%f64.

Lemma sub_int x y N : on_grid 0 N x -> on_grid 0 N y -> (N <= 2 ^ 50)%Z -> exists n, fin (SF64sub x y) /\ SF2R (SF64sub x y) = IZR n /\ SF2R x - SF2R y = IZR n /\ (Z.abs n <= 2 * N)%Z.
Proof.
  intros (Fx & a & Ba & Ea) (Fy & b & Bb & Eb) HN. exists (a - b)%Z. destruct (sub_grid x y a b 0 Fx Fy Ea Eb ltac:(lia) ltac:(lia)) as (F & E). rewrite bp_0, Rmult_1_r in Ea, Eb, E.
  split; auto. split; auto. split; [rewrite Ea, Eb, minus_IZR; reflexivity|lia].
Qed.

Lemma D1_int c0 c : on_grid2 0 65536 c0 -> on_grid2 0 65536 (c64_center c) -> on_grid 0 1048576 (c64_radius c) ->
  exists d, (Z.abs d < 2 ^ 42)%Z /\ fin (D1_64 c0 c) /\ SF2R (D1_64 c0 c) = IZR d /\ pow_circle (P2R (c64_center c)) (SF2R (c64_radius c)) (P2R c0) = IZR d.
Proof.
  intros (G0 & G1) (H0 & H1) (Fr & r & Br & Er). destruct (sub_int _ _ 65536 H0 G0 ltac:(lia)) as (a & Fa & Ea & Ea' & Ba). destruct (sub_int _ _ 65536 H1 G1 ltac:(lia)) as (b & Fb & Eb & Eb' & Bb).
  exists (a * a + b * b - r * r)%Z. assert (Pa := zprod a a 131072 ltac:(lia) ltac:(lia)). assert (Pb := zprod b b 131072 ltac:(lia) ltac:(lia)). assert (Pr := zprod r r 1048576 ltac:(lia) ltac:(lia)). split; [lia|].
  unfold D1_64. cbv zeta.
  destruct (mul_grid _ _ a a 0 0 Fa Fa ltac:(rewrite bp_0; lra) ltac:(rewrite bp_0; lra) ltac:(lia) ltac:(lia)) as (F1 & E1).
  destruct (mul_grid _ _ b b 0 0 Fb Fb ltac:(rewrite bp_0; lra) ltac:(rewrite bp_0; lra) ltac:(lia) ltac:(lia)) as (F2 & E2).
  destruct (mul_grid _ _ r r 0 0 Fr Fr Er Er ltac:(lia) ltac:(lia)) as (F3 & E3). change (0 + 0)%Z with 0%Z in *.
  destruct (add_grid _ _ _ _ 0 F1 F2 E1 E2 ltac:(lia) ltac:(lia)) as (F4 & E4). destruct (sub_grid _ _ _ _ 0 F4 F3 E4 E3 ltac:(lia) ltac:(lia)) as (F5 & E5).
  rewrite bp_0, Rmult_1_r in E5. split; auto. split; auto. rewrite bp_0, Rmult_1_r in Er. unfold pow_circle, P2R. cbn [fst snd] in *. rewrite minus_IZR, plus_IZR, !mult_IZR, <- Ea', <- Eb', Er. unspec. ring.
Qed.

Lemma coord_ok s c0 c1 S : on_grid 0 65536 c0 -> on_grid 0 65536 c1 -> fin s -> Rabs (SF2R s - S) <= u64 * Rabs S -> bp (-450) <= Rabs S <= bp 450 ->
  let X := SF64add c0 (SF64mul s (SF64sub c1 c0)) in let Q := SF2R c0 + S * (SF2R c1 - SF2R c0) in
  fin X /\ Rabs (SF2R X - Q) <= 4 * u64 * (Rabs Q + Rabs (SF2R c0)).
Proof.
  intros G0 G1 Fs Es BS X Q. destruct (sub_int _ _ 65536 G1 G0 ltac:(lia)) as (n & Fn & En & En' & Bn). unfold Q. rewrite En'. pose proof u_bounds as U.
  set (v := SF64sub c1 c0) in *. set (p := SF64mul s v) in *. pose proof (u_mul (Rabs S) (Rabs_pos S)) as US.
  assert (Bs : / 2 * Rabs S <= Rabs (SF2R s) <= 2 * Rabs S). { pose proof (Rabs_triang_inv (SF2R s) S) as T1. pose proof (Rabs_triang_inv S (SF2R s)) as T2. rewrite (Rabs_minus_sym S) in T2. lra. }
  assert (Bn' : Rabs (IZR n) <= bp 17) by (rewrite <- abs_IZR, bp_IZR by lia; apply IZR_le; lia).
  assert (B67 : 2 * (bp 450 * bp 17) <= bp 500). { rewrite <- bp_add. replace (2 * bp (450 + 17)) with (bp (450 + 17 + 1)) by (rewrite bp_succ; ring). apply bp_le. lia. }
  assert (Bv : Rabs (SF2R s * SF2R v) <= bp 500). { rewrite Rabs_mult, En. apply Rle_trans with (2 * bp 450 * bp 17); [|lra]. pose proof (bp_pos 450). apply Rmult_le_compat; try apply Rabs_pos; lra. }
  assert (B1000 : bp 500 <= bp 1023) by (apply bp_le; lia).
  destruct (mul_rel s v Fs Fn) as (Fp & Ep); [|lra|].
  { rewrite En. destruct (Z.eq_dec n 0) as [->|Nn]; [left; ring|right]. rewrite Rabs_mult, <- abs_IZR. assert (1 <= IZR (Z.abs n)) by (apply IZR_le; lia).
    apply Rle_trans with (/ 2 * bp (-450) * 1). { assert (bp (-451) = / 2 * bp (-450)) by (change (-450)%Z with (-451 + 1)%Z; rewrite bp_succ; field). assert (bp (-1022) <= bp (-451)) by (apply bp_le; lia). lra. }
    pose proof (bp_pos (-450)). apply Rmult_le_compat; lra. }
  rewrite En in Ep. fold p in Fp, Ep. set (t := S * IZR n). assert (E1 : Rabs (SF2R s * IZR n - t) <= u64 * Rabs t). { unfold t. replace (SF2R s * IZR n - S * IZR n) with ((SF2R s - S) * IZR n) by ring. rewrite !Rabs_mult, <- Rmult_assoc. apply Rmult_le_compat_r; [apply Rabs_pos|auto]. }
  pose proof (rel2 t (SF2R s * IZR n) (SF2R p) u64 ltac:(lra) E1 Ep) as E2. pose proof (u_mul (Rabs t) (Rabs_pos t)) as Ut. pose proof (u_mul (u64 * Rabs t) ltac:(lra)) as Uut.
  assert (E3 : Rabs (SF2R p - t) <= 21 / 10 * (u64 * Rabs t)) by (eapply Rle_trans; [exact E2|lra]).
  destruct G0 as (F0 & a & Ba & Ea). rewrite bp_0, Rmult_1_r in Ea. set (c := SF2R c0) in *.
  assert (Bc : Rabs c <= bp 17) by (rewrite Ea, <- abs_IZR, bp_IZR by lia; apply IZR_le; lia).
  assert (Bt : Rabs t <= bp 500). { unfold t. rewrite Rabs_mult. apply Rle_trans with (bp 450 * bp 17); [apply Rmult_le_compat; try apply Rabs_pos; lra|]. pose proof (bp_pos 500). pose proof (bp_pos 450). pose proof (bp_pos 17). nra. }
  assert (Bsum : Rabs (c + SF2R p) <= bp 1023). { assert (bp 17 + 2 * bp 500 <= bp 1023). { apply Rle_trans with (bp 502); [|apply bp_le; lia]. change 502%Z with (500 + 1 + 1)%Z. rewrite !bp_succ. assert (bp 17 <= bp 500) by (apply bp_le; lia). lra. }
    assert (Rabs (SF2R p) <= Rabs t + 21 / 10 * (u64 * Rabs t)). { replace (SF2R p) with (t + (SF2R p - t)) by ring. eapply Rle_trans; [apply Rabs_triang|lra]. }
    eapply Rle_trans; [apply Rabs_triang|]. lra. }
  destruct (fadd c0 p F0 Fp Bsum) as (R4 & E4). fold c X in R4, E4. split; [apply (rounds_fin _ _ R4)|].
  assert (E5 : Rabs (c + SF2R p) <= Rabs (c + t) + 21 / 10 * (u64 * Rabs t)). { replace (c + SF2R p) with ((c + t) + (SF2R p - t)) by ring. eapply Rle_trans; [apply Rabs_triang|lra]. }
  assert (E6 : Rabs (SF2R X - (c + t)) <= u64 * (Rabs (c + t) + 21 / 10 * (u64 * Rabs t)) + 21 / 10 * (u64 * Rabs t)).
  { replace (SF2R X - (c + t)) with ((SF2R X - (c + SF2R p)) + (SF2R p - t)) by ring. eapply Rle_trans; [apply Rabs_triang|]. apply Rplus_le_compat; auto. eapply Rle_trans; [exact E4|]. apply Rmult_le_compat_l; lra. }
  assert (E7 : Rabs t <= Rabs (c + t) + Rabs c). { replace t with ((c + t) + - c) at 1 by ring. eapply Rle_trans; [apply Rabs_triang|]. rewrite Rabs_Ropp. lra. }
  assert (E8 : u64 * Rabs t <= u64 * (Rabs (c + t) + Rabs c)) by (apply Rmult_le_compat_l; lra).
  pose proof (u_mul (Rabs c) (Rabs_pos c)). pose proof (u_mul (Rabs (c + t)) (Rabs_pos (c + t))). eapply Rle_trans; [exact E6|]. lra.
Qed.

(** ** Points that are not close *)

Lemma npclose_far x y : fin x -> fin y -> Rabs (SF2R x) <= bp 500 -> Rabs (SF2R y) <= bp 500 -> 2 / 100000000 + 101 / 10000000 * Rabs (SF2R y) < Rabs (SF2R x - SF2R y) -> npclose64 x y = false.
Proof.
  intros Fx Fy Bx By H. apply Bool.not_true_is_false. unfold npclose64. rewrite orb_true_iff, (feq x y Fx Fy), andb_true_iff. pose proof (Rabs_pos (SF2R y)) as Py. intros [(K & _)|K]; [|rewrite K, Rminus_diag_eq, Rabs_R0 in H by reflexivity; lra]. revert K.
  assert (B1 : 2 * bp 500 <= bp 1023). { replace (2 * bp 500) with (bp (500 + 1)) by (rewrite bp_succ; ring). apply bp_le. lia. } assert (B2 : 1 <= bp 500) by (rewrite <- bp_0; apply bp_le; lia).
  assert (Bd : Rabs (SF2R x - SF2R y) <= 2 * bp 500) by (apply abs_bounds in Bx, By; apply Rabs_le; lra). destruct (fsub x y Fx Fy ltac:(lra)) as (Rd & Ed). pose proof (rounds_fin _ _ Rd) as Fd.
  destruct (fabs _ Fd) as (Fa & Ea). destruct (fabs _ Fy) as (Fz & Ez). pose proof u_bounds as U. pose proof eta64_small as Et.
  assert (V5 : 0 < SF2R f1em5 <= 100001 / 10000000000) by (unfold f1em5; rewrite val_lit; cbn; lra). assert (F5 : fin f1em5) by (split; reflexivity).
  assert (V8 : 0 < SF2R f1em8 <= 101 / 10000000000) by (unfold f1em8; rewrite val_lit; cbn; lra). assert (F8 : fin f1em8) by (split; reflexivity).
  set (Y := Rabs (SF2R y)) in *. assert (Bm : 0 <= SF2R f1em5 * Y <= 100001 / 10000000000 * Y) by (split; [apply Rmult_le_pos; lra|apply Rmult_le_compat_r; lra]).
  assert (Rm : rounds (SF64mul f1em5 (SFabs y)) (SF2R f1em5 * Y)). { rewrite <- Ez. apply fmul; auto. rewrite Ez. rewrite Rabs_right by lra. lra. }
  pose proof (rounds_fin _ _ Rm) as Fm. pose proof (rounds_err_le _ _ Y Rm ltac:(rewrite Rabs_right by lra; lra)) as Em. pose proof (u_mul Y Py) as UY. assert (UY' : u64 * Y <= / 9000000000000000 * Y) by (apply Rmult_le_compat_r; lra). apply abs_bounds in Em. set (z := SF64mul f1em5 (SFabs y)) in *.
  assert (Bz : - 1 / 10000000000 - / 1000000000000 * Y <= SF2R z <= 1 / 10000000000 + 1001 / 100000000 * Y) by lra.
  destruct (fadd f1em8 z F8 Fm) as (Rs & _). { apply Rabs_le. lra. }
  pose proof (rounds_fin _ _ Rs) as Fs. assert (Bs' : Rabs (SF2R f1em8 + SF2R z) <= 1 + Y) by (apply Rabs_le; lra). pose proof (rounds_err_le _ _ _ Rs Bs') as Es. rewrite Rmult_plus_distr_l in Es. apply abs_bounds in Es.
  rewrite (fle _ _ Fa Fs), Ea. intros K. set (D := Rabs (SF2R x - SF2R y)) in *. pose proof (u_mul D (Rabs_pos _)) as UD. assert (UD' : u64 * D <= / 9000000000000000 * D) by (apply Rmult_le_compat_r; [apply Rabs_pos|lra]).
  assert (D - u64 * D <= Rabs (SF2R (x - y)%f64)). { pose proof (Rabs_triang_inv (SF2R x - SF2R y) (SF2R (x - y)%f64)) as T. rewrite (Rabs_minus_sym (SF2R x - SF2R y)) in T. fold D in T. lra. }
  lra.
Qed.

Section Far.
Variables (p K a b qA qB : R).
(** One coordinate: the exact ones [qA], [qB], the computed ones [a], [b]. *)
Lemma far_coord : 1 <= K -> Rabs p <= 20000 -> Rabs (qA - p) <= K -> Rabs (qB - p) <= K -> 34 / 100 * K <= Rabs (qA - qB) ->
  Rabs (a - qA) <= 11 * u64 * (Rabs qA + Rabs p) + bp (-1000) -> Rabs (b - qB) <= 11 * u64 * (Rabs qB + Rabs p) + bp (-1000) ->
  2 / 100000000 + 101 / 10000000 * Rabs b < Rabs (a - b) /\ Rabs a <= 20001 + 2 * K /\ Rabs b <= 20001 + 2 * K.
Proof.
  intros HK Bp BA BB D EA EB. pose proof u_bounds as U. assert (Tq : forall q, Rabs (q - p) <= K -> Rabs q <= 20000 + K). { intros q Bq. apply abs_bounds in Bq, Bp. apply Rabs_le. lra. }
  pose proof (Tq _ BA) as QA. pose proof (Tq _ BB) as QB. assert (T : forall q, Rabs q <= 20000 + K -> 11 * u64 * (Rabs q + Rabs p) <= / 100000000000000 * (40000 + K)).
  { intros q Bq. pose proof (Rabs_pos q). pose proof (Rabs_pos p). apply Rmult_le_compat; try lra. }
  pose proof (T _ QA) as TA. pose proof (T _ QB) as TB. assert (bp (-1000) <= / 1000000000). { apply Rle_trans with (bp (-30)); [apply bp_le; lia|]. change (bp (-30)) with (/ bp 30). rewrite bp_IZR by lia. change (2 ^ 30)%Z with 1073741824%Z. lra. }
  assert (EA' : Rabs (a - qA) <= / 100000000 * K) by lra. assert (EB' : Rabs (b - qB) <= / 100000000 * K) by lra. clear EA EB T Tq.
  assert (Rabs b <= 20001 + 2 * K) by (apply abs_bounds in EB', QB; apply Rabs_le; lra). assert (Rabs b <= 20001 + 101 / 100 * K) by (apply abs_bounds in EB', QB; apply Rabs_le; lra).
  assert (Rabs a <= 20001 + 2 * K) by (apply abs_bounds in EA', QA; apply Rabs_le; lra). split; [|auto].
  assert (Rabs (qA - qB) <= Rabs (a - b) + 2 / 100000000 * K). { replace (qA - qB) with ((a - b) + ((b - qB) - (a - qA))) by ring. eapply Rle_trans; [apply Rabs_triang|]. assert (Rabs (b - qB - (a - qA)) <= 2 / 100000000 * K) by (apply abs_bounds in EA', EB'; apply Rabs_le; lra). lra. }
  lra.
Qed.
End Far.

Section Inv.
Variables (m : how) (P : fpt) (k : spec_float) (c : circle64).
Let O := P2R (c64_center c).
Let r := SF2R (c64_radius c).
Let P' := P2R P.

Lemma pow_on : 0 < r -> (pow_circle O r P' = 0 <-> on_circle O r P').
Proof. intros H. rewrite on_circle_sq by lra. unfold pow_circle. unspec. split; intros; lra. Qed.

Lemma branch64 : on_grid2 0 65536 P -> on_grid2 0 65536 (c64_center c) -> on_grid 0 1048576 (c64_radius c) -> 0 < r ->
  (SFltb fsepsilon (SFabs (D1_64 P c)) = true <-> ~ on_circle O r P').
Proof.
  intros HP HO Hr R0. destruct (D1_int P c HP HO Hr) as (d & Bd & Fd & Ed & Ed'). destruct (fabs _ Fd) as (Fa & Ea). destruct val_fsepsilon as (Fe & Ve). rewrite (flt _ _ Fe Fa), Ve, Ea, Ed, <- abs_IZR, <- pow_on by auto.
  unfold O, r, P'. rewrite Ed'. unfold sepsilon_. split.
  - intros H K. apply eq_IZR in K. subst d. cbn in H. lra.
  - intros H. assert (d <> 0%Z) by (intros ->; auto). assert (1 <= IZR (Z.abs d)) by (apply IZR_le; lia). lra.
Qed.

Lemma invert_circle64_far : on_grid2 0 65536 P -> on_grid2 0 65536 (c64_center c) -> on_grid 0 1048576 (c64_radius c) -> fin k -> bp (-400) <= Rabs (SF2R k) <= bp 400 -> 0 < r -> ~ on_circle O r P' ->
  exists c' C R, invert_circle64 m P k c = Ok (GC64 c') /\ 0 < R /\ inv_maps P' (SF2R k) O r C R /\
    near_image 4 0 P' C (c64_center c') /\ fin (c64_radius c') /\ Rabs (SF2R (c64_radius c') - R) <= 3 * u64 * R.
Proof.
  intros HP HO Hr Fk Bk R0 H. assert (Nk : SF2R k <> 0) by (intros K; rewrite K, Rabs_R0 in Bk; pose proof (bp_pos (-400)); lra). destruct (D1_int P c HP HO Hr) as (d & Bd & Fd & Ed & Ed'). fold O r P' in Ed'. pose proof u_bounds as U.
  assert (Dn : pow_circle O r P' <> 0) by (intros K; apply H, pow_on; auto). assert (dn : d <> 0%Z) by (intros ->; auto).
  set (S := SF2R k / pow_circle O r P').
  destruct (inv_circle_pole P' (SF2R k) O r Nk R0 Dn) as (_ & Rp & _). change (inv_scale P' (SF2R k) O r) with S in Rp.
  pose proof (inv_maps_image P' (SF2R k) O r Nk R0 Dn) as Im. change (inv_scale P' (SF2R k) O r) with S in Im.
  assert (BS : bp (-450) <= Rabs S <= bp 450).
  { unfold S. rewrite Ed'. unfold Rdiv. rewrite Rabs_mult, Rabs_inv, <- !abs_IZR. assert (Q : 1 <= IZR (Z.abs d) <= bp 42) by (split; [apply IZR_le; lia|rewrite bp_IZR by lia; apply IZR_le; lia]).
    assert (I1 : / IZR (Z.abs d) <= 1) by (rewrite <- Rinv_1; apply Rinv_le_contravar; lra). assert (I2 : bp (-42) <= / IZR (Z.abs d)). { replace (bp (-42)) with (/ bp 42) by reflexivity. apply Rinv_le_contravar; lra. }
    assert (bp (-450) <= bp (-400) * bp (-42)) by (rewrite <- bp_add; apply bp_le; lia). assert (bp 400 <= bp 450) by (apply bp_le; lia). pose proof (bp_pos (-42)). pose proof (bp_pos (-400)). split.
    - apply Rle_trans with (bp (-400) * bp (-42)); [lra|]. apply Rmult_le_compat; lra.
    - apply Rle_trans with (bp 400 * 1); [|lra]. apply Rmult_le_compat; lra. }
  assert (Bb : bp 450 <= bp 1023) by (apply bp_le; lia). assert (Bb' : bp (-1022) <= bp (-450)) by (apply bp_le; lia).
  set (s := SF64div k (D1_64 P c)). assert (Rs : rounds s S). { unfold S. rewrite Ed', <- Ed. apply fdiv; auto; rewrite Ed; [intros K; apply eq_IZR in K; auto|]. rewrite <- Ed'. fold S. lra. }
  pose proof (rounds_fin _ _ Rs) as Fs. assert (Es : Rabs (SF2R s - S) <= u64 * Rabs S) by (apply Rs; lra). pose proof (u_mul (Rabs S) (Rabs_pos S)) as US.
  destruct (coord_ok s (fst P) (fst (c64_center c)) S (proj1 HP) (proj1 HO) Fs Es BS) as (Fx & Ex). destruct (coord_ok s (snd P) (snd (c64_center c)) S (proj2 HP) (proj2 HO) Fs Es BS) as (Fy & Ey).
  destruct Hr as (Fr & rr & Br & Er). rewrite bp_0, Rmult_1_r in Er. destruct (fabs _ Fs) as (Fa & Ea). fold r in Er.
  assert (Bs : / 2 * Rabs S <= Rabs (SF2R s) <= 2 * Rabs S). { pose proof (Rabs_triang_inv (SF2R s) S) as T1. pose proof (Rabs_triang_inv S (SF2R s)) as T2. rewrite (Rabs_minus_sym S) in T2. lra. }
  assert (r1 : 1 <= r <= bp 20). { rewrite Er. rewrite Er in R0. apply lt_IZR in R0. split; [apply IZR_le; lia|rewrite bp_IZR by lia; apply IZR_le; lia]. }
  assert (Ea' : Rabs (SF2R (SFabs s)) = Rabs (SF2R s)) by (rewrite Ea; apply Rabs_Rabsolu).
  destruct (mul_rel (SFabs s) (c64_radius c) Fa Fr) as (FR & ER); fold r; [right| |].
  { rewrite Rabs_mult, Ea', (Rabs_right r) by lra. apply Rle_trans with (/ 2 * bp (-450) * 1). { assert (bp (-451) = / 2 * bp (-450)) by (change (-450)%Z with (-451 + 1)%Z; rewrite bp_succ; field). assert (bp (-1022) <= bp (-451)) by (apply bp_le; lia). lra. }
    pose proof (bp_pos (-450)). apply Rmult_le_compat; lra. }
  { rewrite Rabs_mult, Ea', (Rabs_right r) by lra. apply Rle_trans with (2 * bp 450 * bp 20). { pose proof (bp_pos 450). apply Rmult_le_compat; lra. } replace (2 * bp 450 * bp 20) with (bp (450 + 20 + 1)) by (rewrite bp_succ, bp_add; ring). apply bp_le. lia. }
  fold r in ER. set (Rc := SF64mul (SFabs s) (c64_radius c)) in *. rewrite Ea in ER.
  assert (E1 : Rabs (Rabs (SF2R s) * r - Rabs S * r) <= u64 * Rabs (Rabs S * r)). { replace (Rabs (SF2R s) * r - Rabs S * r) with ((Rabs (SF2R s) - Rabs S) * r) by ring. rewrite !Rabs_mult, Rabs_Rabsolu, <- Rmult_assoc. apply Rmult_le_compat_r; [apply Rabs_pos|]. eapply Rle_trans; [apply Rabs_triang_inv2|exact Es]. }
  pose proof (rel2 _ _ _ u64 ltac:(lra) E1 ER) as E2. rewrite (Rabs_right (Rabs S * r)) in E2 by lra. pose proof (u_mul (Rabs S * r) ltac:(lra)) as UR. pose proof (u_mul (u64 * (Rabs S * r)) ltac:(lra)) as UUR.
  assert (E3 : Rabs (SF2R Rc - Rabs S * r) <= 3 * u64 * (Rabs S * r)) by (eapply Rle_trans; [exact E2|lra]).
  eexists (Circle64 (_, _) Rc), (vadd P' (vscal S (vsub O P'))), (Rabs S * r). split.
  { unfold invert_circle64. cbv zeta. fold (D1_64 P c). assert (Q : SFltb fsepsilon (SFabs (D1_64 P c)) = true). { apply branch64; auto. split; auto. exists rr. split; auto. rewrite bp_0. fold r. lra. } rewrite Q. fold s Rc. unfold mk_circle64.
    assert (Q2 : SFleb Rc f0 = false). { apply Bool.not_true_is_false. rewrite (fle _ _ FR fin_f0), val_f0. apply abs_bounds in E3. lra. } rewrite Q2. reflexivity. }
  split; [exact Rp|]. split; [exact Im|]. split; [|split; [exact FR|exact E3]].
  unfold near_image. cbn [c64_center fst snd]. split; [split; assumption|]. rewrite !Rplus_0_r. split; [exact Ex|exact Ey].
Qed.

(** ** The pole on the circle *)

Let w := vsub O P'.
Let M180 : pt := vadd P' (vscal 2 w).
Let M90 : pt := vadd P' (vadd w (snd w, - fst w)).

Lemma on_pole : 0 < r -> on_circle O r P' -> dist2 O P' = r * r /\ dist2 P' M180 = 4 * (r * r) /\ dist2 P' M90 = 2 * (r * r) /\ on_circle O r M180 /\ on_circle O r M90.
Proof.
  intros R0 H. apply on_circle_sq in H; [|lra]. split; auto. unfold M180, M90, w. rewrite !on_circle_sq by lra. revert H. unspec. cbn. intros H. repeat split; lra.
Qed.

Lemma image_line kr : 0 < r -> on_circle O r P' -> forall X, on_circle O r X -> X <> P' -> on_line (inv_pt P' kr M180) (inv_pt P' kr M90) (inv_pt P' kr X).
Proof.
  intros R0 H X HX N. destruct (on_pole R0 H) as (D0 & D1 & D2 & _ & _). unfold inv_pt. rewrite D1, D2. apply on_circle_sq in HX; [|lra].
  assert (Dx : 0 < dist2 P' X). { destruct (Rle_lt_or_eq_dec 0 _ (dist2_nonneg P' X)) as [|E]; auto. exfalso. apply N. symmetry. apply dist2_zero. auto. }
  set (x := vsub X P'). set (n2 := dist2 P' X) in *. assert (E : n2 = 2 * (fst x * fst w + snd x * snd w)). { unfold n2, x, w. revert HX D0. unspec. intros. nra. }
  assert (E' : n2 = fst x * fst x + snd x * snd x) by (unfold n2, x; unspec; ring).
  assert (Dw : r * r = fst w * fst w + snd w * snd w) by (rewrite <- D0; unfold w; unspec; ring).
  assert (X180 : vsub M180 P' = vscal 2 w) by (unfold M180; destruct P', w; unspec; apply pair_eq; cbn; ring).
  assert (X90 : vsub M90 P' = vadd w (snd w, - fst w)) by (unfold M90; destruct P', w; unspec; apply pair_eq; cbn; ring).
  rewrite X180, X90. rewrite Dw in *. clearbody n2. clear X180 X90. assert (0 < r * r) by nra. rewrite Dw in *. 
  exists (2 * (fst x * snd w - snd x * fst w) / n2). clearbody w x. destruct P' as [p q], w as [a b], x as [y z]. cbn [fst snd] in *. unfold at_line. unspec. cbn [fst snd].
  apply pair_eq; field_simplify_eq; try (split; lra); try nra.
Qed.

Lemma image_distinct kr : kr <> 0 -> 0 < r -> on_circle O r P' -> inv_pt P' kr M180 <> inv_pt P' kr M90.
Proof.
  intros K R0 H E. destruct (on_pole R0 H) as (D0 & D1 & D2 & _ & _). unfold inv_pt in E. rewrite D1, D2 in E. assert (Rr : 0 < r * r) by nra.
  assert (Dw : r * r = fst w * fst w + snd w * snd w) by (rewrite <- D0; unfold w; unspec; ring).
  assert (Q : kr / (2 * (r * r)) <> 0). { intros Z. apply Rmult_integral in Z. destruct Z as [Z|Z]; auto. assert (0 < / (2 * (r * r))) by (apply Rinv_0_lt_compat; lra). lra. }
  assert (E0 := f_equal fst E). assert (E1 := f_equal snd E). clear E. unfold M180, M90 in E0, E1. revert E0 E1. unspec. cbn [fst snd]. clearbody w. intros E0 E1.
  replace (kr / (4 * (r * r))) with (kr / (2 * (r * r)) / 2) in E0, E1 by (field; nra). set (q := kr / (2 * (r * r))) in *.
  assert (Z0 : q * snd w = 0) by lra. assert (Z1 : q * fst w = 0) by lra. apply Rmult_integral in Z0. apply Rmult_integral in Z1. destruct Z0 as [|Z0]; auto. destruct Z1 as [|Z1]; auto. rewrite Z0, Z1 in Dw. lra.
Qed.

Lemma near_of_invert64 M Q : moderate P -> fin k -> Rabs (SF2R k) <= bp 400 -> moderate M -> within 65536 P -> within 65536 M -> allclose64 P M = false -> P2R M = Q ->
  exists I, invert64 m P k M = Some I /\ near_image 11 (bp (-1000)) P' (inv_pt P' (SF2R k) Q) I.
Proof.
  intros HP Fk Bk HM WP WM N E. destruct (invert64_ok m P k M HP Fk Bk HM N) as (I & EI & FI & H). exists I. split; auto. subst Q. pose proof u_bounds as U. pose proof eta64_small as Et.
  assert (Key : forall x p t v, Rabs v <= 131072 -> Rabs (x - (p + t)) <= u64 * Rabs (p + t) + 10 * u64 * Rabs t + 3 * eta64 * (1 + Rabs v) -> Rabs (x - (p + t)) <= 11 * u64 * (Rabs (p + t) + Rabs p) + bp (-1000)).
  { intros x p t v Bv Hx. assert (T : Rabs t <= Rabs (p + t) + Rabs p). { replace t with ((p + t) + - p) at 1 by ring. eapply Rle_trans; [apply Rabs_triang|]. rewrite Rabs_Ropp. lra. }
    assert (10 * u64 * Rabs t <= 10 * u64 * (Rabs (p + t) + Rabs p)) by (apply Rmult_le_compat_l; lra). pose proof (Rmult_le_pos u64 (Rabs p) ltac:(lra) (Rabs_pos p)).
    assert (3 * eta64 * (1 + Rabs v) <= bp (-1000)). { apply Rle_trans with (bp 3 * eta64 * bp 20). - pose proof (Rabs_pos v). apply Rmult_le_compat; try lra; rewrite bp_IZR by lia; try apply Rmult_le_compat_r; try lra; cbn; lra. - unfold eta64. rewrite <- !bp_add. apply bp_le. lia. }
    lra. }
  destruct WP as (W0 & W1), WM as (W2 & W3). rewrite d2R_dist2 in H.
  assert (Sy : dist2 (P2R M) (P2R P) = dist2 P' (P2R M)) by (unfold P'; unspec; ring). rewrite Sy in H.
  split; auto. unfold inv_pt. set (D := dist2 P' (P2R M)) in *. clearbody D. unspec. unfold P', P2R. cbn [fst snd]. split.
  - specialize (H fst (or_introl eq_refl)). cbv zeta in H. replace (SF2R k / D * (SF2R (fst M) - SF2R (fst P))) with (SF2R k * (SF2R (fst M) - SF2R (fst P)) / D) by (unfold Rdiv; ring). eapply Key; [|exact H]. apply abs_bounds in W0, W2. apply Rabs_le. lra.
  - specialize (H snd (or_intror eq_refl)). cbv zeta in H. replace (SF2R k / D * (SF2R (snd M) - SF2R (snd P))) with (SF2R k * (SF2R (snd M) - SF2R (snd P)) / D) by (unfold Rdiv; ring). eapply Key; [|exact H]. apply abs_bounds in W1, W3. apply Rabs_le. lra.
Qed.

Lemma fin_opp x : fin x -> fin (SFopp x) /\ SF2R (SFopp x) = - SF2R x.
Proof. intros (V & F). destruct x as [s|s| |s n e]; try discriminate; cbn [SFopp]; (split; [split; [exact V|reflexivity]|]); cbn [SF2R]; [ring|]. destruct s; cbn; ring. Qed.

Lemma int_within x : on_grid2 0 65536 x -> moderate x /\ within 65536 x.
Proof.
  intros ((F0 & a & Ba & Ea) & (F1 & b & Bb & Eb)). rewrite bp_0, Rmult_1_r in Ea, Eb. assert (W : within 65536 x) by (split; [rewrite Ea|rewrite Eb]; rewrite <- abs_IZR; apply IZR_le; lia).
  split; auto. split; [split; auto|]. assert (65536 <= bp 500). { apply Rle_trans with (bp 16); [rewrite bp_IZR by lia; cbn; lra|apply bp_le; lia]. } destruct W. split; lra.
Qed.

Lemma not_close x y : on_grid2 0 65536 x -> on_grid2 0 65536 y -> P2R x <> P2R y -> allclose64 x y = false.
Proof.
  intros (X0 & X1) (Y0 & Y1) N. apply Bool.not_true_is_false. intros H. apply andb_true_iff in H. destruct H as (H0 & H1). apply npclose64_int in H0; auto. apply npclose64_int in H1; auto. apply N. unfold P2R. congruence.
Qed.

Lemma invert_circle64_on0 : on_grid2 0 20000 P -> on_grid2 0 20000 (c64_center c) -> on_grid 0 1048576 (c64_radius c) -> fin k -> SF2R k <> 0 -> Rabs (SF2R k) <= bp 400 -> 0 < r -> on_circle O r P' ->
  exists A B, near_image 11 (bp (-1000)) P' (inv_pt P' (SF2R k) M180) A /\ near_image 11 (bp (-1000)) P' (inv_pt P' (SF2R k) M90) B /\
    invert_circle64 m P k c = if allclose64 A B then Raise ValueError else Ok (GL64 A B).
Proof.
  intros HP HO Hr Fk Nk Bk R0 H. assert (HP' := on_grid2_weaken 0 20000 65536 _ ltac:(lia) HP). assert (HO' := on_grid2_weaken 0 20000 65536 _ ltac:(lia) HO).
  unfold invert_circle64. cbv zeta. fold (D1_64 P c). assert (Q : SFltb fsepsilon (SFabs (D1_64 P c)) = false) by (apply Bool.not_true_is_false; rewrite branch64 by auto; intros K; auto). rewrite Q. clear Q.
  destruct (int_within P HP') as (MP & WP). destruct (on_pole R0 H) as (_ & D1 & D2 & _ & _). assert (0 < r * r) by nra.
  set (Ot := fp_sub P (c64_center c)). set (R180 := fp_sub (c64_center c) Ot). set (R90 := fp_add (SFopp (snd Ot), fst Ot) (c64_center c)).
  assert (G : on_grid2 0 65536 R180 /\ on_grid2 0 65536 R90 /\ P2R R180 = M180 /\ P2R R90 = M90).
  { destruct HP as ((Fp & p & Bp & Ep) & (Fq & q & Bq & Eq)), HO as ((Fa & a & Ba & Ea) & (Fb & b & Bb & Eb)).
    destruct (sub_grid _ _ _ _ 0 Fp Fa Ep Ea ltac:(lia) ltac:(lia)) as (F1 & E1). destruct (sub_grid _ _ _ _ 0 Fq Fb Eq Eb ltac:(lia) ltac:(lia)) as (F2 & E2).
    destruct (sub_grid _ _ _ _ 0 Fa F1 Ea E1 ltac:(lia) ltac:(lia)) as (F3 & E3). destruct (sub_grid _ _ _ _ 0 Fb F2 Eb E2 ltac:(lia) ltac:(lia)) as (F4 & E4).
    destruct (fin_opp _ F2) as (F5 & E5). assert (E5' : SF2R (SFopp (snd P - snd (c64_center c))%f64) = IZR (- (q - b)) * bp 0) by (rewrite E5, E2, opp_IZR; ring).
    destruct (add_grid _ _ _ _ 0 F5 Fa E5' Ea ltac:(lia) ltac:(lia)) as (F6 & E6). destruct (add_grid _ _ _ _ 0 F1 Fb E1 Eb ltac:(lia) ltac:(lia)) as (F7 & E7).
    split; [split; (split; [assumption|eexists; split; [|eassumption]; lia])|]. split; [split; (split; [assumption|eexists; split; [|eassumption]; lia])|].
    unfold M180, M90, w, O, P', P2R. cbn [fst snd]. rewrite bp_0, Rmult_1_r in *. rewrite Ep, Eq, Ea, Eb. split; unspec; cbn [fst snd].
    - unfold R180, Ot, fp_sub, fp_map2. cbn [fst snd]. rewrite E3, E4, !minus_IZR. apply pair_eq; ring.
    - unfold R90, Ot, fp_add, fp_sub, fp_map2. cbn [fst snd]. rewrite E6, E7, !plus_IZR, opp_IZR, !minus_IZR. apply pair_eq; ring. }
  destruct G as (G1 & G2 & E1 & E2). clearbody R180 R90. destruct (int_within _ G1) as (MM & WM). destruct (int_within _ G2) as (MN & WN).
  assert (N1 : allclose64 P R180 = false). { apply not_close; auto. rewrite E1. intros K. assert (Z : dist2 P' M180 = 0) by (rewrite <- K; unfold P'; unspec; ring). lra. }
  assert (N2 : allclose64 P R90 = false). { apply not_close; auto. rewrite E2. intros K. assert (Z : dist2 P' M90 = 0) by (rewrite <- K; unfold P'; unspec; ring). lra. }
  destruct (near_of_invert64 R180 M180 MP Fk Bk MM WP WM N1 E1) as (A & EA & HA). destruct (near_of_invert64 R90 M90 MP Fk Bk MN WP WN N2 E2) as (B & EB & HB).
  exists A, B. split; auto. split; auto. rewrite EA, EB. reflexivity.
Qed.

Lemma coord_bounds kr : 0 < r -> on_circle O r P' -> let K := Rabs kr / r in let A := inv_pt P' kr M180 in let B := inv_pt P' kr M90 in
  Rabs (fst A - fst P') <= K /\ Rabs (fst B - fst P') <= K /\ Rabs (snd A - snd P') <= K /\ Rabs (snd B - snd P') <= K /\
  (34 / 100 * K <= Rabs (fst A - fst B) \/ 34 / 100 * K <= Rabs (snd A - snd B)).
Proof.
  intros R0 H K A B. destruct (on_pole R0 H) as (D0 & D1 & D2 & _ & _). assert (Rr : 0 < r * r) by nra.
  assert (Dw : r * r = fst w * fst w + snd w * snd w) by (rewrite <- D0; unfold w; unspec; ring).
  unfold A, B, inv_pt. rewrite D1, D2. set (q := kr / (2 * (r * r))). replace (kr / (4 * (r * r))) with (q / 2) by (unfold q; field; lra).
  assert (EK : K = 2 * r * Rabs q). { unfold K, q. unfold Rdiv at 2. rewrite Rabs_mult, Rabs_inv, (Rabs_right (2 * (r * r))) by lra. field. lra. }
  rewrite EK. clearbody q. clear K EK D0 D1 D2 A B H. unfold M180, M90. clearbody P'. unspec. cbn [fst snd]. clearbody w. destruct w as [x y]. cbn [fst snd] in *. destruct P' as [px py]. cbn [fst snd].
  assert (Bx : Rabs x <= r). { apply Rabs_le. split; apply Rnot_lt_le; intros Q; nra. } assert (By : Rabs y <= r). { apply Rabs_le. split; apply Rnot_lt_le; intros Q; nra. }
  pose proof (Rabs_pos q) as Pq. pose proof (Rabs_pos x) as Px. pose proof (Rabs_pos y) as Py.
  assert (G : forall t v, Rabs v <= 2 * r -> t = q * v -> Rabs t <= 2 * r * Rabs q). { intros t v Bv ->. rewrite Rabs_mult, Rmult_comm. apply Rmult_le_compat_r; auto. }
  apply abs_bounds in Bx, By.
  split; [apply (G _ x); [apply Rabs_le; lra|field]|]. split; [apply (G _ (x + y)); [apply Rabs_le; lra|ring]|]. split; [apply (G _ y); [apply Rabs_le; lra|field]|]. split; [apply (G _ (y - x)); [apply Rabs_le; lra|ring]|].
  assert (M : 7 / 10 * r <= Rabs y \/ 7 / 10 * r <= Rabs x). { destruct (Rle_or_lt (7 / 10 * r) (Rabs y)) as [|Q1]; auto. destruct (Rle_or_lt (7 / 10 * r) (Rabs x)) as [|Q2]; auto. exfalso. assert (x * x = Rabs x * Rabs x) by (rewrite <- Rabs_mult, Rabs_right; auto; nra). assert (y * y = Rabs y * Rabs y) by (rewrite <- Rabs_mult, Rabs_right; auto; nra). nra. }
  assert (Hy : forall t v, 7 / 10 * r <= Rabs v -> t = q * v -> 34 / 100 * (2 * r * Rabs q) <= Rabs t). { intros t v Bv ->. rewrite Rabs_mult. replace (34 / 100 * (2 * r * Rabs q)) with (Rabs q * (68 / 100 * r)) by field. apply Rmult_le_compat_l; lra. }
  destruct M as [M|M]; [left; apply (Hy _ (- y)); [rewrite Rabs_Ropp; auto|field]|right; apply (Hy _ x); auto; field].
Qed.

Lemma invert_circle64_on : on_grid2 0 20000 P -> on_grid2 0 20000 (c64_center c) -> on_grid 0 1048576 (c64_radius c) -> fin k -> SF2R k <> 0 -> Rabs (SF2R k) <= bp 400 -> 0 < r -> on_circle O r P' ->
  exists A B A' B', A' <> B' /\ (forall X, on_circle O r X -> X <> P' -> on_line A' B' (inv_pt P' (SF2R k) X)) /\
    near_image 11 (bp (-1000)) P' A' A /\ near_image 11 (bp (-1000)) P' B' B /\
    (invert_circle64 m P k c = Ok (GL64 A B) \/ Rabs (SF2R k) < r /\ allclose64 A B = true /\ invert_circle64 m P k c = Raise ValueError).
Proof.
  intros HP HO Hr Fk Nk Bk R0 H. destruct (invert_circle64_on0 HP HO Hr Fk Nk Bk R0 H) as (A & B & HA & HB & E). exists A, B, (inv_pt P' (SF2R k) M180), (inv_pt P' (SF2R k) M90).
  split; [apply image_distinct; auto|]. split; [apply image_line; auto|]. split; auto. split; auto. rewrite E. clear E. destruct (Rlt_or_le (Rabs (SF2R k)) r) as [L|L].
  { destruct (allclose64 A B); auto. }
  left. assert (Q : allclose64 A B = false); [|rewrite Q; reflexivity]. destruct (coord_bounds (SF2R k) R0 H) as (C1 & C2 & C3 & C4 & C5). set (K := Rabs (SF2R k) / r) in *.
  assert (K1 : 1 <= K). { unfold K. apply Rmult_le_reg_r with r; auto. replace (Rabs (SF2R k) / r * r) with (Rabs (SF2R k)) by (field; lra). lra. }
  assert (r1 : 1 <= r). { destruct Hr as (_ & n & Bn & En). fold r in En. rewrite bp_0, Rmult_1_r in En. rewrite En in R0 |- *. apply lt_IZR in R0. apply IZR_le. lia. }
  assert (K2 : K <= bp 400). { unfold K. apply Rle_trans with (Rabs (SF2R k) * 1); [|lra]. apply Rmult_le_compat_l; [apply Rabs_pos|]. rewrite <- Rinv_1. apply Rinv_le_contravar; lra. }
  assert (K3 : 20001 + 2 * K <= bp 500). { assert (bp 400 * bp 20 <= bp 500) by (rewrite <- bp_add; apply bp_le; lia). assert (bp 20 = 1048576) by (rewrite bp_IZR by lia; reflexivity). pose proof (bp_pos 400). nra. }
  destruct HP as ((_ & a & Ba & Ea) & (_ & b & Bb & Eb)). rewrite bp_0, Rmult_1_r in Ea, Eb. assert (Pa : Rabs (fst P') <= 20000) by (unfold P', P2R; cbn [fst]; rewrite Ea, <- abs_IZR; apply IZR_le; lia). assert (Pb : Rabs (snd P') <= 20000) by (unfold P', P2R; cbn [snd]; rewrite Eb, <- abs_IZR; apply IZR_le; lia).
  destruct HA as ((FA0 & FA1) & EA0 & EA1), HB as ((FB0 & FB1) & EB0 & EB1). unfold allclose64. apply andb_false_iff. destruct C5 as [C5|C5]; [left|right].
  - destruct (far_coord _ _ _ _ _ _ K1 Pa C1 C2 C5 EA0 EB0) as (T1 & T2 & T3). apply npclose_far; auto; lra.
  - destruct (far_coord _ _ _ _ _ _ K1 Pb C3 C4 C5 EA1 EB1) as (T1 & T2 & T3). apply npclose_far; auto; lra.
Qed.

End Inv.

(** ** Examples *)

Lemma invert_circle64_raises m : exists P c, on_grid2 0 20010 P /\ on_grid2 0 20010 (c64_center c) /\ on_grid 0 10 (c64_radius c) /\ 0 < SF2R (c64_radius c) /\
  on_circle (P2R (c64_center c)) (SF2R (c64_radius c)) (P2R P) /\ invert_circle64 m P f1 c = Raise ValueError.
Proof.
  exists (fz 20000, fz 20000), (Circle64 (fz 20010, fz 20000) (fz 10)). cbn [c64_center c64_radius]. split; [apply fz_grid2; lia|]. split; [apply fz_grid2; lia|]. split; [apply fz_grid; lia|].
  rewrite (proj2 (fz_ok 10 ltac:(lia))), !fz_P2R by lia. split; [lra|]. split; [apply on_circle_sq; [lra|]; unspec; lra|]. destruct m; vm_compute; reflexivity.
Qed.

(** The pole and the opposite point of the circle are close. *)
Lemma invert_circle64_raises_far m : exists P c, on_grid2 0 200001 P /\ on_grid2 0 200001 (c64_center c) /\ on_grid 0 1 (c64_radius c) /\ 0 < SF2R (c64_radius c) /\
  on_circle (P2R (c64_center c)) (SF2R (c64_radius c)) (P2R P) /\ forall k, invert_circle64 m P k c = Raise ValueError.
Proof.
  exists (fz 200000, fz 0), (Circle64 (fz 200001, fz 0) (fz 1)). cbn [c64_center c64_radius]. split; [apply fz_grid2; lia|]. split; [apply fz_grid2; lia|]. split; [apply fz_grid; lia|].
  rewrite (proj2 (fz_ok 1 ltac:(lia))), !fz_P2R by lia. split; [lra|]. split; [apply on_circle_sq; [lra|]; unspec; lra|]. intros k. destruct m; vm_compute; reflexivity.
Qed.
