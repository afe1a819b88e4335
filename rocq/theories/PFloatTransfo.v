(** * Transformations of points in binary64: proofs *)

From Coq Require Import Reals ZArith Lia Lra Psatz Bool SpecFloat.
From Verif Require Import SpecF64 Base Spec ModelFloat ModelFloatTransfo PFloat PFloat2 PFloat3 PFloat4 PFloatGrid PFloatCircle PFloatCircle2 PFloatAngle PFloatPi PFloatEx.
Local Open Scope R_scope.

Lemma rounds0 z : rounds z 0 -> SF2R z = 0.
Proof. intro H. rewrite <- val_f0 in H |- *. apply (rounds_exact z f0); auto. apply fin_f0. Qed.

Lemma bpos : 0 <= bp 1023. Proof. left. apply bp_pos. Qed.

Lemma fmul0 x y : fin x -> fin y -> SF2R x * SF2R y = 0 -> fin (SF64mul x y) /\ SF2R (SF64mul x y) = 0.
Proof.
  intros Fx Fy H. assert (R : rounds (SF64mul x y) 0). { rewrite <- H. apply fmul; auto. rewrite H, Rabs_R0. apply bpos. }
  split; [apply (rounds_fin _ _ R)|apply rounds0; auto].
Qed.

Lemma fmul1 x y : fin x -> fin y -> SF2R x = 1 -> Rabs (SF2R y) <= bp 1023 -> fin (SF64mul x y) /\ SF2R (SF64mul x y) = SF2R y.
Proof.
  intros Fx Fy H B. assert (R : rounds (SF64mul x y) (SF2R y)). { replace (SF2R y) with (SF2R x * SF2R y) by (rewrite H; ring). apply fmul; auto. rewrite H, Rmult_1_l. exact B. }
  split; [apply (rounds_fin _ _ R)|apply rounds_exact; auto].
Qed.

Lemma fadd_exact x y w : fin x -> fin y -> fin w -> SF2R x + SF2R y = SF2R w -> Rabs (SF2R w) <= bp 1023 -> fin (SF64add x y) /\ SF2R (SF64add x y) = SF2R w.
Proof.
  intros Fx Fy Fw H B. destruct (fadd x y Fx Fy ltac:(rewrite H; exact B)) as (R & _). rewrite H in R. split; [apply (rounds_fin _ _ R)|apply rounds_exact; auto].
Qed.

Lemma fsub_exact x y w : fin x -> fin y -> fin w -> SF2R x - SF2R y = SF2R w -> Rabs (SF2R w) <= bp 1023 -> fin (SF64sub x y) /\ SF2R (SF64sub x y) = SF2R w.
Proof.
  intros Fx Fy Fw H B. destruct (fsub x y Fx Fy ltac:(rewrite H; exact B)) as (R & _). rewrite H in R. split; [apply (rounds_fin _ _ R)|apply rounds_exact; auto].
Qed.

Lemma fsub_same x y : fin x -> fin y -> SF2R x = SF2R y -> fin (SF64sub x y) /\ SF2R (SF64sub x y) = 0.
Proof. intros Fx Fy H. rewrite <- val_f0. apply fsub_exact; auto using fin_f0. - rewrite val_f0. lra. - rewrite val_f0, Rabs_R0. apply bpos. Qed.

Lemma mod_1023 x : Rabs x <= bp 500 -> Rabs x <= bp 1023.
Proof. intro H. eapply Rle_trans; [exact H|apply bp_le; lia]. Qed.

(** ** Rotations *)

(** a product of an approximate cosine and an approximate difference *)
Lemma cprod c x T X : fin c -> fin x -> Rabs T <= 1 -> Rabs (SF2R c - T) <= 2 * u64 -> Rabs (SF2R x - X) <= u64 * Rabs X -> Rabs X <= bp 502 ->
  let z := SF64mul c x in
  fin z /\ Rabs (SF2R z - T * X) <= 41 / 10 * u64 * Rabs X + eta64 /\ Rabs (SF2R z) <= 11 / 10 * Rabs X + eta64.
Proof.
  intros Fc Fx HT Ec Ex BX z. pose proof u_bounds as U. pose proof eta64_small as Et. set (a := Rabs X) in *. assert (Pa : 0 <= a) by apply Rabs_pos.
  assert (Ua : 0 <= u64 * a <= / 9000000000000000 * a) by (split; [apply Rmult_le_pos; lra|apply Rmult_le_compat_r; lra]).
  assert (Bc : Rabs (SF2R c) <= 101 / 100) by (apply abs_close in Ec; lra).
  assert (Bx : Rabs (SF2R x) <= 1001 / 1000 * a) by (apply abs_close in Ex; fold a in Ex; lra).
  assert (B5 : 2 * bp 502 <= bp 1023) by (rewrite <- bp_succ; apply bp_le; lia).
  assert (Bp : Rabs (SF2R c * SF2R x) <= 102 / 100 * a).
  { rewrite Rabs_mult. apply Rle_trans with (101 / 100 * (1001 / 1000 * a)); [apply Rmult_le_compat; auto using Rabs_pos|lra]. }
  assert (R : rounds z (SF2R c * SF2R x)) by (apply fmul; auto; lra). pose proof (rounds_err _ _ R) as E. split; [apply (rounds_fin _ _ R)|].
  assert (D : Rabs (SF2R c * SF2R x - T * X) <= 3003 / 1000 * (u64 * a)).
  { replace (SF2R c * SF2R x - T * X) with ((SF2R c - T) * SF2R x + T * (SF2R x - X)) by ring. eapply Rle_trans; [apply Rabs_triang|]. rewrite !Rabs_mult.
    assert (A1 : Rabs (SF2R c - T) * Rabs (SF2R x) <= 2 * u64 * (1001 / 1000 * a)) by (apply Rmult_le_compat; auto using Rabs_pos).
    assert (A2 : Rabs T * Rabs (SF2R x - X) <= 1 * (u64 * a)) by (apply Rmult_le_compat; auto using Rabs_pos). lra. }
  assert (Up : u64 * Rabs (SF2R c * SF2R x) <= u64 * (102 / 100 * a)) by (apply Rmult_le_compat_l; lra).
  split.
  - apply abs_bounds in E, D. apply abs_le. lra.
  - apply abs_close in E. lra.
Qed.

(** the sum of two such products, then the sum with the centre *)
Lemma rot_coord p q o P Q X Y (add : bool) : fin p -> fin q -> fin o -> Rabs (SF2R o) <= bp 500 -> 0 <= X <= bp 502 -> 0 <= Y <= bp 502 ->
  Rabs (SF2R p - P) <= 41 / 10 * u64 * X + eta64 -> Rabs (SF2R q - Q) <= 41 / 10 * u64 * Y + eta64 -> Rabs (SF2R p) <= 11 / 10 * X + eta64 -> Rabs (SF2R q) <= 11 / 10 * Y + eta64 ->
  let z := SF64add (if add then SF64add p q else SF64sub p q) o in
  let e := (if add then P + Q else P - Q) + SF2R o in
  fin z /\ Rabs (SF2R z - e) <= u64 * Rabs e + 6 * u64 * (X + Y) + 3 * eta64.
Proof.
  intros Fp Fq Fo Bo HX HY Ep Eq Bp Bq z e. pose proof u_bounds as U. pose proof eta64_small as Et.
  assert (B5 : 4 * bp 502 <= bp 1022). { replace (4 * bp 502) with (bp (502 + 1 + 1)) by (rewrite !bp_succ; ring). apply bp_le; lia. } pose proof bp1023 as B6.
  assert (B7 : bp 500 <= bp 502) by (apply bp_le; lia). assert (B8 : 1 <= bp 502) by (apply Rle_trans with (bp 0); [rewrite bp_IZR by lia; cbn; lra|apply bp_le; lia]).
  set (w := if add then SF64add p q else SF64sub p q) in *. set (E := if add then P + Q else P - Q) in *. set (W := if add then SF2R p + SF2R q else SF2R p - SF2R q).
  assert (BW : Rabs W <= 11 / 10 * (X + Y) + 2 * eta64).
  { unfold W. destruct add; [|unfold Rminus]; (eapply Rle_trans; [apply Rabs_triang|]); rewrite ?Rabs_Ropp; lra. }
  assert (HW : Rabs (W - E) <= 41 / 10 * u64 * (X + Y) + 2 * eta64) by (unfold W, E; apply abs_bounds in Ep, Eq; apply abs_le; destruct add; lra).
  assert (Hw : fin w /\ Rabs (SF2R w - W) <= u64 * Rabs W).
  { unfold w, W in *. destruct add.
    - destruct (fadd p q Fp Fq ltac:(lra)) as (R1 & R2). split; [apply (rounds_fin _ _ R1)|exact R2].
    - destruct (fsub p q Fp Fq ltac:(lra)) as (R1 & R2). split; [apply (rounds_fin _ _ R1)|exact R2]. }
  destruct Hw as (Fw & Ew). assert (UW : u64 * Rabs W <= u64 * (11 / 10 * (X + Y) + 2 * eta64)) by (apply Rmult_le_compat_l; lra).
  assert (US : 0 <= u64 * (X + Y) <= / 9000000000000000 * (X + Y)) by (split; [apply Rmult_le_pos; lra|apply Rmult_le_compat_r; lra]).
  assert (Ue : 0 <= u64 * eta64 <= / 9000000000000000 * eta64) by (split; [apply Rmult_le_pos; lra|apply Rmult_le_compat_r; lra]).
  assert (HE : Rabs (SF2R w - E) <= 53 / 10 * (u64 * (X + Y)) + 21 / 10 * eta64) by (apply abs_bounds in Ew, HW; apply abs_le; lra).
  assert (Bw : Rabs (SF2R w) <= 12 / 10 * (X + Y) + 3 * eta64) by (apply abs_close in Ew; lra).
  assert (BS : Rabs (SF2R w + SF2R o) <= bp 1023) by (eapply Rle_trans; [apply Rabs_triang|lra]).
  destruct (fadd w o Fw Fo BS) as (R1 & R2). fold z in R1, R2. split; [apply (rounds_fin _ _ R1)|].
  assert (UZ : u64 * Rabs (SF2R w + SF2R o) <= u64 * (Rabs e + (53 / 10 * (u64 * (X + Y)) + 21 / 10 * eta64))).
  { apply Rmult_le_compat_l; [lra|]. replace (SF2R w + SF2R o) with (e + (SF2R w - E)) by (unfold e; fold E; ring). eapply Rle_trans; [apply Rabs_triang|lra]. }
  assert (U2 : u64 * (u64 * (X + Y)) <= / 9000000000000000 * (u64 * (X + Y))) by (apply Rmult_le_compat_r; lra).
  assert (He : e = E + SF2R o) by reflexivity. clearbody e E. apply abs_bounds in R2, HE. apply abs_le. subst e. lra.
Qed.

Lemma rotate64_ok cosf sinf O theta (degrees : bool) M : libm_cos_sin cosf sinf -> moderate O -> moderate M -> fin theta -> Rabs (SF2R theta) <= bp 1020 ->
  let a := SF2R (if degrees then SF64mul theta (SF64div fpi f180) else theta) in
  let dx := SF2R (fst M) - SF2R (fst O) in let dy := SF2R (snd M) - SF2R (snd O) in
  let ex := cos a * dx - sin a * dy + SF2R (fst O) in
  let ey := sin a * dx + cos a * dy + SF2R (snd O) in
  let Z := rotate64 cosf sinf O theta degrees M in
  fin2 Z /\
  Rabs (SF2R (fst Z) - ex) <= u64 * Rabs ex + 6 * u64 * (Rabs dx + Rabs dy) + 3 * eta64 /\
  Rabs (SF2R (snd Z) - ey) <= u64 * Rabs ey + 6 * u64 * (Rabs dx + Rabs dy) + 3 * eta64.
Proof.
  intros HL HO HM Ft Bt a dx dy ex ey Z. pose proof (fangle_ok theta degrees Ft Bt) as Fa. destruct (HL _ Fa) as (Fc & Ec & Fs & Es).
  destruct HO as ((Fo0 & Fo1) & (Wo0 & Wo1)), HM as ((Fm0 & Fm1) & (Wm0 & Wm1)). assert (Bb : bp 500 <= bp 1022) by (apply bp_le; lia).
  unfold rotate64 in Z. set (t := if degrees then SF64mul theta (SF64div fpi f180) else theta) in *. fold a in Ec, Es.
  destruct (sub_coord _ _ _ Fm0 Fo0 Wm0 Wo0 Bb) as (F1 & E1 & B1 & _). destruct (sub_coord _ _ _ Fm1 Fo1 Wm1 Wo1 Bb) as (F2 & E2 & B2 & _). fold dx in E1, B1. fold dy in E2, B2.
  assert (B5 : 2 * bp 500 <= bp 502) by (rewrite <- bp_succ; apply bp_le; lia).
  assert (HC : Rabs (cos a) <= 1) by (apply abs_le; apply COS_bound). assert (HS : Rabs (sin a) <= 1) by (apply abs_le; apply SIN_bound).
  assert (Bx : Rabs dx <= bp 502) by lra. assert (By : Rabs dy <= bp 502) by lra.
  destruct (cprod _ _ _ _ Fc F1 HC Ec E1 Bx) as (G1 & H1 & K1). destruct (cprod _ _ _ _ Fs F2 HS Es E2 By) as (G2 & H2 & K2).
  destruct (cprod _ _ _ _ Fs F1 HS Es E1 Bx) as (G3 & H3 & K3). destruct (cprod _ _ _ _ Fc F2 HC Ec E2 By) as (G4 & H4 & K4).
  pose proof (Rabs_pos dx) as Px. pose proof (Rabs_pos dy) as Py.
  destruct (rot_coord _ _ _ _ _ _ _ false G1 G2 Fo0 Wo0 (conj Px Bx) (conj Py By) H1 H2 K1 K2) as (J1 & L1).
  destruct (rot_coord _ _ _ _ _ _ _ true G3 G4 Fo1 Wo1 (conj Px Bx) (conj Py By) H3 H4 K3 K4) as (J2 & L2).
  split; [split; [exact J1|exact J2]|]. split; [exact L1|exact L2].
Qed.

Lemma rotate64_centre cosf sinf O theta degrees : libm_cos_sin cosf sinf -> moderate O -> fin theta -> Rabs (SF2R theta) <= bp 1020 ->
  let Z := rotate64 cosf sinf O theta degrees O in fin2 Z /\ P2R Z = P2R O.
Proof.
  intros HL HO Ft Bt Z. pose proof (fangle_ok theta degrees Ft Bt) as Fa. destruct (HL _ Fa) as (Fc & _ & Fs & _).
  destruct HO as ((Fo0 & Fo1) & (Wo0 & Wo1)). unfold rotate64 in Z. set (t := if degrees then SF64mul theta (SF64div fpi f180) else theta) in *.
  destruct (fsub_same _ _ Fo0 Fo0 eq_refl) as (F1 & E1). destruct (fsub_same _ _ Fo1 Fo1 eq_refl) as (F2 & E2).
  destruct (fmul0 _ _ Fc F1 ltac:(rewrite E1; ring)) as (G1 & H1). destruct (fmul0 _ _ Fs F2 ltac:(rewrite E2; ring)) as (G2 & H2).
  destruct (fmul0 _ _ Fs F1 ltac:(rewrite E1; ring)) as (G3 & H3). destruct (fmul0 _ _ Fc F2 ltac:(rewrite E2; ring)) as (G4 & H4).
  destruct (fsub_same _ _ G1 G2 ltac:(congruence)) as (G5 & H5). destruct (fadd_exact _ _ f0 G3 G4 fin_f0 ltac:(rewrite H3, H4, val_f0; ring)) as (G6 & H6). { rewrite val_f0, Rabs_R0. apply bpos. }
  rewrite val_f0 in H6.
  destruct (fadd_exact _ _ (fst O) G5 Fo0 Fo0 ltac:(rewrite H5; ring) (mod_1023 _ Wo0)) as (G7 & H7).
  destruct (fadd_exact _ _ (snd O) G6 Fo1 Fo1 ltac:(rewrite H6; ring) (mod_1023 _ Wo1)) as (G8 & H8).
  split; [split; [exact G7|exact G8]|]. unfold P2R. f_equal; [exact H7|exact H8].
Qed.

(** ** Homotheties *)

Lemma hom_coord s c m : fin s -> fin c -> fin m -> Rabs (SF2R s) <= bp 500 -> Rabs (SF2R c) <= bp 500 -> Rabs (SF2R m) <= bp 500 ->
  let e := (1 - SF2R s) * SF2R c + SF2R s * SF2R m in
  let z := SF64add (SF64mul (SF64sub f1 s) c) (SF64mul s m) in
  fin z /\ Rabs (SF2R z - e) <= u64 * Rabs e + 3 * u64 * Rabs ((1 - SF2R s) * SF2R c) + 2 * u64 * Rabs (SF2R s * SF2R m) + 3 * eta64.
Proof.
  intros Fs Fc Fm Bs Bc Bm e z. pose proof u_bounds as U. pose proof eta64_small as Et. destruct (bp500 _ eq_refl) as (N1 & N2). pose proof bp1023 as N3. set (b := bp 500) in *.
  assert (B1 : Rabs (1 - SF2R s) <= 2 * b) by (unfold Rminus; eapply Rle_trans; [apply Rabs_triang|rewrite Rabs_Ropp, Rabs_R1; lra]).
  assert (Nb : b * 1 <= b * b) by (apply Rmult_le_compat_l; lra).
  destruct (fsub f1 s fin_f1 Fs) as (R1 & R2). { rewrite val_f1. lra. } rewrite val_f1 in R1, R2. set (r := SF64sub f1 s) in *. pose proof (rounds_fin _ _ R1) as Fr.
  set (A := Rabs ((1 - SF2R s) * SF2R c)) in *. set (C := Rabs (SF2R s * SF2R m)) in *. assert (PA : 0 <= A) by apply Rabs_pos. assert (PC : 0 <= C) by apply Rabs_pos.
  assert (BA : A <= 2 * (b * b)). { unfold A. rewrite Rabs_mult, <- Rmult_assoc. apply Rmult_le_compat; auto using Rabs_pos. }
  assert (BC : C <= b * b). { unfold C. rewrite Rabs_mult. apply Rmult_le_compat; auto using Rabs_pos. }
  assert (UA : 0 <= u64 * A <= / 9000000000000000 * A) by (split; [apply Rmult_le_pos; lra|apply Rmult_le_compat_r; lra]).
  assert (UC : 0 <= u64 * C <= / 9000000000000000 * C) by (split; [apply Rmult_le_pos; lra|apply Rmult_le_compat_r; lra]).
  assert (Ue : 0 <= u64 * eta64 <= / 9000000000000000 * eta64) by (split; [apply Rmult_le_pos; lra|apply Rmult_le_compat_r; lra]).
  assert (D1 : Rabs (SF2R r * SF2R c - (1 - SF2R s) * SF2R c) <= u64 * A).
  { replace (SF2R r * SF2R c - (1 - SF2R s) * SF2R c) with ((SF2R r - (1 - SF2R s)) * SF2R c) by ring. unfold A. rewrite !Rabs_mult, <- Rmult_assoc. apply Rmult_le_compat_r; auto using Rabs_pos. }
  pose proof D1 as D1'. apply abs_close in D1'. fold A in D1'.
  assert (R3 : rounds (SF64mul r c) (SF2R r * SF2R c)) by (apply fmul; auto; lra). pose proof (rounds_err _ _ R3) as E3. pose proof (rounds_fin _ _ R3) as F3. set (p := SF64mul r c) in *.
  assert (R4 : rounds (SF64mul s m) (SF2R s * SF2R m)) by (apply fmul; auto; fold C; lra). pose proof (rounds_err _ _ R4) as E4. pose proof (rounds_fin _ _ R4) as F4. set (q := SF64mul s m) in *. fold C in E4.
  assert (U3 : u64 * Rabs (SF2R r * SF2R c) <= u64 * (11 / 10 * A)) by (apply Rmult_le_compat_l; lra).
  assert (D3 : Rabs (SF2R p - (1 - SF2R s) * SF2R c) <= 21 / 10 * (u64 * A) + eta64) by (apply abs_bounds in D1, E3; apply abs_le; lra).
  pose proof D3 as D3'. apply abs_close in D3'. fold A in D3'. pose proof E4 as E4'. apply abs_close in E4'. fold C in E4'.
  assert (BS : Rabs (SF2R p + SF2R q) <= bp 1023) by (eapply Rle_trans; [apply Rabs_triang|lra]).
  destruct (fadd p q F3 F4 BS) as (R5 & R6). fold z in R5, R6. split; [apply (rounds_fin _ _ R5)|].
  assert (UZ : u64 * Rabs (SF2R p + SF2R q) <= u64 * (Rabs e + (21 / 10 * (u64 * A) + u64 * C + 2 * eta64))).
  { apply Rmult_le_compat_l; [lra|]. replace (SF2R p + SF2R q) with (e + ((SF2R p - (1 - SF2R s) * SF2R c) + (SF2R q - SF2R s * SF2R m))) by (unfold e; ring).
    eapply Rle_trans; [apply Rabs_triang|]. apply Rplus_le_compat_l. eapply Rle_trans; [apply Rabs_triang|lra]. }
  assert (U7 : u64 * (u64 * A) <= / 9000000000000000 * (u64 * A)) by (apply Rmult_le_compat_r; lra).
  assert (U8 : u64 * (u64 * C) <= / 9000000000000000 * (u64 * C)) by (apply Rmult_le_compat_r; lra).
  assert (He : e = (1 - SF2R s) * SF2R c + SF2R s * SF2R m) by reflexivity. clearbody e A C. apply abs_bounds in R6, D3, E4. apply abs_le. lra.
Qed.

Lemma homothety64_ok O s M : moderate O -> moderate M -> fin s -> Rabs (SF2R s) <= bp 500 ->
  let Z := homothety64 O s M in
  fin2 Z /\ forall f : spec_float * spec_float -> spec_float, f = fst \/ f = snd ->
    let c := (1 - SF2R s) * SF2R (f O) in let m := SF2R s * SF2R (f M) in
    Rabs (SF2R (f Z) - (c + m)) <= u64 * Rabs (c + m) + 3 * u64 * Rabs c + 2 * u64 * Rabs m + 3 * eta64.
Proof.
  intros ((Fo0 & Fo1) & (Wo0 & Wo1)) ((Fm0 & Fm1) & (Wm0 & Wm1)) Fs Bs Z.
  destruct (hom_coord s _ _ Fs Fo0 Fm0 Bs Wo0 Wm0) as (G0 & H0). destruct (hom_coord s _ _ Fs Fo1 Fm1 Bs Wo1 Wm1) as (G1 & H1).
  split; [split; [exact G0|exact G1]|]. intros f [->| ->]; [exact H0|exact H1].
Qed.

Lemma hom1_coord s c m : fin s -> fin c -> fin m -> SF2R s = 1 -> Rabs (SF2R m) <= bp 500 ->
  let z := SF64add (SF64mul (SF64sub f1 s) c) (SF64mul s m) in fin z /\ SF2R z = SF2R m.
Proof.
  intros Fs Fc Fm Hs Bm z. destruct (fsub_same f1 s fin_f1 Fs ltac:(rewrite val_f1; auto)) as (F1 & E1).
  destruct (fmul0 _ c F1 Fc ltac:(rewrite E1; ring)) as (F2 & E2). destruct (fmul1 s m Fs Fm Hs (mod_1023 _ Bm)) as (F3 & E3).
  apply fadd_exact; auto; [rewrite E2, E3; ring|apply mod_1023; auto].
Qed.

Lemma hom0_coord s c m : fin s -> fin c -> fin m -> SF2R s = 0 -> Rabs (SF2R c) <= bp 500 ->
  let z := SF64add (SF64mul (SF64sub f1 s) c) (SF64mul s m) in fin z /\ SF2R z = SF2R c.
Proof.
  intros Fs Fc Fm Hs Bc z. assert (B1 : Rabs (SF2R f1) <= bp 1023) by (rewrite val_f1, Rabs_R1; pose proof bp1022_big; pose proof bp1023; lra).
  destruct (fsub_exact f1 s f1 fin_f1 Fs fin_f1 ltac:(rewrite Hs; ring) B1) as (F1 & E1). rewrite val_f1 in E1.
  destruct (fmul1 _ c F1 Fc E1 (mod_1023 _ Bc)) as (F2 & E2). destruct (fmul0 s m Fs Fm ltac:(rewrite Hs; ring)) as (F3 & E3).
  apply fadd_exact; auto; [rewrite E2, E3; ring|apply mod_1023; auto].
Qed.

Lemma homothety64_one O s M : moderate O -> moderate M -> fin s -> SF2R s = 1 -> P2R (homothety64 O s M) = P2R M /\ fin2 (homothety64 O s M).
Proof.
  intros ((Fo0 & Fo1) & (Wo0 & Wo1)) ((Fm0 & Fm1) & (Wm0 & Wm1)) Fs Hs.
  destruct (hom1_coord s _ _ Fs Fo0 Fm0 Hs Wm0) as (G0 & H0). destruct (hom1_coord s _ _ Fs Fo1 Fm1 Hs Wm1) as (G1 & H1).
  split; [|split; [exact G0|exact G1]]. unfold P2R. f_equal; [exact H0|exact H1].
Qed.

Lemma homothety64_zero O s M : moderate O -> moderate M -> fin s -> SF2R s = 0 -> P2R (homothety64 O s M) = P2R O /\ fin2 (homothety64 O s M).
Proof.
  intros ((Fo0 & Fo1) & (Wo0 & Wo1)) ((Fm0 & Fm1) & (Wm0 & Wm1)) Fs Hs.
  destruct (hom0_coord s _ _ Fs Fo0 Fm0 Hs Wo0) as (G0 & H0). destruct (hom0_coord s _ _ Fs Fo1 Fm1 Hs Wo1) as (G1 & H1).
  split; [|split; [exact G0|exact G1]]. unfold P2R. f_equal; [exact H0|exact H1].
Qed.

(** ** Axis scalings *)

Lemma scl_coord s o m : fin s -> fin o -> fin m -> Rabs (SF2R s) <= bp 500 -> Rabs (SF2R o) <= bp 500 -> Rabs (SF2R m) <= bp 500 ->
  let t := SF2R s * (SF2R m - SF2R o) in let z := SF64add (SF64mul s (SF64sub m o)) o in
  fin z /\ Rabs (SF2R z - (t + SF2R o)) <= u64 * Rabs (t + SF2R o) + 3 * u64 * Rabs t + 2 * eta64.
Proof.
  intros Fs Fo Fm Bs Bo Bm t z. pose proof u_bounds as U. pose proof eta64_small as Et. destruct (bp500 _ eq_refl) as (N1 & N2). pose proof bp1023 as N3.
  destruct (sub_coord m o _ Fm Fo Bm Bo) as (F1 & E1 & B1 & _). { apply bp_le; lia. } set (v := SF64sub m o) in *. set (b := bp 500) in *.
  assert (Nb : b * 1 <= b * b) by (apply Rmult_le_compat_l; lra).
  set (T := Rabs t) in *. assert (PT : 0 <= T) by apply Rabs_pos. assert (BT : T <= 2 * (b * b)).
  { unfold T, t. rewrite Rabs_mult. replace (2 * (b * b)) with (b * (2 * b)) by ring. apply Rmult_le_compat; auto using Rabs_pos. }
  assert (UT : 0 <= u64 * T <= / 9000000000000000 * T) by (split; [apply Rmult_le_pos; lra|apply Rmult_le_compat_r; lra]).
  assert (Ue : 0 <= u64 * eta64 <= / 9000000000000000 * eta64) by (split; [apply Rmult_le_pos; lra|apply Rmult_le_compat_r; lra]).
  assert (D1 : Rabs (SF2R s * SF2R v - t) <= u64 * T).
  { unfold T, t. replace (SF2R s * SF2R v - SF2R s * (SF2R m - SF2R o)) with (SF2R s * (SF2R v - (SF2R m - SF2R o))) by ring. rewrite !Rabs_mult.
    replace (u64 * (Rabs (SF2R s) * Rabs (SF2R m - SF2R o))) with (Rabs (SF2R s) * (u64 * Rabs (SF2R m - SF2R o))) by ring. apply Rmult_le_compat_l; auto using Rabs_pos. }
  pose proof D1 as D1'. apply abs_close in D1'. fold T in D1'.
  assert (R3 : rounds (SF64mul s v) (SF2R s * SF2R v)) by (apply fmul; auto; lra). pose proof (rounds_err _ _ R3) as E3. pose proof (rounds_fin _ _ R3) as F3. set (p := SF64mul s v) in *.
  assert (U3 : u64 * Rabs (SF2R s * SF2R v) <= u64 * (11 / 10 * T)) by (apply Rmult_le_compat_l; lra).
  assert (D3 : Rabs (SF2R p - t) <= 21 / 10 * (u64 * T) + eta64) by (apply abs_bounds in D1, E3; apply abs_le; lra).
  pose proof D3 as D3'. apply abs_close in D3'. fold T in D3'.
  assert (BS : Rabs (SF2R p + SF2R o) <= bp 1023) by (eapply Rle_trans; [apply Rabs_triang|lra]).
  destruct (fadd p o F3 Fo BS) as (R5 & R6). fold z in R5, R6. split; [apply (rounds_fin _ _ R5)|].
  assert (UZ : u64 * Rabs (SF2R p + SF2R o) <= u64 * (Rabs (t + SF2R o) + (21 / 10 * (u64 * T) + eta64))).
  { apply Rmult_le_compat_l; [lra|]. replace (SF2R p + SF2R o) with (t + SF2R o + (SF2R p - t)) by ring. eapply Rle_trans; [apply Rabs_triang|lra]. }
  assert (U7 : u64 * (u64 * T) <= / 9000000000000000 * (u64 * T)) by (apply Rmult_le_compat_r; lra).
  clearbody T t. apply abs_bounds in R6, D3. apply abs_le. lra.
Qed.

Lemma scaling_xy64_ok O sx sy M : moderate O -> moderate M -> moderate (sx, sy) ->
  let Z := scaling_xy64 O sx sy M in
  fin2 Z /\ forall f : spec_float * spec_float -> spec_float, f = fst \/ f = snd ->
    let t := SF2R (f (sx, sy)) * (SF2R (f M) - SF2R (f O)) in let e := t + SF2R (f O) in
    Rabs (SF2R (f Z) - e) <= u64 * Rabs e + 3 * u64 * Rabs t + 2 * eta64.
Proof.
  intros ((Fo0 & Fo1) & (Wo0 & Wo1)) ((Fm0 & Fm1) & (Wm0 & Wm1)) ((Fs0 & Fs1) & (Ws0 & Ws1)) Z. cbn [fst snd] in *.
  destruct (scl_coord sx _ _ Fs0 Fo0 Fm0 Ws0 Wo0 Wm0) as (G0 & H0). destruct (scl_coord sy _ _ Fs1 Fo1 Fm1 Ws1 Wo1 Wm1) as (G1 & H1).
  split; [split; [exact G0|exact G1]|]. intros f [->| ->]; [exact H0|exact H1].
Qed.

Lemma scaling_xy64_centre O sx sy : moderate O -> fin2 (sx, sy) -> fin2 (scaling_xy64 O sx sy O) /\ P2R (scaling_xy64 O sx sy O) = P2R O.
Proof.
  intros ((Fo0 & Fo1) & (Wo0 & Wo1)) (Fs0 & Fs1). cbn [fst snd] in *.
  assert (H : forall s o, fin s -> fin o -> Rabs (SF2R o) <= bp 500 -> fin (SF64add (SF64mul s (SF64sub o o)) o) /\ SF2R (SF64add (SF64mul s (SF64sub o o)) o) = SF2R o).
  { intros s o Fs Fo Bo. destruct (fsub_same o o Fo Fo eq_refl) as (F1 & E1). destruct (fmul0 s _ Fs F1 ltac:(rewrite E1; ring)) as (F2 & E2).
    apply fadd_exact; auto; [rewrite E2; ring|apply mod_1023; auto]. }
  destruct (H sx _ Fs0 Fo0 Wo0) as (G0 & H0). destruct (H sy _ Fs1 Fo1 Wo1) as (G1 & H1). split; [split; [exact G0|exact G1]|]. unfold P2R. f_equal; [exact H0|exact H1].
Qed.

(** ** Affine maps *)

Lemma aff_coord m a1 a2 x y b : fin a1 -> fin a2 -> fin x -> fin y -> fin b -> Rabs (SF2R a1) <= bp 500 -> Rabs (SF2R a2) <= bp 500 -> Rabs (SF2R x) <= bp 500 -> Rabs (SF2R y) <= bp 500 -> Rabs (SF2R b) <= bp 500 ->
  let s := Rabs (SF2R a1 * SF2R x) + Rabs (SF2R a2 * SF2R y) in let e := SF2R a1 * SF2R x + SF2R a2 * SF2R y + SF2R b in
  let z := SF64add (sum2 m a1 x a2 y) b in fin z /\ Rabs (SF2R z - e) <= u64 * Rabs e + 3 * u64 * s + 4 * eta64.
Proof.
  intros Fa1 Fa2 Fx Fy Fb B1 B2 Bx By Bb s e z. pose proof u_bounds as U. pose proof eta64_small as Et. destruct (bp500 _ eq_refl) as (N1 & N2). pose proof bp1023 as N3. set (b5 := bp 500) in *.
  assert (Nb : b5 * 1 <= b5 * b5) by (apply Rmult_le_compat_l; lra).
  assert (Bs : 0 <= s <= 2 * (b5 * b5)).
  { unfold s. rewrite !Rabs_mult. split; [apply Rplus_le_le_0_compat; apply Rmult_le_pos; apply Rabs_pos|].
    assert (Rabs (SF2R a1) * Rabs (SF2R x) <= b5 * b5) by (apply Rmult_le_compat; auto using Rabs_pos). assert (Rabs (SF2R a2) * Rabs (SF2R y) <= b5 * b5) by (apply Rmult_le_compat; auto using Rabs_pos). lra. }
  destruct (sum2_ok m a1 x a2 y Fa1 Fx Fa2 Fy) as (F & E & _). { fold s. lra. } fold s in E. set (w := sum2 m a1 x a2 y) in *. set (W := SF2R a1 * SF2R x + SF2R a2 * SF2R y) in *.
  assert (Us : 0 <= u64 * s <= / 9000000000000000 * s) by (split; [apply Rmult_le_pos; lra|apply Rmult_le_compat_r; lra]).
  assert (Ue : 0 <= u64 * eta64 <= / 9000000000000000 * eta64) by (split; [apply Rmult_le_pos; lra|apply Rmult_le_compat_r; lra]).
  assert (BW : Rabs W <= s) by (unfold W, s; apply Rabs_triang). pose proof E as E'. apply abs_close in E'.
  assert (BS : Rabs (SF2R w + SF2R b) <= bp 1023) by (eapply Rle_trans; [apply Rabs_triang|lra]).
  destruct (fadd w b F Fb BS) as (R5 & R6). fold z in R5, R6. split; [apply (rounds_fin _ _ R5)|].
  assert (UZ : u64 * Rabs (SF2R w + SF2R b) <= u64 * (Rabs e + (21 / 10 * u64 * s + 3 * eta64))).
  { apply Rmult_le_compat_l; [lra|]. replace (SF2R w + SF2R b) with (e + (SF2R w - W)) by (unfold e; fold W; ring). eapply Rle_trans; [apply Rabs_triang|lra]. }
  assert (U7 : u64 * (u64 * s) <= / 9000000000000000 * (u64 * s)) by (apply Rmult_le_compat_r; lra).
  assert (He : e = W + SF2R b) by reflexivity. clearbody e W s. apply abs_bounds in R6, E. apply abs_le. lra.
Qed.

Lemma affine64_ok m1 m2 a11 a12 a21 a22 b M : moderate (a11, a12) -> moderate (a21, a22) -> moderate b -> moderate M ->
  let x := SF2R (fst M) in let y := SF2R (snd M) in
  let ex := SF2R a11 * x + SF2R a12 * y + SF2R (fst b) in let ey := SF2R a21 * x + SF2R a22 * y + SF2R (snd b) in
  let Z := affine64 m1 m2 a11 a12 a21 a22 b M in
  fin2 Z /\
  Rabs (SF2R (fst Z) - ex) <= u64 * Rabs ex + 3 * u64 * (Rabs (SF2R a11 * x) + Rabs (SF2R a12 * y)) + 4 * eta64 /\
  Rabs (SF2R (snd Z) - ey) <= u64 * Rabs ey + 3 * u64 * (Rabs (SF2R a21 * x) + Rabs (SF2R a22 * y)) + 4 * eta64.
Proof.
  intros ((Fa & Fb) & (Wa & Wb)) ((Fc & Fd) & (Wc & Wd)) ((Fb0 & Fb1) & (Wb0 & Wb1)) ((Fm0 & Fm1) & (Wm0 & Wm1)) x y ex ey Z. cbn [fst snd] in *.
  destruct (aff_coord m1 a11 a12 _ _ _ Fa Fb Fm0 Fm1 Fb0 Wa Wb Wm0 Wm1 Wb0) as (G0 & H0). destruct (aff_coord m2 a21 a22 _ _ _ Fc Fd Fm0 Fm1 Fb1 Wc Wd Wm0 Wm1 Wb1) as (G1 & H1).
  split; [split; [exact G0|exact G1]|]. split; [exact H0|exact H1].
Qed.

(** ** Translations *)

Lemma translate64_ok v A : moderate v -> moderate A -> let Z := translate64 v A in
  rounds (fst Z) (SF2R (fst A) + SF2R (fst v)) /\ rounds (snd Z) (SF2R (snd A) + SF2R (snd v)).
Proof.
  intros ((Fv0 & Fv1) & (Wv0 & Wv1)) ((Fa0 & Fa1) & (Wa0 & Wa1)) Z. destruct (bp500 _ eq_refl) as (N1 & N2). pose proof bp1023 as N3.
  assert (Nb : bp 500 * 1 <= bp 500 * bp 500) by (apply Rmult_le_compat_l; lra).
  split; apply fadd; auto; (eapply Rle_trans; [apply Rabs_triang|lra]).
Qed.

(** ** Exactness on grids: the scale factors and the matrices are integers, the points are on
    a grid of step 2^g *)

Lemma zb a b K N : (Z.abs a <= K -> Z.abs b <= N -> Z.abs (a * b) <= K * N)%Z.
Proof. intros. rewrite Z.abs_mul. apply Z.mul_le_mono_nonneg; lia. Qed.

Lemma bp0 : bp 0 = 1. Proof. rewrite bp_IZR by lia. reflexivity. Qed.

Lemma hom_grid g K N s c m : (0 <= K)%Z -> (0 <= N)%Z -> ((2 * K + 1) * N < 2 ^ 53)%Z -> (K + 1 < 2 ^ 53)%Z -> (-1074 <= g <= 970)%Z -> on_grid 0 K s -> on_grid g N c -> on_grid g N m ->
  SF2R (SF64add (SF64mul (SF64sub f1 s) c) (SF64mul s m)) = (1 - SF2R s) * SF2R c + SF2R s * SF2R m.
Proof.
  intros HK HN HB HK2 HG (Fs & k & Bk & Ek) (Fc & c' & Bc & Ec) (Fm & m' & Bm & Em).
  assert (E1 : SF2R f1 = IZR 1 * bp 0) by (rewrite val_f1, bp0; ring).
  destruct (sub_grid f1 s 1 k 0 fin_f1 Fs E1 Ek ltac:(lia) ltac:(lia)) as (F1 & H1).
  assert (X1 : (Z.abs ((1 - k) * c') <= (K + 1) * N)%Z) by (apply zb; lia). assert (X2 : (Z.abs (k * m') <= K * N)%Z) by (apply zb; lia).
  destruct (mul_grid _ c _ _ _ _ F1 Fc H1 Ec ltac:(nia) ltac:(lia)) as (F2 & H2). destruct (mul_grid s m _ _ _ _ Fs Fm Ek Em ltac:(nia) ltac:(lia)) as (F3 & H3).
  destruct (add_grid _ _ _ _ _ F2 F3 H2 H3 ltac:(lia) ltac:(lia)) as (F4 & H4). rewrite H4, Ek, Ec, Em, plus_IZR, !mult_IZR, minus_IZR, bp_add, bp0. ring.
Qed.

Lemma homothety64_grid g K N O s M : (0 <= K)%Z -> (0 <= N)%Z -> ((2 * K + 1) * N < 2 ^ 53)%Z -> (K + 1 < 2 ^ 53)%Z -> (-1074 <= g <= 970)%Z -> on_grid 0 K s -> on_grid2 g N O -> on_grid2 g N M ->
  P2R (homothety64 O s M) = vadd (vscal (1 - SF2R s) (P2R O)) (vscal (SF2R s) (P2R M)).
Proof. intros HK HN HB HK2 HG Hs (O0 & O1) (M0 & M1). unfold P2R, homothety64, vadd, vscal. cbn [fst snd fp_map2]. f_equal; apply (hom_grid g K N); auto. Qed.

Lemma scl_grid g K N s o m : (0 <= K)%Z -> (0 <= N)%Z -> ((2 * K + 1) * N < 2 ^ 53)%Z -> (2 * N < 2 ^ 53)%Z -> (-1074 <= g <= 970)%Z -> on_grid 0 K s -> on_grid g N o -> on_grid g N m ->
  SF2R (SF64add (SF64mul s (SF64sub m o)) o) = SF2R s * (SF2R m - SF2R o) + SF2R o.
Proof.
  intros HK HN HB HK2 HG (Fs & k & Bk & Ek) (Fo & o' & Bo & Eo) (Fm & m' & Bm & Em).
  destruct (sub_grid m o _ _ _ Fm Fo Em Eo ltac:(lia) ltac:(lia)) as (F1 & H1). assert (X1 : (Z.abs (k * (m' - o')) <= K * (2 * N))%Z) by (apply zb; lia).
  destruct (mul_grid s _ _ _ _ _ Fs F1 Ek H1 ltac:(nia) ltac:(lia)) as (F2 & H2). destruct (add_grid _ o _ _ _ F2 Fo H2 Eo ltac:(nia) ltac:(lia)) as (F4 & H4).
  rewrite H4, Ek, Eo, Em, plus_IZR, !mult_IZR, minus_IZR, bp_add, bp0. ring.
Qed.

Lemma scaling_xy64_grid g K N O sx sy M : (0 <= K)%Z -> (0 <= N)%Z -> ((2 * K + 1) * N < 2 ^ 53)%Z -> (2 * N < 2 ^ 53)%Z -> (-1074 <= g <= 970)%Z -> on_grid2 0 K (sx, sy) -> on_grid2 g N O -> on_grid2 g N M ->
  P2R (scaling_xy64 O sx sy M) = (SF2R sx * (SF2R (fst M) - SF2R (fst O)) + SF2R (fst O), SF2R sy * (SF2R (snd M) - SF2R (snd O)) + SF2R (snd O)).
Proof. intros HK HN HB HK2 HG (S0 & S1) (O0 & O1) (M0 & M1). unfold P2R, scaling_xy64. cbn [fst snd fp_map2 fp_sub] in *. f_equal; apply (scl_grid g K N); auto. Qed.

Lemma aff_grid m g K N a1 a2 x y b : (0 <= K)%Z -> (0 <= N)%Z -> ((2 * K + 1) * N < 2 ^ 53)%Z -> (-1074 <= g <= 970)%Z -> on_grid 0 K a1 -> on_grid 0 K a2 -> on_grid g N x -> on_grid g N y -> on_grid g N b ->
  SF2R (SF64add (sum2 m a1 x a2 y) b) = SF2R a1 * SF2R x + SF2R a2 * SF2R y + SF2R b.
Proof.
  intros HK HN HB HG (F1 & k1 & B1 & E1) (F2 & k2 & B2 & E2) (Fx & x' & Bx & Ex) (Fy & y' & By & Ey) (Fb & b' & Bb & Eb).
  assert (X1 : (Z.abs (k1 * x') <= K * N)%Z) by (apply zb; lia). assert (X2 : (Z.abs (k2 * y') <= K * N)%Z) by (apply zb; lia).
  destruct (sum2_grid m a1 x a2 y _ _ _ _ _ _ F1 Fx F2 Fy E1 Ex E2 Ey ltac:(nia) ltac:(nia) ltac:(nia) ltac:(lia)) as (F3 & H3).
  destruct (add_grid _ b _ _ _ F3 Fb H3 Eb ltac:(nia) ltac:(lia)) as (F4 & H4). rewrite H4, E1, E2, Ex, Ey, Eb, !plus_IZR, !mult_IZR, bp_add, bp0. ring.
Qed.

Lemma affine64_grid m1 m2 g K N a11 a12 a21 a22 b M : (0 <= K)%Z -> (0 <= N)%Z -> ((2 * K + 1) * N < 2 ^ 53)%Z -> (-1074 <= g <= 970)%Z -> on_grid2 0 K (a11, a12) -> on_grid2 0 K (a21, a22) -> on_grid2 g N b -> on_grid2 g N M ->
  P2R (affine64 m1 m2 a11 a12 a21 a22 b M) =
  (SF2R a11 * SF2R (fst M) + SF2R a12 * SF2R (snd M) + SF2R (fst b), SF2R a21 * SF2R (fst M) + SF2R a22 * SF2R (snd M) + SF2R (snd b)).
Proof. intros HK HN HB HG (A0 & A1) (A2 & A3) (B0 & B1) (M0 & M1). unfold P2R, affine64. cbn [fst snd fp_map2] in *. f_equal; apply (aff_grid _ g K N); auto. Qed.

Lemma translate64_grid g N v A : (0 <= N)%Z -> (2 * N < 2 ^ 53)%Z -> (-1074 <= g <= 970)%Z -> on_grid2 g N v -> on_grid2 g N A -> P2R (translate64 v A) = vadd (P2R A) (P2R v).
Proof.
  intros HN HB HG ((F0 & v0 & V0 & E0) & (F1 & v1 & V1 & E1)) ((G0 & a0 & A0 & H0) & (G1 & a1 & A1 & H1)). unfold P2R, translate64, vadd. cbn [fst snd fp_map2].
  destruct (add_grid _ _ _ _ _ G0 F0 H0 E0 ltac:(lia) HG) as (_ & K0). destruct (add_grid _ _ _ _ _ G1 F1 H1 E1 ltac:(lia) HG) as (_ & K1).
  f_equal; [rewrite K0, H0, E0|rewrite K1, H1, E1]; rewrite plus_IZR; ring.
Qed.

(** ** Rotations against the exact angle, in radians or degrees *)

Lemma rotate64_position cosf sinf O theta (degrees : bool) M : libm_cos_sin cosf sinf -> moderate O -> moderate M -> fin theta -> Rabs (SF2R theta) <= bp 1020 ->
  let A := if degrees then SF2R theta * PI / 180 else SF2R theta in
  let dx := SF2R (fst M) - SF2R (fst O) in let dy := SF2R (snd M) - SF2R (snd O) in
  let e := (cos A * dx - sin A * dy + SF2R (fst O), sin A * dx + cos A * dy + SF2R (snd O)) in
  let Z := rotate64 cosf sinf O theta degrees M in
  fin2 Z /\ forall f : forall T, T * T -> T, f = (fun T => @fst T T) \/ f = (fun T => @snd T T) ->
  Rabs (SF2R (f _ Z) - f _ e) <= u64 * Rabs (f _ e) + (6 + 4 * Rabs A) * u64 * (Rabs dx + Rabs dy) + eta64 * (3 + 2 * (Rabs dx + Rabs dy)).
Proof.
  intros HL HO HM Ft Bt A dx dy e Z. destruct (rotate64_ok cosf sinf O theta degrees M HL HO HM Ft Bt) as (F & H1 & H2). fold Z in F, H1, H2. fold dx dy in H1, H2. split; [exact F|].
  destruct (angle64_ok theta degrees Ft Bt) as (_ & Ea). fold A in Ea. set (a := SF2R (if degrees then SF64mul theta (SF64div fpi f180) else theta)) in *.
  set (S := Rabs dx + Rabs dy) in *. assert (PS : 0 <= S) by (unfold S; pose proof (Rabs_pos dx); pose proof (Rabs_pos dy); lra). set (d := 3 * u64 * Rabs A + eta64) in *. pose proof u_bounds as U. pose proof eta64_small as Et.
  assert (PA : 0 <= u64 * Rabs A <= / 9000000000000000 * Rabs A) by (split; [apply Rmult_le_pos; [lra|apply Rabs_pos]|apply Rmult_le_compat_r; [apply Rabs_pos|lra]]). assert (Pd : 0 <= d) by (unfold d; lra).
  assert (G : forall x y t T s T', Rabs (t - T) <= d -> Rabs (s - T') <= d -> Rabs x <= Rabs dx -> Rabs y <= Rabs dy -> Rabs (t * x + s * y - (T * x + T' * y)) <= d * S).
  { intros x y t T s T' Ht Hs Hx Hy. replace (t * x + s * y - (T * x + T' * y)) with ((t - T) * x + (s - T') * y) by ring. eapply Rle_trans; [apply Rabs_triang|]. rewrite !Rabs_mult. unfold S. rewrite Rmult_plus_distr_l. apply Rplus_le_compat; apply Rmult_le_compat; auto using Rabs_pos. }
  assert (C1 : Rabs (cos a - cos A) <= d) by (eapply Rle_trans; [apply cos_lip|exact Ea]). assert (C2 : Rabs (sin a - sin A) <= d) by (eapply Rle_trans; [apply sin_lip|exact Ea]).
  assert (C3 : Rabs (- sin a - - sin A) <= d) by (replace (- sin a - - sin A) with (- (sin a - sin A)) by ring; rewrite Rabs_Ropp; exact C2).
  pose proof (G dx dy _ _ _ _ C1 C3 (Rle_refl _) (Rle_refl _)) as K1. pose proof (G dx dy _ _ _ _ C2 C1 (Rle_refl _) (Rle_refl _)) as K2. clear G.
  assert (dS : d * S = 3 * (u64 * Rabs A * S) + eta64 * S) by (unfold d; ring). assert (UdS : u64 * (d * S) <= / 9000000000000000 * (d * S)) by (apply Rmult_le_compat_r; [apply Rmult_le_pos; lra|lra]).
  assert (P1 : 0 <= u64 * Rabs A * S) by (apply Rmult_le_pos; lra). assert (P2 : 0 <= eta64 * S) by (apply Rmult_le_pos; lra).
  assert (Fin : forall z e' e0, Rabs (z - e') <= u64 * Rabs e' + 6 * u64 * S + 3 * eta64 -> Rabs (e' - e0) <= d * S -> Rabs (z - e0) <= u64 * Rabs e0 + (6 + 4 * Rabs A) * u64 * S + eta64 * (3 + 2 * S)).
  { intros z e' e0 Hz He. assert (u64 * Rabs e' <= u64 * (Rabs e0 + d * S)). { apply Rmult_le_compat_l; [lra|]. apply abs_close in He. lra. } apply abs_bounds in Hz, He. apply abs_le. rewrite dS in *. lra. }
  intros f [->| ->]; cbn beta.
  - apply (Fin _ _ _ H1). unfold e. cbn [fst]. replace (cos a * dx - sin a * dy + SF2R (fst O) - (cos A * dx - sin A * dy + SF2R (fst O))) with (cos a * dx + - sin a * dy - (cos A * dx + - sin A * dy)) by ring. exact K1.
  - apply (Fin _ _ _ H2). unfold e. cbn [snd]. replace (sin a * dx + cos a * dy + SF2R (snd O) - (sin A * dx + cos A * dy + SF2R (snd O))) with (sin a * dx + cos a * dy - (sin A * dx + cos A * dy)) by ring. exact K2.
Qed.

(** ** What is not exact *)

Lemma sf_neq x y : fin x -> fin y -> SFeqb x y = false -> SF2R x <> SF2R y.
Proof. intros Fx Fy H E. apply (feq x y Fx Fy) in E. congruence. Qed.

Lemma fq_moderate1 : moderate (fq 1 10, fz 0).
Proof.
  assert (V : SF2R (fq 1 10) = 3602879701896397 / 36028797018963968). { replace (fq 1 10) with (S754_finite false 7205759403792794 (-56)) by reflexivity. rewrite val_lit. change (2 ^ 56)%Z with 72057594037927936%Z. lra. }
  split; split; cbn [fst snd]; try (split; reflexivity).
  - rewrite V. destruct (bp500 _ eq_refl) as (N & _). apply abs_le. lra.
  - change (SF2R (fz 0)) with 0. rewrite Rabs_R0. left. apply bp_pos.
Qed.

Lemma fzm a b : (Z.abs a < 2 ^ 20)%Z -> (Z.abs b < 2 ^ 20)%Z -> moderate (fz a, fz b).
Proof. intros. apply fz_moderate; lia. Qed.

Lemma rotate64_zero_refuted : exists O M, moderate O /\ moderate M /\
  forall cosf sinf, cosf f0 = f1 -> sinf f0 = f0 -> P2R (rotate64 cosf sinf O f0 false M) <> P2R M.
Proof.
  exists (fz 1, fz 0), (fq 1 10, fz 0). split; [apply fzm; lia|]. split; [apply fq_moderate1|]. intros cosf sinf Hc Hs. unfold rotate64. rewrite Hc, Hs. intro E. apply (f_equal fst) in E. cbn [fst P2R] in E.
  revert E. apply sf_neq; [split; reflexivity|split; reflexivity|reflexivity].
Qed.

Lemma homothety64_centre_refuted : exists O s, moderate O /\ fin s /\ Rabs (SF2R s) <= 1 /\ P2R (homothety64 O s O) <> P2R O.
Proof.
  exists (fz 3, fz 3), (fq 3 10). split; [apply fzm; lia|]. split; [split; reflexivity|]. split.
  - replace (fq 3 10) with (S754_finite false 5404319552844595 (-54)) by reflexivity. rewrite val_lit. change (2 ^ 54)%Z with 18014398509481984%Z. apply abs_le. lra.
  - intro E. apply (f_equal fst) in E. cbn [fst P2R] in E. revert E. apply sf_neq; [split; reflexivity|split; reflexivity|reflexivity].
Qed.

Lemma scaling_xy64_one_refuted : exists O M, moderate O /\ moderate M /\ P2R (scaling_xy64 O f1 f1 M) <> P2R M.
Proof.
  exists (fz 1, fz 0), (fq 1 10, fz 0). split; [apply fzm; lia|]. split; [apply fq_moderate1|]. intro E. apply (f_equal fst) in E. cbn [fst P2R] in E.
  revert E. apply sf_neq; [split; reflexivity|split; reflexivity|reflexivity].
Qed.

(** ** Instances *)

Lemma grid_ex k N : (Z.abs k <= N)%Z -> (N < 2 ^ 20)%Z -> on_grid 0 N (fz k).
Proof. intros H HN. destruct (fz_ok k ltac:(lia)) as (F & E). split; auto. exists k. split; auto. rewrite E, bp0. ring. Qed.

Lemma rotate64_position2 cosf sinf O theta (degrees : bool) M : libm_cos_sin cosf sinf -> moderate O -> moderate M -> fin theta -> Rabs (SF2R theta) <= bp 1020 ->
  let A := if degrees then SF2R theta * PI / 180 else SF2R theta in
  let dx := SF2R (fst M) - SF2R (fst O) in let dy := SF2R (snd M) - SF2R (snd O) in
  let ex := cos A * dx - sin A * dy + SF2R (fst O) in let ey := sin A * dx + cos A * dy + SF2R (snd O) in
  let w := (6 + 4 * Rabs A) * u64 * (Rabs dx + Rabs dy) + eta64 * (3 + 2 * (Rabs dx + Rabs dy)) in
  let Z := rotate64 cosf sinf O theta degrees M in
  fin2 Z /\ Rabs (SF2R (fst Z) - ex) <= u64 * Rabs ex + w /\ Rabs (SF2R (snd Z) - ey) <= u64 * Rabs ey + w.
Proof.
  intros HL HO HM Ft Bt A dx dy ex ey w Z. destruct (rotate64_position cosf sinf O theta degrees M HL HO HM Ft Bt) as (F & H). split; [exact F|].
  pose proof (H _ (or_introl eq_refl)) as H1. pose proof (H _ (or_intror eq_refl)) as H2. cbn [fst snd] in H1, H2. unfold w. rewrite <- !Rplus_assoc. split; [exact H1|exact H2].
Qed.
