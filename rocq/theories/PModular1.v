(** * The modular tessellation: integer matrices acting on the upper half-plane. *)

From Coq Require Import Reals Lra Lia Psatz List Bool ZArith.
From Verif Require Import Base BaseLemmas Spec SpecLemmas SpecMobius SpecTriangle SpecGasket ModelInternal ModelLine ModelCircle ModelTriangle ModelInversion ModelMobius ModelFarey ModelModular
  PMobius PMobius2 PMobius3 PMobius4 PFarey PDisc.
Import ListNotations.
Local Open Scope R_scope.

Definition rmob (a b c d : R) : mobius := mkMob (RtoC a) (RtoC b) (RtoC c) (RtoC d).
Definition mscal (k : C) (M : mobius) : mobius := mkMob (k * ma M)%C (k * mb M)%C (k * mc M)%C (k * md M)%C.

Lemma mscal_det k M : mdet (mscal k M) = (k * k * mdet M)%C.
Proof. unfold mdet, mscal. cbn [ma mb mc md]. cring. Qed.
Lemma transform_scal k M P : k <> C0 -> mdet M <> C0 -> transform (mscal k M) P = transform M P.
Proof.
  intros Hk HD. destruct (transform_total M P HD) as (Q & E). rewrite E. apply transform_Ok in E; auto. apply transform_Ok; [rewrite mscal_det; repeat apply Cmul_neq0; auto|].
  destruct E as (j & Hj & E1 & E2). exists (k * j)%C. split; [apply Cmul_neq0; auto|]. unfold mscal. cbn [ma mb mc md]. split.
  - transitivity (k * (ma M * fst (hom P) + mb M * snd (hom P)))%C; [cring|rewrite E1; cring].
  - transitivity (k * (mc M * fst (hom P) + md M * snd (hom P)))%C; [cring|rewrite E2; cring].
Qed.

Lemma rmob_det a b c d : a * d - b * c <> 0 -> mdet (rmob a b c d) <> C0.
Proof. intros H. unfold mdet, rmob. cbn [ma mb mc md]. unC. intros E. injection E as E1 E2. lra. Qed.

Lemma rmob_pole a b c d (z : C) : 0 < a * d - b * c -> 0 < snd z -> 0 < Cmod2 (RtoC c * z + RtoC d)%C.
Proof.
  intros HD Hz. destruct z as [x y]. cbn [snd] in Hz. unfold Cmod2. unC. cbn [fst snd].
  replace ((c * x - 0 * y + d) * (c * x - 0 * y + d) + (c * y + 0 * x + 0) * (c * y + 0 * x + 0)) with ((c * x + d) * (c * x + d) + (c * y) * (c * y)) by ring.
  destruct (Req_EM_T c 0) as [->|Nc]; [assert (d <> 0) by nra; nra|]. assert (c * y <> 0) by nra. pose proof (Rsqr_pos_lt _ H) as K. unfold Rsqr in K. pose proof (Rle_0_sqr (c * x + d)) as K2. unfold Rsqr in K2. lra.
Qed.

(** a real matrix with positive determinant preserves the upper half-plane *)
Lemma rmob_up a b c d (z : pt) : 0 < a * d - b * c -> 0 < snd z ->
  exists w, transform (rmob a b c d) (Pt z) = Ok (Pt w) /\ 0 < snd w /\
  snd w * ((c * fst z + d) * (c * fst z + d) + (c * snd z) * (c * snd z)) = (a * d - b * c) * snd z.
Proof.
  intros HD Hz. pose proof (rmob_pole a b c d z HD Hz) as HP. assert (Hk : (RtoC c * z + RtoC d)%C <> C0) by (intros K; rewrite K in HP; unfold Cmod2, C0 in HP; cbn [fst snd] in HP; lra).
  exists ((RtoC a * z + RtoC b) / (RtoC c * z + RtoC d))%C. split; [apply transform_fin; [apply rmob_det; lra|]; unfold rmob; cbn [ma mb mc md]; auto|].
  destruct z as [x y]. cbn [fst snd] in *. unfold Cmod2 in HP. unC. cbn [fst snd] in *.
  replace ((c * x - 0 * y + d) * (c * x - 0 * y + d) + (c * y + 0 * x + 0) * (c * y + 0 * x + 0)) with ((c * x + d) * (c * x + d) + c * y * (c * y)) in * by ring.
  set (N := (c * x + d) * (c * x + d) + c * y * (c * y)) in *.
  match goal with |- 0 < ?s /\ _ => replace s with ((a * d - b * c) * y / N) by (field_simplify_eq; [ring|lra]) end.
  split; [apply Rmult_lt_0_compat; [nra|apply Rinv_0_lt_compat; auto]|]. field. lra.
Qed.

Lemma rmob_real a b d (z w : pt) : a * d = 1 -> transform (rmob a b 0 d) (Pt z) = Ok (Pt w) -> fst w * d = a * fst z + b.
Proof.
  intros HD E. apply transform_fin in E; [|apply rmob_det; lra]. destruct E as (_ & ->). unfold rmob. cbn [ma mb mc md]. destruct z as [x y]. unC. cbn [fst snd]. assert (d <> 0) by nra. field. auto.
Qed.

(** ** the fundamental domain *)
Definition fundom (z : pt) : Prop := - (1 / 2) < fst z < 1 / 2 /\ 0 < snd z /\ 1 < fst z * fst z + snd z * snd z.

Lemma opn_I_fundom z : opn circI z -> fundom z.
Proof. destruct z as [x y]. unfold opn, circI, fundom. cbn [cO cr]. unspec. simpl. intros H. assert (Hy : 1 < y < 2) by nra. assert (Hx : x * x < 1 / 4) by (pose proof (Rle_0_sqr (y - 3 / 2)) as K; unfold Rsqr in K; lra). assert (Hx1 : - (1 / 2) < x) by nra. assert (Hx2 : x < 1 / 2) by nra. repeat split; nra. Qed.
Lemma cls_I_up z : cls circI z -> 0 < snd z.
Proof. destruct z as [x y]. unfold cls, circI. cbn [cO cr]. unspec. simpl. intros H. nra. Qed.

Lemma IZR_form (c d : Z) x y : c <> 0%Z -> - (1 / 2) < x < 1 / 2 -> 1 < x * x + y * y ->
  1 < (IZR c * x + IZR d) * (IZR c * x + IZR d) + (IZR c * y) * (IZR c * y).
Proof.
  intros Hc Hx Hn. assert (E : (c * c - Z.abs c * Z.abs d + d * d >= 1)%Z) by nia.
  assert (E' : 1 <= IZR c * IZR c - Rabs (IZR c) * Rabs (IZR d) + IZR d * IZR d) by (rewrite <- !abs_IZR, <- !mult_IZR, <- minus_IZR, <- plus_IZR; apply IZR_le; lia).
  assert (Hc' : 1 <= IZR c * IZR c) by (rewrite <- mult_IZR; apply IZR_le; nia).
  set (C := IZR c) in *. set (D := IZR d) in *. clearbody C D.
  assert (K : - (Rabs C * Rabs D) <= 2 * C * D * x).
  { rewrite <- Rabs_mult. assert (Rabs (2 * x) <= 1) by (apply Rabs_le; lra). assert (Rabs (C * D * (2 * x)) <= Rabs (C * D)) by (rewrite Rabs_mult; pose proof (Rabs_pos (C * D)); nra).
    pose proof (Rle_abs (- (C * D * (2 * x)))). rewrite Rabs_Ropp in H1. lra. }
  assert (C * C < C * C * (x * x + y * y)) by nra.
  replace ((C * x + D) * (C * x + D) + C * y * (C * y)) with (C * C * (x * x + y * y) + 2 * C * D * x + D * D) by ring. lra.
Qed.

Definition zdet (m : zmat) : Z := (m11 m * m22 m - m12 m * m21 m)%Z.
Definition zadj (m : zmat) : zmat := mkZM (m22 m) (- m12 m) (- m21 m) (m11 m).
Definition zopp (m : zmat) : zmat := mkZM (- m11 m) (- m12 m) (- m21 m) (- m22 m).

Lemma zmob_rmob m : zmob m = rmob (IZR (m11 m)) (IZR (m12 m)) (IZR (m21 m)) (IZR (m22 m)).
Proof. reflexivity. Qed.
Lemma zmob_inverse m : inverse (zmob m) = zmob (zadj m).
Proof. unfold inverse, zmob, zadj. cbn [ma mb mc md m11 m12 m21 m22]. rewrite !opp_IZR. f_equal; unC; f_equal; ring. Qed.
Lemma IZR_det m : zdet m = 1%Z -> IZR (m11 m) * IZR (m22 m) - IZR (m12 m) * IZR (m21 m) = 1.
Proof. intros H. unfold zdet in H. rewrite <- !mult_IZR, <- minus_IZR, H. auto. Qed.
Lemma zmob_det m : zdet m = 1%Z -> mdet (zmob m) <> C0.
Proof. intros H. rewrite zmob_rmob. apply rmob_det. rewrite IZR_det by auto. lra. Qed.
Lemma zmob_up m z : zdet m = 1%Z -> 0 < snd z -> exists w, transform (zmob m) (Pt z) = Ok (Pt w) /\ 0 < snd w.
Proof. intros H Hz. rewrite zmob_rmob. destruct (rmob_up (IZR (m11 m)) (IZR (m12 m)) (IZR (m21 m)) (IZR (m22 m)) z) as (w & E & P & _); [rewrite IZR_det by auto; lra|auto|]. eauto. Qed.
Lemma zadj_det m : zdet m = 1%Z -> zdet (zadj m) = 1%Z.
Proof. unfold zdet, zadj. cbn [m11 m12 m21 m22]. lia. Qed.
Lemma zmob_opp m : zmob (zopp m) = mscal (RtoC (-1)) (zmob m).
Proof. unfold zmob, zopp, mscal. cbn [ma mb mc md m11 m12 m21 m22]. rewrite !opp_IZR. f_equal; unC; f_equal; ring. Qed.
Lemma transform_zopp m P : zdet m = 1%Z -> transform (zmob (zopp m)) P = transform (zmob m) P.
Proof. intros H. rewrite zmob_opp. apply transform_scal; [apply RtoC_neq; lra|apply zmob_det; auto]. Qed.

Lemma fund_im m z w : zdet m = 1%Z -> m21 m <> 0%Z -> fundom z -> transform (zmob m) (Pt z) = Ok (Pt w) -> snd w < snd z.
Proof.
  intros HD Hc (Hx & Hy & Hn) E. rewrite zmob_rmob in E. destruct (rmob_up (IZR (m11 m)) (IZR (m12 m)) (IZR (m21 m)) (IZR (m22 m)) z) as (w' & E' & P & Q); [rewrite IZR_det by auto; lra|auto|].
  rewrite E in E'. injection E' as <-. rewrite IZR_det in Q by auto. pose proof (IZR_form (m21 m) (m22 m) (fst z) (snd z) Hc Hx Hn) as K. set (N := _ + _) in *. clearbody N. nra.
Qed.

Lemma fund_unique m z w : zdet m = 1%Z -> fundom z -> fundom w -> transform (zmob m) (Pt z) = Ok (Pt w) -> m = mkZM 1 0 0 1 \/ m = mkZM (-1) 0 0 (-1).
Proof.
  intros HD Hz Hw E. destruct (Z.eq_dec (m21 m) 0) as [Zc|Nc].
  - destruct m as [a b c d]. unfold zdet in HD. cbn [m11 m12 m21 m22] in *. subst c. assert (Had : (a * d = 1)%Z) by lia.
    assert (Ha : (a = 1 /\ d = 1 \/ a = -1 /\ d = -1)%Z) by (destruct (Z.mul_eq_1 a d Had); subst; [left|right]; lia).
    rewrite zmob_rmob in E. cbn [m11 m12 m21 m22] in E. apply rmob_real in E; [|rewrite <- mult_IZR, Had; auto]. destruct Hz as (Hz & _), Hw as (Hw & _).
    assert (Hb : b = 0%Z). { assert (K : -1 < IZR b < 1) by (destruct Ha as [(-> & ->)|(-> & ->)]; lra). destruct K as (K1 & K2). apply lt_IZR in K1, K2. lia. }
    subst b. destruct Ha as [(-> & ->)|(-> & ->)]; auto.
  - exfalso. pose proof (fund_im m z w HD Nc Hz E) as K1. apply transform_inverse in E; [|apply zmob_det; auto]. rewrite zmob_inverse in E.
    pose proof (fund_im (zadj m) w z (zadj_det m HD) ltac:(unfold zadj; cbn [m21]; lia) Hw E). lra.
Qed.

(** products *)
Definition zmul (m n : zmat) : zmat :=
  mkZM (m11 m * m11 n + m12 m * m21 n) (m11 m * m12 n + m12 m * m22 n) (m21 m * m11 n + m22 m * m21 n) (m21 m * m12 n + m22 m * m22 n).
Lemma zmob_mul m n : matmul (zmob m) (zmob n) = zmob (zmul m n).
Proof. unfold matmul, zmob, zmul. cbn [ma mb mc md m11 m12 m21 m22]. rewrite !plus_IZR, !mult_IZR. f_equal; unC; f_equal; ring. Qed.
Lemma zmul_det m n : zdet m = 1%Z -> zdet n = 1%Z -> zdet (zmul m n) = 1%Z.
Proof. unfold zdet, zmul. cbn [m11 m12 m21 m22]. intros H1 H2. replace ((m11 m * m11 n + m12 m * m21 n) * (m21 m * m12 n + m22 m * m22 n) - (m11 m * m12 n + m12 m * m22 n) * (m21 m * m11 n + m22 m * m21 n))%Z with ((m11 m * m22 m - m12 m * m21 m) * (m11 n * m22 n - m12 n * m21 n))%Z by ring. rewrite H1, H2. auto. Qed.

(** two matrices whose images of the domain meet are equal or opposite *)
Lemma fund_meet m m' z z' w : zdet m = 1%Z -> zdet m' = 1%Z -> fundom z -> fundom z' ->
  transform (zmob m) (Pt z) = Ok (Pt w) -> transform (zmob m') (Pt z') = Ok (Pt w) -> m' = m \/ m' = zopp m.
Proof.
  intros D D' Hz Hz' E E'. apply transform_inverse in E; [|apply zmob_det; auto]. rewrite zmob_inverse in E.
  assert (Q : transform (zmob (zmul (zadj m) m')) (Pt z') = Ok (Pt z)).
  { rewrite <- zmob_mul, transform_matmul by (apply zmob_det; auto using zadj_det). rewrite E'. exact E. }
  assert (Dp : zdet (zmul (zadj m) m') = 1%Z) by (apply zmul_det; auto using zadj_det).
  pose proof (fund_unique _ _ _ Dp Hz' Hz Q) as K. destruct m as [a b c d], m' as [a' b' c' d']. unfold zmul, zadj, zopp, zdet in *. cbn [m11 m12 m21 m22] in *.
  destruct K as [K|K]; injection K as K1 K2 K3 K4; [left|right].
  - assert (a' = a * (d * a' + - b * c') + b * (- c * a' + a * c'))%Z by (transitivity ((a * d - b * c) * a')%Z; [rewrite D; ring|ring]).
    assert (b' = a * (d * b' + - b * d') + b * (- c * b' + a * d'))%Z by (transitivity ((a * d - b * c) * b')%Z; [rewrite D; ring|ring]).
    assert (c' = c * (d * a' + - b * c') + d * (- c * a' + a * c'))%Z by (transitivity ((a * d - b * c) * c')%Z; [rewrite D; ring|ring]).
    assert (d' = c * (d * b' + - b * d') + d * (- c * b' + a * d'))%Z by (transitivity ((a * d - b * c) * d')%Z; [rewrite D; ring|ring]).
    rewrite K1, K3 in H, H1. rewrite K2, K4 in H0, H2. f_equal; lia.
  - assert (a' = a * (d * a' + - b * c') + b * (- c * a' + a * c'))%Z by (transitivity ((a * d - b * c) * a')%Z; [rewrite D; ring|ring]).
    assert (b' = a * (d * b' + - b * d') + b * (- c * b' + a * d'))%Z by (transitivity ((a * d - b * c) * b')%Z; [rewrite D; ring|ring]).
    assert (c' = c * (d * a' + - b * c') + d * (- c * a' + a * c'))%Z by (transitivity ((a * d - b * c) * c')%Z; [rewrite D; ring|ring]).
    assert (d' = c * (d * b' + - b * d') + d * (- c * b' + a * d'))%Z by (transitivity ((a * d - b * c) * d')%Z; [rewrite D; ring|ring]).
    rewrite K1, K3 in H, H1. rewrite K2, K4 in H0, H2. f_equal; lia.
Qed.
