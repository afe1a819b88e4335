(** * The Steiner ellipses: extremal areas, foci, relation to each other. *)

From Coq Require Import Reals Lra Psatz List Bool.
From Verif Require Import Base BaseLemmas Spec SpecLemmas SpecTriangle ModelInternal ModelLine ModelCircle ModelAffine ModelEllipse ModelTransfo ModelTriangle
  PLine PCircle PAffine PEllipse PEllipse2 PTriangle PTriangle6 PEllUnique PSteiner.
Import ListNotations.
Local Open Scope R_scope.

(** ** Coordinates in which an ellipse is the unit circle *)
Definition nrm (O : pt) (a b th : R) (M : pt) : pt := (fx O th M / a, fy O th M / b).

Lemma nrm_form O a b th M : ell_form O a b th M = sdot (nrm O a b th M) (nrm O a b th M).
Proof. unfold ell_form, nrm, sdot. cbn [fst snd]. ring. Qed.
Lemma nrm_bary O a b th u v w A B C : u + v + w = 1 -> nrm O a b th (bary u v w A B C) = bary u v w (nrm O a b th A) (nrm O a b th B) (nrm O a b th C).
Proof. intros H. unfold nrm, bary, fx, fy, Rdiv. cbn [fst snd]. replace u with (1 - v - w) by lra. f_equal; ring. Qed.
Lemma nrm_dbl O a b th A B C : 0 < a -> 0 < b -> dbl (nrm O a b th A) (nrm O a b th B) (nrm O a b th C) * (a * b) = dbl A B C.
Proof.
  intros Ha Hb. unfold dbl, scross, vsub, nrm, fx, fy. cbn [fst snd]. pose proof (sin2_cos2 th) as T. unfold Rsqr in T. field_simplify; [|lra]. 
  replace (sin th ^ 2) with (1 - cos th ^ 2) by nra. field; lra.
Qed.
Lemma nrm_onto O a b th q : 0 < a -> 0 < b -> exists M, nrm O a b th M = q.
Proof.
  intros Ha Hb. destruct q as [x y]. exists (fst O + a * x * cos th - b * y * sin th, snd O + a * x * sin th + b * y * cos th). unfold nrm, fx, fy. cbn [fst snd]. pose proof (sin2_cos2 th) as T. unfold Rsqr in T.
  f_equal; [replace (cos th * _ + _) with (a * x * (sin th * sin th + cos th * cos th)) by ring|replace (- sin th * _ + _) with (b * y * (sin th * sin th + cos th * cos th)) by ring]; rewrite T; field; lra.
Qed.
Lemma nrm_centre O a b th : nrm O a b th O = (0, 0).
Proof. unfold nrm, fx, fy, Rdiv. f_equal; ring. Qed.

Lemma bary_all A B C M : dbl A B C <> 0 -> exists u v w, u + v + w = 1 /\ M = bary u v w A B C.
Proof.
  intros D. exists (dbl M B C / dbl A B C), (dbl A M C / dbl A B C), (dbl A B M / dbl A B C). split.
  - replace 1 with (dbl A B C / dbl A B C) by (field; auto). unfold Rdiv. rewrite <- !Rmult_plus_distr_r. f_equal. unfold dbl, scross, vsub. cbn [fst snd]. ring.
  - destruct M as [x y]. unfold bary. cbn [fst snd]. f_equal; apply Rmult_eq_reg_r with (dbl A B C); auto; field_simplify; auto; unfold dbl, scross, vsub; cbn [fst snd]; ring.
Qed.

(** the vertices in these coordinates: an equilateral triangle centred at the origin *)
Definition regular (rho : R) (p q r : pt) : Prop :=
  sdot p p = rho /\ sdot q q = rho /\ sdot r r = rho /\ fst p + fst q + fst r = 0 /\ snd p + snd q + snd r = 0.

Lemma regular_dots rho p q r : regular rho p q r -> sdot p q = - rho / 2 /\ sdot q r = - rho / 2 /\ sdot r p = - rho / 2.
Proof.
  intros (H1 & H2 & H3 & E1 & E2). unfold sdot in *. assert (F1 : fst r = - (fst p + fst q)) by lra. assert (F2 : snd r = - (snd p + snd q)) by lra. rewrite F1, F2 in *. repeat split; nra.
Qed.

Lemma regular_bary rho p q r u v w : regular rho p q r -> let M := bary u v w p q r in sdot M M = rho * (u * u + v * v + w * w - u * v - v * w - w * u).
Proof.
  intros H. destruct (regular_dots _ _ _ _ H) as (D1 & D2 & D3). destruct H as (H1 & H2 & H3 & _). intros M. unfold M, bary, sdot in *. cbn [fst snd].
  replace ((u * fst p + v * fst q + w * fst r) * (u * fst p + v * fst q + w * fst r) + (u * snd p + v * snd q + w * snd r) * (u * snd p + v * snd q + w * snd r))
    with (u * u * (fst p * fst p + snd p * snd p) + v * v * (fst q * fst q + snd q * snd q) + w * w * (fst r * fst r + snd r * snd r) + 2 * u * v * (fst p * fst q + snd p * snd q) + 2 * v * w * (fst q * fst r + snd q * snd r) + 2 * w * u * (fst r * fst p + snd r * snd p)) by ring.
  rewrite H1, H2, H3, D1, D2, D3. field.
Qed.

Lemma regular_dbl rho p q r : regular rho p q r -> dbl p q r * dbl p q r = 27 / 4 * (rho * rho).
Proof.
  intros H. destruct (regular_dots _ _ _ _ H) as (D1 & _ & _). destruct H as (H1 & H2 & _ & E1 & E2). assert (F1 : fst r = - (fst p + fst q)) by lra. assert (F2 : snd r = - (snd p + snd q)) by lra.
  unfold dbl, scross, vsub, sdot in *. cbn [fst snd]. rewrite F1, F2. clear F1 F2 E1 E2. destruct p as [p1 p2], q as [q1 q2]. cbn [fst snd] in *.
  transitivity (9 * ((p1 * p1 + p2 * p2) * (q1 * q1 + q2 * q2) - (p1 * q1 + p2 * q2) * (p1 * q1 + p2 * q2))); [ring|]. rewrite H1, H2, D1. field.
Qed.

(** two ellipses in which the triangle is regular *)
Lemma regular_forms O a b th O' a' b' th' rho rho' A B C : dbl A B C <> 0 -> 
  regular rho (nrm O a b th A) (nrm O a b th B) (nrm O a b th C) -> regular rho' (nrm O' a' b' th' A) (nrm O' a' b' th' B) (nrm O' a' b' th' C) ->
  forall M, rho' * ell_form O a b th M = rho * ell_form O' a' b' th' M.
Proof.
  intros D H H' M. destruct (bary_all A B C M D) as (u & v & w & S & ->). rewrite !nrm_form, !nrm_bary by auto. rewrite (regular_bary _ _ _ _ u v w H), (regular_bary _ _ _ _ u v w H'). ring.
Qed.

(** ** The unit disc in a triangle *)
Definition side (p q : pt) : R := dist p q.
Lemma side_sq p q : side p q * side p q = (fst q - fst p) * (fst q - fst p) + (snd q - snd p) * (snd q - snd p).
Proof. unfold side. rewrite dist_sq. unfold dist2, sdot, vsub. cbn [fst snd]. ring. Qed.

Lemma amgm x y z : 0 <= x -> 0 <= y -> 0 <= z -> 27 * (x * y * z) <= (x + y + z) * (x + y + z) * (x + y + z) /\ (0 < x + y + z -> 27 * (x * y * z) = (x + y + z) * (x + y + z) * (x + y + z) -> x = y /\ y = z).
Proof.
  intros Hx Hy Hz. set (q := (x - y) * (x - y) + (y - z) * (y - z) + (z - x) * (z - x)). 
  assert (E : (x + y + z) * (x + y + z) * (x + y + z) - 27 * (x * y * z) = (x + y + z) * q / 2 + 3 * (x * ((y - z) * (y - z)) + y * ((z - x) * (z - x)) + z * ((x - y) * (x - y)))) by (unfold q; field).
  pose proof (Rle_0_sqr (x - y)) as Q1. pose proof (Rle_0_sqr (y - z)) as Q2. pose proof (Rle_0_sqr (z - x)) as Q3. unfold Rsqr in Q1, Q2, Q3.
  assert (P1 : 0 <= x * ((y - z) * (y - z))) by (apply Rmult_le_pos; lra). assert (P2 : 0 <= y * ((z - x) * (z - x))) by (apply Rmult_le_pos; lra). assert (P3 : 0 <= z * ((x - y) * (x - y))) by (apply Rmult_le_pos; lra).
  assert (Q0 : 0 <= q) by (unfold q; lra). assert (P0 : 0 <= (x + y + z) * q) by (apply Rmult_le_pos; lra). split; [lra|]. intros S H.
  assert (Z : (x + y + z) * q = 0) by lra. apply Rmult_integral in Z. destruct Z as [Z|Z]; [lra|]. unfold q in Z. split; nra.
Qed.

Lemma heron p q r : let x := side q r in let y := side r p in let z := side p q in
  4 * (dbl p q r * dbl p q r) = (x + y + z) * ((y + z - x) * (z + x - y) * (x + y - z)).
Proof.
  intros x y z. transitivity (2 * (x * x) * (y * y) + 2 * (y * y) * (z * z) + 2 * (z * z) * (x * x) - (x * x) * (x * x) - (y * y) * (y * y) - (z * z) * (z * z)); [|ring].
  unfold x, y, z. rewrite !side_sq. unfold dbl, scross, vsub. cbn [fst snd]. ring.
Qed.

Lemma disc_in_triangle_area p q r : dbl p q r <> 0 -> (forall M, sdot M M <= 1 -> in_closed_triangle p q r M) ->
  108 <= dbl p q r * dbl p q r /\ (dbl p q r * dbl p q r = 108 -> regular 4 p q r).
Proof.
  intros D0 H. set (D := dbl p q r) in *. set (x := side q r). set (y := side r p). set (z := side p q).
  (* one side *)
  assert (K : forall q r p D, dbl p q r = D -> D <> 0 -> (forall M, sdot M M <= 1 -> 0 <= dbl M q r * D) -> side q r * Rabs D <= dbl (0, 0) q r * D).
  { clear. intros q r p D E N HM. set (s := side q r). assert (Ns : 0 < s). { apply dist_pos. intros ->. apply N. rewrite <- E. unfold dbl, scross, vsub. cbn [fst snd]. ring. }
    pose proof (side_sq q r) as S. fold s in S. 
    assert (Hs : forall sg, (sg = 1 \/ sg = -1) -> 0 <= (dbl (0, 0) q r - sg * s) * D).
    { intros sg Hsg. specialize (HM (sg * (snd r - snd q) / s, - sg * (fst r - fst q) / s)). 
      assert (A1 : sdot (sg * (snd r - snd q) / s, - sg * (fst r - fst q) / s) (sg * (snd r - snd q) / s, - sg * (fst r - fst q) / s) = 1).
      { unfold sdot. cbn [fst snd]. transitivity (sg * sg * ((fst r - fst q) * (fst r - fst q) + (snd r - snd q) * (snd r - snd q)) / (s * s)); [field; lra|]. rewrite <- S. destruct Hsg as [-> | ->]; field; lra. }
      rewrite A1 in HM. specialize (HM (Rle_refl 1)). replace (dbl (0, 0) q r - sg * s) with (dbl (sg * (snd r - snd q) / s, - sg * (fst r - fst q) / s) q r); [exact HM|].
      unfold dbl, scross, vsub. cbn [fst snd]. transitivity ((fst q - 0) * (snd r - 0) - (snd q - 0) * (fst r - 0) - sg * ((fst r - fst q) * (fst r - fst q) + (snd r - snd q) * (snd r - snd q)) / s); [field; lra|]. rewrite <- S. field. lra. }
    pose proof (Hs 1 ltac:(auto)) as S1. pose proof (Hs (-1) ltac:(auto)) as S2. destruct (Rle_lt_dec 0 D); [rewrite Rabs_pos_eq by auto|rewrite Rabs_left by auto]; lra. }
  assert (B : forall M, sdot M M <= 1 -> 0 <= dbl M q r * D /\ 0 <= dbl M r p * D /\ 0 <= dbl M p q * D).
  { intros M HM. destruct (H M HM) as (u & v & w & Hu & Hv & Hw & S & ->). 
    assert (Q : 0 <= D * D) by (pose proof (Rle_0_sqr D) as QQ; unfold Rsqr in QQ; exact QQ).
    assert (E1 : dbl (bary u v w p q r) q r * D = u * (D * D)) by (unfold D, dbl, scross, vsub, bary; cbn [fst snd]; replace u with (1 - v - w) by lra; ring).
    assert (E2 : dbl (bary u v w p q r) r p * D = v * (D * D)) by (unfold D, dbl, scross, vsub, bary; cbn [fst snd]; replace u with (1 - v - w) by lra; ring).
    assert (E3 : dbl (bary u v w p q r) p q * D = w * (D * D)) by (unfold D, dbl, scross, vsub, bary; cbn [fst snd]; replace u with (1 - v - w) by lra; ring).
    rewrite E1, E2, E3. repeat split; apply Rmult_le_pos; auto. }
  assert (Dq : dbl q r p = D) by (unfold D, dbl, scross, vsub; cbn [fst snd]; ring). assert (Dr : dbl r p q = D) by (unfold D, dbl, scross, vsub; cbn [fst snd]; ring).
  pose proof (K q r p D eq_refl D0 (fun M HM => proj1 (B M HM))) as K1. pose proof (K r p q D Dq D0 (fun M HM => proj1 (proj2 (B M HM)))) as K2. pose proof (K p q r D Dr D0 (fun M HM => proj2 (proj2 (B M HM)))) as K3. fold x in K1. fold y in K2. fold z in K3.
  assert (SD : dbl (0, 0) q r + dbl (0, 0) r p + dbl (0, 0) p q = D) by (unfold D, dbl, scross, vsub; cbn [fst snd]; ring).
  assert (PD : 0 < Rabs D) by (apply Rabs_pos_lt; auto). assert (AD : Rabs D * Rabs D = D * D) by (rewrite <- Rabs_mult; apply Rabs_pos_eq; pose proof (Rle_0_sqr D) as QQ; unfold Rsqr in QQ; exact QQ).
  set (s := x + y + z). assert (S1 : s * Rabs D <= Rabs D * Rabs D). { rewrite AD. apply Rle_trans with (dbl (0, 0) q r * D + dbl (0, 0) r p * D + dbl (0, 0) p q * D); [unfold s; lra|]. rewrite <- !Rmult_plus_distr_r, SD. lra. }
  assert (S2 : s <= Rabs D) by (apply Rmult_le_reg_r with (Rabs D); auto).
  assert (Tx : 0 <= y + z - x) by (unfold x, y, z, side; pose proof (dist_triangle q p r) as T; rewrite (dist_sym q p), (dist_sym p r) in T; lra).
  assert (Ty : 0 <= z + x - y) by (unfold x, y, z, side; pose proof (dist_triangle r q p) as T; rewrite (dist_sym r q), (dist_sym q p) in T; lra).
  assert (Tz : 0 <= x + y - z) by (unfold x, y, z, side; pose proof (dist_triangle p r q) as T; rewrite (dist_sym p r), (dist_sym r q) in T; lra).
  pose proof (heron p q r) as HE. cbv zeta in HE. fold x y z D s in HE. destruct (amgm (y + z - x) (z + x - y) (x + y - z) Tx Ty Tz) as (A1 & A2). replace (y + z - x + (z + x - y) + (x + y - z)) with s in A1, A2 by (unfold s; ring).
  assert (Ps : 0 < s). { destruct (Rle_lt_dec s 0) as [L|L]; auto. exfalso. assert (s = 0) by (unfold s in *; lra). rewrite H0, Rmult_0_l in HE. nra. }
  set (t := Rabs D) in *. rewrite <- AD. assert (HE' : 108 * (t * t) <= s * s * (s * s)). { rewrite AD. apply Rmult_le_compat_l with (r := s) in A1; [|lra]. lra. }
  assert (L1 : 108 * (s * s) <= s * s * (s * s)). { apply Rle_trans with (2 := HE'). apply Rmult_le_compat_l; [lra|]. apply Rmult_le_compat; lra. }
  assert (L2 : 108 <= s * s) by (apply Rmult_le_reg_r with (s * s); nra). assert (L3 : s * s <= t * t) by (apply Rmult_le_compat; lra). split; [lra|]. intros E.
  assert (ES : s * s = 108) by lra. assert (EST : s = t) by nra. 
  assert (EA : 27 * ((y + z - x) * (z + x - y) * (x + y - z)) = s * s * s). { apply Rmult_eq_reg_l with s; [|lra]. transitivity (27 * (4 * (D * D))); [rewrite HE; ring|]. rewrite <- AD, E, <- ES. nra. }
  destruct (A2 Ps EA) as (X1 & X2). assert (Exy : x = y) by lra. assert (Eyz : y = z) by lra.
  assert (Ex : 3 * x = s) by (unfold s; lra). assert (Ex2 : x * x = 12) by nra.
  (* the distances from the origin to the sides *)
  assert (W : dbl (0, 0) q r = dbl (0, 0) r p /\ dbl (0, 0) r p = dbl (0, 0) p q).
  { assert (SS : dbl (0, 0) q r * D + dbl (0, 0) r p * D + dbl (0, 0) p q * D = D * D) by (rewrite <- !Rmult_plus_distr_r, SD; reflexivity). assert (DD : D * D = 3 * (x * t)) by (rewrite <- AD; nra).
    rewrite <- Exy in K2. rewrite <- Eyz, <- Exy in K3. fold t in K1, K2, K3. split; apply Rmult_eq_reg_r with D; auto; lra. }
  destruct W as (W1 & W2). assert (Wq : dbl (0, 0) q r = D / 3) by lra. assert (Wr : dbl (0, 0) r p = D / 3) by lra.
  assert (Z1 : (fst p + fst q + fst r) * D = 0).
  { assert (ID : fst p * dbl (0, 0) q r + fst q * dbl (0, 0) r p + fst r * dbl (0, 0) p q = 0) by (unfold dbl, scross, vsub; cbn [fst snd]; ring). rewrite <- W2, Wr, Wq in ID. lra. }
  assert (Z2 : (snd p + snd q + snd r) * D = 0).
  { assert (ID : snd p * dbl (0, 0) q r + snd q * dbl (0, 0) r p + snd r * dbl (0, 0) p q = 0) by (unfold dbl, scross, vsub; cbn [fst snd]; ring). rewrite <- W2, Wr, Wq in ID. lra. }
  apply Rmult_integral in Z1, Z2. destruct Z1 as [Z1|Z1]; [|contradiction]. destruct Z2 as [Z2|Z2]; [|contradiction].
  pose proof (side_sq q r) as Q1. pose proof (side_sq r p) as Q2. pose proof (side_sq p q) as Q3. fold x in Q1. fold y in Q2. fold z in Q3. rewrite <- Exy in Q2. rewrite <- Eyz, <- Exy in Q3. rewrite Ex2 in Q1, Q2, Q3.
  unfold regular, sdot. assert (F1 : fst r = - (fst p + fst q)) by lra. assert (F2 : snd r = - (snd p + snd q)) by lra. rewrite F1, F2 in *. clear - Q1 Q2 Q3. destruct p as [p1 p2], q as [q1 q2]. cbn [fst snd] in *. repeat split; nra.
Qed.
