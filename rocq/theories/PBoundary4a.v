(** * The cubic of from_boundary4 and the least value of the area. *)

From Coq Require Import Reals Lra Lia Psatz List Bool.
From Verif Require Import Base BaseLemmas.
Import ListNotations.
Local Open Scope R_scope.

Lemma pos3 x y z : 0 < x -> 0 < y -> 0 < z -> 0 < x * y * z.
Proof. intros. apply Rmult_lt_0_compat; [apply Rmult_lt_0_compat|]; auto. Qed.
Lemma pos3a x y z : x < 0 -> y < 0 -> 0 < z -> 0 < x * y * z.
Proof. intros. replace (x * y * z) with ((- x) * (- y) * z) by ring. apply pos3; lra. Qed.

Lemma triple_sign x y z : x * y * z <= 0 -> x <= 0 \/ y <= 0 \/ z <= 0.
Proof. intros H. destruct (Rle_dec x 0); [tauto|]. destruct (Rle_dec y 0); [tauto|]. destruct (Rle_dec z 0); [tauto|]. pose proof (pos3 x y z ltac:(lra) ltac:(lra) ltac:(lra)). lra. Qed.

(** [a <= -1], [1 <= b]: the third root is strictly between *)
Lemma third_between a b c : a <= -1 -> 1 <= b -> (1 - a) * (1 - b) * (1 - c) <= 0 -> (1 + a) * (1 + b) * (1 + c) <= 0 ->
  (b = 1 -> 0 < (1 - a) * (1 - c)) -> (c = 1 -> 0 < (1 - a) * (1 - b)) ->
  (a = -1 -> 0 < (1 + b) * (1 + c)) -> (c = -1 -> 0 < (1 + a) * (1 + b)) -> -1 < c < 1.
Proof.
  intros Ha Hb H1 H2 D1 D2 D3 D4. split.
  - destruct (Rlt_dec (-1) c) as [|N]; auto. exfalso. destruct (Req_dec c (-1)) as [E|E].
    + specialize (D4 E). nra.
    + destruct (Req_dec a (-1)) as [Ea|Ea]; [specialize (D3 Ea); nra|].
      pose proof (pos3a (1 + a) (1 + c) (1 + b) ltac:(lra) ltac:(lra) ltac:(lra)). lra.
  - destruct (Rlt_dec c 1) as [|N]; auto. exfalso. destruct (Req_dec c 1) as [E|E].
    + specialize (D2 E). nra.
    + destruct (Req_dec b 1) as [Eb|Eb]; [specialize (D1 Eb); nra|].
      pose proof (pos3a (1 - b) (1 - c) (1 - a) ltac:(lra) ltac:(lra) ltac:(lra)). lra.
Qed.

Lemma place3 r1 r2 r3 : (1 - r1) * (1 - r2) * (1 - r3) <= 0 -> (1 + r1) * (1 + r2) * (1 + r3) <= 0 ->
  (r1 = 1 -> 0 < (1 - r2) * (1 - r3)) -> (r2 = 1 -> 0 < (1 - r1) * (1 - r3)) -> (r3 = 1 -> 0 < (1 - r1) * (1 - r2)) ->
  (r1 = -1 -> 0 < (1 + r2) * (1 + r3)) -> (r2 = -1 -> 0 < (1 + r1) * (1 + r3)) -> (r3 = -1 -> 0 < (1 + r1) * (1 + r2)) ->
  (-1 < r1 < 1 /\ (r2 <= -1 /\ 1 <= r3 \/ r3 <= -1 /\ 1 <= r2)) \/
  (-1 < r2 < 1 /\ (r1 <= -1 /\ 1 <= r3 \/ r3 <= -1 /\ 1 <= r1)) \/
  (-1 < r3 < 1 /\ (r1 <= -1 /\ 1 <= r2 \/ r2 <= -1 /\ 1 <= r1)).
Proof.
  intros P1 P2 A1 A2 A3 B1 B2 B3.
  assert (Q : forall x y, 0 < x * y -> 0 < y * x) by (intros x y; rewrite Rmult_comm; auto).
  destruct (triple_sign _ _ _ P1) as [c|[c|c]]; destruct (triple_sign _ _ _ P2) as [d|[d|d]]; try (exfalso; clear - c d; lra).
  - right; right. split; [|right; lra]. apply (third_between r2 r1 r3); auto; try lra; intros E; try (apply Q; auto; fail); auto.
  - right; left. split; [|right; lra]. apply (third_between r3 r1 r2); auto; try lra; intros E; try (apply Q; auto; fail); auto.
  - right; right. split; [|left; lra]. apply (third_between r1 r2 r3); auto; try lra; intros E; try (apply Q; auto; fail); auto.
  - left. split; [|right; lra]. apply (third_between r3 r2 r1); auto; try lra; intros E; try (apply Q; auto; fail); auto.
  - right; left. split; [|left; lra]. apply (third_between r1 r3 r2); auto; try lra; intros E; try (apply Q; auto; fail); auto.
  - left. split; [|left; lra]. apply (third_between r2 r3 r1); auto; try lra; intros E; try (apply Q; auto; fail); auto.
Qed.

Section cubic.
Variables K U W : R.
Hypothesis HK : 0 < K.

Definition gcub (x : R) : R := - K * x ^ 3 - 4 * (U * W) * x ^ 2 + (3 * (U * U + W * W) + K) * x - 2 * (U * W).

Lemma g_1 : gcub 1 = 3 * ((U - W) * (U - W)).
Proof. unfold gcub. ring. Qed.
Lemma g_m1 : gcub (-1) = -3 * ((U + W) * (U + W)).
Proof. unfold gcub. ring. Qed.

Lemma gcub_cont : continuity gcub.
Proof. unfold gcub. reg. Qed.

(** a bound beyond which the sign is that of - x *)
Definition gbound : R := 2 + (6 * (Rabs U * Rabs W) + 3 * (U * U + W * W) + K) / K.

Lemma gbound_1 : 1 < gbound.
Proof.
  unfold gbound. pose proof (Rabs_pos U). pose proof (Rabs_pos W). assert (0 <= (6 * (Rabs U * Rabs W) + 3 * (U * U + W * W) + K) / K); [|lra].
  apply Rmult_le_pos; [nra|apply Rlt_le, Rinv_0_lt_compat; lra].
Qed.

Lemma UW_abs : - (Rabs U * Rabs W) <= U * W <= Rabs U * Rabs W.
Proof. rewrite <- Rabs_mult. pose proof (Rle_abs (U * W)). pose proof (Rle_abs (- (U * W))). rewrite Rabs_Ropp in *. lra. Qed.

Lemma g_big : gcub gbound < 0 /\ 0 < gcub (- gbound).
Proof.
  pose proof gbound_1 as M1. pose proof UW_abs as B.
  assert (E : K * gbound = 2 * K + 6 * (Rabs U * Rabs W) + 3 * (U * U + W * W) + K) by (unfold gbound; field; lra).
  unfold gcub. set (M := gbound) in *. set (b := U * W) in *. set (ab := Rabs U * Rabs W) in *. set (A := U * U + W * W) in *.
  assert (HA : 0 <= A) by (unfold A; nra). clearbody M b ab A. assert (0 <= ab) by lra.
  assert (M2 : M * M >= M) by nra. assert (MM : 1 <= M * M) by nra.
  assert (E2 : K * M * (M * M) = (2 * K + 6 * ab + 3 * A + K) * (M * M)) by (rewrite E; ring).
  assert (H1 : 4 * b * (M * M) <= 4 * ab * (M * M)) by nra. assert (H2 : 4 * b * (M * M) >= - (4 * ab * (M * M))) by nra.
  assert (H3 : (3 * A + K) * M <= (3 * A + K) * (M * M)) by (apply Rmult_le_compat_l; lra).
  assert (H4 : 2 * ab <= 2 * ab * (M * M)) by nra. assert (H5 : 0 < 2 * K * (M * M)) by nra.
  split.
  - replace (- K * M ^ 3 - 4 * b * M ^ 2 + (3 * A + K) * M - 2 * b) with (- (K * M * (M * M)) - 4 * b * (M * M) + (3 * A + K) * M - 2 * b) by ring.
    rewrite E2. nra.
  - replace (- K * (- M) ^ 3 - 4 * b * (- M) ^ 2 + (3 * A + K) * - M - 2 * b) with (K * M * (M * M) - 4 * b * (M * M) - (3 * A + K) * M - 2 * b) by ring.
    rewrite E2. nra.
Qed.

Lemma ivt_le f x y : continuity f -> x <= y -> f x * f y <= 0 -> exists z, x <= z <= y /\ f z = 0.
Proof. intros Hc L H. destruct (IVT_cor f x y Hc L H) as [z Hz]. exists z. exact Hz. Qed.

Lemma three_roots : exists r1 r2 r3, forall x, gcub x = - K * (x - r1) * (x - r2) * (x - r3).
Proof.
  pose proof gbound_1 as M1. destruct g_big as [G1 G2]. pose proof g_1 as E1. pose proof g_m1 as E2.
  pose proof (Rle_0_sqr (U - W)) as Q1. pose proof (Rle_0_sqr (U + W)) as Q2. unfold Rsqr in Q1, Q2.
  assert (N1 : 0 <= gcub 1) by (rewrite E1; lra). assert (N2 : gcub (-1) <= 0) by (rewrite E2; lra).
  destruct (ivt_le gcub 1 gbound gcub_cont ltac:(lra)) as (p & Hp & Zp). { clear - N1 G1. nra. }
  destruct (ivt_le gcub (- gbound) (-1) gcub_cont ltac:(lra)) as (q & Hq & Zq). { clear - N2 G2. nra. }
  clear E1 E2 G1 G2 N1 N2. exists p, q, (- (4 * (U * W)) / K - p - q). intros x.
  unfold gcub in *. set (b := U * W) in *. set (A := 3 * (U * U + W * W) + K) in *. clearbody b A.
  set (r := - (4 * b) / K - p - q).
  assert (Er : K * (p + q + r) = - (4 * b)) by (unfold r; field; lra). clearbody r.
  (* the difference is affine and vanishes at p and q *)
  set (c1 := A - - K * (p * q + p * r + q * r)). set (c0 := - (2 * b) - - K * (- (p * q * r))).
  assert (D : forall y, - K * y ^ 3 - 4 * b * y ^ 2 + A * y - 2 * b = - K * (y - p) * (y - q) * (y - r) + c1 * y + c0).
  { intros y. unfold c1, c0. replace (4 * b) with (- (K * (p + q + r))) by lra. ring. }
  pose proof (D p) as Dp. pose proof (D q) as Dq. rewrite Zp in Dp. rewrite Zq in Dq.
  assert (Hp' : c1 * p + c0 = 0) by (rewrite Dp; ring). assert (Hq' : c1 * q + c0 = 0) by (rewrite Dq; ring).
  assert (C1 : c1 = 0). { assert (F : c1 * (p - q) = 0) by (transitivity ((c1 * p + c0) - (c1 * q + c0)); [ring|lra]). apply Rmult_integral in F. lra. }
  rewrite D. rewrite C1 in *. lra.
Qed.

(** one root in (-1, 1), one at most -1, one at least 1 *)
Lemma roots_place r1 r2 r3 : (forall x, gcub x = - K * (x - r1) * (x - r2) * (x - r3)) ->
  exists z p q, filter (fun x => ltb (-1) x && ltb x 1) [r1; r2; r3] = [z] /\ -1 < z < 1 /\ p <= -1 /\ 1 <= q /\
  forall x, gcub x = - K * (x - p) * (x - q) * (x - z).
Proof.
  intros H.
  assert (P1 : (1 - r1) * (1 - r2) * (1 - r3) <= 0).
  { pose proof (H 1) as E. rewrite g_1 in E. pose proof (Rle_0_sqr (U - W)) as Q. unfold Rsqr in Q. replace (- K * (1 - r1) * (1 - r2) * (1 - r3)) with (- (K * ((1 - r1) * (1 - r2) * (1 - r3)))) in E by ring. clear - HK E Q. nra. }
  assert (P2 : (1 + r1) * (1 + r2) * (1 + r3) <= 0).
  { pose proof (H (-1)) as E. rewrite g_m1 in E. pose proof (Rle_0_sqr (U + W)) as Q. unfold Rsqr in Q.
    replace (- K * (-1 - r1) * (-1 - r2) * (-1 - r3)) with (K * ((1 + r1) * (1 + r2) * (1 + r3))) in E by ring. clear - HK E Q. nra. }
  (* derivative at 1 and -1 when they are roots *)
  assert (V : K * (r1 + r2 + r3) = - (4 * (U * W)) /\ K * (r1 * r2 + r1 * r3 + r2 * r3) = - (3 * (U * U + W * W) + K)).
  { pose proof (H 0) as H0. pose proof (H 1) as H1. pose proof (H (-1)) as Hm. unfold gcub in *. split; nra. }
  destruct V as [V1 V2].
  assert (D1 : forall a b c, (a = r1 /\ b = r2 /\ c = r3) \/ (a = r2 /\ b = r1 /\ c = r3) \/ (a = r3 /\ b = r1 /\ c = r2) -> a = 1 -> 0 < (1 - b) * (1 - c)).
  { intros a b c Ho Ha. assert (S1 : a + b + c = r1 + r2 + r3) by (destruct Ho as [(-> & -> & ->)|[(-> & -> & ->)|(-> & -> & ->)]]; ring).
    assert (S2 : a * b + a * c + b * c = r1 * r2 + r1 * r3 + r2 * r3) by (destruct Ho as [(-> & -> & ->)|[(-> & -> & ->)|(-> & -> & ->)]]; ring).
    rewrite <- S1 in V1. rewrite <- S2 in V2. subst a. 
    assert (Z : (U - W) * (U - W) = 0). { pose proof (H 1) as E. rewrite g_1 in E. destruct Ho as [(A & _)|[(A & _)|(A & _)]]; rewrite <- A in E; lra. }
    assert (HW : W = U) by (apply Rmult_integral in Z; lra). rewrite HW in V1, V2. assert (F : K * ((1 - b) * (1 - c)) = 2 * K + 2 * (U * U)).
    { replace (K * ((1 - b) * (1 - c))) with (3 * K + K * (1 * b + 1 * c + b * c) - 2 * (K * (1 + b + c))) by ring. rewrite V1, V2. ring. }
    pose proof (Rle_0_sqr U) as Q. unfold Rsqr in Q. clear - HK F Q. nra. }
  assert (D2 : forall a b c, (a = r1 /\ b = r2 /\ c = r3) \/ (a = r2 /\ b = r1 /\ c = r3) \/ (a = r3 /\ b = r1 /\ c = r2) -> a = -1 -> 0 < (1 + b) * (1 + c)).
  { intros a b c Ho Ha. assert (S1 : a + b + c = r1 + r2 + r3) by (destruct Ho as [(-> & -> & ->)|[(-> & -> & ->)|(-> & -> & ->)]]; ring).
    assert (S2 : a * b + a * c + b * c = r1 * r2 + r1 * r3 + r2 * r3) by (destruct Ho as [(-> & -> & ->)|[(-> & -> & ->)|(-> & -> & ->)]]; ring).
    rewrite <- S1 in V1. rewrite <- S2 in V2. subst a. 
    assert (Z : (U + W) * (U + W) = 0). { pose proof (H (-1)) as E. rewrite g_m1 in E. destruct Ho as [(A & _)|[(A & _)|(A & _)]]; rewrite <- A in E; lra. }
    assert (HW : W = - U) by (apply Rmult_integral in Z; lra). rewrite HW in V1, V2. assert (F : K * ((1 + b) * (1 + c)) = 2 * K + 2 * (U * U)).
    { replace (K * ((1 + b) * (1 + c))) with (3 * K + K * (-1 * b + -1 * c + b * c) + 2 * (K * (-1 + b + c))) by ring. rewrite V1, V2. ring. }
    pose proof (Rle_0_sqr U) as Q. unfold Rsqr in Q. clear - HK F Q. nra. }
  pose proof (D1 r1 r2 r3 ltac:(tauto)) as D11. pose proof (D1 r2 r1 r3 ltac:(tauto)) as D12. pose proof (D1 r3 r1 r2 ltac:(tauto)) as D13.
  pose proof (D2 r1 r2 r3 ltac:(tauto)) as D21. pose proof (D2 r2 r1 r3 ltac:(tauto)) as D22. pose proof (D2 r3 r1 r2 ltac:(tauto)) as D23.
  clear D1 D2 V1 V2.
  pose proof (place3 r1 r2 r3 P1 P2 D11 D12 D13 D21 D22 D23) as T. clear D11 D12 D13 D21 D22 D23 P1 P2.
  assert (In : forall r, -1 < r < 1 -> ltb (-1) r && ltb r 1 = true). { intros r Hr. unfold ltb. destruct (Rlt_dec (-1) r), (Rlt_dec r 1); try lra; auto. }
  assert (Ou : forall r, r <= -1 \/ 1 <= r -> ltb (-1) r && ltb r 1 = false). { intros r Hr. unfold ltb. destruct (Rlt_dec (-1) r), (Rlt_dec r 1); try lra; auto. }
  destruct T as [(z & [[a b]|[a b]])|[(z & [[a b]|[a b]])|(z & [[a b]|[a b]])]].
  - exists r1, r2, r3. cbn [filter]. rewrite (In r1), (Ou r2), (Ou r3) by lra. repeat split; auto; try lra; intros x; rewrite H; ring.
  - exists r1, r3, r2. cbn [filter]. rewrite (In r1), (Ou r2), (Ou r3) by lra. repeat split; auto; try lra; intros x; rewrite H; ring.
  - exists r2, r1, r3. cbn [filter]. rewrite (In r2), (Ou r1), (Ou r3) by lra. repeat split; auto; try lra; intros x; rewrite H; ring.
  - exists r2, r3, r1. cbn [filter]. rewrite (In r2), (Ou r1), (Ou r3) by lra. repeat split; auto; try lra; intros x; rewrite H; ring.
  - exists r3, r1, r2. cbn [filter]. rewrite (In r3), (Ou r1), (Ou r2) by lra. repeat split; auto; try lra; intros x; rewrite H; ring.
  - exists r3, r2, r1. cbn [filter]. rewrite (In r3), (Ou r1), (Ou r2) by lra. repeat split; auto; try lra; intros x; rewrite H; ring.
Qed.

(** ** the area as a function of the swing angle *)
Definition farea (th : R) : R := (U * U + W * W - 2 * (U * W) * sin th) / cos th ^ 3 + K / cos th.

Lemma farea_deriv th : cos th <> 0 -> derivable_pt_lim farea th (gcub (sin th) / cos th ^ 4).
Proof.
  intros Hc. assert (H3 : cos th ^ 3 <> 0) by (apply pow_nonzero; auto).
  assert (Dc : derivable_pt_lim (fun x => cos x ^ 3) th (3 * cos th ^ 2 * - sin th)).
  { change (fun x => cos x ^ 3) with (comp (fun y => y ^ 3) cos). apply derivable_pt_lim_comp; [apply derivable_pt_lim_cos|]. replace (3 * cos th ^ 2) with (INR 3 * cos th ^ pred 3) by (cbn; ring). apply derivable_pt_lim_pow. }
  assert (Dn : derivable_pt_lim (fun x => U * U + W * W - 2 * (U * W) * sin x) th (0 - 2 * (U * W) * cos th)).
  { apply (derivable_pt_lim_minus (fun _ => U * U + W * W) (fun x => 2 * (U * W) * sin x)); [apply derivable_pt_lim_const|].
    apply (derivable_pt_lim_scal sin (2 * (U * W))). apply derivable_pt_lim_sin. }
  pose proof (derivable_pt_lim_div _ _ th _ _ Dn Dc H3) as D1.
  pose proof (derivable_pt_lim_div (fun _ => K) cos th _ _ (derivable_pt_lim_const K th) (derivable_pt_lim_cos th) Hc) as D2.
  pose proof (derivable_pt_lim_plus _ _ th _ _ D1 D2) as D. unfold div_fct, plus_fct in D.
  replace (gcub (sin th) / cos th ^ 4) with
    (((0 - 2 * (U * W) * cos th) * cos th ^ 3 - 3 * cos th ^ 2 * - sin th * (U * U + W * W - 2 * (U * W) * sin th)) / Rsqr (cos th ^ 3) + (0 * cos th - - sin th * K) / Rsqr (cos th)).
  - exact D.
  - unfold Rsqr. assert (E : gcub (sin th) = -2 * (U * W) * cos th ^ 2 + 3 * sin th * (U * U + W * W - 2 * (U * W) * sin th) + K * sin th * cos th ^ 2).
    { replace (cos th ^ 2) with (1 - sin th ^ 2). - unfold gcub. ring. - pose proof (sin2_cos2 th). unfold Rsqr in *. lra. }
    rewrite E. field. auto.
Qed.

Lemma farea_min p q z th0 th : p <= -1 -> 1 <= q -> (forall x, gcub x = - K * (x - p) * (x - q) * (x - z)) ->
  - (PI / 2) < th0 < PI / 2 -> sin th0 = z -> - (PI / 2) < th < PI / 2 -> th <> th0 -> farea th0 < farea th.
Proof.
  intros Hp Hq Hg H0 Hz Ht Hne.
  assert (Cp : forall x, - (PI / 2) < x < PI / 2 -> 0 < cos x) by (intros x Hx; apply cos_gt_0; lra).
  assert (Sb : forall x, - (PI / 2) < x < PI / 2 -> -1 < sin x < 1).
  { intros x Hx. pose proof (sin2_cos2 x) as E. unfold Rsqr in E. pose proof (Cp x Hx). split; nra. }
  assert (Sg : forall x, - (PI / 2) < x < PI / 2 -> exists k, 0 < k /\ gcub (sin x) / cos x ^ 4 = k * (sin x - z)).
  { intros x Hx. pose proof (Sb x Hx). pose proof (Cp x Hx). exists (K * (sin x - p) * (q - sin x) / cos x ^ 4). split.
    - apply Rdiv_lt_0_compat; [|apply pow_lt; auto]. apply Rmult_lt_0_compat; [apply Rmult_lt_0_compat|]; lra.
    - rewrite Hg. field. lra. }
  destruct (Rtotal_order th th0) as [L|[L|L]]; [|contradiction|].
  - destruct (MVT_cor2 farea (fun x => gcub (sin x) / cos x ^ 4) th th0 L) as (c & E & Hc).
    { intros x Hx. apply farea_deriv. pose proof (Cp x ltac:(lra)). lra. }
    destruct (Sg c ltac:(lra)) as (k & Hk & Ek). rewrite Ek in E. assert (sin c < z). { rewrite <- Hz. apply sin_increasing_1; lra. } assert (k * (sin c - z) < 0) by nra. nra.
  - destruct (MVT_cor2 farea (fun x => gcub (sin x) / cos x ^ 4) th0 th L) as (c & E & Hc).
    { intros x Hx. apply farea_deriv. pose proof (Cp x ltac:(lra)). lra. }
    destruct (Sg c ltac:(lra)) as (k & Hk & Ek). rewrite Ek in E. assert (z < sin c). { rewrite <- Hz. apply sin_increasing_1; lra. } assert (0 < k * (sin c - z)) by nra. nra.
Qed.
End cubic.
