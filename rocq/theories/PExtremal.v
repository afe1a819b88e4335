(** * The largest disc in a triangle, the smallest disc around it, the inscribed triangle
    of least perimeter. *)

From Coq Require Import Reals Lra Psatz List Bool.
From Verif Require Import Base BaseLemmas Spec SpecLemmas SpecTriangle SpecRandom SpecExtremal ModelInternal ModelLine ModelCircle ModelTriangle
  PLine PCircle PTriangle PTriangle2.
Import ListNotations.
Local Open Scope R_scope.

(** ** Discs in a triangle *)
Definition sd (q r : pt) : R := dist q r.
Lemma sd_sq p q : sd p q * sd p q = (fst q - fst p) * (fst q - fst p) + (snd q - snd p) * (snd q - snd p).
Proof. unfold sd. rewrite dist_sq. unfold dist2, sdot, vsub. cbn [fst snd]. ring. Qed.

Lemma disc_one_side O r q s p D : 0 <= r -> dbl p q s = D -> D <> 0 -> (forall M, dist O M <= r -> 0 <= dbl M q s * D) -> r * sd q s * Rabs D <= dbl O q s * D.
Proof.
  intros Hr E N HM. set (l := sd q s). assert (Ns : 0 < l). { apply dist_pos. intros ->. apply N. rewrite <- E. unfold dbl, scross, vsub. cbn [fst snd]. ring. }
  pose proof (sd_sq q s) as S. fold l in S.
  assert (Hs : forall sg, (sg = 1 \/ sg = -1) -> 0 <= (dbl O q s - sg * (r * l)) * D).
  { intros sg Hsg. set (M := (fst O + sg * r * (snd s - snd q) / l, snd O - sg * r * (fst s - fst q) / l)).
    assert (A1 : dist O M <= r). { apply Rsqr_incr_0; [|apply dist_nonneg|auto]. unfold Rsqr. rewrite dist_sq. unfold dist2, sdot, vsub, M. cbn [fst snd]. apply Req_le.
      transitivity (sg * sg * (r * r) * ((fst s - fst q) * (fst s - fst q) + (snd s - snd q) * (snd s - snd q)) / (l * l)); [field; lra|]. rewrite <- S. destruct Hsg as [-> | ->]; field; lra. }
    replace (dbl O q s - sg * (r * l)) with (dbl M q s); [exact (HM M A1)|].
    unfold dbl, scross, vsub, M. cbn [fst snd]. transitivity ((fst q - fst O) * (snd s - snd O) - (snd q - snd O) * (fst s - fst O) - sg * r * ((fst s - fst q) * (fst s - fst q) + (snd s - snd q) * (snd s - snd q)) / l); [field; lra|]. rewrite <- S. field. lra. }
  pose proof (Hs 1 ltac:(auto)) as S1. pose proof (Hs (-1) ltac:(auto)) as S2. destruct (Rle_lt_dec 0 D); [rewrite Rabs_pos_eq by auto|rewrite Rabs_left by auto]; lra.
Qed.

Lemma closed_dbl A B C M : in_closed_triangle A B C M -> let D := dbl A B C in 0 <= dbl M B C * D /\ 0 <= dbl M C A * D /\ 0 <= dbl M A B * D.
Proof.
  intros (u & v & w & Hu & Hv & Hw & S & ->) D. assert (Q : 0 <= D * D) by (pose proof (Rle_0_sqr D) as QQ; unfold Rsqr in QQ; exact QQ).
  assert (E1 : dbl (bary u v w A B C) B C * D = u * (D * D)) by (unfold D, dbl, scross, vsub, bary; cbn [fst snd]; replace u with (1 - v - w) by lra; ring).
  assert (E2 : dbl (bary u v w A B C) C A * D = v * (D * D)) by (unfold D, dbl, scross, vsub, bary; cbn [fst snd]; replace u with (1 - v - w) by lra; ring).
  assert (E3 : dbl (bary u v w A B C) A B * D = w * (D * D)) by (unfold D, dbl, scross, vsub, bary; cbn [fst snd]; replace u with (1 - v - w) by lra; ring).
  rewrite E1, E2, E3. repeat split; apply Rmult_le_pos; auto.
Qed.

(** a point is in the triangle when the three areas have the sign of the triangle *)
Lemma dbl_closed A B C M : dbl A B C <> 0 -> let D := dbl A B C in 0 <= dbl M B C * D -> 0 <= dbl M C A * D -> 0 <= dbl M A B * D -> in_closed_triangle A B C M.
Proof.
  intros N D H1 H2 H3. assert (Q : 0 < D * D) by (pose proof (Rsqr_pos_lt D N) as QQ; unfold Rsqr in QQ; exact QQ).
  assert (K : forall x, 0 <= x * D -> 0 <= x / D). { intros x H. replace (x / D) with (x * D / (D * D)) by (field; exact N). apply Rmult_le_pos; [auto|left; apply Rinv_0_lt_compat; auto]. }
  exists (dbl M B C / D), (dbl M C A / D), (dbl M A B / D). split; [auto|]. split; [auto|]. split; [auto|]. split; [unfold D; field_simplify_eq; [unfold dbl, scross, vsub; cbn [fst snd]; ring|exact N]|].
  destruct M as [m1 m2]. unfold bary. f_equal; apply Rmult_eq_reg_r with D; auto.
  - transitivity (dbl (m1, m2) B C * fst A + dbl (m1, m2) C A * fst B + dbl (m1, m2) A B * fst C); [unfold D, dbl, scross, vsub; cbn [fst snd]; ring|field; exact N].
  - transitivity (dbl (m1, m2) B C * snd A + dbl (m1, m2) C A * snd B + dbl (m1, m2) A B * snd C); [unfold D, dbl, scross, vsub; cbn [fst snd]; ring|field; exact N].
Qed.

Lemma incircle_largest A B C : ~ collinear A B C -> exists c, incircle (mkTri A B C) = Ok c /\ (forall M, dist (cO c) M <= cr c -> in_closed_triangle A B C M) /\
  forall O r, 0 <= r -> (forall M, dist O M <= r -> in_closed_triangle A B C M) -> r <= cr c /\ (r = cr c -> O = cO c).
Proof.
  intros N. assert (D0 : dbl A B C <> 0) by (apply not_collinear_dbl; auto). destruct (incircle_total A B C D0) as (Hi & Hr). set (a := dist B C) in *. set (b := dist A C) in *. set (c := dist A B) in *. set (p := a + b + c) in *. set (D := dbl A B C) in *.
  eexists. split; [exact Hi|]. cbn [cO cr]. destruct (sides_pos _ _ _ D0) as (Pa & Pb & Pc). fold a in Pa. fold b in Pb. fold c in Pc. assert (Pp : 0 < p) by (unfold p; lra). set (I := bary (a / p) (b / p) (c / p) A B C). set (rho := Rabs D / p) in *.
  assert (Db : dbl B C A = D) by (unfold D, dbl, scross, vsub; cbn [fst snd]; ring). assert (Dc : dbl C A B = D) by (unfold D, dbl, scross, vsub; cbn [fst snd]; ring).
  assert (I1 : dbl I B C = a / p * D) by (unfold I, D, dbl, scross, vsub, bary; cbn [fst snd]; replace (a / p) with (1 - b / p - c / p) by (unfold p; field; unfold p in Pp; lra); ring).
  assert (I2 : dbl I C A = b / p * D) by (unfold I, D, dbl, scross, vsub, bary; cbn [fst snd]; replace (a / p) with (1 - b / p - c / p) by (unfold p; field; unfold p in Pp; lra); ring).
  assert (I3 : dbl I A B = c / p * D) by (unfold I, D, dbl, scross, vsub, bary; cbn [fst snd]; replace (a / p) with (1 - b / p - c / p) by (unfold p; field; unfold p in Pp; lra); ring).
  assert (AD : Rabs D * Rabs D = D * D) by (rewrite <- Rabs_mult; apply Rabs_pos_eq; pose proof (Rle_0_sqr D) as QQ; unfold Rsqr in QQ; exact QQ). assert (PD : 0 < Rabs D) by (apply Rabs_pos_lt; auto).
  split.
  - intros M HM.
    assert (K : forall q s l, 0 < l -> dist q s = l -> dbl I q s = l / p * D -> 0 <= dbl M q s * D).
    { intros q s l Hl El E. assert (SQ : dist I M * dist I M = (fst M - fst I) * (fst M - fst I) + (snd M - snd I) * (snd M - snd I)) by (apply (sd_sq I M)). assert (SL : l * l = (fst s - fst q) * (fst s - fst q) + (snd s - snd q) * (snd s - snd q)) by (rewrite <- El; apply (sd_sq q s)).
      set (x := dbl M q s - dbl I q s). assert (X : x * x <= (rho * l) * (rho * l)).
      { assert (EX : x = (fst s - fst q) * (snd M - snd I) - (snd s - snd q) * (fst M - fst I)) by (unfold x, dbl, scross, vsub; cbn [fst snd]; ring). apply Rle_trans with ((dist I M * dist I M) * (l * l)).
        - rewrite SQ, SL, EX. pose proof (Rle_0_sqr ((fst s - fst q) * (fst M - fst I) + (snd s - snd q) * (snd M - snd I))) as QQ. unfold Rsqr in QQ. lra.
        - replace (rho * l * (rho * l)) with (rho * rho * (l * l)) by ring. apply Rmult_le_compat_r; [nra|]. apply Rmult_le_compat; auto; apply dist_nonneg. }
      replace (dbl M q s) with (l / p * D + x) by (unfold x; lra). assert (AX : Rabs x <= rho * l) by (rewrite <- (Rabs_pos_eq (rho * l)) by nra; apply Rsqr_le_abs_0; exact X).
      assert (E2 : l / p * D * D = rho * l * Rabs D). { unfold rho. transitivity (l / p * (D * D)); [ring|]. rewrite <- AD. field. lra. }
      rewrite Rmult_plus_distr_r, E2. assert (- (x * D) <= rho * l * Rabs D). { apply Rle_trans with (Rabs x * Rabs D); [rewrite <- Rabs_mult, <- Rabs_Ropp; apply Rle_abs|apply Rmult_le_compat_r; lra]. } lra. }
    apply dbl_closed; auto; [apply (K B C a)|apply (K C A b)|apply (K A B c)]; auto; unfold b; apply dist_sym.
  - intros O r H0 H.
    pose proof (disc_one_side O r B C A D H0 eq_refl D0 (fun M HM => proj1 (closed_dbl A B C M (H M HM)))) as K1. pose proof (disc_one_side O r C A B D H0 Db D0 (fun M HM => proj1 (proj2 (closed_dbl A B C M (H M HM))))) as K2. pose proof (disc_one_side O r A B C D H0 Dc D0 (fun M HM => proj2 (proj2 (closed_dbl A B C M (H M HM))))) as K3.
    unfold sd in K1, K2, K3. rewrite (dist_sym C A) in K2. fold a in K1. fold b in K2. fold c in K3.
    assert (SD : dbl O B C + dbl O C A + dbl O A B = D) by (unfold D, dbl, scross, vsub; cbn [fst snd]; ring). assert (SS : dbl O B C * D + dbl O C A * D + dbl O A B * D = Rabs D * Rabs D) by (rewrite AD, <- SD; ring).
    assert (L : r * p <= Rabs D) by (apply Rmult_le_reg_r with (Rabs D); [auto|]; unfold p; lra). split; [apply Rmult_le_reg_r with p; auto; unfold rho; replace (Rabs D / p * p) with (Rabs D) by (field; lra); exact L|]. intros ER.
    assert (EP : r * p = Rabs D) by (rewrite ER; unfold rho; field; lra).
    assert (T1 : r * a * Rabs D = dbl O B C * D /\ r * b * Rabs D = dbl O C A * D). { assert (r * a * Rabs D + r * b * Rabs D + r * c * Rabs D = Rabs D * Rabs D) by (rewrite <- EP at 4; unfold p; ring). split; lra. } destruct T1 as (T1 & T2).
    assert (U1 : dbl O B C = a / p * D). { apply Rmult_eq_reg_r with D; auto. rewrite <- T1. replace r with (Rabs D / p) by (rewrite <- EP; field; lra). transitivity (a / p * (Rabs D * Rabs D)); [field; lra|rewrite AD; ring]. }
    assert (U2 : dbl O C A = b / p * D). { apply Rmult_eq_reg_r with D; auto. rewrite <- T2. replace r with (Rabs D / p) by (rewrite <- EP; field; lra). transitivity (b / p * (Rabs D * Rabs D)); [field; lra|rewrite AD; ring]. }
    rewrite <- I1 in U1. rewrite <- I2 in U2. clear - U1 U2 D0. destruct O as [o1 o2], I as [i1 i2]. unfold D, dbl, scross, vsub in *. cbn [fst snd] in *.
    set (x := o1 - i1). set (y := o2 - i2). destruct A as [a1 a2], B as [b1 b2], C as [c1 c2]. cbn [fst snd] in *. assert (V1 : x * (b2 - c2) + y * (c1 - b1) = 0) by (unfold x, y; lra). assert (V2 : x * (c2 - a2) + y * (a1 - c1) = 0) by (unfold x, y; lra).
    assert (X0 : x * ((b1 - a1) * (c2 - a2) - (b2 - a2) * (c1 - a1)) = 0). { transitivity ((x * (b2 - c2) + y * (c1 - b1)) * (a1 - c1) - (x * (c2 - a2) + y * (a1 - c1)) * (c1 - b1)); [ring|rewrite V1, V2; ring]. }
    assert (Y0 : y * ((b1 - a1) * (c2 - a2) - (b2 - a2) * (c1 - a1)) = 0). { transitivity ((x * (c2 - a2) + y * (a1 - c1)) * (b2 - c2) - (x * (b2 - c2) + y * (c1 - b1)) * (c2 - a2)); [ring|rewrite V1, V2; ring]. }
    apply Rmult_integral in X0, Y0. destruct X0 as [X0|X0]; [|contradiction]. destruct Y0 as [Y0|Y0]; [|contradiction]. unfold x, y in *. f_equal; lra.
Qed.

(** ** Discs around a triangle *)
Lemma disc_two_points O r P Q : dist O P <= r -> dist O Q <= r -> dist P Q / 2 <= r /\ (r = dist P Q / 2 -> O = midpoint P Q).
Proof.
  intros H1 H2. pose proof (dist_nonneg O P) as N1. pose proof (dist_nonneg O Q) as N2. pose proof (dist_nonneg P Q) as N3.
  assert (S1 : dist O P * dist O P <= r * r) by (apply Rmult_le_compat; lra). assert (S2 : dist O Q * dist O Q <= r * r) by (apply Rmult_le_compat; lra). rewrite dist_sq in S1, S2. pose proof (dist_sq P Q) as S3.
  assert (E : dist2 O P + dist2 O Q = 2 * dist2 O (midpoint P Q) + dist2 P Q / 2) by (unfold dist2, midpoint, sdot, vsub; cbn [fst snd]; field). pose proof (dist2_nonneg O (midpoint P Q)) as M0.
  split; [apply Rsqr_incr_0; [unfold Rsqr|lra|lra]; nra|]. intros ER. assert (Z : dist2 O (midpoint P Q) = 0) by (rewrite ER in S1, S2; lra). revert Z. generalize (midpoint P Q). intros [m1 m2] Z. destruct O as [o1 o2]. unfold dist2, sdot, vsub in Z. cbn [fst snd] in Z. apply Rplus_sqr_eq_0 in Z. destruct Z. f_equal; lra.
Qed.

(** the weights of the circumcentre *)
Definition dotA (A B C : pt) : R := sdot (vsub B A) (vsub C A).
Lemma circumcentre_bary A B C K r : dbl A B C <> 0 -> on_circle K r A -> on_circle K r B -> on_circle K r C ->
  let D := dbl A B C in let u := dist2 B C * dotA A B C / (2 * (D * D)) in let v := dist2 C A * dotA B C A / (2 * (D * D)) in let w := dist2 A B * dotA C A B / (2 * (D * D)) in
  u + v + w = 1 /\ K = bary u v w A B C.
Proof.
  intros N HA HB HC D u v w. assert (E1 : dist2 K A = dist2 K B) by (rewrite <- !dist_sq, HA, HB; reflexivity). assert (E2 : dist2 K A = dist2 K C) by (rewrite <- !dist_sq, HA, HC; reflexivity). clear HA HB HC.
  assert (S : u + v + w = 1). { unfold u, v, w. field_simplify_eq; [|exact N]. unfold D, dbl, dotA, dist2, scross, sdot, vsub. cbn [fst snd]. ring. } split; [exact S|].
  destruct A as [a1 a2], B as [b1 b2], C as [c1 c2], K as [k1 k2]. set (x := k1 - a1). set (y := k2 - a2). set (p := b1 - a1). set (q := b2 - a2). set (s := c1 - a1). set (t := c2 - a2).
  assert (F1 : 2 * (x * p + y * q) = p * p + q * q) by (unfold dist2, sdot, vsub in E1; cbn [fst snd] in E1; unfold x, y, p, q; lra). assert (F2 : 2 * (x * s + y * t) = s * s + t * t) by (unfold dist2, sdot, vsub in E2; cbn [fst snd] in E2; unfold x, y, s, t; lra).
  assert (ED : D = p * t - q * s) by (unfold D, dbl, scross, vsub, p, q, s, t; cbn [fst snd]; ring).
  assert (X : x * (2 * D) = (p * p + q * q) * t - (s * s + t * t) * q) by (rewrite <- F1, <- F2, ED; ring). assert (Y : y * (2 * D) = (s * s + t * t) * p - (p * p + q * q) * s) by (rewrite <- F1, <- F2, ED; ring).
  assert (EV : v * (2 * (D * D)) = (s * s + t * t) * (p * p + q * q - (p * s + q * t))). { unfold v. transitivity (dist2 (c1, c2) (a1, a2) * dotA (b1, b2) (c1, c2) (a1, a2)); [field; exact N|]. unfold dist2, dotA, sdot, vsub, p, q, s, t. cbn [fst snd]. ring. }
  assert (EW : w * (2 * (D * D)) = (p * p + q * q) * (s * s + t * t - (p * s + q * t))). { unfold w. transitivity (dist2 (a1, a2) (b1, b2) * dotA (c1, c2) (a1, a2) (b1, b2)); [field; exact N|]. unfold dist2, dotA, sdot, vsub, p, q, s, t. cbn [fst snd]. ring. }
  assert (ND : 2 * (D * D) <> 0). { intros Z. apply N. fold D. apply Rsqr_0_uniq. unfold Rsqr. lra. }
  unfold bary. cbn [fst snd]. replace u with (1 - v - w) by lra. f_equal.
  - enough (x = v * p + w * s) by (unfold x, p, s in *; lra). apply Rmult_eq_reg_r with (2 * (D * D)); auto. transitivity (x * (2 * D) * D); [ring|]. rewrite X. transitivity (v * (2 * (D * D)) * p + w * (2 * (D * D)) * s); [rewrite EV, EW, ED; ring|ring].
  - enough (y = v * q + w * t) by (unfold y, q, t in *; lra). apply Rmult_eq_reg_r with (2 * (D * D)); auto. transitivity (y * (2 * D) * D); [ring|]. rewrite Y. transitivity (v * (2 * (D * D)) * q + w * (2 * (D * D)) * t); [rewrite EV, EW, ED; ring|ring].
Qed.

Lemma leibniz u v w A B C O : u + v + w = 1 -> u * dist2 O A + v * dist2 O B + w * dist2 O C = dist2 O (bary u v w A B C) + (u * dist2 (bary u v w A B C) A + v * dist2 (bary u v w A B C) B + w * dist2 (bary u v w A B C) C).
Proof. intros S. replace u with (1 - v - w) by lra. unfold dist2, bary, sdot, vsub. cbn [fst snd]. ring. Qed.

Lemma weights_nonneg x y d : 0 <= x -> 0 <= y -> d <> 0 -> 0 <= x * y / (2 * (d * d)).
Proof. intros. apply Rmult_le_pos; [nra|]. left. apply Rinv_0_lt_compat. pose proof (Rsqr_pos_lt d H1) as Q. unfold Rsqr in Q. lra. Qed.

Lemma circumcircle_smallest A B C : ~ collinear A B C -> is_acute (mkTri A B C) = true -> exists c, circumcircle (mkTri A B C) = Ok (Some c) /\
  forall O r, dist O A <= r -> dist O B <= r -> dist O C <= r -> cr c <= r /\ (r = cr c -> O = cO c).
Proof.
  intros N Ac. assert (D0 : dbl A B C <> 0) by (apply not_collinear_dbl; auto). destruct (circumcircle_total A B C D0) as (c & Hc & Pr & HA & HB & HC). exists c. split; [exact Hc|]. intros O r H1 H2 H3.
  apply is_acute_spec in Ac. cbn [tA tB tC] in Ac. destruct Ac as (A1 & A2 & A3). destruct (circumcentre_bary A B C (cO c) (cr c) D0 HA HB HC) as (S & EK).
  set (u := dist2 B C * _ / _) in *. set (v := dist2 C A * _ / _) in *. set (w := dist2 A B * _ / _) in *.
  assert (U : 0 <= u) by (apply weights_nonneg; [apply dist2_nonneg|exact A1|exact D0]). assert (V : 0 <= v) by (apply weights_nonneg; [apply dist2_nonneg|unfold dotA; unfold sdot in *; lra|exact D0]). assert (W : 0 <= w) by (apply weights_nonneg; [apply dist2_nonneg|unfold dotA; unfold sdot in *; lra|exact D0]).
  pose proof (leibniz u v w A B C O S) as L. rewrite <- EK in L. rewrite <- (dist_sq (cO c) A), <- (dist_sq (cO c) B), <- (dist_sq (cO c) C), HA, HB, HC in L.
  assert (R0 : 0 <= r) by (pose proof (dist_nonneg O A); lra). assert (SQ : forall P, dist O P <= r -> dist2 O P <= r * r) by (intros P HP; rewrite <- dist_sq; apply Rmult_le_compat; auto; apply dist_nonneg).
  assert (T : u * dist2 O A + v * dist2 O B + w * dist2 O C <= r * r). { replace (r * r) with (u * (r * r) + v * (r * r) + w * (r * r)) by (rewrite <- !Rmult_plus_distr_r, S; ring). repeat apply Rplus_le_compat; apply Rmult_le_compat_l; auto. }
  assert (L2 : dist2 O (cO c) + cr c * cr c <= r * r) by (replace (cr c * cr c) with ((u + v + w) * (cr c * cr c)) by (rewrite S; ring); lra). pose proof (dist2_nonneg O (cO c)) as P0.
  split; [apply Rsqr_incr_0; [unfold Rsqr|lra|lra]; lra|]. intros ->. assert (Z : dist2 O (cO c) = 0) by lra. revert Z. generalize (cO c). intros [m1 m2] Z. destruct O as [o1 o2]. unfold dist2, sdot, vsub in Z. cbn [fst snd] in Z. apply Rplus_sqr_eq_0 in Z. destruct Z. f_equal; lra.
Qed.

Lemma obtuse_smallest A B C : ~ collinear A B C -> allclose B C = false -> sdot (vsub B A) (vsub C A) < 0 -> exists c cc, circleAB B C = Ok c /\ circumcircle (mkTri A B C) = Ok (Some cc) /\
  dist (cO c) A < cr c /\ dist (cO c) B = cr c /\ dist (cO c) C = cr c /\ cr c < cr cc /\ (forall O r, dist O B <= r -> dist O C <= r -> cr c <= r /\ (r = cr c -> O = cO c)).
Proof.
  intros N E H. assert (D0 : dbl A B C <> 0) by (apply not_collinear_dbl; auto). destruct (proj2 (circleAB_spec B C) E) as (c & Hc & Pc & EO & HB & HC & HM). destruct (circumcircle_total A B C D0) as (cc & Hcc & Pr & KA & KB & KC). exists c, cc. split; [exact Hc|]. split; [exact Hcc|].
  assert (RB : cr c = dist B C / 2). { apply Rsqr_inj; [lra|pose proof (dist_nonneg B C); lra|]. unfold Rsqr. rewrite <- HB at 1 2. rewrite dist_sq. transitivity (dist B C * dist B C / 4); [|field]. rewrite dist_sq, EO. unfold dist2, midpoint, sdot, vsub. cbn [fst snd]. field. }
  assert (IA : dist (cO c) A < cr c). { apply Rsqr_incrst_0; [|apply dist_nonneg|lra]. unfold Rsqr. rewrite <- HB. rewrite !dist_sq, EO. assert (dist2 (midpoint B C) A - dist2 (midpoint B C) B = sdot (vsub B A) (vsub C A)) by (unfold dist2, midpoint, sdot, vsub; cbn [fst snd]; field). lra. }
  split; [exact IA|]. split; [exact HB|]. split; [exact HC|]. assert (M : forall O r, dist O B <= r -> dist O C <= r -> cr c <= r /\ (r = cr c -> O = cO c)) by (intros O r H1 H2; rewrite RB, EO; apply disc_two_points; auto).
  split; [|exact M]. destruct (M (cO cc) (cr cc)) as (L & Eq); [rewrite KB; lra|rewrite KC; lra|]. destruct (Rle_lt_or_eq_dec _ _ L) as [|Q]; auto. exfalso. rewrite <- (Eq (eq_sym Q)) in IA. unfold on_circle in KA. lra.
Qed.

(** ** Fagnano *)
Lemma cross_le (p q : pt) R0 sg : 0 < R0 -> sdot p p = R0 * R0 -> sg * sg = 1 -> sg * scross p q <= R0 * sqrt (sdot q q) /\ (sg * scross p q = R0 * sqrt (sdot q q) <-> sdot p q = 0 /\ 0 <= sg * scross p q).
Proof.
  intros HR Hp Hs. assert (Q0 : 0 <= sdot q q) by (unfold sdot; pose proof (Rle_0_sqr (fst q)); pose proof (Rle_0_sqr (snd q)); unfold Rsqr in *; lra). pose proof (sqrt_sqrt _ Q0) as SQ. pose proof (sqrt_pos (sdot q q)) as SP. set (t := sqrt (sdot q q)) in *.
  assert (I : scross p q * scross p q + sdot p q * sdot p q = sdot p p * sdot q q) by (unfold scross, sdot; ring). rewrite Hp, <- SQ in I. set (x := sg * scross p q). assert (X : x * x = scross p q * scross p q) by (unfold x; replace (sg * scross p q * (sg * scross p q)) with (sg * sg * (scross p q * scross p q)) by ring; rewrite Hs; ring). rewrite <- X in I. clearbody x t.
  assert (RT : 0 <= R0 * t) by nra. assert (I' : x * x + sdot p q * sdot p q = (R0 * t) * (R0 * t)) by (rewrite I; ring). set (y := R0 * t) in *. set (z := sdot p q) in *. split; [nra|]. split.
  - intros E. rewrite E in *. split; nra.
  - intros (Z & P). rewrite Z in I'. apply Rsqr_inj; auto. unfold Rsqr. lra.
Qed.

Lemma fagnano_core A B C K r d e f : dbl A B C <> 0 -> 0 < r -> on_circle K r A -> on_circle K r B -> on_circle K r C ->
  let D := at_line B C d in let E := at_line C A e in let F := at_line A B f in
  Rabs (dbl A B C) <= r * perimeter D E F /\
  (r * perimeter D E F = Rabs (dbl A B C) -> d * dist2 B C = dotA B C A /\ e * dist2 C A = dotA C A B /\ f * dist2 A B = dotA A B C) /\
  (0 < dotA A B C -> 0 < dotA B C A -> 0 < dotA C A B -> d * dist2 B C = dotA B C A -> e * dist2 C A = dotA C A B -> f * dist2 A B = dotA A B C -> r * perimeter D E F = Rabs (dbl A B C)).
Proof.
  intros N Hr HA HB HC D E F. set (D0 := dbl A B C) in *. assert (exists sg, sg * sg = 1 /\ sg * D0 = Rabs D0) as (sg & Sg & SD). { destruct (Rle_lt_dec 0 D0); [exists 1; rewrite Rabs_pos_eq by auto|exists (-1); rewrite Rabs_left by auto]; split; ring. }
  destruct (circumcentre_bary A B C K r N HA HB HC) as (S & EK). fold D0 in S, EK. set (u := dist2 B C * _ / _) in *. set (v := dist2 C A * _ / _) in *. set (w := dist2 A B * _ / _) in *.
  assert (LA : sdot (vsub A K) (vsub A K) = r * r) by (rewrite <- HA; rewrite dist_sq; reflexivity). assert (LB : sdot (vsub B K) (vsub B K) = r * r) by (rewrite <- HB; rewrite dist_sq; reflexivity). assert (LC : sdot (vsub C K) (vsub C K) = r * r) by (rewrite <- HC; rewrite dist_sq; reflexivity).
  destruct (cross_le _ (vsub F E) r sg Hr LA Sg) as (X1 & Y1). destruct (cross_le _ (vsub D F) r sg Hr LB Sg) as (X2 & Y2). destruct (cross_le _ (vsub E D) r sg Hr LC Sg) as (X3 & Y3).
  assert (SUM : scross (vsub A K) (vsub F E) + scross (vsub B K) (vsub D F) + scross (vsub C K) (vsub E D) = D0) by (unfold D0, dbl, D, E, F, at_line, scross, vsub, vadd, vscal; cbn [fst snd]; ring).
  assert (PER : r * perimeter D E F = r * sqrt (sdot (vsub F E) (vsub F E)) + r * sqrt (sdot (vsub D F) (vsub D F)) + r * sqrt (sdot (vsub E D) (vsub E D))) by (unfold perimeter, dist, dist2; ring).
  set (s1 := r * sqrt (sdot (vsub F E) (vsub F E))) in *. set (s2 := r * sqrt (sdot (vsub D F) (vsub D F))) in *. set (s3 := r * sqrt (sdot (vsub E D) (vsub E D))) in *.
  assert (SUM' : sg * scross (vsub A K) (vsub F E) + sg * scross (vsub B K) (vsub D F) + sg * scross (vsub C K) (vsub E D) = Rabs D0) by (rewrite <- SD, <- SUM; ring).
  (* the three scalar products *)
  assert (KB : 2 * sdot (vsub A K) (vsub B A) = - dist2 A B) by (unfold dist2, sdot, vsub in *; cbn [fst snd] in *; lra). assert (KC : 2 * sdot (vsub A K) (vsub C A) = - dist2 C A) by (unfold dist2, sdot, vsub in *; cbn [fst snd] in *; lra). assert (KD : 2 * sdot (vsub B K) (vsub C B) = - dist2 B C) by (unfold dist2, sdot, vsub in *; cbn [fst snd] in *; lra).
  assert (KE : 2 * sdot (vsub B K) (vsub A B) = - dist2 A B) by (unfold dist2, sdot, vsub in *; cbn [fst snd] in *; lra). assert (KF : 2 * sdot (vsub C K) (vsub A C) = - dist2 C A) by (unfold dist2, sdot, vsub in *; cbn [fst snd] in *; lra). assert (KG : 2 * sdot (vsub C K) (vsub B C) = - dist2 B C) by (unfold dist2, sdot, vsub in *; cbn [fst snd] in *; lra).
  assert (P1 : 2 * sdot (vsub A K) (vsub F E) = (1 - e) * dist2 C A - f * dist2 A B). { transitivity (f * (2 * sdot (vsub A K) (vsub B A)) - (1 - e) * (2 * sdot (vsub A K) (vsub C A))); [unfold E, F, at_line, sdot, vsub, vadd, vscal; cbn [fst snd]; ring|rewrite KB, KC; ring]. }
  assert (P2 : 2 * sdot (vsub B K) (vsub D F) = (1 - f) * dist2 A B - d * dist2 B C). { transitivity (d * (2 * sdot (vsub B K) (vsub C B)) - (1 - f) * (2 * sdot (vsub B K) (vsub A B))); [unfold D, F, at_line, sdot, vsub, vadd, vscal; cbn [fst snd]; ring|rewrite KD, KE; ring]. }
  assert (P3 : 2 * sdot (vsub C K) (vsub E D) = (1 - d) * dist2 B C - e * dist2 C A). { transitivity (e * (2 * sdot (vsub C K) (vsub A C)) - (1 - d) * (2 * sdot (vsub C K) (vsub B C))); [unfold D, E, at_line, sdot, vsub, vadd, vscal; cbn [fst snd]; ring|rewrite KF, KG; ring]. }
  assert (DA : dist2 C A + dist2 A B - dist2 B C = 2 * dotA A B C) by (unfold dotA, dist2, sdot, vsub; cbn [fst snd]; ring). assert (DB : dist2 B C + dist2 A B - dist2 C A = 2 * dotA B C A) by (unfold dotA, dist2, sdot, vsub; cbn [fst snd]; ring). assert (DC : dist2 B C + dist2 C A - dist2 A B = 2 * dotA C A B) by (unfold dotA, dist2, sdot, vsub; cbn [fst snd]; ring).
  split; [lra|]. split.
  - intros EQ. assert (Z1 : sg * scross (vsub A K) (vsub F E) = s1) by lra. assert (Z2 : sg * scross (vsub B K) (vsub D F) = s2) by lra. assert (Z3 : sg * scross (vsub C K) (vsub E D) = s3) by lra. apply Y1 in Z1. apply Y2 in Z2. apply Y3 in Z3. destruct Z1 as (Z1 & _), Z2 as (Z2 & _), Z3 as (Z3 & _). repeat split; lra.
  - intros A1 A2 A3 Ed Ee Ef.
    assert (NN : 0 < D0 * D0) by (pose proof (Rsqr_pos_lt D0 N) as QQ; unfold Rsqr in QQ; exact QQ).
    assert (U : 0 <= u) by (apply weights_nonneg; [apply dist2_nonneg|lra|exact N]). assert (V : 0 <= v) by (apply weights_nonneg; [apply dist2_nonneg|lra|exact N]). assert (W : 0 <= w) by (apply weights_nonneg; [apply dist2_nonneg|lra|exact N]).
    assert (PL : forall x y, 0 < y -> 0 <= x * y -> 0 <= x) by (intros x y Hy H; destruct (Rle_lt_dec 0 x); auto; exfalso; nra).
    assert (G1 : 0 < dist2 B C /\ 0 < dist2 C A /\ 0 < dist2 A B). { pose proof (dist2_nonneg B C); pose proof (dist2_nonneg C A); pose proof (dist2_nonneg A B). repeat split; lra. } destruct G1 as (G1 & G2 & G3).
    assert (F0 : 0 <= f <= 1) by (split; [apply (PL f (dist2 A B)); lra|enough (0 <= 1 - f) by lra; apply (PL (1 - f) (dist2 A B)); lra]). assert (E0 : 0 <= e <= 1) by (split; [apply (PL e (dist2 C A)); lra|enough (0 <= 1 - e) by lra; apply (PL (1 - e) (dist2 C A)); lra]). assert (Q0 : 0 <= d <= 1) by (split; [apply (PL d (dist2 B C)); lra|enough (0 <= 1 - d) by lra; apply (PL (1 - d) (dist2 B C)); lra]).
    assert (C1 : scross (vsub A K) (vsub F E) = (v * (1 - e) + w * f) * D0). { rewrite EK. unfold D0, dbl, E, F, at_line, bary, scross, vsub, vadd, vscal. cbn [fst snd]. replace u with (1 - v - w) by lra. ring. }
    assert (C2 : scross (vsub B K) (vsub D F) = (w * (1 - f) + u * d) * D0). { rewrite EK. unfold D0, dbl, D, F, at_line, bary, scross, vsub, vadd, vscal. cbn [fst snd]. replace v with (1 - u - w) by lra. ring. }
    assert (C3 : scross (vsub C K) (vsub E D) = (u * (1 - d) + v * e) * D0). { rewrite EK. unfold D0, dbl, D, E, at_line, bary, scross, vsub, vadd, vscal. cbn [fst snd]. replace w with (1 - u - v) by lra. ring. }
    assert (AB : 0 <= Rabs D0) by apply Rabs_pos.
    assert (Z1 : sg * scross (vsub A K) (vsub F E) = s1). { apply Y1. split; [lra|]. rewrite C1. replace (sg * ((v * (1 - e) + w * f) * D0)) with ((v * (1 - e) + w * f) * (sg * D0)) by ring. rewrite SD. apply Rmult_le_pos; [|auto]. apply Rplus_le_le_0_compat; apply Rmult_le_pos; lra. }
    assert (Z2 : sg * scross (vsub B K) (vsub D F) = s2). { apply Y2. split; [lra|]. rewrite C2. replace (sg * ((w * (1 - f) + u * d) * D0)) with ((w * (1 - f) + u * d) * (sg * D0)) by ring. rewrite SD. apply Rmult_le_pos; [|auto]. apply Rplus_le_le_0_compat; apply Rmult_le_pos; lra. }
    assert (Z3 : sg * scross (vsub C K) (vsub E D) = s3). { apply Y3. split; [lra|]. rewrite C3. replace (sg * ((u * (1 - d) + v * e) * D0)) with ((u * (1 - d) + v * e) * (sg * D0)) by ring. rewrite SD. apply Rmult_le_pos; [|auto]. apply Rplus_le_le_0_compat; apply Rmult_le_pos; lra. }
    lra.
Qed.

Lemma foot_param A B C F : altitude_foot A B C F -> exists d, F = at_line B C d /\ d * dist2 B C = dotA B C A.
Proof. intros ((d & ->) & H). exists d. split; auto. unfold orthogonal, dotA, dist2, sdot, at_line, vsub, vadd, vscal in *. cbn [fst snd] in *. lra. Qed.

Lemma fagnano A B C : ~ collinear A B C -> 0 < sdot (vsub B A) (vsub C A) -> 0 < sdot (vsub A B) (vsub C B) -> 0 < sdot (vsub A C) (vsub B C) ->
  exists T c, orthic_triangle (mkTri A B C) = Ok T /\ circumcircle (mkTri A B C) = Ok (Some c) /\
    on_segment B C (tA T) /\ on_segment C A (tB T) /\ on_segment A B (tC T) /\
    cr c * perimeter (tA T) (tB T) (tC T) = 2 * triangle_area A B C /\
    forall D E F, on_line B C D -> on_line C A E -> on_line A B F ->
      perimeter (tA T) (tB T) (tC T) <= perimeter D E F /\ (perimeter D E F = perimeter (tA T) (tB T) (tC T) -> D = tA T /\ E = tB T /\ F = tC T).
Proof.
  intros N A1 A2 A3. assert (D0 : dbl A B C <> 0) by (apply not_collinear_dbl; auto). destruct (dbl_distinct _ _ _ D0) as (N1 & N2 & N3). destruct (orthic_spec A B C N1 N2 N3) as (T & HT & FA & FB & FC). destruct (circumcircle_total A B C D0) as (c & Hc & Pr & HA & HB & HC).
  exists T, c. split; [exact HT|]. split; [exact Hc|]. destruct (foot_param _ _ _ _ FA) as (d & E1 & Ed). destruct (foot_param _ _ _ _ FB) as (e & E2 & Ee). destruct (foot_param _ _ _ _ FC) as (f & E3 & Ef).
  assert (B1 : 0 < dotA A B C) by (unfold dotA; exact A1). assert (B2 : 0 < dotA B C A) by (unfold dotA, sdot in *; lra). assert (B3 : 0 < dotA C A B) by (unfold dotA, sdot in *; lra).
  assert (DA : dist2 C A + dist2 A B - dist2 B C = 2 * dotA A B C) by (unfold dotA, dist2, sdot, vsub; cbn [fst snd]; ring). assert (DB : dist2 B C + dist2 A B - dist2 C A = 2 * dotA B C A) by (unfold dotA, dist2, sdot, vsub; cbn [fst snd]; ring). assert (DC : dist2 B C + dist2 C A - dist2 A B = 2 * dotA C A B) by (unfold dotA, dist2, sdot, vsub; cbn [fst snd]; ring).
  pose proof (dist2_nonneg B C) as G1. pose proof (dist2_nonneg C A) as G2. pose proof (dist2_nonneg A B) as G3.
  assert (PL : forall x y z, 0 <= y -> x * y = z -> 0 < z -> z <= y -> 0 <= x <= 1) by (intros x y z Hy H Hz Hl; split; [destruct (Rle_lt_dec 0 x); auto; exfalso; nra|destruct (Rle_lt_dec x 1); auto; exfalso; nra]).
  destruct (fagnano_core A B C (cO c) (cr c) d e f D0 Pr HA HB HC) as (_ & _ & K). specialize (K B1 B2 B3 Ed Ee Ef). rewrite <- E1, <- E2, <- E3 in K.
  split; [exists d; split; [apply (PL _ _ _ G1 Ed); lra|exact E1]|]. split; [exists e; split; [apply (PL _ _ _ G2 Ee); lra|exact E2]|]. split; [exists f; split; [apply (PL _ _ _ G3 Ef); lra|exact E3]|].
  split; [rewrite K; unfold triangle_area, dbl; field|]. intros D E F (d' & ->) (e' & ->) (f' & ->). destruct (fagnano_core A B C (cO c) (cr c) d' e' f' D0 Pr HA HB HC) as (L & Q & _). rewrite <- K in L, Q.
  split; [apply Rmult_le_reg_l with (cr c); auto|]. intros EQ. rewrite EQ in Q. destruct (Q eq_refl) as (Q1 & Q2 & Q3). rewrite E1, E2, E3.
  assert (d' = d) by (apply Rmult_eq_reg_r with (dist2 B C); nra). assert (e' = e) by (apply Rmult_eq_reg_r with (dist2 C A); nra). assert (f' = f) by (apply Rmult_eq_reg_r with (dist2 A B); nra). subst. auto.
Qed.
