(** * Proofs about examples/triangularCircularGasket.py: when a wall is a line. *)

From Coq Require Import Reals Lra Lia Psatz List Bool Permutation.
From Verif Require Import Base BaseLemmas Spec SpecLemmas SpecTriangle SpecGasket SpecApollonian ModelInternal ModelLine ModelCircle ModelTriangle ModelInversion ModelTangentCircles ModelApollonian ModelCircular PCircle PInvBase PInversion PInversion2 PTriangle PTriangle2 PTriangle3 PTriangle4 PTriangle5 PSteiner PSteiner2 PGasket1 PGasket5 PApo1 PApo2 PApo3 PApo4 PApo5 PApo6 PMalApo5 PCirc1 PCirc2 PCirc3 PCirc4 PCirc5.
Import ListNotations.
Local Open Scope R_scope.

Lemma radical_exists A B C a b c : ~ collinear A B C -> exists P, pow_circle A a P = pow_circle B b P /\ pow_circle A a P = pow_circle C c P.
Proof.
  intros N. rewrite collinear_cross in N. destruct A as [a1 a2], B as [b1 b2], C as [c1 c2]. unfold pow_circle, dist2, scross, vsub, sdot in *. cbn [fst snd] in *.
  set (u1 := b1 - a1) in *. set (u2 := b2 - a2) in *. set (v1 := c1 - a1) in *. set (v2 := c2 - a2) in *. set (D := u1 * v2 - u2 * v1) in *.
  set (e := (u1 * u1 + u2 * u2 - b * b + a * a) / 2). set (f := (v1 * v1 + v2 * v2 - c * c + a * a) / 2).
  exists (a1 + (e * v2 - f * u2) / D, a2 + (u1 * f - v1 * e) / D). cbn [fst snd]. set (x := (e * v2 - f * u2) / D). set (y := (u1 * f - v1 * e) / D).
  assert (E1 : x * u1 + y * u2 = e) by (unfold x, y; unfold D in *; field; auto). assert (E2 : x * v1 + y * v2 = f) by (unfold x, y; unfold D in *; field; auto).
  replace b1 with (a1 + u1) by (unfold u1; ring). replace b2 with (a2 + u2) by (unfold u2; ring). replace c1 with (a1 + v1) by (unfold v1; ring). replace c2 with (a2 + v2) by (unfold v2; ring).
  unfold e in E1. unfold f in E2. clearbody x y u1 u2 v1 v2. split; nra.
Qed.

Lemma Kon_not c0 c1 c2 K1 : posc c0 -> posc c1 -> posc c2 -> dist (cO c0) (cO c1) = cr c0 - cr c1 -> dist (cO c0) (cO c2) = cr c0 - cr c2 -> tang c1 c2 ->
  dist (cO c0) K1 = cr c0 -> dist (cO c1) K1 = cr c1 -> cr c1 < cr c0 /\ dist (cO c2) K1 <> cr c2.
Proof.
  unfold posc. intros P0 P1 P2 T1 T2 T A1 B1.
  assert (L : cr c1 < cr c0). { pose proof (dist_nonneg (cO c0) (cO c1)) as D. destruct (Req_dec (cr c0) (cr c1)) as [E|]; [|lra]. exfalso. pose proof (dist_triangle (cO c1) (cO c0) (cO c2)) as Q. unfold tang in T. rewrite (dist_sym (cO c1) (cO c0)) in Q. lra. }
  split; [auto|]. intros B2. pose proof (contact_int c0 c1 K1 (cO c2) P0 P1 T1 A1 B1) as E. unfold pow_circle in E. rewrite <- !dist_sq in E. unfold tang in T. rewrite B2, T, T2 in E.
  assert (0 < cr c0 * cr c1 * cr c2) by (repeat apply Rmult_lt_0_compat; auto). nra.
Qed.

Section Wall.
Variables (c0 c1 c2 : circle) (K1 K2 : pt).
Hypothesis P0 : posc c0.
Hypothesis P1 : posc c1.
Hypothesis P2 : posc c2.
Hypothesis T1 : dist (cO c0) (cO c1) = cr c0 - cr c1.
Hypothesis T2 : dist (cO c0) (cO c2) = cr c0 - cr c2.
Hypothesis T : tang c1 c2.
Hypothesis A1 : dist (cO c0) K1 = cr c0.
Hypothesis B1 : dist (cO c1) K1 = cr c1.
Hypothesis A2 : dist (cO c0) K2 = cr c0.
Hypothesis B2 : dist (cO c2) K2 = cr c2.
Local Notation J := (contact (cO c2) (cr c2) (cO c1)).

Lemma wall_distinct : J <> K1 /\ J <> K2 /\ K1 <> K2.
Proof.
  assert (T' : tang c2 c1) by (unfold tang in *; rewrite dist_sym, T; ring).
  destruct (Kon_not c0 c1 c2 K1) as (_ & N1); auto. destruct (Kon_not c0 c2 c1 K2) as (_ & N2); auto. split; [|split]; intros E.
  - apply N1. rewrite <- E. apply contact_dist2; auto.
  - apply N2. rewrite <- E. apply contact_dist1; auto.
  - apply N1. rewrite E. auto.
Qed.

Lemma wall_circle : cr c1 + cr c2 <> cr c0 -> exists w, circumcircle (mkTri J K1 K2) = Ok (Some w).
Proof.
  intros Ne. destruct wall_distinct as (N1 & N2 & N3). pose proof (tangent_nc (cO c0) (cr c0) c1 c2 P1 P2 T1 T2 T Ne) as NC.
  destruct (radical_exists _ _ _ (cr c0) (cr c1) (cr c2) NC) as (P & E1 & E2). set (p := pow_circle (cO c0) (cr c0) P) in *.
  pose proof (power_pos_in c0 c1 c2 P p P0 P1 P2 T1 T2 T eq_refl E1 E2) as Pp.
  assert (T' : tang c2 c1) by (unfold tang in *; rewrite dist_sym, T; ring).
  destruct (Kon_not c0 c1 c2 K1) as (L1 & _); auto. destruct (Kon_not c0 c2 c1 K2) as (L2 & _); auto.
  assert (D : forall X k, 0 < k -> k * dist2 P X = k * p -> dist P X = sqrt p).
  { intros X k Hk E. apply Rmult_eq_reg_l in E; [|lra]. unfold dist. rewrite E. auto. }
  assert (NF : ~ collinear J K1 K2).
  { apply (circle_not_flat P (sqrt p)); auto.
    - apply (D _ (cr c1 + cr c2)); [unfold posc in *; lra|]. rewrite (contact_ext c1 c2 P) by auto. rewrite <- E1, <- E2. ring.
    - apply (D _ (cr c0 - cr c1)); [lra|]. rewrite (contact_int c0 c1 K1 P) by auto. rewrite <- E1. fold p. ring.
    - apply (D _ (cr c0 - cr c2)); [lra|]. rewrite (contact_int c0 c2 K2 P) by auto. rewrite <- E2. fold p. ring. }
  destruct (circumcircle (mkTri J K1 K2)) as [[w|]|e] eqn:Ec; [eauto| |].
  - exfalso. apply circumcircle_none in Ec. tauto.
  - exfalso. apply circumcircle_raise in Ec. cbn [tA tB tC] in Ec. tauto.
Qed.

Lemma wall_line : cr c1 + cr c2 = cr c0 -> circumcircle (mkTri J K1 K2) = Ok None.
Proof.
  intros Eq. destruct wall_distinct as (N1 & N2 & N3). destruct (circumcircle (mkTri J K1 K2)) as [[w|]|e] eqn:Ec; [|auto|].
  - exfalso. apply circumcircle_spec in Ec. cbn [tA tB tC] in Ec. destruct Ec as (_ & _ & O1 & O2 & O3 & _).
    destruct (wall_fixes c0 c1 c2 K1 K2 w P0 P1 P2 T1 T2 T A1 B1 A2 B2 O1 O2 O3) as (F0 & F1 & F2). set (k := cr w ^ 2) in *. clearbody k. clear O1 O2 O3 N1 N2 N3 A1 B1 A2 B2.
    pose proof (dist_sq (cO c0) (cO c1)) as Q1. pose proof (dist_sq (cO c0) (cO c2)) as Q2. pose proof (dist_sq (cO c1) (cO c2)) as Q. unfold tang in T. rewrite T1 in Q1. rewrite T2 in Q2. rewrite T in Q. clear T1 T2 T.
    destruct c0 as [[x0 y0] r0], c1 as [[x1 y1] r1], c2 as [[x2 y2] r2], (cO w) as [p q]. unfold posc, pow_circle, dist2, vsub, sdot in *. cbn [cO cr fst snd] in *.
    assert (Er0 : r0 = r1 + r2) by lra. rewrite Er0 in *. clear Eq Er0.
    assert (Z : (r1 * (x1 - x0) + r2 * (x2 - x0)) * (r1 * (x1 - x0) + r2 * (x2 - x0)) + (r1 * (y1 - y0) + r2 * (y2 - y0)) * (r1 * (y1 - y0) + r2 * (y2 - y0)) = 0).
    { assert (Dt : 2 * ((x1 - x0) * (x2 - x0) + (y1 - y0) * (y2 - y0)) = - 2 * r1 * r2) by lra.
      transitivity (r1 * r1 * ((x1 - x0) * (x1 - x0) + (y1 - y0) * (y1 - y0)) + r2 * r2 * ((x2 - x0) * (x2 - x0) + (y2 - y0) * (y2 - y0)) + r1 * r2 * (2 * ((x1 - x0) * (x2 - x0) + (y1 - y0) * (y2 - y0)))); [ring|]. rewrite <- Q1, <- Q2, Dt. ring. }
    apply Rplus_sqr_eq_0 in Z. destruct Z as (Z1 & Z2).
    assert (G1 : (p - x1) * (p - x1) + (q - y1) * (q - y1) = (p - x0) * (p - x0) + (q - y0) * (q - y0) + r2 * r2 - 2 * ((p - x0) * (x1 - x0) + (q - y0) * (y1 - y0))) by lra.
    assert (G2 : (p - x2) * (p - x2) + (q - y2) * (q - y2) = (p - x0) * (p - x0) + (q - y0) * (q - y0) + r1 * r1 - 2 * ((p - x0) * (x2 - x0) + (q - y0) * (y2 - y0))) by lra.
    rewrite G1 in F1. rewrite G2 in F2. clear G1 G2. set (m := (p - x0) * (p - x0) + (q - y0) * (q - y0)) in *.
    set (g1 := (p - x0) * (x1 - x0) + (q - y0) * (y1 - y0)) in *. set (g2 := (p - x0) * (x2 - x0) + (q - y0) * (y2 - y0)) in *.
    assert (G : r1 * g1 + r2 * g2 = 0) by (transitivity ((p - x0) * (r1 * (x1 - x0) + r2 * (x2 - x0)) + (q - y0) * (r1 * (y1 - y0) + r2 * (y2 - y0))); [unfold g1, g2; ring|rewrite Z1, Z2; ring]).
    clear - P0 P1 P2 F0 F1 F2 G. clearbody m g1 g2. assert (H1 : r1 * k = r1 * (m + r2 * r2 - 2 * g1 - r1 ^ 2)) by (rewrite F1 at 1; auto). assert (H2 : r2 * k = r2 * (m + r1 * r1 - 2 * g2 - r2 ^ 2)) by (rewrite F2 at 1; auto).
    assert (H0 : (r1 + r2) * k = (r1 + r2) * (m - (r1 + r2) ^ 2)) by (rewrite F0 at 1; auto). assert (0 < r1 * r2 * (r1 + r2)) by (repeat apply Rmult_lt_0_compat; auto). nra.
  - exfalso. apply circumcircle_raise in Ec. cbn [tA tB tC] in Ec. tauto.
Qed.
End Wall.

(** ** the radii of the chain *)
Lemma chain_radius c0 n phi sh i : (3 <= n)%nat -> 0 < cr c0 -> phi <> 0 -> Rabs phi < 1 ->
  let a := sin (PI / INR n) * (1 - phi * phi) in let x := 1 + phi * phi - 2 * phi * cos (arg_of n sh i) in
  0 < a /\ (1 - Rabs phi) * (1 - Rabs phi) <= x <= (1 + Rabs phi) * (1 + Rabs phi) /\ cr (chain_circle c0 n phi sh i) = cr c0 * a / (a + x).
Proof.
  intros Hn P0 Hp H1 a x. pose proof (steiner_sine_bounds n Hn) as Hs. unfold steiner_sine in Hs. set (s := sin (PI / INR n)) in *. set (co := cos (arg_of n sh i)) in *.
  assert (Sq : phi * phi = Rabs phi * Rabs phi) by (symmetry; apply Rabs_sq). pose proof (Rabs_pos phi) as Fp. assert (Pp : 0 < Rabs phi) by (apply Rabs_pos_lt; auto).
  assert (Pa : 0 < a) by (unfold a; rewrite Sq; apply Rmult_lt_0_compat; nra).
  assert (C : Rabs (phi * co) <= Rabs phi). { rewrite Rabs_mult. assert (Rabs co <= 1) by (apply Rabs_le; unfold co; pose proof (COS_bound (arg_of n sh i)); lra). nra. }
  pose proof (Rle_abs (phi * co)) as C1. pose proof (Rle_abs (- (phi * co))) as C2. rewrite Rabs_Ropp in C2.
  assert (Bx : (1 - Rabs phi) * (1 - Rabs phi) <= x <= (1 + Rabs phi) * (1 + Rabs phi)) by (unfold x; fold co; rewrite Sq; split; lra).
  split; [auto|]. split; [auto|].
  unfold chain_circle, st_img, st_scale. rewrite (proj2 (eqb_false _ _) Hp). cbn [cr]. unfold inv_scale, st_power, pow_circle, base_circle, base_radius. cbn [cO cr]. rewrite <- arg_base by auto.
  change (steiner_sine n) with s. unfold unit_vector_. pose proof (sin2_cos2 (arg_of n sh i)) as E. unfold Rsqr in E. fold co in E |- *. set (si := sin (arg_of n sh i)) in *.
  assert (ED : dist2 (vadd (vscal (cr c0 / (1 + s)) (co, si)) (cO c0)) (st_pole c0 phi) = cr c0 / (1 + s) * (cr c0 / (1 + s)) + cr c0 * (1 / phi) * (cr c0 * (1 / phi)) - 2 * (cr c0 / (1 + s)) * (cr c0 * (1 / phi)) * co).
  { unfold st_pole. destruct (cO c0) as [p q]. unfold dist2, vadd, vscal, vsub, sdot. cbn [fst snd]. set (d := cr c0 / (1 + s)). set (e := cr c0 * (1 / phi)). transitivity (d * d * (si * si + co * co) + e * e - 2 * d * e * co); [ring|rewrite E; ring]. }
  rewrite ED. 
  assert (EP : cr c0 / (1 + s) * (cr c0 / (1 + s)) + cr c0 * (1 / phi) * (cr c0 * (1 / phi)) - 2 * (cr c0 / (1 + s)) * (cr c0 * (1 / phi)) * co - (cr c0 / (1 + s) * s) ^ 2 = cr c0 * cr c0 / (phi * phi * (1 + s)) * (a + x)).
  { unfold a, x. fold co. field. split; auto. lra. }
  rewrite EP. assert (0 < a + x) by (assert (0 < (1 - Rabs phi) * (1 - Rabs phi)) by nra; lra). set (z := a + x) in *. unfold a. clearbody z. field. repeat split; auto; lra.
Qed.

Lemma arg_next n sh i : (3 <= n)%nat -> (i < n)%nat -> cos (arg_of n sh (nx n i)) = cos (arg_of n sh i + PI / INR n + PI / INR n).
Proof.
  intros Hn Hi. pose proof (INR3 n Hn) as H3. unfold nx. destruct (Nat.eq_dec (S i) n) as [E|D].
  - rewrite E, Nat.mod_same by lia. rewrite <- (cos_period (arg_of n sh 0) 1). f_equal. unfold arg_of. rewrite <- E in *. rewrite S_INR in *. cbn [INR] in *. field. lra.
  - rewrite Nat.mod_small by lia. f_equal. unfold arg_of. rewrite S_INR. field. lra.
Qed.

(** two neighbours are in line with the centre of the outer circle for some directions only *)
Lemma chain_in_line c0 n phi sh i : (3 <= n)%nat -> (i < n)%nat -> 0 < cr c0 -> phi <> 0 -> Rabs phi < 1 ->
  cr (chain_circle c0 n phi sh i) + cr (chain_circle c0 n phi sh (nx n i)) = cr c0 <->
  2 * phi * cos (arg_of n sh i + PI / INR n) = (1 + phi * phi) * cos (PI / INR n).
Proof.
  intros Hn Hi P0 Hp H1. destruct (chain_radius c0 n phi sh i Hn P0 Hp H1) as (Pa & B1 & E1). destruct (chain_radius c0 n phi sh (nx n i) Hn P0 Hp H1) as (_ & B2 & E2). rewrite E1, E2. rewrite (arg_next n sh i Hn Hi) in *. clear E1 E2.
  set (al := PI / INR n) in *. set (th := arg_of n sh i + al) in *. replace (arg_of n sh i) with (th - al) in * by (unfold th; ring). rewrite cos_minus, cos_plus in *.
  pose proof (sin2_cos2 al) as Sa. pose proof (sin2_cos2 th) as St. unfold Rsqr in *. set (s := sin al) in *. set (c := cos al) in *. set (ct := cos th) in *. set (st := sin th) in *.
  set (a := s * (1 - phi * phi)) in *. set (x1 := 1 + phi * phi - 2 * phi * (ct * c + st * s)) in *. set (x2 := 1 + phi * phi - 2 * phi * (ct * c - st * s)) in *.
  assert (D : 0 < (1 - Rabs phi) * (1 - Rabs phi)) by nra. assert (Q : x1 * x2 - a * a = (2 * phi * ct - (1 + phi * phi) * c) * (2 * phi * ct - (1 + phi * phi) * c)).
  { unfold x1, x2, a. assert (Ec : c * c = 1 - s * s) by lra. assert (Et : st * st = 1 - ct * ct) by lra.
    transitivity ((1 + phi * phi) * (1 + phi * phi) - 4 * phi * (1 + phi * phi) * ct * c + 4 * phi * phi * (ct * ct * (c * c) - (st * st) * (s * s)) - s * s * ((1 - phi * phi) * (1 - phi * phi))); [ring|].
    rewrite Et. transitivity ((1 + phi * phi) * (1 + phi * phi) * (c * c) - 4 * phi * (1 + phi * phi) * ct * c + 4 * phi * phi * (ct * ct)); [rewrite Ec; ring|ring]. }
  assert (Z : cr c0 * a / (a + x1) + cr c0 * a / (a + x2) - cr c0 = - cr c0 * (x1 * x2 - a * a) / ((a + x1) * (a + x2))) by (field; lra).
  assert (PP : 0 < (a + x1) * (a + x2)) by (apply Rmult_lt_0_compat; lra). split; intros H.
  - assert (Y : x1 * x2 - a * a = 0). { assert (W : - cr c0 * (x1 * x2 - a * a) / ((a + x1) * (a + x2)) = 0) by lra. unfold Rdiv in W. apply Rmult_integral in W. destruct W as [W|W]; [|exfalso; revert W; apply Rinv_neq_0_compat; lra]. apply Rmult_integral in W. destruct W; lra. }
    rewrite Q in Y. apply Rmult_integral in Y. destruct Y; lra.
  - assert (Y : x1 * x2 - a * a = 0) by (rewrite Q, H; ring). rewrite Y in Z. unfold Rdiv in Z. rewrite Rmult_0_r, Rmult_0_l in Z. unfold Rdiv. lra.
Qed.

Lemma chain_lower c0 n phi sh i : (3 <= n)%nat -> 0 < cr c0 -> phi <> 0 -> Rabs phi < 1 ->
  let f := Rabs phi in let s := sin (PI / INR n) in 0 < cr c0 * (s * (1 - f)) / (s * (1 - f) + (1 + f)) <= cr (chain_circle c0 n phi sh i).
Proof.
  intros Hn P0 Hp H1 f s. destruct (chain_radius c0 n phi sh i Hn P0 Hp H1) as (Pa & (_ & B) & ->). fold s f in B, Pa |- *. pose proof (steiner_sine_bounds n Hn) as Hs. unfold steiner_sine in Hs. fold s in Hs. assert (Fp : 0 < f) by (apply Rabs_pos_lt; auto). fold f in H1.
  assert (Sq : phi * phi = f * f) by (symmetry; apply Rabs_sq). set (x := 1 + phi * phi - 2 * phi * cos (arg_of n sh i)) in *. assert (Ex : 0 < x). { destruct (chain_radius c0 n phi sh i Hn P0 Hp H1) as (_ & (B1 & _) & _). fold f x in B1. assert (0 < (1 - f) * (1 - f)) by nra. lra. }
  rewrite Sq in *. set (u := s * (1 - f)). assert (Pu : 0 < u) by (unfold u; nra). assert (Ea : s * (1 - f * f) = u * (1 + f)) by (unfold u; ring). rewrite Ea in *. split.
  - apply Rdiv_lt_0_compat; nra.
  - apply (Rmult_le_reg_r ((u + (1 + f)) * (u * (1 + f) + x))); [apply Rmult_lt_0_compat; nra|]. replace (cr c0 * u / (u + (1 + f)) * ((u + (1 + f)) * (u * (1 + f) + x))) with (cr c0 * u * (u * (1 + f) + x)) by (field; lra). replace (cr c0 * (u * (1 + f)) / (u * (1 + f) + x) * ((u + (1 + f)) * (u * (1 + f) + x))) with (cr c0 * u * ((1 + f) * (u + (1 + f)))) by (field; nra).
    apply Rmult_le_compat_l; nra.
Qed.
