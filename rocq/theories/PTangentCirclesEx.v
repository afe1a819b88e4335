(** * The circles of the script (C92): the two tangent circles are found. *)

From Coq Require Import Reals Lra Psatz List Bool.
From Verif Require Import Base BaseLemmas Spec SpecLemmas SpecTriangle ModelInternal ModelLine ModelCircle
  ModelTriangle ModelInversion ModelTangentCircles PLine PCircle PInvBase PAffine PTriangle PTriangle2 PInversion PInversion2 PInversionEx PTangentCircles.
Import ListNotations.
Local Open Scope R_scope.

Lemma offset_sq l : lA l <> lB l -> 0 <= snd (direction_offset l) /\
  snd (direction_offset l) * snd (direction_offset l) * dist2 (lA l) (lB l) = scross (lA l) (lB l) * scross (lA l) (lB l).
Proof.
  intros H. destruct (direction_offset_spec l H) as (_ & Ho & Hcs & (k & _ & Hc & Hs) & Hoff). split; auto.
  rewrite Hoff, Hc, Hs. rewrite Hc, Hs in Hcs. destruct (lA l) as [a b], (lB l) as [c d]. unspec. unpt.
  transitivity ((k * (d - b) * (k * (d - b)) + - k * (c - a) * (- k * (c - a))) * ((a * d - b * c) * (a * d - b * c))); [ring|rewrite Hcs; ring].
Qed.

Lemma offset_far l1 l2 : snd (direction_offset l1) < 6 -> 7 < snd (direction_offset l2) < 8 -> 0 <= snd (direction_offset l1) -> line_is_equal l1 l2 = false.
Proof.
  intros H1 H2 H0. unfold line_is_equal. destruct (direction_offset l1) as [d1 o1], (direction_offset l2) as [d2 o2]. cbn [fst snd] in *.
  unfold approx_equal_. assert (E : isclose o1 o2 = false) by evalclose. assert (E' : isclose (o1 + 1) (o2 + 1) = false) by evalclose.
  rewrite E, E'. cbn [orb]. unfold allclose. cbn [fst snd]. rewrite andb_comm. assert (E2 : allclose1 o1 o2 = false) by evalclose. rewrite E2. reflexivity.
Qed.

Lemma circumcircle_some A B C : ~ collinear A B C -> exists c, circumcircle (mkTri A B C) = Ok (Some c).
Proof.
  intros H. assert (A <> B /\ A <> C) as [N1 N2].
  { split; intros K; apply H; rewrite K; rewrite collinear_cross; unspec; unpt; ring. }
  destruct (circumcircle (mkTri A B C)) as [[c|]|e] eqn:E; eauto; exfalso.
  - apply circumcircle_none in E. cbn [tA tB tC] in E. tauto.
  - apply circumcircle_raise in E. cbn [tA tB tC] in E. tauto.
Qed.

Lemma inv_triple I1 k1 I2 k2 T : T <> I1 -> T <> I2 -> k1 <> dist2 I1 T -> k2 <> dist2 I2 T -> scross (vsub T I1) (vsub T I2) <> 0 ->
  ~ collinear T (inv_pt I1 k1 T) (inv_pt I2 k2 T).
Proof.
  intros N1 N2 K1 K2 HX H. rewrite collinear_cross in H. pose proof (dist2_pos I1 T ltac:(auto)) as P1. pose proof (dist2_pos I2 T ltac:(auto)) as P2.
  unfold inv_pt in H. set (s1 := k1 / dist2 I1 T) in *. set (s2 := k2 / dist2 I2 T) in *.
  assert (S1 : s1 <> 1). { intros E. apply K1. transitivity (s1 * dist2 I1 T); [unfold s1; field; lra|rewrite E; ring]. }
  assert (S2 : s2 <> 1). { intros E. apply K2. transitivity (s2 * dist2 I2 T); [unfold s2; field; lra|rewrite E; ring]. }
  clearbody s1 s2. assert (E : (s1 - 1) * ((s2 - 1) * scross (vsub T I1) (vsub T I2)) = 0).
  { rewrite <- H. destruct T as [x y], I1 as [a b], I2 as [c d]. unspec. unpt. ring. }
  apply Rmult_integral in E. destruct E as [E|E]; [lra|]. apply Rmult_integral in E. destruct E; lra.
Qed.

Lemma ex_iota1 : from_swapping_two_circles (mkCircle (0, 0) 2) (mkCircle (6, -2) 1) true = ([], Some (mkInv (12, -4) 78)).
Proof.
  unfold from_swapping_two_circles. cbn [cO cr]. rewrite distance_dist.
  assert (Hd : 3 < dist (0, 0) (6, -2)). { unfold dist. replace 3 with (sqrt 9) by (replace 9 with (3 * 3) by ring; apply sqrt_square; lra). apply sqrt_lt_1; unspec; unpt; lra. }
  rewrite (proj2 (eqb_false 2 1)) by lra. rewrite Rmin_right, Rmax_left by lra. rewrite (proj2 (leb_false _ _)) by lra. cbn [negb andb orb].
  do 2 f_equal. f_equal; unfold dot_; unpt.
  - f_equal; field.
  - match goal with |- context [Rabs ?x] => replace (Rabs x) with 39 by (rewrite Rabs_pos_eq; field_simplify; lra) end. field.
Qed.

Lemma ex_iota2 : from_swapping_two_circles (mkCircle (5, 5) 3) (mkCircle (6, -2) 1) true = ([], Some (mkInv (13 / 2, - 11 / 2) (69 / 2))).
Proof.
  unfold from_swapping_two_circles. cbn [cO cr]. rewrite distance_dist.
  assert (Hd : 3 < dist (5, 5) (6, -2)). { unfold dist. replace 3 with (sqrt 9) by (replace 9 with (3 * 3) by ring; apply sqrt_square; lra). apply sqrt_lt_1; unspec; unpt; lra. }
  rewrite (proj2 (eqb_false 3 1)) by lra. rewrite Rmin_right, Rmax_left by lra. rewrite (proj2 (leb_false _ _)) by lra. cbn [negb andb orb].
  do 2 f_equal. f_equal; unfold dot_; unpt.
  - f_equal; field.
  - match goal with |- context [Rabs ?x] => replace (Rabs x) with (23 / 2) by (rewrite Rabs_pos_eq; field_simplify; lra) end. field.
Qed.

Lemma ex_circle : exists Cc, circumcircle (mkTri (7, -2) (inv_pt (12, -4) 78 (7, -2)) (inv_pt (13 / 2, - 11 / 2) (69 / 2) (7, -2))) = Ok (Some Cc) /\
  cO Cc = (263 / 74, 121 / 74) /\ cr Cc = sqrt (68693 / 2738).
Proof.
  assert (E1 : inv_pt (12, -4) 78 (7, -2) = (- (42 / 29), 40 / 29)) by (unfold inv_pt; unspec; unpt; f_equal; field).
  assert (E2 : inv_pt (13 / 2, - 11 / 2) (69 / 2) (7, -2) = (197 / 25, 104 / 25)) by (unfold inv_pt; unspec; unpt; f_equal; field).
  rewrite E1, E2. destruct (circumcircle_some (7, -2) (- (42 / 29), 40 / 29) (197 / 25, 104 / 25)) as (Cc & EC).
  { rewrite collinear_cross. unspec. unpt. lra. }
  exists Cc. split; auto. destruct (circumcircle_spec _ _ EC) as (_ & _ & _ & _ & _ & U). cbn [tA tB tC] in U.
  assert (S : sqrt (68693 / 2738) * sqrt (68693 / 2738) = 68693 / 2738) by (apply sqrt_sqrt; lra). pose proof (sqrt_pos (68693 / 2738)).
  destruct (U (263 / 74, 121 / 74) (sqrt (68693 / 2738))) as [<- <-]; auto;
    (apply on_circle_sq; [auto|]; rewrite S; unspec; unpt; field).
Qed.

(** the points of the small circle that may be found *)
Lemma ex_final T : on_circle (6, -2) 1 T -> exists S, circumcircle_ext (Pt T) (invert (mkInv (12, -4) 78) (Pt T)) (invert (mkInv (13 / 2, - 11 / 2) (69 / 2)) (Pt T)) = Ok (Some S).
Proof.
  intros H. apply on_circle_sq in H; [|lra]. destruct T as [x y]. unspec. unpt.
  pose proof (sqnn (x - 6)). pose proof (sqnn (y - -2)).
  assert (Hx : -1 <= x - 6 <= 1) by (split; nra). assert (Hy : -1 <= y + 2 <= 1) by (replace (y - -2) with (y + 2) in * by ring; split; nra).
  assert (I1 : invert (mkInv (12, -4) 78) (Pt (x, y)) = Pt (inv_pt (12, -4) 78 (x, y))).
  { unfold invert. cbn [ipole ipower]. assert (E : allclose (12, -4) (x, y) = false).
    { unfold allclose. cbn [fst snd]. assert (E : allclose1 12 x = false) by evalclose. rewrite E. reflexivity. }
    rewrite E. unfold inv_pt, dot_, dist2. do 2 f_equal. }
  assert (I2 : invert (mkInv (13 / 2, - 11 / 2) (69 / 2)) (Pt (x, y)) = Pt (inv_pt (13 / 2, - 11 / 2) (69 / 2) (x, y))).
  { unfold invert. cbn [ipole ipower]. assert (E : allclose (13 / 2, - 11 / 2) (x, y) = false).
    { unfold allclose. cbn [fst snd]. assert (E : allclose1 (- 11 / 2) y = false) by evalclose. rewrite E, andb_false_r. reflexivity. }
    rewrite E. unfold inv_pt, dot_, dist2. do 2 f_equal. }
  rewrite I1, I2. cbn [circumcircle_ext]. apply circumcircle_some. apply inv_triple.
  - intros E. injection E as E1 E2. lra.
  - intros E. injection E as E1 E2. lra.
  - unspec. unpt. nra.
  - unspec. unpt. nra.
  - unspec. unpt. intros E. assert (Hl : 11 * (y + 2) - 3 * (x - 6) = 40) by lra. nra.
Qed.

Lemma ex_tangent_circles : exists S0 S1, tangent_circles (mkCircle (0, 0) 2) (mkCircle (5, 5) 3) (mkCircle (6, -2) 1) = Ok (Some S0, Some S1).
Proof.
  unfold tangent_circles. rewrite ex_iota1, ex_iota2. cbn [snd ipole ipower].
  assert (EM : circle_point_from_angle (mkCircle (6, -2) 1) 0 true = (7, -2)).
  { rewrite point_from_angle_eq. unfold radians, deg. cbn [cO cr]. replace (0 * PI / 180) with 0 by field. rewrite cos_0, sin_0. unpt. f_equal; ring. }
  rewrite EM. set (O3 := mkCircle (6, -2) 1). cbv zeta.
  assert (X1 : invert (mkInv (12, -4) 78) (Pt (7, -2)) = Pt (inv_pt (12, -4) 78 (7, -2))).
  { unfold invert. cbn [ipole ipower]. assert (E : allclose (12, -4) (7, -2) = false) by evalclose. rewrite E. unfold inv_pt, dot_, dist2. do 2 f_equal. }
  assert (X2 : invert (mkInv (13 / 2, - 11 / 2) (69 / 2)) (Pt (7, -2)) = Pt (inv_pt (13 / 2, - 11 / 2) (69 / 2) (7, -2))).
  { unfold invert. cbn [ipole ipower]. assert (E : allclose (13 / 2, - 11 / 2) (7, -2) = false) by evalclose. rewrite E. unfold inv_pt, dot_, dist2. do 2 f_equal. }
  rewrite X1, X2. cbn [circumcircle_ext]. destruct ex_circle as (Cc & -> & EO & Er). cbn [bind].
  assert (S : sqrt (68693 / 2738) * sqrt (68693 / 2738) = 68693 / 2738) by (apply sqrt_sqrt; lra).
  unfold Line_init at 1. assert (E : allclose (12, -4) (13 / 2, - 11 / 2) = false) by evalclose. rewrite E. cbn [bind].
  assert (Eo : allclose (cO Cc) (cO O3) = false) by (rewrite EO; unfold O3; cbn [cO]; evalclose).
  assert (HR : radical_axis Cc O3 = Ok (Some (mkLine (663493 / 105122, - (258933 / 105122)) (19344075 / 1944757, - (33490 / 1944757)) true true))).
  { unfold radical_axis. rewrite Eo, EO. unfold O3 at 1. cbn [cO]. unfold vsub at 1. cbn [fst snd].
    unfold radical_center2. rewrite EO, Er, S. unfold O3. cbn [cO cr]. unfold dot_. unpt.
    rewrite (proj2 (eqb_false _ _)) by lra. cbn [bind].
    match goal with |- context [Line_init ?P ?Q] => replace P with (663493 / 105122, - (258933 / 105122)) by (f_equal; field) end. cbn [fst snd].
    match goal with |- context [Line_init ?P ?Q] => replace Q with (19344075 / 1944757, - (33490 / 1944757)) by (f_equal; field) end.
    unfold Line_init. assert (Ea : allclose (663493 / 105122, - (258933 / 105122)) (19344075 / 1944757, - (33490 / 1944757)) = false) by evalclose. rewrite Ea. reflexivity. }
  rewrite HR. cbn [bind]. set (l := mkLine (663493 / 105122, - (258933 / 105122)) (19344075 / 1944757, - (33490 / 1944757)) true true) in *. set (cl := mkLine (12, -4) (13 / 2, - 11 / 2) true true).
  assert (Hl : lA l <> lB l) by (unfold l; cbn [lA lB]; intros K; injection K as K1 K2; lra).
  assert (Hcl : lA cl <> lB cl) by (unfold cl; cbn [lA lB]; intros K; injection K as K1 K2; lra).
  assert (Hle : line_is_equal l cl = false).
  { destruct (offset_sq l Hl) as [A1 A2]. destruct (offset_sq cl Hcl) as [B1 B2]. apply offset_far; auto.
    - revert A1 A2. generalize (snd (direction_offset l)). intros o. unfold l. cbn [lA lB]. unspec. unpt. intros. nra.
    - revert B1 B2. generalize (snd (direction_offset cl)). intros o. unfold cl. cbn [lA lB]. unspec. unpt. intros. split; nra. }
  destruct (intersection_line_line_complete l cl) as (H & EH); auto.
  { unfold sepsilon_, l, cl. cbn [lA lB]. unspec. unpt. split_Rabs; lra. }
  destruct (intersection_line_line_sound l cl false H Hl Hcl EH) as (H1 & H2 & _). rewrite EH.
  apply on_line_cross in H1, H2; auto.
  assert (HH : H = (- (45 / 32), - (245 / 32))).
  { destruct H as [x y]. unfold l, cl in H1, H2. cbn [lA lB] in H1, H2. unspec. unpt. f_equal; lra. }
  clearbody l cl. subst H. clear EH H1 H2.
  destruct (circleAB_spec (- (45 / 32), - (245 / 32)) (cO O3)) as [_ Cb].
  destruct Cb as (Cp & -> & PCp & EcO & _ & EcB & _); [unfold O3; cbn [cO]; evalclose|]. cbn [bind].
  apply on_circle_sq in EcB; [|lra]. rewrite EcO in EcB. 
  assert (Hrp : 4 < cr Cp < 5). { unfold O3 in EcB. cbn [cO] in EcB. unfold midpoint in EcB. unspec. unpt. split; nra. }
  assert (Er2 : cr Cp * cr Cp = 44465 / 2048). { rewrite <- EcB. unfold O3. cbn [cO]. unfold midpoint. unspec. unpt. field. }
  assert (HI : exists T0 T1, intersection_circle_circle O3 Cp = Ok (CCPoints (ITwo T0 T1))).
  { unfold intersection_circle_circle, circle_is_equal. rewrite EcO. unfold midpoint, O3, approx_equal_. cbn [cO cr].
    assert (Y1 : isclose 1 (cr Cp) = false) by evalclose. assert (Y2 : isclose (1 + 1) (cr Cp + 1) = false) by evalclose. rewrite Y1, Y2. cbn [orb andb].
    unfold dot_. unpt. set (d2 := _ * _ + _ * _).
    assert (Hd2 : d2 = 44465 / 2048) by (unfold d2; field). rewrite Hd2. unfold sepsilon_.
    set (rp := cr Cp) in *. clearbody rp. clear - Hrp Er2.
    rewrite (proj2 (ltb_false ((1 + rp) ^ 2 + / 67108864) (44465 / 2048))) by nra. rewrite (proj2 (ltb_false (44465 / 2048) ((1 - rp) ^ 2 - / 67108864))) by nra.
    rewrite (proj2 (ltb_false ((1 + rp) ^ 2 - 44465 / 2048) (/ 67108864))) by nra. rewrite (proj2 (ltb_false (44465 / 2048 - (1 - rp) ^ 2) (/ 67108864))) by nra. cbn [orb].
    rewrite (proj2 (eqb_false _ _)); [cbn [bind]; eauto|]. assert (0 < sqrt (4 * (44465 / 2048))) by (apply sqrt_lt_R0; lra). lra. }
  destruct HI as (T0 & T1 & HI). pose proof (icc_spec O3 Cp ltac:(unfold O3; cbn [cr]; lra) PCp) as Hs. rewrite HI in Hs. destruct Hs as (_ & A0 & _ & A1 & _).
  change (intersection_circle_circle (mkCircle (6, -2) 1) Cp) with (intersection_circle_circle O3 Cp). rewrite HI. cbn [bind]. unfold O3 in A0, A1. cbn [cO cr] in A0, A1.
  destruct (ex_final T0 A0) as (S0 & F0). destruct (ex_final T1 A1) as (S1 & F1). cbn [circumcircle_ext] in F0, F1. rewrite F0, F1. cbn [bind]. eauto.
Qed.
