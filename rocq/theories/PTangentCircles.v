(** * Proofs about the script that draws circles tangent to three circles (C92). *)

From Coq Require Import Reals Lra Psatz List Bool.
From Verif Require Import Base BaseLemmas Spec SpecLemmas SpecTriangle ModelInternal ModelLine ModelCircle
  ModelTriangle ModelInversion ModelTangentCircles PLine PCircle PInvBase PAffine PTriangle PTriangle2 PInversion PInversion2 PInversionEx.
Import ListNotations.
Local Open Scope R_scope.

(** a circle through a point and its inverse: the pole has the power of the inversion *)
Lemma pow_of_pair I k O r M : 0 < r -> M <> I -> inv_pt I k M <> M ->
  on_circle O r M -> on_circle O r (inv_pt I k M) -> pow_circle O r I = k.
Proof.
  intros Hr HM Hne H1 H2. pose proof (dist2_pos I M ltac:(auto)) as Hd. apply on_circle_sq in H1, H2; try lra.
  unfold pow_circle. unfold inv_pt in *. set (s := k / dist2 I M) in *. assert (Hs : k = s * dist2 I M) by (unfold s; field; lra). rewrite Hs. clearbody s. clear Hs k.
  destruct I as [i1 i2], O as [o1 o2], M as [m1 m2]. unspec. unpt.
  set (u := m1 - i1) in *. set (v := m2 - i2) in *. set (a := o1 - i1). set (b := o2 - i2).
  assert (E1 : (u - a) * (u - a) + (v - b) * (v - b) = r * r) by (rewrite <- H1; unfold u, v, a, b; ring).
  assert (E2 : (s * u - a) * (s * u - a) + (s * v - b) * (s * v - b) = r * r) by (rewrite <- H2; unfold a, b; ring).
  assert (Hs1 : s <> 1). { intros ->. apply Hne. unfold u, v. f_equal; ring. }
  assert (E3 : (1 - s) * ((1 + s) * (u * u + v * v) - 2 * (u * a + v * b)) = 0).
  { rewrite <- E2 in E1. lra. }
  apply Rmult_integral in E3. destruct E3 as [E3|E3]; [lra|].
  transitivity (a * a + b * b - r * r); [unfold a, b; ring|]. rewrite <- E1. lra.
Qed.

(** two circles for which two points have the same powers: so have the points of the line *)
Lemma pow_line O1 r1 O2 r2 A B M : pow_circle O1 r1 A = pow_circle O2 r2 A -> pow_circle O1 r1 B = pow_circle O2 r2 B ->
  on_line A B M -> pow_circle O1 r1 M = pow_circle O2 r2 M.
Proof.
  intros H1 H2 (t & ->). destruct O1 as [a b], O2 as [c d], A as [x y], B as [z w]. unfold pow_circle, at_line in *. unspec. unpt.
  set (p1 := (x - a) * (x - a) + (y - b) * (y - b) - r1 ^ 2) in *. set (p2 := (x - c) * (x - c) + (y - d) * (y - d) - r2 ^ 2) in *.
  set (q1 := (z - a) * (z - a) + (w - b) * (w - b) - r1 ^ 2) in *. set (q2 := (z - c) * (z - c) + (w - d) * (w - d) - r2 ^ 2) in *.
  transitivity ((1 - t) * p1 + t * q1 - t * (1 - t) * ((z - x) * (z - x) + (w - y) * (w - y))); [unfold p1, q1; ring|].
  rewrite H1, H2. unfold p2, q2. ring.
Qed.

(** two circles through T whose radii there are orthogonal to the same direction *)
Lemma touch_at O1 r1 O2 r2 T H : 0 < r1 -> 0 < r2 -> on_circle O1 r1 T -> on_circle O2 r2 T -> H <> T ->
  sdot (vsub H T) (vsub T O1) = 0 -> sdot (vsub H T) (vsub T O2) = 0 -> ~ (O1 = O2 /\ r1 = r2) ->
  unique (fun M => on_circle O1 r1 M /\ on_circle O2 r2 M) T.
Proof.
  intros P1 P2 H1 H2 HT D1 D2 Hne. split; auto. intros N [N1 N2].
  apply on_circle_sq in H1, H2, N1, N2; try lra. pose proof (dist2_pos T H ltac:(auto)) as HL.
  destruct O1 as [a b], O2 as [c d], T as [x y], H as [h1 h2], N as [z w]. unspec. unpt.
  set (u := h1 - x) in *. set (v := h2 - y) in *. set (p := z - x). set (q := w - y).
  assert (N1' : p * p + q * q + 2 * (p * (x - a) + q * (y - b)) = 0).
  { transitivity ((z - a) * (z - a) + (w - b) * (w - b) - ((x - a) * (x - a) + (y - b) * (y - b))); [unfold p, q; ring|rewrite N1, H1; ring]. }
  assert (N2' : p * p + q * q + 2 * (p * (x - c) + q * (y - d)) = 0).
  { transitivity ((z - c) * (z - c) + (w - d) * (w - d) - ((x - c) * (x - c) + (y - d) * (y - d))); [unfold p, q; ring|rewrite N2, H2; ring]. }
  (* coordinates along (-v, u) *)
  set (L := u * u + v * v) in *.
  set (al := - v * (x - a) + u * (y - b)). set (be := - v * (x - c) + u * (y - d)). set (s := - v * p + u * q).
  assert (A1 : L * (p * (x - a) + q * (y - b)) = s * al).
  { transitivity (s * al + (u * p + v * q) * (u * (x - a) + v * (y - b))); [unfold s, al, L; ring|rewrite D1; ring]. }
  assert (A2 : L * (p * (x - c) + q * (y - d)) = s * be).
  { transitivity (s * be + (u * p + v * q) * (u * (x - c) + v * (y - d))); [unfold s, be, L; ring|rewrite D2; ring]. }
  assert (S1 : s * (al - be) = 0).
  { assert (X : p * (x - a) + q * (y - b) = p * (x - c) + q * (y - d)) by lra. rewrite X, A2 in A1. lra. }
  apply Rmult_integral in S1. destruct S1 as [S1|S1].
  - rewrite S1 in A1. assert (p * (x - a) + q * (y - b) = 0) by (apply Rmult_eq_reg_l with L; lra).
    assert (E : p * p + q * q = 0) by lra. pose proof (sqnn p). pose proof (sqnn q).
    assert (p = 0) by (apply sq0; lra). assert (q = 0) by (apply sq0; lra). unfold p, q in *. f_equal; lra.
  - exfalso. apply Hne. assert (E1 : L * (a - c) = 0).
    { transitivity (u * (- (u * (x - a) + v * (y - b)) + (u * (x - c) + v * (y - d))) + v * (al - be)); [unfold al, be, L; ring|rewrite D1, D2, S1; ring]. }
    assert (E2 : L * (b - d) = 0).
    { transitivity (v * (- (u * (x - a) + v * (y - b)) + (u * (x - c) + v * (y - d))) - u * (al - be)); [unfold al, be, L; ring|rewrite D1, D2, S1; ring]. }
    apply Rmult_integral in E1, E2. assert (a = c) by lra. assert (b = d) by lra. subst. split; auto. rewrite H1 in H2. nra.
Qed.

(** the solution circle at T touches the three circles *)
Lemma solution_touches C1 C2 C3 iota1 iota2 Cc cl H T S out1 out2 : 0 < cr C1 -> 0 < cr C2 -> 0 < cr C3 ->
  from_swapping_two_circles C1 C3 true = (out1, Some iota1) -> from_swapping_two_circles C2 C3 true = (out2, Some iota2) ->
  0 < cr Cc -> pow_circle (cO Cc) (cr Cc) (ipole iota1) = ipower iota1 -> pow_circle (cO Cc) (cr Cc) (ipole iota2) = ipower iota2 ->
  cl = mkLine (ipole iota1) (ipole iota2) true true ->
  pow_circle (cO Cc) (cr Cc) H = pow_circle (cO C3) (cr C3) H -> on_line (lA cl) (lB cl) H ->
  on_circle (cO C3) (cr C3) T -> orthogonal (vsub T H) (vsub T (cO C3)) -> H <> T -> C1 <> C3 ->
  circumcircle_ext (Pt T) (invert iota1 (Pt T)) (invert iota2 (Pt T)) = Ok (Some S) ->
  0 < cr S /\ on_circle (cO S) (cr S) T /\
  unique (fun M => on_circle (cO S) (cr S) M /\ on_circle (cO C3) (cr C3) M) T /\
  (exists M, unique (fun M => on_circle (cO S) (cr S) M /\ on_circle (cO C1) (cr C1) M) M) /\
  (exists M, unique (fun M => on_circle (cO S) (cr S) M /\ on_circle (cO C2) (cr C2) M) M).
Proof.
  intros P1 P2 P3 F1 F2 PC K1 K2 -> KH HL HT Horth HHT Hne E. cbn [lA lB] in HL.
  destruct (swapping_Some _ _ _ _ _ P1 P3 F1) as (Hk1 & _ & Sw1 & _). destruct (swapping_Some _ _ _ _ _ P2 P3 F2) as (Hk2 & _ & Sw2 & _).
  unfold circumcircle_ext in E. destruct (invert iota1 (Pt T)) as [T1|] eqn:I1; [|discriminate]. destruct (invert iota2 (Pt T)) as [T2|] eqn:I2; [|discriminate].
  destruct (circumcircle_spec (mkTri T T1 T2) S E) as (Hcol & PS & O1 & O2 & O3 & _). cbn [tA tB tC] in *.
  apply invert_Pt in I1, I2. destruct I1 as (_ & N1 & ->), I2 as (_ & N2 & ->).
  assert (D1 : inv_pt (ipole iota1) (ipower iota1) T <> T).
  { intros K. apply Hcol. rewrite K. rewrite collinear_cross. unspec. ring. }
  assert (D2 : inv_pt (ipole iota2) (ipower iota2) T <> T).
  { intros K. apply Hcol. rewrite K. rewrite collinear_cross. unspec. ring. }
  pose proof (pow_of_pair _ _ _ _ _ PS N1 D1 O1 O2) as Q1. pose proof (pow_of_pair _ _ _ _ _ PS N2 D2 O1 O3) as Q2.
  assert (QH : pow_circle (cO S) (cr S) H = pow_circle (cO C3) (cr C3) H).
  { rewrite <- KH. apply (pow_line _ _ _ _ (ipole iota1) (ipole iota2)); auto; congruence. }
  assert (Fix1 : inv_maps (ipole iota1) (ipower iota1) (cO S) (cr S) (cO S) (cr S)) by (rewrite <- Q1; apply fixed_circle; auto; rewrite Q1; auto).
  assert (Fix2 : inv_maps (ipole iota2) (ipower iota2) (cO S) (cr S) (cO S) (cr S)) by (rewrite <- Q2; apply fixed_circle; auto; rewrite Q2; auto).
  assert (Hdiff : ~ (cO S = cO C3 /\ cr S = cr C3)).
  { intros [EO Er]. apply Hne. rewrite EO, Er in Fix1.
    destruct (inv_maps_unique _ _ _ _ _ _ Hk1 P3 P1 Sw1) as (_ & A1 & A2). destruct (inv_maps_unique _ _ _ _ _ _ Hk1 P3 P3 Fix1) as (_ & B1 & B2).
    destruct C1 as [o1 r1], C3 as [o3 r3]; cbn [cO cr] in *. rewrite A1, A2. f_equal; auto. }
  assert (U : unique (fun M => on_circle (cO S) (cr S) M /\ on_circle (cO C3) (cr C3) M) T).
  { apply touch_at with H; auto.
    - apply on_circle_sq in HT, O1; try lra. unfold pow_circle in QH. revert QH Horth HT O1. generalize (cO S), (cO C3), (cr S), (cr C3). intros [a b] [c d] r r3.
      destruct H as [h1 h2], T as [x y]. unspec. unpt. unfold orthogonal, sdot in *. cbn [fst snd] in *. intros QH Horth HT O1. nra.
    - unfold orthogonal in Horth. revert Horth. unfold sdot. unpt. intros. lra. }
  split; auto. split; auto. split; auto. split.
  - apply (inv_maps_common (ipole iota1) (ipower iota1) (cO S) (cr S) (cO C3) (cr C3)); eauto.
  - apply (inv_maps_common (ipole iota2) (ipower iota2) (cO S) (cr S) (cO C3) (cr C3)); eauto.
Qed.

Lemma diam_point O3 r H M : 0 < r -> on_circle O3 r H -> on_circle O3 r M -> orthogonal (vsub M H) (vsub M O3) -> M = H.
Proof.
  intros Hr H1 H2 Ho. apply on_circle_sq in H1, H2; try lra. apply dist2_0. revert H1 H2 Ho. destruct O3 as [a b], H as [x y], M as [z w].
  unfold orthogonal, sdot. unspec. unpt. intros. nra.
Qed.

Lemma swap_self c out iota : 0 < cr c -> from_swapping_two_circles c c true = (out, Some iota) ->
  forall M, on_circle (cO c) (cr c) M -> inv_pt (ipole iota) (ipower iota) M = M.
Proof.
  intros Hr E M HM. unfold from_swapping_two_circles in E. rewrite (proj2 (eqb_true (cr c) (cr c)) eq_refl) in E.
  destruct (ltb (distance_ (cO c) (cO c)) (cr c + cr c)) eqn:L.
  - injection E as _ <-. cbn [ipole ipower]. apply on_circle_sq in HM; [|lra]. destruct c as [[a b] r]; cbn [cO cr] in *. destruct M as [x y].
    unfold inv_pt. unspec. unpt. replace (/ 2 * (a + a)) with a by field. replace (/ 2 * (b + b)) with b by field. unfold dot_. cbn [fst snd].
    replace (Rabs ((a - a) * (a - a) + (b - b) * (b - b) - r * r)) with (r * r).
    2:{ replace ((a - a) * (a - a) + (b - b) * (b - b) - r * r) with (- (r * r)) by ring. rewrite Rabs_Ropp, Rabs_pos_eq; nra. }
    rewrite HM. f_equal; field; lra.
  - exfalso. apply ltb_false in L. rewrite distance_dist in L. assert (dist (cO c) (cO c) = 0).
    { unfold dist. replace (dist2 (cO c) (cO c)) with 0 by (unspec; unpt; ring). apply sqrt_0. } lra.
Qed.

Theorem tangent_circles_spec C1 C2 C3 s0 s1 : 0 < cr C1 -> 0 < cr C2 -> 0 < cr C3 -> tangent_circles C1 C2 C3 = Ok (s0, s1) ->
  (forall S, s0 = Some S \/ s1 = Some S -> 0 < cr S /\ forall C, C = C1 \/ C = C2 \/ C = C3 ->
     exists T, unique (fun M => on_circle (cO S) (cr S) M /\ on_circle (cO C) (cr C) M) T) /\
  (forall S, s0 = Some S -> s1 <> Some S).
Proof.
  intros P1 P2 P3 E. unfold tangent_circles in E.
  destruct (from_swapping_two_circles C1 C3 true) as [out1 [iota1|]] eqn:F1; cbn [snd] in E; [|discriminate].
  destruct (from_swapping_two_circles C2 C3 true) as [out2 [iota2|]] eqn:F2; cbn [snd] in E; [|discriminate].
  set (M := circle_point_from_angle C3 0 true) in *.
  assert (HM : on_circle (cO C3) (cr C3) M). { unfold M. apply (proj1 (point_from_angle_spec C3 P3)). }
  apply bind_Ok in E. destruct E as (Cc & EC & E). apply bind_Ok in E. destruct E as (cl & El & E).
  destruct Cc as [Cc|]; [|discriminate]. apply bind_Ok in E. destruct E as (L & EL & E). destruct L as [L|]; [|discriminate].
  destruct (intersection_line_line L cl false) as [H|] eqn:EH; [|discriminate].
  apply bind_Ok in E. destruct E as (Cp & ECp & E). apply bind_Ok in E. destruct E as (T & ET & E).
  destruct T as [?|[|?|T0 T1]]; try discriminate.
  apply bind_Ok in E. destruct E as (S0 & E0 & E). apply bind_Ok in E. destruct E as (S1 & E1 & E). injection E as <- <-.
  unfold circumcircle_ext in EC. destruct (invert iota1 (Pt M)) as [M1|] eqn:I1; [|discriminate]. destruct (invert iota2 (Pt M)) as [M2|] eqn:I2; [|discriminate].
  destruct (circumcircle_spec (mkTri M M1 M2) Cc EC) as (Hcol & PC & O1 & O2 & O3 & _). cbn [tA tB tC] in *.
  apply invert_Pt in I1, I2. destruct I1 as (_ & N1 & ->), I2 as (_ & N2 & ->).
  assert (D1 : inv_pt (ipole iota1) (ipower iota1) M <> M).
  { intros K. apply Hcol. rewrite K. rewrite collinear_cross. unspec. ring. }
  assert (D2 : inv_pt (ipole iota2) (ipower iota2) M <> M).
  { intros K. apply Hcol. rewrite K. rewrite collinear_cross. unspec. ring. }
  pose proof (pow_of_pair _ _ _ _ _ PC N1 D1 O1 O2) as Q1. pose proof (pow_of_pair _ _ _ _ _ PC N2 D2 O1 O3) as Q2.
  assert (Hne : C1 <> C3). { intros ->. apply D1. apply (swap_self C3 out1); auto. }
  destruct (Line_init_cases (ipole iota1) (ipole iota2) true true) as [[Hc El']|[Hc El']]; rewrite El' in El; [|discriminate]. injection El as <-.
  destruct (radical_axis_spec _ _ _ EL) as (HL & RL).
  destruct (intersection_line_line_sound L (mkLine (ipole iota1) (ipole iota2) true true) false H HL) as (HL1 & HL2 & _); auto.
  { cbn [lA lB]. apply allclose_false_neq; auto. }
  apply RL in HL1. destruct (circleAB_spec H (cO C3)) as [Ca Cb]. destruct (allclose H (cO C3)) eqn:Eac.
  { rewrite Ca in ECp by auto. discriminate. }
  destruct (Cb eq_refl) as (Cp' & ECp' & PCp & _ & _ & _ & Horth). rewrite ECp in ECp'. injection ECp' as <-.
  pose proof (icc_spec C3 Cp P3 PCp) as Hic. rewrite ET in Hic. destruct Hic as (HT & A0 & B0 & A1 & B1 & _). apply Horth in B0, B1.
  assert (HH0 : H <> T0). { intros <-. apply HT. symmetry. apply (diam_point (cO C3) (cr C3)); auto. }
  assert (HH1 : H <> T1). { intros <-. apply HT. apply (diam_point (cO C3) (cr C3)); auto. }
  assert (G : forall T S, on_circle (cO C3) (cr C3) T -> orthogonal (vsub T H) (vsub T (cO C3)) -> H <> T ->
    circumcircle_ext (Pt T) (invert iota1 (Pt T)) (invert iota2 (Pt T)) = Ok (Some S) -> _)
    by (intros T S X1 X2 X3 X4; exact (solution_touches C1 C2 C3 iota1 iota2 Cc _ H T S out1 out2 P1 P2 P3 F1 F2 PC Q1 Q2 eq_refl HL1 HL2 X1 X2 X3 Hne X4)).
  split.
  - intros S [-> | ->].
    + destruct (G T0 S A0 B0 HH0 E0) as (X1 & X2 & X3 & X4 & X5). split; auto. intros C [-> |[-> | ->]]; eauto.
    + destruct (G T1 S A1 B1 HH1 E1) as (X1 & X2 & X3 & X4 & X5). split; auto. intros C [-> |[-> | ->]]; eauto.
  - intros S -> ->. destruct (G T0 S A0 B0 HH0 E0) as (_ & _ & [_ U] & _). destruct (G T1 S A1 B1 HH1 E1) as (_ & _ & [V _] & _). apply HT, U, V.
Qed.
