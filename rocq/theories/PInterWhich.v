(** * When intersection_circle_circle returns nothing, one point, two points; intersection of two lines far from parallel *)

From Coq Require Import Reals Lra Bool.
From Verif Require Import Base BaseLemmas Spec SpecLemmas ModelInternal ModelLine ModelCircle PLine PCircle PGasket11 PGasket14.
Local Open Scope R_scope.

Lemma circle_circle_which c1 c2 : 0 < cr c1 -> 0 < cr c2 -> circle_is_equal c1 c2 = false ->
  let d2 := dist2 (cO c1) (cO c2) in let smin := (cr c1 - cr c2) ^ 2 in let smax := (cr c1 + cr c2) ^ 2 in
  (intersection_circle_circle c1 c2 = Ok (CCPoints INone) <-> smax + / 67108864 < d2 \/ d2 < smin - / 67108864) /\
  ((exists P Q, intersection_circle_circle c1 c2 = Ok (CCPoints (ITwo P Q))) <-> smin + / 67108864 <= d2 <= smax - / 67108864) /\
  ((exists P, intersection_circle_circle c1 c2 = Ok (CCPoints (IOne P))) <->
     smin - / 67108864 <= d2 <= smax + / 67108864 /\ (d2 < smin + / 67108864 \/ smax - / 67108864 < d2)).
Proof.
  intros P1 P2 NE d2 smin smax. unfold intersection_circle_circle. rewrite NE. cbv zeta.
  assert (ED : dot_ (vsub (cO c1) (cO c2)) (vsub (cO c1) (cO c2)) = d2) by (unfold d2, dot_; unspec; ring). rewrite ED. fold smin smax.
  change sepsilon_ with (/ 67108864).
  destruct (ltb (smax + / 67108864) d2 || ltb d2 (smin - / 67108864)) eqn:E.
  { apply orb_true_iff in E. rewrite !ltb_true in E. split; [|split].
    - split; [intros _; exact E|auto].
    - split; [intros (P & Q & H); discriminate|intros H; lra].
    - split; [intros (P & H); discriminate|intros H; lra]. }
  apply orb_false_iff in E. rewrite !ltb_false in E. destruct E as (E1 & E2).
  set (touch := ltb (smax - d2) (/ 67108864) || ltb (d2 - smin) (/ 67108864)).
  set (uv := vsub (cO c1) (cO c2)). destruct uv as [x y] eqn:EU.
  assert (EL : x * x + y * y = d2) by (unfold d2; unfold uv in EU; unspec; injection EU as <- <-; ring).
  match goal with |- context [bind ?t _] => assert (T : exists cosine, t = Ok cosine) end.
  { destruct (eqb (cr c1 * sqrt (4 * (x * x + y * y))) 0) eqn:Z; [|eauto]. apply eqb_true in Z. rewrite EL in *.
    destruct (ltb 0 (cr c2 * cr c2 - cr c1 * cr c1 - d2)) eqn:L1; [eauto|]. destruct (ltb (cr c2 * cr c2 - cr c1 * cr c1 - d2) 0) eqn:L2; [eauto|]. exfalso.
    apply ltb_false in L1, L2. apply Rmult_integral in Z. destruct Z as [Z|Z]; [lra|]. assert (Hd : 0 <= d2) by (unfold d2; apply dist2_nonneg). apply sqrt_eq_0 in Z; [|lra]. assert (D0 : d2 = 0) by lra.
    assert (EC : cO c1 = cO c2) by (apply dist2_0; exact D0). assert (ER : cr c1 = cr c2) by (assert (F : (cr c2 - cr c1) * (cr c2 + cr c1) = 0) by lra; apply Rmult_integral in F; lra).
    assert (K : circle_is_equal c1 c2 = true); [|congruence]. unfold circle_is_equal. rewrite EC, ER, approx_equal_refl, allclose_refl. reflexivity. }
  destruct T as (cosine & ->). cbn [bind]. destruct touch eqn:ET; unfold touch in ET.
  - apply orb_true_iff in ET. rewrite !ltb_true in ET. split; [|split].
    + split; [intros H; discriminate|intros H; lra].
    + split; [intros (P & Q & H); discriminate|intros H; lra].
    + split; [intros _; lra|intros _; eauto].
  - apply orb_false_iff in ET. rewrite !ltb_false in ET. split; [|split].
    + split; [intros H; discriminate|intros H; lra].
    + split; [intros _; lra|intros _; eauto].
    + split; [intros (P & H); discriminate|intros H; lra].
Qed.

Lemma intersection_far l1 l2 : let d1 := vsub (lB l1) (lA l1) in let d2 := vsub (lB l2) (lA l2) in
  / 67108864 <= Rabs (scross d1 d2) -> / 10000 * (dist (lA l1) (lB l1) * dist (lA l2) (lB l2)) < Rabs (scross d1 d2) ->
  exists P, intersection_line_line l1 l2 false = Some P.
Proof.
  intros d1 d2 H1 H2.
  assert (NZ : scross d1 d2 <> 0) by (intros E; rewrite E, Rabs_R0 in H1; lra).
  assert (N1 : lA l1 <> lB l1) by (intros E; apply NZ; unfold d1; rewrite E; unspec; ring).
  assert (N2 : lA l2 <> lB l2) by (intros E; apply NZ; unfold d2; rewrite E; unspec; ring).
  apply intersection_line_line_complete; auto. destruct (line_is_equal l1 l2) eqn:E; auto. destruct (is_equal_near l1 l2 N1 N2 E) as (K & _). cbv zeta in K. fold d1 d2 in K. lra.
Qed.

Lemma clamp1_high x : 1 <= x -> clamp1 x = 1.
Proof. intros H. unfold clamp1. rewrite Rmin_right, Rmax_left; lra. Qed.
Lemma clamp1_low x : x <= -1 -> clamp1 x = -1.
Proof. intros H. unfold clamp1. rewrite Rmin_left, Rmax_right; lra. Qed.

(** the single point returned is within 2^-13 of the second circle *)
Lemma single_point_near c1 c2 P : 0 < cr c1 -> 0 < cr c2 -> intersection_circle_circle c1 c2 = Ok (CCPoints (IOne P)) ->
  Rabs (dist (cO c2) P - cr c2) <= / 8192.
Proof.
  intros P1 P2 E.
  assert (NE : circle_is_equal c1 c2 = false) by (destruct (circle_is_equal c1 c2) eqn:K; auto; unfold intersection_circle_circle in E; rewrite K in E; discriminate).
  destruct (circle_circle_which c1 c2 P1 P2 NE) as (_ & _ & W). cbv zeta in W. destruct (proj1 W (ex_intro _ P E)) as ((B1 & B2) & _). clear W.
  pose proof (icc_spec c1 c2 P1 P2) as SP. rewrite E in SP. destruct SP as (ON & SP).
  set (d := dist (cO c1) (cO c2)) in *. assert (D0 : 0 <= d) by apply dist_nonneg. assert (D2 : dist2 (cO c1) (cO c2) = d * d) by (unfold d, dist; rewrite sqrt_sqrt; [auto|apply dist2_nonneg]). rewrite D2 in *.
  assert (H8 : (/ 67108864 = / 8192 * / 8192)%R) by lra.
  (* bounds on d *)
  assert (U : d <= cr c1 + cr c2 + / 8192) by (apply Rnot_lt_le; intros L; nra).
  assert (L1 : cr c1 - cr c2 <= d + / 8192) by (apply Rnot_lt_le; intros L; nra).
  assert (L2 : cr c2 - cr c1 <= d + / 8192) by (apply Rnot_lt_le; intros L; nra).
  unfold intersection_circle_circle in E. rewrite NE in E. cbv zeta in E.
  assert (ED : dot_ (vsub (cO c1) (cO c2)) (vsub (cO c1) (cO c2)) = d * d) by (rewrite <- D2; unfold dot_; unspec; ring). rewrite ED in E.
  destruct (ltb _ _ || ltb _ _); [discriminate|].
  destruct (vsub (cO c1) (cO c2)) as [x y] eqn:EU.
  assert (Ex : x = fst (cO c1) - fst (cO c2)) by (unfold vsub in EU; inversion EU; auto).
  assert (Ey : y = snd (cO c1) - snd (cO c2)) by (unfold vsub in EU; inversion EU; auto).
  assert (EL : x * x + y * y = d * d) by (rewrite <- D2, dist2_xy, Ex, Ey; auto). rewrite EL in E.
  assert (ES : sqrt (4 * (d * d)) = 2 * d) by (replace (4 * (d * d)) with ((2 * d) * (2 * d)) by ring; apply sqrt_square; lra). rewrite ES in E.
  match type of E with context [bind ?t _] => destruct t as [co|] eqn:EC; [|discriminate] end. cbn [bind] in E.
  destruct (ltb _ _ || ltb _ _); [|discriminate]. injection E as E. fold (ccpoint c1 (atan2 y x + acos co)) in E.
  destruct (Req_dec d 0) as [Z|Z].
  { assert (EQ : cO c1 = cO c2) by (apply dist2_0; rewrite D2, Z; ring). unfold on_circle in ON. rewrite <- EQ, ON. rewrite Z in *. apply Rabs_le; split; lra. }
  assert (DP : 0 < d) by lra.
  assert (NEQ : cO c1 <> cO c2) by (intros Q; assert (K : d * d = 0) by (rewrite <- D2, Q; unspec; ring); apply Rmult_integral in K; lra).
  rewrite (proj2 (eqb_false (cr c1 * (2 * d)) 0)) in EC by (apply Rgt_not_eq; apply Rmult_lt_0_compat; lra). injection EC as EC.
  assert (CB : -1 <= co <= 1) by (rewrite <- EC; apply clamp1_range).
  assert (HD : dist2 (cO c2) P = d * d + cr c1 * cr c1 + 2 * cr c1 * d * co).
  { rewrite <- E, ccpoint_dist2 by auto. rewrite <- Ex, <- Ey, EL. replace (atan2 y x + acos co - atan2 y x) with (acos co) by ring. rewrite cos_acos by lra. rewrite sqrt_square by lra. ring. }
  assert (DEN : 0 < cr c1 * (2 * d)) by (apply Rmult_lt_0_compat; lra).
  assert (SQ : forall z, 0 <= z -> dist2 (cO c2) P = z * z -> dist (cO c2) P = z) by (intros z Hz Hd; unfold dist; rewrite Hd; apply sqrt_square; auto).
  assert (CU : forall n, cr c1 * (2 * d) <= n -> clamp1 (n / (cr c1 * (2 * d))) = 1).
  { intros n Hn. apply clamp1_high. apply (Rmult_le_reg_r (cr c1 * (2 * d))); auto. unfold Rdiv. rewrite Rmult_assoc, Rinv_l; lra. }
  assert (CD : forall n, n <= - (cr c1 * (2 * d)) -> clamp1 (n / (cr c1 * (2 * d))) = -1).
  { intros n Hn. apply clamp1_low. apply (Rmult_le_reg_r (cr c1 * (2 * d))); auto. unfold Rdiv. rewrite Rmult_assoc, Rinv_l; lra. }
  destruct (Rlt_dec (cr c1 + cr c2) d) as [F|F].
  { rewrite CD in EC by nra. rewrite (SQ (d - cr c1)); [apply Rabs_le; split; lra|lra|]. rewrite HD, <- EC. ring. }
  destruct (Rlt_dec d (cr c2 - cr c1)) as [F2|F2].
  { rewrite CU in EC by nra. rewrite (SQ (d + cr c1)); [apply Rabs_le; split; lra|lra|]. rewrite HD, <- EC. ring. }
  destruct (Rlt_dec d (cr c1 - cr c2)) as [F3|F3].
  { rewrite CD in EC by nra. rewrite (SQ (cr c1 - d)); [apply Rabs_le; split; lra|lra|]. rewrite HD, <- EC. ring. }
  rewrite clamp1_id in EC.
  - rewrite (SQ (cr c2)); [rewrite Rminus_diag_eq, Rabs_R0; lra|lra|]. rewrite HD, <- EC. field. split; lra.
  - split; (apply (Rmult_le_reg_r (cr c1 * (2 * d))); auto; unfold Rdiv; rewrite Rmult_assoc, Rinv_l; nra).
Qed.

Lemma intersection_far_on l1 l2 : let d1 := vsub (lB l1) (lA l1) in let d2 := vsub (lB l2) (lA l2) in
  / 67108864 <= Rabs (scross d1 d2) -> / 10000 * (dist (lA l1) (lB l1) * dist (lA l2) (lB l2)) < Rabs (scross d1 d2) ->
  exists P, intersection_line_line l1 l2 false = Some P /\ on_line (lA l1) (lB l1) P /\ on_line (lA l2) (lB l2) P.
Proof.
  intros d1 d2 H1 H2. destruct (intersection_far l1 l2 H1 H2) as (P & E). exists P. split; auto.
  assert (NZ : scross d1 d2 <> 0) by (intros K; rewrite K, Rabs_R0 in H1; lra).
  assert (N1 : lA l1 <> lB l1) by (intros K; apply NZ; unfold d1; rewrite K; unspec; ring).
  assert (N2 : lA l2 <> lB l2) by (intros K; apply NZ; unfold d2; rewrite K; unspec; ring).
  destruct (intersection_line_line_sound l1 l2 false P N1 N2 E) as (A & B & _). auto.
Qed.

Lemma intersection_far_example : let l1 := mkLine (0, 0) (1, 0) true true in let l2 := mkLine (0, 0) (1, 1) true true in
  let d1 := vsub (lB l1) (lA l1) in let d2 := vsub (lB l2) (lA l2) in
  / 67108864 <= Rabs (scross d1 d2) /\ / 10000 * (dist (lA l1) (lB l1) * dist (lA l2) (lB l2)) < Rabs (scross d1 d2).
Proof.
  cbn [lA lB]. assert (E : scross (vsub (1, 0) (0, 0)) (vsub (1, 1) (0, 0)) = 1) by (unspec; ring). rewrite E, Rabs_R1.
  assert (D1 : dist (0, 0) (1, 0) = 1) by (unfold dist; replace (dist2 (0, 0) (1, 0)) with (1 * 1) by (unspec; ring); apply sqrt_square; lra).
  assert (D2 : dist (0, 0) (1, 1) <= 2) by (unfold dist; replace (dist2 (0, 0) (1, 1)) with 2 by (unspec; ring); rewrite <- (sqrt_square 2) at 2 by lra; apply sqrt_le_1; lra).
  rewrite D1. split; lra.
Qed.

Lemma intersection_strict_none : exists l1 l2 P,
  Line_init (0, 0) (2, 2) false false = Ok l1 /\ Line_init (0, 2) (2, 0) false false = Ok l2 /\
  on_segment (lA l1) (lB l1) P /\ on_segment (lA l2) (lB l2) P /\
  intersection_line_line l1 l2 false = Some P /\ intersection_line_line l1 l2 true = None.
Proof.
  assert (A1 : allclose (0, 0) (2, 2) = false) by evalclose.
  assert (A2 : allclose (0, 2) (2, 0) = false) by evalclose.
  exists (mkLine (0, 0) (2, 2) false false), (mkLine (0, 2) (2, 0) false false), (1, 1).
  split; [unfold Line_init; rewrite A1; reflexivity|]. split; [unfold Line_init; rewrite A2; reflexivity|]. cbn [lA lB].
  split; [exists (/ 2); split; [lra|unfold at_line, vadd, vscal, vsub; cbn [fst snd]; f_equal; field]|].
  split; [exists (/ 2); split; [lra|unfold at_line, vadd, vscal, vsub; cbn [fst snd]; f_equal; field]|].
  split; [|unfold intersection_line_line; destruct (line_is_equal _ _); auto; destruct (is_parallel _ _); auto].
  destruct (intersection_far (mkLine (0, 0) (2, 2) false false) (mkLine (0, 2) (2, 0) false false)) as (P & E).
  - cbn [lA lB]. replace (scross (vsub (2, 2) (0, 0)) (vsub (2, 0) (0, 2))) with (-8) by (unspec; ring). rewrite Rabs_left; lra.
  - cbn [lA lB]. replace (scross (vsub (2, 2) (0, 0)) (vsub (2, 0) (0, 2))) with (-8) by (unspec; ring). rewrite Rabs_left by lra.
    assert (D : dist (0, 0) (2, 2) = sqrt 8) by (unfold dist; f_equal; unspec; ring). assert (D' : dist (0, 2) (2, 0) = sqrt 8) by (unfold dist; f_equal; unspec; ring).
    rewrite D, D', sqrt_sqrt; lra.
  - rewrite E. f_equal. destruct (intersection_line_line_sound (mkLine (0, 0) (2, 2) false false) (mkLine (0, 2) (2, 0) false false) false P (allclose_false_neq _ _ A1) (allclose_false_neq _ _ A2) E) as (_ & _ & U). symmetry. apply U; cbn [lA lB].
    + exists (/ 2). unfold at_line, vadd, vscal, vsub; cbn [fst snd]; f_equal; field.
    + exists (/ 2). unfold at_line, vadd, vscal, vsub; cbn [fst snd]; f_equal; field.
Qed.

Lemma single_point_on_near c1 c2 P : 0 < cr c1 -> 0 < cr c2 -> intersection_circle_circle c1 c2 = Ok (CCPoints (IOne P)) ->
  on_circle (cO c1) (cr c1) P /\ Rabs (dist (cO c2) P - cr c2) <= / 8192.
Proof.
  intros P1 P2 E. split; [|apply (single_point_near c1 c2 P P1 P2 E)]. pose proof (icc_spec c1 c2 P1 P2) as SP. rewrite E in SP. apply SP.
Qed.

Lemma circle_circle_which_example : let c1 := mkCircle (0, 0) 1 in let c2 := mkCircle (3, 0) 2 in let c3 := mkCircle (3 + / 1073741824, 0) 2 in
  circle_is_equal c1 c2 = false /\ circle_is_equal c1 c3 = false /\
  (exists P, intersection_circle_circle c1 c2 = Ok (CCPoints (IOne P))) /\
  (exists P, intersection_circle_circle c1 c3 = Ok (CCPoints (IOne P))).
Proof.
  intros c1 c2 c3.
  assert (K : forall c, cr c = 2 -> circle_is_equal c1 c = false).
  { intros c E. unfold circle_is_equal, approx_equal_. rewrite E. cbn [cr c1]. apply andb_false_iff. left. evalclose. }
  assert (E2 := K c2 eq_refl). assert (E3 := K c3 eq_refl). split; auto. split; auto.
  split.
  - apply (circle_circle_which c1 c2); cbn [cr cO c1 c2]; try lra; auto. replace (dist2 (0, 0) (3, 0)) with 9 by (unspec; ring). split; lra.
  - apply (circle_circle_which c1 c3); cbn [cr cO c1 c3]; try lra; auto. replace (dist2 (0, 0) (3 + / 1073741824, 0)) with ((3 + / 1073741824) ^ 2) by (unspec; ring). split; [split|right]; lra.
Qed.
