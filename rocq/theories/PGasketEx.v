(** * An example for C95: the triangle (0,0), (4,0), (0,3), drawn with depth 3. *)

From Coq Require Import Reals Lra Lia Psatz List Bool ZArith.
From Verif Require Import Base BaseLemmas Spec SpecLemmas SpecTriangle SpecGasket ModelInternal ModelLine ModelCircle ModelTriangle ModelGasket PLine PTriangle PTriangle2 PTriangle3 PTriangle4 PTriangle5 PTriangleEx PGasket10 PGasket13.
Import ListNotations.
Local Open Scope R_scope.

Lemma corner_tolerance_ex V W1 W2 P k u q : 0 < k -> 1 < u -> dist V P = u -> (1 + 4) / 10000 <= k * ((u - 1) / (u + 1)) ^ 3 ->
  1 <= dist V W1 -> 1 <= dist V W2 -> u * u - 1 = q * q -> 0 <= q -> u <= 2 * q -> corner_tolerance 4 3 V W1 W2 (mkCircle (mcenter V P k) k).
Proof.
  intros Pk Pu EP T D1 D2 Eq Hq Hu. unfold corner_tolerance. cbv zeta. cbn [cO cr].
  assert (E : dist V (mcenter V P k) = k * u).
  { apply Rsqr_inj; [apply dist_nonneg|apply Rmult_le_pos; lra|]. unfold Rsqr. rewrite dist_sq. replace (k * u * (k * u)) with (k * k * (u * u)) by ring. rewrite <- EP, dist_sq. unfold mcenter. unspec. ring. }
  rewrite E. replace ((k * u - k) / (k * u + k)) with ((u - 1) / (u + 1)) by (replace (k * u - k) with (k * (u - 1)) by ring; replace (k * u + k) with (k * (u + 1)) by ring; field; lra).
  replace (k * u * (k * u) - k * k) with ((k * q) * (k * q)) by (transitivity (k * k * (u * u - 1)); [rewrite Eq; ring|ring]).
  rewrite sqrt_square by (apply Rmult_le_pos; lra). replace (k * q / (k * u)) with (q / u) by (field; lra).
  set (rho := k * ((u - 1) / (u + 1)) ^ 3) in *. split; [exact T|].
  assert (Hc : 1 / 2 <= q / u) by (apply (Rmult_le_reg_r u); [lra|]; replace (q / u * u) with q by (field; lra); lra).
  assert (Fin : forall d, 1 <= d -> / 67108864 <= rho * d * (q / u)).
  { intros d Hd. assert (/ 67108864 <= 5 / 10000 * 1 * (1 / 2)) by lra. apply (Rle_trans _ _ _ H). apply Rmult_le_compat; try lra. apply Rmult_le_compat; lra. }
  split; apply Fin; auto.
Qed.

Lemma sqrt_between x a b : 0 <= a -> 0 <= b -> a * a <= x <= b * b -> a <= sqrt x <= b.
Proof.
  intros Ha Hb (H1 & H2). rewrite <- (sqrt_square a), <- (sqrt_square b) by auto. split; apply sqrt_le_1_alt; auto.
Qed.

Lemma ratio_bound u a b : 1 < a -> a <= u -> u <= b -> (a - 1) / (b + 1) <= (u - 1) / (u + 1).
Proof.
  intros H1 H2 H3. unfold Rdiv. apply Rmult_le_compat; try lra; [|apply Rinv_le_contravar; lra]. left. apply Rinv_0_lt_compat. lra.
Qed.

Lemma power_bound k k0 t t0 m : 0 <= k0 <= k -> 0 <= t0 <= t -> m <= k0 * t0 ^ 3 -> m <= k * t ^ 3.
Proof.
  intros Hk Ht Hm. apply (Rle_trans _ _ _ Hm). apply Rmult_le_compat; try lra; [apply pow_le; lra|apply pow_incr; lra].
Qed.

Lemma ex_gasket : exists l, drawTriangularGasket (0, 0) (4, 0) (0, 3) 3 = Ok l.
Proof.
  assert (HR : Ravi (0, 0) (4, 0) (0, 3) 1 3 2 6).
  { unfold Ravi. repeat split; try lra.
    - apply Rsqr_inj; [apply dist_nonneg|lra|]. unfold Rsqr. rewrite dist_sq. unspec. ring.
    - apply Rsqr_inj; [apply dist_nonneg|lra|]. unfold Rsqr. rewrite dist_sq. unspec. ring.
    - apply Rsqr_inj; [apply dist_nonneg|lra|]. unfold Rsqr. rewrite dist_sq. unspec. ring.
    - unfold dbl. unspec. rewrite Rabs_right; lra. }
  pose proof (malfatti_eval _ _ _ _ _ _ _ HR) as K. cbv zeta in K.
  assert (EI : incenter (0, 0) (4, 0) (0, 3) 1 3 2 = (1, 1)) by (unfold incenter, bary; cbv zeta; cbn [fst snd]; f_equal; field).
  rewrite EI in K. destruct K as (_ & _ & _ & _ & E).
  assert (DA : dist (0, 0) (1, 1) = sqrt 2) by (unfold dist; f_equal; unspec; ring).
  assert (DB : dist (4, 0) (1, 1) = sqrt 10) by (unfold dist; f_equal; unspec; ring).
  assert (DC : dist (0, 3) (1, 1) = sqrt 5) by (unfold dist; f_equal; unspec; ring).
  rewrite DA, DB, DC in E.
  pose proof (sqrt_between 2 1.414 1.415 ltac:(lra) ltac:(lra) ltac:(lra)) as B2. pose proof (sqrt_between 5 2.236 2.237 ltac:(lra) ltac:(lra) ltac:(lra)) as B5.
  pose proof (sqrt_between 10 3.162 3.163 ltac:(lra) ltac:(lra) ltac:(lra)) as B10.
  set (k1 := (1 + 3 + 2 - 6 / (1 + 3 + 2) - (sqrt 10 + sqrt 5 - sqrt 2)) / 2 / 1) in *.
  set (k2 := (1 + 3 + 2 - 6 / (1 + 3 + 2) - (sqrt 5 + sqrt 2 - sqrt 10)) / 2 / 3) in *.
  set (k3 := (1 + 3 + 2 - 6 / (1 + 3 + 2) - (sqrt 2 + sqrt 10 - sqrt 5)) / 2 / 2) in *.
  assert (R1 : forall d w, w <> 0 -> 6 / (1 + 3 + 2) * d / w = d / w) by (intros; field; auto). rewrite !R1 in E by lra. fold k1 k2 k3 in E.
  assert (K1 : 0.5 <= k1) by (unfold k1; lra). assert (K2 : 0.7 <= k2) by (unfold k2; lra). assert (K3 : 0.6 <= k3) by (unfold k3; lra).
  destruct (malfatti_spec _ _ _ T345_nc) as (cA & cB & cC & TA & TB & TC & E2 & _). unfold T345 in E2.
  assert (E3 : malfatti_circles (mkTri (0, 0) (4, 0) (0, 3)) = Ok (Some ((mkCircle (mcenter (0, 0) (1, 1) k1) k1, mkCircle (mcenter (4, 0) (1, 1) k2) k2, mkCircle (mcenter (0, 3) (1, 1) k3) k3), (TA, TB, TC)))).
  { rewrite E2 in E. rewrite E2. destruct (tangency _ _ _) as [t1|] in E; cbn [bind] in E; [|discriminate]. destruct (tangency _ _ _) as [t2|] in E; cbn [bind] in E; [|discriminate].
    destruct (tangency _ _ _) as [t3|] in E; cbn [bind] in E; [|discriminate]. injection E as -> -> -> -> -> ->. reflexivity. }
  assert (D34 : dist (0, 0) (4, 0) = 4) by (apply Rsqr_inj; [apply dist_nonneg|lra|]; unfold Rsqr; rewrite dist_sq; unspec; ring).
  assert (D33 : dist (0, 0) (0, 3) = 3) by (apply Rsqr_inj; [apply dist_nonneg|lra|]; unfold Rsqr; rewrite dist_sq; unspec; ring).
  assert (D35 : dist (4, 0) (0, 3) = 5) by (apply Rsqr_inj; [apply dist_nonneg|lra|]; unfold Rsqr; rewrite dist_sq; unspec; ring).
  refine (draw_total (0, 0) (4, 0) (0, 3) 3 4 _ _ _ _ T345_nc E3 _ _ _ _ _ _).
  1-3: unfold bounded; cbn [fst snd]; rewrite !Rabs_right by lra; lra.
  - apply (corner_tolerance_ex _ _ _ _ k1 (sqrt 2) 1); try lra; auto.
    + apply (power_bound k1 0.5 _ ((1.414 - 1) / (1.415 + 1))); [lra|split; [lra|apply ratio_bound; lra]|lra].
    + rewrite sqrt_sqrt; lra.
  - apply (corner_tolerance_ex _ _ _ _ k2 (sqrt 10) 3); try lra; auto.
    + apply (power_bound k2 0.7 _ ((3.162 - 1) / (3.163 + 1))); [lra|split; [lra|apply ratio_bound; lra]|lra].
    + rewrite dist_sym. lra.
    + rewrite sqrt_sqrt; lra.
  - apply (corner_tolerance_ex _ _ _ _ k3 (sqrt 5) 2); try lra; auto.
    + apply (power_bound k3 0.6 _ ((2.236 - 1) / (2.237 + 1))); [lra|split; [lra|apply ratio_bound; lra]|lra].
    + rewrite dist_sym. lra.
    + rewrite dist_sym. lra.
    + rewrite sqrt_sqrt; lra.
Qed.

Lemma dist_is A B d : 0 <= d -> dist2 A B = d * d -> dist A B = d.
Proof. intros H E. apply Rsqr_inj; [apply dist_nonneg|auto|]. unfold Rsqr. rewrite dist_sq. auto. Qed.

Lemma ex_gadgets :
  circles_touch (mkCircle (0, 0) 1) (mkCircle (4, 0) 3) /\ circles_touch (mkCircle (4, 0) 3) (mkCircle (0, 3) 2) /\
  circles_touch (mkCircle (0, 0) 1) (mkCircle (0, 3) 2) /\
  circles_touch (mkCircle (0, 1) 1) (mkCircle (2, 1) 1) /\ line_tangent_at (-1, 0) (3, 0) (0, 1) 1 (0, 0) /\
  line_tangent_at (-1, 0) (3, 0) (2, 1) 1 (2, 0) /\
  line_tangent_at (0, 0) (4, 0) (1, 1) 1 (1, 0) /\ line_tangent_at (0, 0) (0, 3) (1, 1) 1 (0, 1).
Proof.
  unfold circles_touch, ext_tangent, line_tangent_at, orthogonal, on_line. cbn [cO cr].
  repeat match goal with |- _ /\ _ => split end; try (apply dist_is; [lra|unspec; lra]); try (unspec; lra).
  - exists (1 / 4). unfold at_line, vadd, vscal, vsub; cbn [fst snd]. f_equal; lra.
  - exists (3 / 4). unfold at_line, vadd, vscal, vsub; cbn [fst snd]. f_equal; lra.
  - exists (1 / 4). unfold at_line, vadd, vscal, vsub; cbn [fst snd]. f_equal; lra.
  - exists (1 / 3). unfold at_line, vadd, vscal, vsub; cbn [fst snd]. f_equal; lra.
Qed.
