(** * C102: the condition for success, the values of examples/triangularCircularGasket.py. *)

From Coq Require Import Reals Lra Lia Psatz List Bool.
From Verif Require Import Base BaseLemmas Spec SpecLemmas SpecTriangle SpecGasket SpecApollonian ModelInternal ModelLine ModelCircle ModelTriangle ModelInversion ModelTangentCircles ModelApollonian ModelGasket ModelCircular PCircle PInvBase PInversion PTriangle PTriangle2 PTriangle3 PTriangle4 PTriangle5 PTriangleEx PSteiner PSteiner2 PGasket10 PGasketEx PApo5 PCirc2 PCirc7 PCirc8.
Import ListNotations.
Local Open Scope R_scope.

Lemma arg_half n sh i : (3 <= n)%nat -> arg_of n sh i + PI / INR n = (2 * (INR i + sh) + 1) * PI / INR n.
Proof. intros Hn. pose proof (INR3 n Hn). unfold arg_of. field. lra. Qed.

Lemma circular_iff c0 n depth phi shift : (3 <= n)%nat -> 0 < cr c0 -> (2 <= depth)%nat -> 0 < Rabs phi < 1 ->
  let R0 := cr c0 in let f := Rabs phi in let s := sin (PI / INR n) in
  let m := R0 * (s * (1 - f)) / (s * (1 - f) + (1 + f)) in let r := R0 * ((1 - s) / (1 + s)) * (1 - phi * phi) in
  sepsilon_ <= (R0 / f - R0) * (R0 / f - R0) ->
  / 100000000 + / 100000 * (Rabs (fst (cO c0)) + Rabs (snd (cO c0)) + R0) < (R0 / f - R0) * / 2 ->
  (R0 + 1) / 4096 <= m * m -> sepsilon_ <= r * r ->
  (exists gens, drawCircularGasket c0 n depth phi shift = Ok gens) <->
  forall i, (i < n)%nat -> 2 * phi * cos ((2 * (INR i + INR n * shift) + 1) * PI / INR n) <> (1 + phi * phi) * cos (PI / INR n).
Proof.
  intros Hn P0 Hd (Fp & H1) R0 f s m r Se Ac Rb Ri. assert (Hp : phi <> 0) by (intros Z; rewrite Z, Rabs_R0 in Fp; lra). split.
  - intros (gens & E) i Hi Z. apply (gasket_fails c0 n phi shift Hn P0 Hp H1 Se Ac depth Hd) with (gens := gens); auto. exists i. rewrite arg_half by auto. auto.
  - intros W. apply (gasket_total c0 n phi shift Hn P0 Hp H1 Se Ac Rb Ri). intros i Hi. rewrite arg_half by auto. apply W. auto.
Qed.

Lemma angle_bounds n : (3 <= n <= 6)%nat -> 1 / 2 <= sin (PI / INR n) <= 8661 / 10000 /\ 1 / 2 <= cos (PI / INR n).
Proof.
  intros (L & U). pose proof (INR3 n L) as L3. assert (U6 : INR n <= 6) by (apply le_INR in U; replace 6 with (INR 6) by (cbn [INR]; ring); auto). pose proof PI_RGT_0 as Pp.
  assert (A1 : PI / 6 <= PI / INR n) by (unfold Rdiv; apply Rmult_le_compat_l; [lra|apply Rinv_le_contravar; lra]). assert (A2 : PI / INR n <= PI / 3) by (unfold Rdiv; apply Rmult_le_compat_l; [lra|apply Rinv_le_contravar; lra]).
  split; [split|].
  - rewrite <- sin_PI6. apply sin_incr_1; lra.
  - apply (Rle_trans _ (sin (PI / 3))); [apply sin_incr_1; lra|]. rewrite sin_PI3. pose proof (sqrt_between 3 1.732 1.7321 ltac:(lra) ltac:(lra) ltac:(lra)). lra.
  - rewrite <- cos_PI3. apply cos_decr_1; lra.
Qed.

Lemma good_total c0 n depth phi shift : (3 <= n <= 6)%nat -> (1 <= depth)%nat -> 0 < Rabs phi <= 2 / 5 -> 2 * Rabs phi < (1 + phi * phi) * cos (PI / INR n) ->
  1 / 4 <= cr c0 -> Rabs (fst (cO c0)) + Rabs (snd (cO c0)) <= 1000 -> exists gens, drawCircularGasket c0 n depth phi shift = Ok gens.
Proof.
  intros Hn _ Hf Hc HR HC. destruct (angle_bounds n Hn) as ((S1 & S2) & C1). assert (Hp : phi <> 0) by (intros Z; rewrite Z, Rabs_R0 in Hf; lra).
  assert (Sq : phi * phi = Rabs phi * Rabs phi) by (symmetry; apply Rabs_sq).
  assert (Q : 3 / 2 * cr c0 <= cr c0 / Rabs phi - cr c0).
  { assert (5 / 2 <= / Rabs phi) by (replace (5 / 2) with (/ (2 / 5)) by field; apply Rinv_le_contravar; lra). unfold Rdiv. nra. }
  set (f := Rabs phi) in *. assert (F2 : f * f <= 4 / 25) by nra.
  apply gasket_total; fold f; rewrite ?Sq; auto; try lra; try lia.
  - unfold sepsilon_. set (v := cr c0 / f - cr c0) in *. nra.
  - set (s := sin (PI / INR n)) in *. cbv zeta. set (m := cr c0 * _ / _). assert (M : 3 / 17 * cr c0 <= m).
    { unfold m. set (v := s * (1 - f) + (1 + f)). assert (Pv : 0 < v) by (unfold v; nra). apply (Rmult_le_reg_r v); [auto|]. replace (cr c0 * (s * (1 - f)) / v * v) with (cr c0 * (s * (1 - f))) by (field; lra). rewrite (Rmult_comm (3 / 17)), Rmult_assoc. apply Rmult_le_compat_l; [lra|]. unfold v. nra. }
    assert (3 / 17 * cr c0 * (3 / 17 * cr c0) <= m * m) by (apply Rmult_le_compat; lra). nra.
  - set (s := sin (PI / INR n)) in *. cbv zeta. set (t := (1 - s) / (1 + s)). assert (M : 7 / 100 <= t).
    { unfold t. apply (Rmult_le_reg_r (1 + s)); [lra|]. replace ((1 - s) / (1 + s) * (1 + s)) with (1 - s) by (field; lra). lra. }
    assert (5 / 100 * cr c0 <= cr c0 * t * (1 - f * f)) by (rewrite (Rmult_comm (5 / 100)), Rmult_assoc; apply Rmult_le_compat_l; nra). unfold sepsilon_. nra.
  - intros i Hi E. rewrite <- Sq in E. pose proof (COS_bound (arg_of n (INR n * shift) i + PI / INR n)) as Cb. set (c := cos (arg_of n (INR n * shift) i + PI / INR n)) in *.
    assert (phi * c <= f); [|lra]. apply (Rle_trans _ (Rabs (phi * c))); [apply Rle_abs|]. rewrite Rabs_mult. fold f. assert (Rabs c <= 1) by (apply Rabs_le; lra). pose proof (Rabs_pos c). nra.
Qed.
Lemma cos3_5 : 1 / 2 = cos (PI / INR 3) /\ 7 / 10 <= cos (PI / INR 4) /\ 7 / 10 <= cos (PI / INR 5).
Proof.
  replace (INR 3) with 3 by (cbn [INR]; ring). replace (INR 4) with 4 by (cbn [INR]; ring). replace (INR 5) with 5 by (cbn [INR]; ring). pose proof PI_RGT_0. pose proof (sqrt_between 2 1.414 1.415 ltac:(lra) ltac:(lra) ltac:(lra)) as B2.
  assert (C4 : 7 / 10 <= cos (PI / 4)). { rewrite cos_PI4. apply (Rmult_le_reg_r (sqrt 2)); [lra|]. replace (1 / sqrt 2 * sqrt 2) with 1 by (field; lra). pose proof (sqrt_sqrt 2 ltac:(lra)). lra. }
  split; [symmetry; apply cos_PI3|]. split; [auto|]. apply (Rle_trans _ _ _ C4). apply cos_decr_1; lra.
Qed.

(** the 3-4-5 triangle *)
Lemma ex_malfatti : exists cA cB cC T, malfatti_circles (mkTri (0, 0) (4, 0) (0, 3)) = Ok (Some ((cA, cB, cC), T)) /\
  (1 / 4 <= cr cA /\ Rabs (fst (cO cA)) + Rabs (snd (cO cA)) <= 1000) /\ (1 / 4 <= cr cB /\ Rabs (fst (cO cB)) + Rabs (snd (cO cB)) <= 1000) /\ (1 / 4 <= cr cC /\ Rabs (fst (cO cC)) + Rabs (snd (cO cC)) <= 1000).
Proof.
  assert (HR : Ravi (0, 0) (4, 0) (0, 3) 1 3 2 6).
  { unfold Ravi. repeat split; try lra.
    - apply Rsqr_inj; [apply dist_nonneg|lra|]. unfold Rsqr. rewrite dist_sq. unspec. ring.
    - apply Rsqr_inj; [apply dist_nonneg|lra|]. unfold Rsqr. rewrite dist_sq. unspec. ring.
    - apply Rsqr_inj; [apply dist_nonneg|lra|]. unfold Rsqr. rewrite dist_sq. unspec. ring.
    - unfold dbl. unspec. rewrite Rabs_right; lra. }
  pose proof (malfatti_eval _ _ _ _ _ _ _ HR) as K. cbv zeta in K.
  assert (EI : incenter (0, 0) (4, 0) (0, 3) 1 3 2 = (1, 1)) by (unfold incenter, bary; cbv zeta; cbn [fst snd]; f_equal; field).
  rewrite EI in K. destruct K as (_ & _ & _ & _ & E).
  assert (DA : dist (0, 0) (1, 1) = sqrt 2) by (unfold dist; f_equal; unspec; ring).
  assert (DB : dist (4, 0) (1, 1) = sqrt 10) by (unfold dist; f_equal; unspec; ring).
  assert (DC : dist (0, 3) (1, 1) = sqrt 5) by (unfold dist; f_equal; unspec; ring).
  rewrite DA, DB, DC in E.
  pose proof (sqrt_between 2 1.414 1.415 ltac:(lra) ltac:(lra) ltac:(lra)) as B2. pose proof (sqrt_between 5 2.236 2.237 ltac:(lra) ltac:(lra) ltac:(lra)) as B5.
  pose proof (sqrt_between 10 3.162 3.163 ltac:(lra) ltac:(lra) ltac:(lra)) as B10.
  set (k1 := (1 + 3 + 2 - 6 / (1 + 3 + 2) - (sqrt 10 + sqrt 5 - sqrt 2)) / 2 / 1) in *.
  set (k2 := (1 + 3 + 2 - 6 / (1 + 3 + 2) - (sqrt 5 + sqrt 2 - sqrt 10)) / 2 / 3) in *.
  set (k3 := (1 + 3 + 2 - 6 / (1 + 3 + 2) - (sqrt 2 + sqrt 10 - sqrt 5)) / 2 / 2) in *.
  assert (R1 : forall d w, w <> 0 -> 6 / (1 + 3 + 2) * d / w = d / w) by (intros; field; auto). rewrite !R1 in E by lra. fold k1 k2 k3 in E.
  assert (K1 : 0.5 <= k1 <= 1) by (unfold k1; lra). assert (K2 : 0.7 <= k2 <= 1) by (unfold k2; lra). assert (K3 : 0.6 <= k3 <= 1) by (unfold k3; lra).
  destruct (malfatti_spec _ _ _ T345_nc) as (cA & cB & cC & TA & TB & TC & E2 & _). unfold T345 in E2.
  exists (mkCircle (mcenter (0, 0) (1, 1) k1) k1), (mkCircle (mcenter (4, 0) (1, 1) k2) k2), (mkCircle (mcenter (0, 3) (1, 1) k3) k3), (TA, TB, TC). split.
  { rewrite E2 in E. rewrite E2. destruct (tangency _ _ _) as [t1|] in E; cbn [bind] in E; [|discriminate]. destruct (tangency _ _ _) as [t2|] in E; cbn [bind] in E; [|discriminate].
    destruct (tangency _ _ _) as [t3|] in E; cbn [bind] in E; [|discriminate]. injection E as -> -> -> -> -> ->. reflexivity. }
  unfold mcenter, vadd, vscal, vsub. cbn [cO cr fst snd].
  assert (Ab : forall x, -100 <= x <= 100 -> Rabs x <= 100) by (intros; apply Rabs_le; auto).
  repeat split; try lra; match goal with |- Rabs ?x + Rabs ?y <= _ => pose proof (Ab x ltac:(lra)); pose proof (Ab y ltac:(lra)); lra end.
Qed.

Lemma ex_picture depth2 phi1 phi2 phi3 shift : (1 <= depth2)%nat -> 0 < Rabs phi1 <= 1 / 4 -> 0 < Rabs phi2 <= 2 / 5 -> 0 < Rabs phi3 <= 2 / 5 ->
  exists l, circular_picture (0, 0) (4, 0) (0, 3) 3 3 4 5 depth2 phi1 phi2 phi3 shift = Ok l.
Proof.
  intros Hd H1 H2 H3. destruct ex_malfatti as (cA & cB & cC & T & EM & (A1 & A2) & (B1 & B2) & (C1 & C2)). destruct ex_gasket as (l & El). destruct (draw_holes _ _ _ _ _ _ _ _ _ EM El) as (h & Eh). destruct cos3_5 as (K1 & K2 & K3).
  assert (N : forall phi, 0 < Rabs phi <= 2 / 5 -> 2 * Rabs phi < (1 + phi * phi) * (7 / 10)) by (intros phi H; rewrite <- (Rabs_sq phi); nra).
  destruct (good_total cA 3 depth2 phi1 shift ltac:(lia) Hd ltac:(lra)) as (gA & EA); auto; [rewrite <- K1, <- (Rabs_sq phi1); nra|].
  destruct (good_total cB 4 depth2 phi2 shift ltac:(lia) Hd H2) as (gB & EB); auto; [pose proof (N _ H2); pose proof (Rle_0_sqr phi2) as Q; unfold Rsqr in Q; nra|].
  destruct (good_total cC 5 depth2 phi3 shift ltac:(lia) Hd H3) as (gC & EC); auto; [pose proof (N _ H3); pose proof (Rle_0_sqr phi3) as Q; unfold Rsqr in Q; nra|].
  unfold circular_picture. rewrite EM. cbn [bind]. rewrite Eh. cbn [bind]. rewrite EA. cbn [bind]. rewrite EB. cbn [bind]. rewrite EC. cbn [bind]. eauto.
Qed.

(** a value of phi not far from that of the program *)
Lemma ex_wall_line depth : (2 <= depth)%nat -> forall gens, drawCircularGasket (mkCircle (0, 0) 3) 3 depth (2 - sqrt 3) (- 1 / 6) <> Ok gens.
Proof.
  intros Hd. pose proof (sqrt_between 3 1.732 1.7321 ltac:(lra) ltac:(lra) ltac:(lra)) as B. pose proof (sqrt_sqrt 3 ltac:(lra)) as Sq. set (q := sqrt 3) in *.
  assert (A : Rabs (2 - q) = 2 - q) by (apply Rabs_pos_eq; lra).
  assert (Q : 3 / (2 - q) - 3 = 3 + 3 * q) by (apply (Rmult_eq_reg_r (2 - q)); [|lra]; unfold Rdiv; rewrite Rmult_minus_distr_r, Rmult_assoc, Rinv_l by lra; nra).
  apply gasket_fails; cbn [cO cr fst snd]; rewrite ?A, ?Q, ?Rabs_R0; try lra; try lia.
  - unfold sepsilon_. nra.
  - exists 0%nat. split; [lia|]. rewrite arg_half by lia. replace (INR 3) with 3 by (cbn [INR]; ring). cbn [INR]. replace ((2 * (0 + 3 * (-1 / 6)) + 1) * PI / 3) with 0 by field. rewrite cos_0, cos_PI3. nra.
Qed.

Lemma ex_C102 : (3 <= 3)%nat /\ 0 < cr (mkCircle (0, 0) 3) /\ (2 <= 5)%nat /\ 0 < Rabs (1 / 4) < 1 /\ ~ collinear (0, 0) (4, 0) (0, 3) /\
  (exists gens, drawCircularGasket (mkCircle (0, 0) 3) 3 5 (1 / 4) 0 = Ok gens) /\ exists l, circular_picture (0, 0) (4, 0) (0, 3) 3 3 4 5 4 (1 / 4) (3 / 10) (2 / 5) 0 = Ok l.
Proof.
  split; [lia|]. split; [cbn [cr]; lra|]. split; [lia|]. split; [rewrite Rabs_pos_eq; lra|]. split; [exact T345_nc|]. split; [apply good_total; cbn [cO cr fst snd]; rewrite ?Rabs_R0, ?(Rabs_pos_eq (1 / 4)) by lra; try lra; try lia; destruct cos3_5 as (<- & _); lra|apply ex_picture; rewrite ?Rabs_pos_eq; try lra; lia].
Qed.
Lemma circular_refuted : exists c0 n phi shift, (3 <= n)%nat /\ 0 < cr c0 /\ 0 < Rabs phi < 1 /\
  forall depth gens, (2 <= depth)%nat -> drawCircularGasket c0 n depth phi shift <> Ok gens.
Proof.
  exists (mkCircle (0, 0) 3), 3%nat, (2 - sqrt 3), (- 1 / 6). pose proof (sqrt_between 3 1.732 1.7321 ltac:(lra) ltac:(lra) ltac:(lra)) as B. split; [lia|]. split; [cbn [cr]; lra|]. split; [rewrite Rabs_pos_eq; lra|]. intros depth gens Hd. apply ex_wall_line. auto.
Qed.
