(** * Triangles: angle form of is_acute, raising cases, concrete triangles. *)

From Coq Require Import Reals Lra Lia Psatz List Bool ZArith.
From Verif Require Import Base BaseLemmas Spec SpecLemmas SpecTriangle ModelInternal ModelLine ModelCircle ModelAffine ModelEllipse ModelTransfo
  ModelTriangle PLine PCircle PInvBase PAffine PEllipse PTriangle PTriangle2 PTriangle3 PTriangle4 PTriangle5 PTriangle6.
Import ListNotations.
Local Open Scope R_scope.

(** ** angles *)
Lemma angles_spec A B C : A <> B -> A <> C -> B <> C -> exists al be ga,
  angleA (mkTri A B C) = Ok al /\ angleB (mkTri A B C) = Ok be /\ angleC (mkTri A B C) = Ok ga /\
  is_angle B A C al /\ is_angle A B C be /\ is_angle A C B ga /\ al + be + ga = PI.
Proof.
  intros H1 H2 H3. destruct (angleA_spec (mkTri A B C) H1 H2) as (al & Ea & Ha). destruct (angleB_spec (mkTri A B C) H1 H3) as (be & Eb & Hb).
  destruct (angleC_spec (mkTri A B C) H2 H3) as (ga & Ec & Hc). cbn [tA tB tC] in *. exists al, be, ga.
  pose proof (angle_sum A B C al be ga H1 H2 H3 Ha Hb Hc). unfold angle_of in *. tauto.
Qed.
Lemma angle_open A B C t : ~ collinear A B C -> is_angle B A C t -> 0 < t < PI.
Proof.
  intros N [R0 H]. apply not_collinear_dbl in N.
  assert (E : sdot (vsub B A) (vsub C A) ^ 2 + dbl A B C ^ 2 = dist2 A B * dist2 A C) by (unfold dbl; unspec; ring).
  rewrite <- H, <- !dist_sq in E. assert (0 < dbl A B C ^ 2) by (pose proof (sqpos _ N); nra).
  assert (K : forall c, cos t = c -> c * c = 1 -> False).
  { intros c Hc K1. rewrite Hc in E. replace ((c * dist A B * dist A C) ^ 2) with (c * c * (dist A B * dist A B * (dist A C * dist A C))) in E by ring. rewrite K1 in E. lra. }
  split; [destruct (proj1 R0) as [|<-]; auto; exfalso; apply (K 1); [apply cos_0|ring]|destruct (proj2 R0) as [|E']; auto; exfalso; subst t; apply (K (-1)); [apply cos_PI|ring]].
Qed.
Lemma angle_right A B C t : A <> B -> A <> C -> is_angle B A C t -> (t <= PI / 2 <-> 0 <= sdot (vsub B A) (vsub C A)).
Proof.
  intros HB HC [R0 H]. pose proof (dist_pos _ _ HB). pose proof (dist_pos _ _ HC). rewrite <- H.
  assert (0 < dist A B * dist A C) by (apply Rmult_lt_0_compat; auto).
  pose proof PI_RGT_0. rewrite Rmult_assoc. split; intros K.
  - assert (0 <= cos t) by (apply cos_ge_0; lra). apply Rmult_le_pos; lra.
  - destruct (Rle_dec t (PI / 2)) as [|L]; auto. exfalso. apply Rnot_le_lt in L. assert (cos t < 0) by (apply cos_lt_0; lra). nra.
Qed.
Lemma is_acute_angles A B C al be ga : A <> B -> A <> C -> B <> C ->
  is_angle B A C al -> is_angle A B C be -> is_angle A C B ga ->
  (is_acute (mkTri A B C) = true <-> al <= PI / 2 /\ be <= PI / 2 /\ ga <= PI / 2).
Proof.
  intros H1 H2 H3 Ha Hb Hc. rewrite is_acute_spec. cbn [tA tB tC].
  rewrite (angle_right A B C al), (angle_right B A C be), (angle_right C A B ga); auto. tauto.
Qed.
Lemma angleA_raise T : tA T = tB T \/ tA T = tC T -> angleA T = Raise NonFinite.
Proof.
  intros H. unfold angleA, angle_at. destruct H as [H|H]; rewrite <- H; rewrite ?(vlength_dist (tA T) (tA T)), ?(proj2 (dist_0 (tA T) (tA T)) eq_refl).
  - unfold np_div at 1. destruct Req_EM_T; [reflexivity|]. cbn [bind]. unfold np_div. destruct Req_EM_T; [reflexivity|lra].
  - unfold np_div at 1. destruct Req_EM_T; [reflexivity|lra].
Qed.

(** ** the 3-4-5 triangle *)
Definition T345 : triangle := mkTri (0, 0) (4, 0) (0, 3).
Lemma T345_ccw : counterclockwise (0, 0) (4, 0) (0, 3).
Proof. unfold counterclockwise. unspec. lra. Qed.
Lemma T345_dbl : dbl (0, 0) (4, 0) (0, 3) = 12.
Proof. unfold dbl. unspec. ring. Qed.
Lemma T345_nc : ~ collinear (0, 0) (4, 0) (0, 3).
Proof. apply not_collinear_dbl. rewrite T345_dbl. lra. Qed.
Lemma T345_a : dist (4, 0) (0, 3) = 5.
Proof. apply (proj2 (on_circle_sq _ 5 _ ltac:(lra))). unspec. ring. Qed.
Lemma T345_b : dist (0, 0) (0, 3) = 3.
Proof. apply (proj2 (on_circle_sq _ 3 _ ltac:(lra))). unspec. ring. Qed.
Lemma T345_c : dist (0, 0) (4, 0) = 4.
Proof. apply (proj2 (on_circle_sq _ 4 _ ltac:(lra))). unspec. ring. Qed.

Lemma ex_C42 : orientation T345 = (-1)%Z.
Proof. apply (proj1 (proj2 (orientation_spec T345))). exact T345_ccw. Qed.
Lemma ex_C42_refuted : exists A B C, counterclockwise A B C /\ orientation (mkTri A B C) <> 1%Z.
Proof. exists (0, 0), (4, 0), (0, 3). split; [exact T345_ccw|]. change (orientation T345 <> 1%Z). rewrite ex_C42. discriminate. Qed.
Lemma ex_C43 : triangle_contains T345 (1, 1) = true /\ triangle_contains T345 (3, 3) = false /\ triangle_contains T345 (2, 0) = false.
Proof.
  assert (D : - 0 * 0 + 0 * (- (4) + 0) + 0 * (0 - 3) + 4 * 3 = 12) by ring.
  split; [|split]; unfold triangle_contains, T345; cbn [tA tB tC]; rewrite D; evalb; try reflexivity; rewrite ?andb_false_r; reflexivity.
Qed.
Lemma ex_C44 : exists f, flatness T345 = Ok f /\ f = 0 /\ is_acute T345 = true.
Proof.
  destruct (flatness_ok (0, 0) (4, 0) (0, 3)) as (f & Hf & _); [rewrite T345_dbl; lra|]. exists f. split; auto.
  apply flatness_spec in Hf. cbn [tA tB tC] in Hf. destruct Hf as (_ & _ & _ & _ & Hf).
  replace (dist2 (0, 0) (4, 0)) with 16 in Hf by (unspec; ring). replace (dist2 (0, 0) (0, 3)) with 9 in Hf by (unspec; ring).
  replace (sdot (vsub (4, 0) (0, 0)) (vsub (0, 3) (0, 0))) with 0 in Hf by (unspec; ring). split; [lra|].
  apply is_acute_spec. unfold T345. cbn [tA tB tC]. unspec. lra.
Qed.
Lemma ex_C45 : circumcircle T345 = Ok (Some (mkCircle (2, 3 / 2) (5 / 2))).
Proof.
  destruct (circumcircle_total (0, 0) (4, 0) (0, 3)) as (c & Hc & _); [rewrite T345_dbl; lra|]. unfold T345. rewrite Hc. apply circumcircle_spec in Hc. cbn [tA tB tC] in Hc.
  destruct Hc as (_ & _ & _ & _ & _ & U). destruct (U (2, 3 / 2) (5 / 2)) as [E1 E2]; [lra| | |..]; try (apply on_circle_sq; [lra|unspec; field]).
  destruct c; cbn in *; subst; auto.
Qed.
Lemma ex_C46 : incircle T345 = Ok (mkCircle (1, 1) 1).
Proof.
  destruct (incircle_total (0, 0) (4, 0) (0, 3)) as [H _]; [rewrite T345_dbl; lra|]. unfold T345. rewrite H, T345_a, T345_b, T345_c, T345_dbl.
  rewrite Rabs_right by lra. f_equal. unfold bary; cbn [fst snd]. f_equal; [f_equal|]; field.
Qed.
Lemma ex_C47 : exists cA cB cC, excircles T345 = Ok (cA, cB, cC).
Proof. destruct (excircles_spec _ _ _ T345_nc) as (cA & cB & cC & H & _). eauto. Qed.
Lemma ex_C48 : exists T, orthic_triangle T345 = Ok T /\ tB T = (0, 0).
Proof.
  destruct (orthic_spec (0, 0) (4, 0) (0, 3)) as (T & H & _ & [H2 H3] & _); try (intros E; injection E; lra).
  exists T. split; auto. destruct H2 as (t & H2). destruct (tB T) as [x y]. unfold orthogonal in H3. unfold at_line in H2. unspec.
  injection H2 as -> ->. f_equal; lra.
Qed.
Lemma ex_C49 : exists r, malfatti_circles T345 = Ok (Some r).
Proof. destruct (malfatti_spec _ _ _ T345_nc) as (cA & cB & cC & TA & TB & TC & H & _). eauto. Qed.
Lemma ex_C50 : exists P d, equal_detour_point T345 = Ok (P, d).
Proof. destruct (equal_detour_spec _ _ _ T345_nc) as (P & d & H & _). eauto. Qed.
Lemma T345_close : allclose (0, 0) (4, 0) = false /\ allclose (0, 0) (0, 3) = false /\ allclose (4, 0) (0, 3) = false.
Proof. repeat split; evalclose. Qed.
Lemma ex_C51 : (exists e, steiner_ellipse T345 = Ok (Some e)) /\ (exists e, steiner_inellipse T345 = Ok (Some e)).
Proof.
  destruct T345_close as (E1 & E2 & E3). split.
  - destruct (steiner_ellipse_spec _ _ _ T345_nc E1 E2 E3) as (e & H & _). eauto.
  - destruct (steiner_inellipse_spec _ _ _ T345_nc E1 E2 E3) as (e & H & _). eauto.
Qed.
Lemma ex_C51_tiny : let t := / 1000000000 in
  ~ collinear (0, 0) (t, 0) (0, t) /\ steiner_ellipse (mkTri (0, 0) (t, 0) (0, t)) = Raise AttributeError /\
  steiner_inellipse (mkTri (0, 0) (t, 0) (0, t)) = Raise AttributeError.
Proof.
  intros t. assert (N : ~ collinear (0, 0) (t, 0) (0, t)) by (apply not_collinear_dbl; unfold dbl, t; unspec; lra).
  split; auto. apply steiner_close; auto. left. unfold t. evalclose.
Qed.
Lemma ex_C20_triangle : exists p1 p2, triangle_random_points T345 1 WhereIn [(/ 2, / 4)] = Ok [p1] /\ triangle_random_points T345 1 WhereOn [(/ 2, / 4)] = Ok [p2].
Proof.
  assert (HD : Forall (fun d : R * R => 0 <= fst d < 1 /\ 0 <= snd d < 1) [(/ 2, / 4)]) by (constructor; [cbn; lra|constructor]).
  destruct (triangle_random_total (0, 0) (4, 0) (0, 3) 1 WhereIn [(/ 2, / 4)]) as (p & Hp); auto; try lia; try discriminate; [intros E; injection E; lra|].
  destruct (triangle_random_total (0, 0) (4, 0) (0, 3) 1 WhereOn [(/ 2, / 4)]) as (q & Hq); auto; try lia; try discriminate; [intros E; injection E; lra|].
  pose proof (triangle_random_spec _ _ _ _ _ _ _ HD Hp) as [Lp _]. pose proof (triangle_random_spec _ _ _ _ _ _ _ HD Hq) as [Lq _].
  destruct p as [|p [|]]; try discriminate. destruct q as [|q [|]]; try discriminate. exists p, q. auto.
Qed.
