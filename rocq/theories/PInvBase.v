(** * Facts about the inversion as a map of the plane (specification level). *)

From Coq Require Import Reals Lra Lia Psatz List Bool.
From Verif Require Import Base BaseLemmas Spec SpecLemmas.
Local Open Scope R_scope.

Lemma vadd_vsub_l I M : vadd I (vsub M I) = M.
Proof. destruct M, I; unpt; f_equal; ring. Qed.

Lemma vadd_neq I v : (v <> (0, 0)) -> vadd I v <> I.
Proof. intros H E. apply H. destruct v, I; unpt; inversion E. f_equal; lra. Qed.

Lemma pow_circle_on O r M : 0 <= r -> (on_circle O r M <-> pow_circle O r M = 0).
Proof. intros H. rewrite on_circle_sq by auto. unfold pow_circle. split; intros; lra. Qed.

Lemma inv_pt_neq I k M : k <> 0 -> M <> I -> inv_pt I k M <> I.
Proof.
  intros Hk HM. assert (Hd : 0 < dist2 I M) by (apply dist2_pos; auto).
  apply vadd_neq. intros E. unfold vscal in E. injection E as E1 E2.
  assert (Hq : k / dist2 I M <> 0) by (unfold Rdiv; apply Rmult_integral_contrapositive_currified; auto; apply Rinv_neq_0_compat; lra).
  apply Rmult_integral in E1. apply Rmult_integral in E2.
  destruct E1; [lra|]. destruct E2; [lra|]. apply HM. destruct M, I; unpt; f_equal; lra.
Qed.

Lemma inv_pt_dist2 I k M : M <> I -> dist2 I (inv_pt I k M) = k * k / dist2 I M.
Proof.
  intros HM. assert (Hd : 0 < dist2 I M) by (apply dist2_pos; auto).
  transitivity ((k / dist2 I M) * (k / dist2 I M) * dist2 I M).
  - unfold inv_pt. remember (k / dist2 I M) as q. unspec. ring.
  - field. lra.
Qed.

Lemma inv_pt_invol I k M : k <> 0 -> M <> I -> inv_pt I k (inv_pt I k M) = M.
Proof.
  intros Hk HM. assert (Hd : 0 < dist2 I M) by (apply dist2_pos; auto).
  unfold inv_pt at 1. rewrite inv_pt_dist2 by auto. unfold inv_pt.
  destruct M as [m1 m2], I as [i1 i2]. remember (dist2 (i1, i2) (m1, m2)) as d. unpt. f_equal; field; lra.
Qed.

(** image of a circle not through the pole *)
Definition inv_scale (I : pt) (k : R) (O : pt) (r : R) : R := k / pow_circle O r I.

Lemma inv_circle_image I k O r M : k <> 0 -> 0 < r -> pow_circle O r I <> 0 -> M <> I ->
  let s := inv_scale I k O r in
  (on_circle O r M <-> on_circle (vadd I (vscal s (vsub O I))) (Rabs s * r) (inv_pt I k M)).
Proof.
  intros Hk Hr HD HM s. assert (Hd : 0 < dist2 I M) by (apply dist2_pos; auto).
  rewrite !on_circle_sq; try (pose proof (Rabs_pos s); nra).
  replace (Rabs s * r * (Rabs s * r)) with (s * s * (r * r)) by (rewrite <- (Rabs_sq s); ring).
  assert (K : dist2 (vadd I (vscal s (vsub O I))) (inv_pt I k M) - s * s * (r * r) =
          (k * k / (pow_circle O r I * dist2 I M)) * (dist2 O M - r * r)).
  { unfold s, inv_scale, inv_pt. unfold pow_circle in *. 
    destruct M as [m1 m2], I as [i1 i2], O as [o1 o2]. unspec. field. split; [lra|].
    intros E. apply HD. rewrite <- E. ring. }
  assert (k * k / (pow_circle O r I * dist2 I M) <> 0).
  { unfold Rdiv. apply Rmult_integral_contrapositive_currified; [nra|].
    apply Rinv_neq_0_compat. apply Rmult_integral_contrapositive_currified; lra. }
  split; intros E.
  - rewrite E in K. lra.
  - assert (E' : (k * k / (pow_circle O r I * dist2 I M)) * (dist2 O M - r * r) = 0) by lra.
    apply Rmult_integral in E'. destruct E'; lra.
Qed.

Lemma inv_circle_pole I k O r : k <> 0 -> 0 < r -> pow_circle O r I <> 0 ->
  let s := inv_scale I k O r in
  s <> 0 /\ 0 < Rabs s * r /\
  pow_circle (vadd I (vscal s (vsub O I))) (Rabs s * r) I = s * s * pow_circle O r I.
Proof.
  intros Hk Hr HD s.
  assert (Hs : s <> 0).
  { unfold s, inv_scale, Rdiv. apply Rmult_integral_contrapositive_currified; auto. apply Rinv_neq_0_compat; auto. }
  split; auto. split; [apply Rmult_lt_0_compat; auto; apply Rabs_pos_lt; auto|].
  unfold pow_circle. replace ((Rabs s * r) ^ 2) with (s * s * r ^ 2) by (rewrite <- (Rabs_sq s); ring).
  unspec. ring.
Qed.

Lemma inv_maps_image I k O r : k <> 0 -> 0 < r -> pow_circle O r I <> 0 ->
  let s := inv_scale I k O r in
  inv_maps I k O r (vadd I (vscal s (vsub O I))) (Rabs s * r).
Proof.
  intros Hk Hr HD s. destruct (inv_circle_pole I k O r Hk Hr HD) as (Hs & Hp & Hq). fold s in Hs, Hp, Hq.
  split; [|split].
  - rewrite pow_circle_on by lra. auto.
  - rewrite pow_circle_on by lra. rewrite Hq. apply Rmult_integral_contrapositive_currified; auto.
  - intros M HM. apply inv_circle_image; auto.
Qed.

(** a circle is determined by its points *)
Lemma circle_eq_of_points O r O' r' : 0 < r -> 0 < r' ->
  (forall M, on_circle O r M -> on_circle O' r' M) -> O = O' /\ r = r'.
Proof.
  intros Hr Hr' H.
  assert (K : forall x y, x * x + y * y = 1 -> dist2 O' (vadd O (vscal r (x, y))) = r' * r').
  { intros x y E. apply on_circle_sq; [lra|]. apply H. apply on_circle_sq; [lra|].
    unspec. transitivity (r * r * (x * x + y * y)); [ring|]. rewrite E. ring. }
  pose proof (K 1 0 ltac:(ring)) as K1. pose proof (K (-1) 0 ltac:(ring)) as K2.
  pose proof (K 0 1 ltac:(ring)) as K3. pose proof (K 0 (-1) ltac:(ring)) as K4.
  clear K H. unspec. destruct O as [o1 o2], O' as [p1 p2]; cbn [fst snd] in *.
  assert (r * (o1 - p1) = 0) by lra. assert (r * (o2 - p2) = 0) by lra.
  assert (o1 = p1) by (apply Rmult_integral in H; lra).
  assert (o2 = p2) by (apply Rmult_integral in H0; lra).
  subst. split; auto. apply sq_inj; lra.
Qed.

(** the image circle is unique *)
Lemma inv_maps_unique I k O r O' r' : k <> 0 -> 0 < r -> 0 < r' -> inv_maps I k O r O' r' ->
  let s := inv_scale I k O r in
  pow_circle O r I <> 0 /\ O' = vadd I (vscal s (vsub O I)) /\ r' = Rabs s * r.
Proof.
  intros Hk Hr Hr' (N1 & N2 & HM) s.
  assert (HD : pow_circle O r I <> 0) by (rewrite <- pow_circle_on by lra; auto).
  split; auto. destruct (inv_circle_pole I k O r Hk Hr HD) as (Hs & Hp & Hq). fold s in Hs, Hp, Hq.
  assert (O' = vadd I (vscal s (vsub O I)) /\ r' = Rabs s * r); [|tauto].
  apply circle_eq_of_points; auto.
  intros N HN. assert (HNI : N <> I) by (intros ->; contradiction).
  assert (Hi : inv_pt I k N <> I) by (apply inv_pt_neq; auto).
  pose proof (HM (inv_pt I k N) Hi) as E. rewrite inv_pt_invol in E by auto.
  apply E in HN. apply (inv_circle_image I k O r) in HN; auto. rewrite inv_pt_invol in HN by auto. exact HN.
Qed.

(** an inversion is symmetric *)
Lemma inv_maps_sym I k O r O' r' : k <> 0 -> inv_maps I k O r O' r' -> inv_maps I k O' r' O r.
Proof.
  intros Hk (N1 & N2 & HM). split; [auto|split; [auto|]]. intros M H.
  assert (Hi : inv_pt I k M <> I) by (apply inv_pt_neq; auto).
  rewrite (HM _ Hi), inv_pt_invol by auto. tauto.
Qed.

(** reflections *)
Lemma mirror_dist A B O1 O2 M M' : A <> B -> mirror A B O1 O2 -> mirror A B M M' ->
  dist2 O1 M = dist2 O2 M'.
Proof.
  intros H [K1 K2] [K3 K4]. apply on_line_cross in K1; auto. apply on_line_cross in K3; auto.
  pose proof (pt_neq _ _ H) as Hp.
  set (u := fst B - fst A) in *. set (v := snd B - snd A) in *.
  assert (E : (dist2 O2 M' - dist2 O1 M) * (u * u + v * v) = 0).
  { set (p1 := (fst M' - fst O2) - (fst M - fst O1)). set (p2 := (snd M' - snd O2) - (snd M - snd O1)).
    set (q1 := (fst M' - fst O2) + (fst M - fst O1)). set (q2 := (snd M' - snd O2) + (snd M - snd O1)).
    assert (P1 : p1 * u + p2 * v = 0) by (unfold p1, p2, u, v; unspec; lra).
    assert (P2 : q1 * v - q2 * u = 0) by (unfold q1, q2, u, v; unspec; lra).
    transitivity ((p1 * q1 + p2 * q2) * (u * u + v * v)); [unfold p1, p2, q1, q2; unspec; ring|].
    transitivity ((p1 * u + p2 * v) * (q1 * u + q2 * v) + (p1 * v - p2 * u) * (q1 * v - q2 * u)); [ring|].
    rewrite P1, P2. ring. }
  apply Rmult_integral in E. destruct E; lra.
Qed.

Lemma mirror_maps_of_centers A B O1 O2 r : A <> B -> 0 <= r -> mirror A B O1 O2 -> mirror_maps A B O1 r O2 r.
Proof.
  intros H Hr HO M M' HM. rewrite !on_circle_sq by auto. rewrite (mirror_dist A B O1 O2 M M') by auto. tauto.
Qed.
