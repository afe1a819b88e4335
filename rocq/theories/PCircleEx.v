(** * Concrete cases meeting the hypotheses of the circle theorems. *)

From Coq Require Import Reals Lra Lia Psatz List Bool ZArith.
From Verif Require Import Base BaseLemmas Spec SpecLemmas ModelInternal ModelLine ModelCircle PLine PCircle PInvBase PCircle2.
Import ListNotations.
Local Open Scope R_scope.

Lemma sq_3_4 : sqrt (3 * 3 + 4 * 4) = 5.
Proof. apply sqrt_eq; lra. Qed.

(** (4,6) is on the circle of centre (1,2) and radius 5; the origin is strictly inside *)
Lemma ex_C09 : let c := mkCircle (1, 2) 5 in
  0 < cr c /\ on_circle (cO c) (cr c) (4, 6) /\ circle_contains c (4, 6) = true /\
  circle_contains c (5, 6) = false /\ circle_includes c (5, 6) = false.
Proof.
  cbv zeta. cbn [cO cr]. split; [lra|]. split; [apply on_circle_sq; [lra|]; unspec; lra|].
  split; [|split].
  - unfold circle_contains, dot_; cbn [cO cr]. unpt. evalb. auto.
  - unfold circle_contains, dot_; cbn [cO cr]. unpt. evalb. auto.
  - apply includes_false. cbn [cO cr]. unspec. split_Rabs; lra.
Qed.

Lemma ex_C11 : exists c, circleAB (0, 0) (6, 8) = Ok c.
Proof. destruct (circleAB_spec (0, 0) (6, 8)) as [_ H]. destruct H as (c & E & _); eauto. evalclose. Qed.

Lemma ex_C12 : let c1 := mkCircle (0, 0) 1 in let c2 := mkCircle (4, 0) 2 in let c3 := mkCircle (0, 4) 3 in
  (exists P, radical_center3 c1 c2 c3 = Ok (Some P)).
Proof.
  intros c1 c2 c3.
  assert (H1 : exists l, radical_axis c1 c2 = Ok (Some l)).
  { unfold radical_axis, c1, c2; cbn [cO cr]. replace (allclose (0, 0) (4, 0)) with false by (symmetry; evalclose).
    unfold radical_center2; cbn [cO cr]. unfold dot_; unpt. evalb. cbn [bind]. unpt.
    unfold Line_init. match goal with |- context [allclose ?a ?b] => replace (allclose a b) with false by (symmetry; evalclose) end.
    cbn [bind]. eauto. }
  assert (H2 : exists l, radical_axis c1 c3 = Ok (Some l)).
  { unfold radical_axis, c1, c3; cbn [cO cr]. replace (allclose (0, 0) (0, 4)) with false by (symmetry; evalclose).
    unfold radical_center2; cbn [cO cr]. unfold dot_; unpt. evalb. cbn [bind]. unpt.
    unfold Line_init. match goal with |- context [allclose ?a ?b] => replace (allclose a b) with false by (symmetry; evalclose) end.
    cbn [bind]. eauto. }
  destruct H1 as [l1 H1], H2 as [l2 H2]. apply (radical_center3_total c1 c2 c3 l1 l2); auto.
  rewrite collinear_cross. unspec. unfold c1, c2, c3; cbn [cO fst snd]. lra.
Qed.

(** two secant circles, two nested circles, two tangent circles *)
Lemma ex_C13 :
  (exists g1 g2, mid_circles (mkCircle (0, 0) 1) (mkCircle (2, 0) 2) = Ok [g1; g2]) /\
  (exists g, mid_circles (mkCircle (0, 0) 1) (mkCircle (1, 0) 3) = Ok [g]) /\
  (exists g, mid_circles (mkCircle (0, 0) 1) (mkCircle (3, 0) 2) = Ok [g]) /\
  (exists g, mid_circles (mkCircle (0, 0) 1) (mkCircle (3, 0) 1) = Ok [g]).
Proof.
  split; [|split; [|split]].
  - destruct (mid_circles_unequal (mkCircle (0, 0) 1) (mkCircle (2, 0) 2)) as (_ & _ & K); cbn [cr]; try lra; try (unfold sepsilon_; lra).
    do 2 eexists. apply K. cbn [cO cr]. unspec. unfold sepsilon_. lra.
  - destruct (mid_circles_unequal (mkCircle (0, 0) 1) (mkCircle (1, 0) 3)) as (_ & K & _); cbn [cr]; try lra; try (unfold sepsilon_; lra).
    eexists. apply K; cbn [cO cr]; unspec; unfold sepsilon_; lra.
  - destruct (mid_circles_unequal (mkCircle (0, 0) 1) (mkCircle (3, 0) 2)) as (K & _ & _); cbn [cr]; try lra; try (unfold sepsilon_; lra).
    eexists. apply K; cbn [cO cr]; unspec; unfold sepsilon_; lra.
  - destruct (mid_circles_equal (mkCircle (0, 0) 1) (mkCircle (3, 0) 1)) as (_ & K); cbn [cr cO]; try lra; try evalclose.
    destruct K as (_ & K & _); [cbn [cO]; unspec; evalclose|]. eexists. apply K. cbn [cO cr]. unspec. lra.
Qed.

Lemma mid_circles_refuted : exists c1 c2 c,
  Circle_init (0, 0) (/ 100000) = Ok c1 /\ Circle_init (/ 200000, 0) (2 / 100000) = Ok c2 /\
  mid_circles c1 c2 = Ok [GC c] /\
  ~ inv_maps (cO c) (cr c ^ 2) (cO c1) (cr c1) (cO c2) (cr c2).
Proof.
  destruct (mid_circles_tiny (mkCircle (0, 0) (/ 100000)) (mkCircle (/ 200000, 0) (2 / 100000))) as (c & E & _ & N); cbn [cO cr]; try lra.
  - unfold sepsilon_. lra.
  - intros E. injection E. lra.
  - unspec. lra.
  - exists (mkCircle (0, 0) (/ 100000)), (mkCircle (/ 200000, 0) (2 / 100000)), c.
    rewrite !Circle_init_pos by lra. auto.
Qed.

(** the line y = 3 and the circle of centre 0 and radius 5 *)
Lemma ex_C14 : let c := mkCircle (0, 0) 5 in let l := mkLine (0, 3) (1, 3) true true in
  exists P Q, intersection_circle_line c l = Ok (ITwo P Q).
Proof.
  intros c l. destruct (projection_spec l (0, 0)) as (P & E & H1 & H2).
  { unfold l; cbn [lA lB]. intros E; injection E; lra. }
  assert (P = (0, 3)).
  { unfold l in *; cbn [lA lB] in *. destruct H1 as [t ->]. unspec. f_equal; lra. }
  subst P. apply (icl_which c l (0, 3)); auto; unfold c, l; cbn [cO cr lA lB]; try lra.
  - intros E'; injection E'; lra.
  - unspec. unfold sepsilon_. lra.
Qed.

Lemma ex_C15 : let c1 := mkCircle (0, 0) 5 in let c2 := mkCircle (6, 0) 5 in
  exists P Q, intersection_circle_circle c1 c2 = Ok (CCPoints (ITwo P Q)).
Proof.
  intros c1 c2. unfold intersection_circle_circle, circle_is_equal, c1, c2; cbn [cO cr].
  replace (allclose (0, 0) (6, 0)) with false by (symmetry; evalclose). rewrite andb_false_r.
  rewrite dot_dist2'. replace (dist2 (0, 0) (6, 0)) with 36 by (unspec; ring).
  unfold sepsilon_. evalb. cbn [orb]. unpt.
  assert (Hs : sqrt (4 * ((0 - 6) * (0 - 6) + (0 - 0) * (0 - 0))) = 12) by (apply sqrt_eq; lra).
  rewrite Hs. evalb. cbn [bind]. eauto.
Qed.

Lemma icc_refuted : exists c1 c2 P,
  Circle_init (0, 0) 1 = Ok c1 /\ Circle_init (0, 0) (10001 / 10000) = Ok c2 /\
  intersection_circle_circle c1 c2 = Ok (CCPoints (IOne P)) /\
  forall M, on_circle (cO c1) (cr c1) M -> ~ on_circle (cO c2) (cr c2) M.
Proof.
  destruct (icc_concentric (mkCircle (0, 0) 1) (mkCircle (0, 0) (10001 / 10000))) as [[P E] N]; cbn [cO cr]; try lra; auto.
  - unfold approx_equal_, isclose. evalb. reflexivity.
  - unfold sepsilon_. lra.
  - exists (mkCircle (0, 0) 1), (mkCircle (0, 0) (10001 / 10000)), P. rewrite !Circle_init_pos by lra. auto.
Qed.

(** orthogonal circles of radii 3 and 4 at distance 5; tangent circles *)
Lemma ex_C17 : let c1 := mkCircle (0, 0) 3 in let c2 := mkCircle (5, 0) 4 in
  (cr c1 - cr c2) ^ 2 <= dist2 (cO c1) (cO c2) <= (cr c1 + cr c2) ^ 2 /\
  circ_orthogonal (cO c1) (cr c1) (cO c2) (cr c2) /\ circle_angle c1 c2 = Ok (Some (PI / 2)).
Proof.
  intros c1 c2. assert (HB : (cr c1 - cr c2) ^ 2 <= dist2 (cO c1) (cO c2) <= (cr c1 + cr c2) ^ 2) by (unfold c1, c2; cbn [cO cr]; unspec; lra).
  assert (HO : circ_orthogonal (cO c1) (cr c1) (cO c2) (cr c2)) by (unfold c1, c2, circ_orthogonal; cbn [cO cr]; unspec; lra).
  split; auto. split; auto.
  destruct (angle_spec c1 c2) as (t & E & _ & _ & _ & K); auto; try (unfold c1, c2; cbn [cr]; lra).
  rewrite E. do 2 f_equal. apply K. auto.
Qed.

(** unit circle, angles 0 and pi/2 *)
Lemma ex_C18 : let c := mkCircle (0, 0) 1 in
  ~ collinear (cO c) (circle_point_from_angle c 0 false) (circle_point_from_angle c (PI / 2) false) /\
  collinear (cO c) (circle_point_from_angle c 0 false) (circle_point_from_angle c PI false).
Proof.
  intros c. unfold circle_point_from_angle, unit_vector_. rewrite cos_PI2, sin_PI2, cos_0, sin_0, cos_PI, sin_PI.
  rewrite !collinear_cross. unfold c; cbn [cO cr]. unspec. lra.
Qed.

Lemma ex_C20 : exists p1 p2, circle_random_points (mkCircle (1, 1) 2) 2 WhereIn [(/ 4, (3, 4)); (0, (-1, 0))] = Ok [p1; p2].
Proof.
  destruct (circle_random_total (mkCircle (1, 1) 2) 2 WhereIn [(/ 4, (3, 4)); (0, (-1, 0))]) as [ps E]; cbn [cr]; try lra; try lia.
  - discriminate.
  - repeat constructor; cbn [snd]; intros E; injection E; lra.
  - rewrite E. unfold circle_random_points in E. cbn [Z.leb Z.compare] in E. apply mapM_Ok_Forall2 in E.
    inversion E as [|? ? ? ? ? E']; subst. inversion E' as [|? ? ? ? ? E'']; subst. inversion E''; subst. eauto.
Qed.

Lemma ex_C21 : exists path, arc_path (mkArc (1, 2) 3 350 370 true) 5 = Ok path /\ length path = 5%nat.
Proof.
  destruct (arc_path_full (mkArc (1, 2) 3 350 370 true) 5) as (s & p & E & L & _); cbn [ar]; try lra; try lia. eauto.
Qed.

Lemma includes_unsound_ex : circle_includes (mkCircle (7, 8) (/ 100000)) (7, 8) = true /\ ~ on_circle (7, 8) (/ 100000) (7, 8).
Proof.
  split; [apply (includes_tiny (mkCircle (7, 8) (/ 100000))); cbn [cr]; lra|].
  unfold on_circle. rewrite (proj2 (dist_0 (7, 8) (7, 8)) eq_refl). lra.
Qed.

Lemma angle_raises_ex : exists c1 c2, Circle_init (0, 0) 1 = Ok c1 /\ Circle_init (2 + / 1000000000, 0) 1 = Ok c2 /\
  circle_angle c1 c2 = Raise ValueError.
Proof.
  exists (mkCircle (0, 0) 1), (mkCircle (2 + / 1000000000, 0) 1). rewrite !Circle_init_pos by lra. split; auto. split; auto.
  destruct (angle_raises (mkCircle (0, 0) 1) (mkCircle (2 + / 1000000000, 0) 1)) as [[_ K] V]; cbn [cr]; try lra.
  destruct K as [e E]; [|rewrite E; f_equal; auto].
  left. cbn [cO cr]. unspec. unfold sepsilon_. lra.
Qed.
