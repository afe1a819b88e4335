(** * Proofs about the methods that call another function (C93). *)

From Coq Require Import Reals List Bool String Lra Psatz.
From Verif Require Import Base BaseLemmas Spec SpecLemmas SpecTriangle ModelInternal ModelLine ModelCircle ModelEllipse ModelTriangle ModelInversion ModelAffine ModelTransfo ModelAlias
  PLine PCircle PEllipse PEllipse2 PReflect PInversion PInversion2 PInversionEx PTransfo PTransfoEx PTriangle PLineEx PCircleEx PEllipseEx.
Import ListNotations.
Local Open Scope R_scope.

Lemma line_reflection_mirror l M Q : line_reflection l M = Ok Q ->
  allclose (lA l) M = false -> allclose (lB l) M = false -> mirror (lA l) (lB l) M Q.
Proof.
  unfold line_reflection, Reflection_init. destruct (Line_init_cases (lA l) (lB l) true true) as [[Hc ->]|[Hc ->]]; [|discriminate]. cbn [bind].
  intros E H1 H2. exact (reflection_spec (mkLine (lA l) (lB l) true true) M Q Hc H1 H2 E).
Qed.

Lemma line_reflection_total l M H : allclose (lA l) (lB l) = false -> on_line (lA l) (lB l) H -> orthogonal (vsub M H) (vsub (lB l) (lA l)) ->
  allclose H M = false -> allclose (lA l) M = false -> allclose (lB l) M = false -> exists Q, line_reflection l M = Ok Q /\ Q <> M.
Proof.
  intros Hc HH Ho Hm H1 H2. unfold line_reflection, Reflection_init. destruct (Line_init_cases (lA l) (lB l) true true) as [[_ ->]|[Hc' _]]; [|congruence]. cbn [bind].
  assert (Hne : ~ on_line (lA l) (lB l) M).
  { intros K. apply (allclose_false_neq _ _ Hm). pose proof (allclose_false_neq _ _ Hc) as Hab. apply on_line_cross in HH, K; auto.
    pose proof (dist2_pos _ _ Hab) as Hd. apply dist2_0. apply Rmult_eq_reg_l with (dist2 (lA l) (lB l)); [|lra].
    revert HH K Ho. unfold orthogonal. destruct (lA l) as [a b], (lB l) as [c d], H as [x y], M as [z w]. unspec. unpt. intros.
    assert (E1 : (c - a) * (w - y) - (d - b) * (z - x) = 0) by lra. assert (E2 : (c - a) * (z - x) + (d - b) * (w - y) = 0) by lra.
    transitivity (((c - a) * (w - y) - (d - b) * (z - x)) * ((c - a) * (w - y) - (d - b) * (z - x)) + ((c - a) * (z - x) + (d - b) * (w - y)) * ((c - a) * (z - x) + (d - b) * (w - y))); [ring|rewrite E1, E2; ring]. }
  destruct (proj2 (reflection_exact (mkLine (lA l) (lB l) true true) M H Hc HH Ho) H1 H2 Hne) as [_ K]. destruct (K Hm) as (Q & E & Hmir). exists Q. split; auto.
  intros ->. apply Hne. destruct Hmir as [K1 _]. cbn [lA lB] in K1. replace (midpoint M M) with M in K1; auto.
  destruct M as [x y]. unfold midpoint. unpt. f_equal; field.
Qed.

Lemma triangle_edges_spec T : exists a b c, triangle_edges T = [("a", a); ("b", b); ("c", c)]%string /\
  a = dist (tB T) (tC T) /\ b = dist (tC T) (tA T) /\ c = dist (tA T) (tB T).
Proof.
  exists (side_a T), (side_b T), (side_c T). split; [reflexivity|]. unfold side_a, side_b, side_c. repeat split; rewrite distance_dist; auto.
  unfold dist. f_equal. destruct T as [[a b] [c d] [e f]]. cbn [tA tC]. unspec. unpt. ring.
Qed.

Lemma line_and_circle l c P Q : lA l <> lB l -> 0 < cr c ->
  line_intersection_with_circle l c = Ok (ITwo P Q) \/ circle_intersection_with_line c l = Ok (ITwo P Q) ->
  P <> Q /\ forall M, (on_line (lA l) (lB l) M /\ on_circle (cO c) (cr c) M) <-> (M = P \/ M = Q).
Proof.
  unfold line_intersection_with_circle, circle_intersection_with_line. intros H1 H2 H. assert (E : intersection_circle_line c l = Ok (ITwo P Q)) by tauto.
  pose proof (icl_spec c l H1 H2) as K. rewrite E in K. destruct K as (? & ? & ? & ? & ? & U). split; auto. intros M. split; [intros []; auto|intros [-> | ->]; auto].
Qed.

Lemma line_and_circle_none l c : lA l <> lB l -> 0 < cr c ->
  line_intersection_with_circle l c = Ok INone \/ circle_intersection_with_line c l = Ok INone ->
  forall M, on_line (lA l) (lB l) M -> ~ on_circle (cO c) (cr c) M.
Proof.
  unfold line_intersection_with_circle, circle_intersection_with_line. intros H1 H2 H. assert (E : intersection_circle_line c l = Ok INone) by tauto.
  pose proof (icl_spec c l H1 H2) as K. rewrite E in K. exact K.
Qed.

Lemma line_and_ellipse l e P Q : 0 < ea e -> 0 < eb e ->
  line_intersection_with_ellipse l e = Ok (ITwo P Q) \/ ellipse_intersection_with_line e l = Ok (ITwo P Q) ->
  P <> Q /\ forall M, (on_line (lA l) (lB l) M /\ on_ellipse (eO e) (ea e) (eb e) (radians (edeg e) (ealpha e)) M) <-> (M = P \/ M = Q).
Proof.
  unfold line_intersection_with_ellipse, ellipse_intersection_with_line. intros H1 H2 H. assert (E : intersection_ellipse_line e l = Ok (ITwo P Q)) by tauto.
  pose proof (iel_spec e l H1 H2) as K. rewrite E in K. destruct K as (? & ? & ? & ? & ? & U). split; auto. intros M. split; [intros []; auto|intros [-> | ->]; auto].
Qed.

Lemma line_and_ellipse_none l e : 0 < ea e -> 0 < eb e ->
  line_intersection_with_ellipse l e = Ok INone \/ ellipse_intersection_with_line e l = Ok INone ->
  forall M, on_line (lA l) (lB l) M -> ~ on_ellipse (eO e) (ea e) (eb e) (radians (edeg e) (ealpha e)) M.
Proof.
  unfold line_intersection_with_ellipse, ellipse_intersection_with_line. intros H1 H2 H. assert (E : intersection_ellipse_line e l = Ok INone) by tauto.
  pose proof (iel_spec e l H1 H2) as K. rewrite E in K. exact K.
Qed.

Lemma two_lines l l2 strict P : lA l <> lB l -> lA l2 <> lB l2 -> line_intersection_with_line l l2 strict = Some P ->
  forall M, (on_line (lA l) (lB l) M /\ on_line (lA l2) (lB l2) M) <-> M = P.
Proof.
  intros H1 H2 E. destruct (intersection_line_line_sound l l2 strict P H1 H2 E) as (X1 & X2 & U). intros M. split; [intros []; auto|intros ->; auto].
Qed.

Lemma two_circles c c2 P Q : 0 < cr c -> 0 < cr c2 -> circle_intersection_with_circle c c2 = Ok (CCPoints (ITwo P Q)) ->
  P <> Q /\ forall M, (on_circle (cO c) (cr c) M /\ on_circle (cO c2) (cr c2) M) <-> (M = P \/ M = Q).
Proof.
  intros H1 H2 E. unfold circle_intersection_with_circle in E. pose proof (icc_spec c c2 H1 H2) as K. rewrite E in K. destruct K as (? & ? & ? & ? & ? & U).
  split; auto. intros M. split; [intros []; auto|intros [-> | ->]; auto].
Qed.

Lemma two_circles_none c c2 : 0 < cr c -> 0 < cr c2 -> circle_intersection_with_circle c c2 = Ok (CCPoints INone) ->
  forall M, on_circle (cO c) (cr c) M -> ~ on_circle (cO c2) (cr c2) M.
Proof. intros H1 H2 E. unfold circle_intersection_with_circle in E. pose proof (icc_spec c c2 H1 H2) as K. rewrite E in K. exact K. Qed.

Lemma rotation_transform_spec r :
  (forall P, rotation_transform r P = rot (radians (rdeg r) (rtheta r)) (rO r) P) /\
  (forall c c', 0 < cr c -> rotation_transform_circle r c = Ok c' -> forall M,
     on_circle (cO c) (cr c) M <-> on_circle (cO c') (cr c') (rotation_transform r M)) /\
  (forall l l', rotation_transform_line r l = Ok l' -> lextA l' = lextA l /\ lextB l' = lextB l /\
     forall t, at_line (lA l') (lB l') t = rotation_transform r (at_line (lA l) (lB l) t)) /\
  (forall e e', rotation_transform_ellipse r e = Ok e' -> forall M,
     on_ellipse (eO e) (ea e) (eb e) (radians (edeg e) (ealpha e)) M <->
     on_ellipse (eO e') (ea e') (eb e') (radians (edeg e') (ealpha e')) (rotation_transform r M)).
Proof.
  assert (R : forall P, rotation_transform r P = rot (radians (rdeg r) (rtheta r)) (rO r) P) by (intros P; apply (rot_spec r)).
  split; auto. repeat split; try (intros; rewrite R in *).
  - apply (rotate_circle_spec r c c'); auto.
  - apply (rotate_circle_spec r c c'); auto.
  - apply (rotate_line_image r l l'); auto.
  - apply (rotate_line_image r l l'); auto.
  - apply (rotate_line_image r l l'); auto.
  - apply (rotate_ellipse_spec r e e'); auto.
  - apply (rotate_ellipse_spec r e e'); auto.
Qed.

Lemma ex_C93 :
  line_reflection (mkLine (0, 0) (1, 0) false false) (3, 2) = Ok (3, -2) /\
  (exists P Q, line_intersection_with_circle (mkLine (0, 3) (1, 3) true true) (mkCircle (0, 0) 5) = Ok (ITwo P Q)) /\
  (exists P Q, ellipse_intersection_with_line (mkEllipse (0, 0) 2 1 0 true) (mkLine (0, 0) (1, 0) true true) = Ok (ITwo P Q)) /\
  line_intersection_with_line (mkLine (1, 0) (1, 1) true true) (mkLine (0, 2) (1, 2) true true) false = Some (1, 2) /\
  (exists P Q, circle_intersection_with_circle (mkCircle (0, 0) 5) (mkCircle (6, 0) 5) = Ok (CCPoints (ITwo P Q))) /\
  rotation_transform_line (mkRot (1, 1) 90 true) (mkLine (3, 1) (1, 1) true false) = Ok (mkLine (1, 3) (1, 1) true false).
Proof.
  repeat split.
  - set (l := mkLine (0, 0) (1, 0) false false). destruct (line_reflection_total l (3, 2) (3, 0)) as (Q & E & _); try (unfold l; cbn [lA lB]; evalclose).
    + exists 3. unfold l, at_line. cbn [lA lB]. unpt. f_equal; ring.
    + unfold orthogonal, l. cbn [lA lB]. unspec. unpt. ring.
    + fold l. rewrite E. f_equal. destruct (line_reflection_mirror l (3, 2) Q E) as [K1 K2]; try (unfold l; cbn [lA lB]; evalclose).
      unfold l in *. cbn [lA lB] in *. destruct Q as [x y]. apply on_line_cross in K1; [|intros K; injection K; lra]. unfold midpoint, orthogonal in *. unspec. unpt. f_equal; lra.
  - exact ex_C14.
  - exact (proj1 ex_C16).
  - exact (proj2 (proj2 ex_C08)).
  - exact ex_C15.
  - apply ex_C68.
Qed.
