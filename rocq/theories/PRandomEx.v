(** * Random points: the ellipse, examples. *)

From Coq Require Import Reals Lra List ZArith.
From Verif Require Import Base BaseLemmas Spec SpecLemmas SpecTriangle SpecRandom ModelInternal ModelLine ModelCircle ModelAffine ModelEllipse ModelTriangle PRandom.
Import ListNotations.
Local Open Scope R_scope.

Lemma ellipse_on_refuted e : 0 < eb e -> 2 * eb e <= ea e -> ealpha e = 0 ->
  let P t := (fst (eO e) + ea e * cos t, snd (eO e) + eb e * sin t) in
  (forall u k t, 0 < k -> ellipse_random_points e 1 WhereOn [(u, (k * cos t, k * sin t))] = Ok [P t]) /\
  (forall l, increasing 0 (PI / 4) l -> polyline (map P l) <= 7 / 10 * ea e) /\
  7 / 10 * ea e < dist (P (PI / 4)) (P (PI / 2)).
Proof.
  intros Hb Hab Hz P. split; [intros; apply ellipse_on_param; auto; lra|]. split.
  - intros l Hl. apply (ellipse_on_uneven e l Hb Hab Hl).
  - apply (ellipse_on_uneven e [] Hb Hab). cbn [increasing]. pose proof PI_RGT_0. lra.
Qed.

Lemma ex_C109_triangle : ~ collinear (0, 0) (1, 0) (0, 1) /\
  triangle_random_points (mkTri (0, 0) (1, 0) (0, 1)) 2 WhereIn [(/ 2, / 4); (/ 4, 9 / 16)] = Ok [(/ 4, / 4); (9 / 16, 3 / 16)].
Proof.
  split.
  - intros K. apply collinear_cross in K. unfold scross, vsub in K; cbn [fst snd] in K. lra.
  - unfold triangle_random_points. change (2 <=? 0)%Z with false. cbn [map tA tB tC fst snd]. unfold runif_in_triangle1_; cbn [fst snd].
    replace (/ 4) with (/ 2 * / 2) at 1 by lra. rewrite sqrt_square by lra. replace (9 / 16) with (3 / 4 * (3 / 4)) at 1 by lra.
    replace (sqrt (/ 4)) with (/ 2) by (symmetry; replace (/ 4) with (/ 2 * / 2) by lra; apply sqrt_square; lra). replace (sqrt (9 / 16)) with (3 / 4) by (symmetry; replace (9 / 16) with (3 / 4 * (3 / 4)) by lra; apply sqrt_square; lra). rewrite ?sqrt_square by lra.
    assert (EP : forall a b c d : R, a = c -> b = d -> (a, b) = (c, d)) by (intros; subst; auto). f_equal. f_equal; [apply EP; lra|]. f_equal. apply EP; lra.
Qed.

Lemma ex_C109_circle : circle_random_points (mkCircle (1, 1) 2) 1 WhereIn [(/ 4, (3, 4))] = Ok [(8 / 5, 9 / 5)].
Proof.
  unfold circle_random_points. change (1 <=? 0)%Z with false. cbn [mapM fst snd cr cO]. unfold runif_in_circle1_, runif_on_circle1_.
  assert (V : vlength_ (3, 4) = 5) by (unfold vlength_, dot_; cbn [fst snd]; replace (3 * 3 + 4 * 4) with (5 * 5) by lra; apply sqrt_square; lra).
  rewrite V, (proj2 (eqb_false 5 0)) by lra. cbn [bind fst snd]. replace (sqrt (/ 4)) with (/ 2) by (symmetry; replace (/ 4) with (/ 2 * / 2) by lra; apply sqrt_square; lra).
  unfold vadd, vscal; cbn [fst snd]. do 3 f_equal; lra.
Qed.
