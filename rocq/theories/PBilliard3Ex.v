(** * Elliptical billiard: concrete trajectories through a focus and between the foci. *)

From Coq Require Import Reals List Bool ZArith Lra Lia Field.
From Verif Require Import Base BaseLemmas Spec SpecLemmas ModelInternal ModelLine ModelCircle ModelAffine ModelEllipse
  ModelBilliard ModelBilliardAnim PLine PCircle PEllipse PEllipse2 PEllipseEx PBilliard PBilliardEx.
Import ListNotations.
Local Open Scope R_scope.

Lemma far P Q : Rabs (fst P - fst Q) > / 100000000 + / 100000 * Rabs (fst Q) \/ Rabs (snd P - snd Q) > / 100000000 + / 100000 * Rabs (snd Q) -> allclose P Q = false.
Proof.
  intros [H|H]; unfold allclose, allclose1; [rewrite (proj2 (leb_false _ _)) by lra; auto|rewrite andb_comm, (proj2 (leb_false _ _)) by lra; auto].
Qed.

Lemma ex_focal d : let e := mkEllipse (0, 0) 5 3 0 d in
  billiard_trajectory e 1 (4, 9 / 5) (0, -1) = Ok [mkLine (4, 9 / 5) (4, - (9 / 5)) true true; mkLine (- (364 / 73), 81 / 365) (4, - (9 / 5)) true true].
Proof.
  intros e. assert (Hs : std_ell e) by (unfold std_ell, e; cbn; repeat split; lra).
  assert (HQ1 : on_ellipse (0, 0) (ea e) (eb e) 0 (4, - (9 / 5))) by (apply std_on; cbn; lra).
  assert (I1 : intersection_ellipse_line e (mkLine (4, 9 / 5) (vadd (4, 9 / 5) (0, -1)) true true) = Ok (ITwo (4, 9 / 5) (4, - (9 / 5)))).
  { erewrite (std_iel_fwd e _ (ITwo (4 / 5, 3 / 5) (4 / 5, - (3 / 5)))); auto.
    - cbn [e ea eb fst snd]. apply ITwo_eq; field.
    - apply far. right. cbn [lA lB e ea eb vadd fst snd]. rewrite Rabs_right, Rabs_right; lra.
    - cbn [lA lB e ea eb vadd fst snd]. rewrite (circ_two _ _ (1 / 5)); cbn [fst snd]; unfold sepsilon_; try lra.
      cbv zeta. rewrite (proj2 (ltb_true _ 0)) by lra. rewrite Rabs_left by lra. apply ITwo_eq; field. }
  assert (I2 : intersection_ellipse_line e (mkLine (4, - (9 / 5)) (vadd (4, - (9 / 5)) (- (144 / 41), 162 / 205)) true true) = Ok (ITwo (- (364 / 73), 81 / 365) (4, - (9 / 5)))).
  { erewrite (std_iel_fwd e _ (ITwo (- (364 / 365), 27 / 365) (4 / 5, - (3 / 5)))); auto.
    - cbn [e ea eb fst snd]. apply ITwo_eq; field.
    - apply far. left. cbn [lA lB e ea eb vadd fst snd]. rewrite Rabs_right, Rabs_right; lra.
    - cbn [lA lB e ea eb vadd fst snd]. rewrite (circ_two _ _ (18 / 25)); cbn [fst snd]; unfold sepsilon_; try lra.
      cbv zeta. rewrite (proj2 (ltb_false _ 0)) by lra. rewrite Rabs_right by lra. apply ITwo_eq; field. }
  unfold billiard_trajectory. unfold Line_init at 1. rewrite far. 2:{ right. cbn [vadd snd]. rewrite Rabs_right, Rabs_right; lra. }
  cbn [bind]. rewrite I1. cbn [bind two_points]. unfold Line_init at 1. rewrite far. 2:{ right. cbn [snd]. rewrite Rabs_right, Rabs_left; lra. }
  cbn [bind billiard_loop].
  rewrite (billiard_step_eval e (4, 9 / 5) (4, - (9 / 5)) (- (144 / 41), 162 / 205) (- (364 / 73), 81 / 365) (4, - (9 / 5)) Hs HQ1 ltac:(cbn; lra)); [|idtac|idtac|exact I2|idtac].
  2:{ cbv zeta. unfold vsub, vscal, sdot. cbn [e ea eb fst snd]. f_equal; field. }
  2:{ apply far. left. cbn [vadd fst]. rewrite Rabs_right, Rabs_right; lra. }
  2:{ apply far. left. cbn [vadd fst]. rewrite Rabs_left, Rabs_right; lra. }
  cbn [bind]. reflexivity.
Qed.

Lemma ex_hyperbolic d : let e := mkEllipse (0, 0) 5 3 0 d in
  billiard_trajectory e 1 (3, 12 / 5) (0, -1) = Ok [mkLine (3, 12 / 5) (3, - (12 / 5)) true true; mkLine (- (385917 / 148417), 1901532 / 742085) (3, - (12 / 5)) true true].
Proof.
  intros e. assert (Hs : std_ell e) by (unfold std_ell, e; cbn; repeat split; lra).
  assert (HQ1 : on_ellipse (0, 0) (ea e) (eb e) 0 (3, - (12 / 5))) by (apply std_on; cbn; lra).
  assert (I1 : intersection_ellipse_line e (mkLine (3, 12 / 5) (vadd (3, 12 / 5) (0, -1)) true true) = Ok (ITwo (3, 12 / 5) (3, - (12 / 5)))).
  { erewrite (std_iel_fwd e _ (ITwo (3 / 5, 4 / 5) (3 / 5, - (4 / 5)))); auto.
    - cbn [e ea eb fst snd]. apply ITwo_eq; field.
    - apply far. right. cbn [lA lB e ea eb vadd fst snd]. rewrite Rabs_right, Rabs_right; lra.
    - cbn [lA lB e ea eb vadd fst snd]. rewrite (circ_two _ _ (4 / 15)); cbn [fst snd]; unfold sepsilon_; try lra.
      cbv zeta. rewrite (proj2 (ltb_true _ 0)) by lra. rewrite Rabs_left by lra. apply ITwo_eq; field. }
  assert (I2 : intersection_ellipse_line e (mkLine (3, - (12 / 5)) (vadd (3, - (12 / 5)) (- (1728 / 481), 7656 / 2405)) true true) = Ok (ITwo (- (385917 / 148417), 1901532 / 742085) (3, - (12 / 5)))).
  { erewrite (std_iel_fwd e _ (ITwo (- (385917 / 742085), 633844 / 742085) (3 / 5, - (4 / 5)))); auto.
    - cbn [e ea eb fst snd]. apply ITwo_eq; field.
    - apply far. left. cbn [lA lB e ea eb vadd fst snd]. rewrite Rabs_right, Rabs_left; lra.
    - cbn [lA lB e ea eb vadd fst snd]. rewrite (circ_two _ _ (32 / 25)); cbn [fst snd]; unfold sepsilon_; try lra.
      cbv zeta. rewrite (proj2 (ltb_false _ 0)) by lra. rewrite Rabs_right by lra. apply ITwo_eq; field. }
  unfold billiard_trajectory. unfold Line_init at 1. rewrite far. 2:{ right. cbn [vadd snd]. rewrite Rabs_right, Rabs_right; lra. }
  cbn [bind]. rewrite I1. cbn [bind two_points]. unfold Line_init at 1. rewrite far. 2:{ right. cbn [snd]. rewrite Rabs_right, Rabs_left; lra. }
  cbn [bind billiard_loop].
  rewrite (billiard_step_eval e (3, 12 / 5) (3, - (12 / 5)) (- (1728 / 481), 7656 / 2405) (- (385917 / 148417), 1901532 / 742085) (3, - (12 / 5)) Hs HQ1 ltac:(cbn; lra)); [|idtac|idtac|exact I2|idtac].
  2:{ cbv zeta. unfold vsub, vscal, sdot. cbn [e ea eb fst snd]. f_equal; field. }
  2:{ apply far. left. cbn [vadd fst]. rewrite Rabs_right, Rabs_left; lra. }
  2:{ apply far. left. cbn [vadd fst]. rewrite Rabs_left, Rabs_right; lra. }
  cbn [bind]. reflexivity.
Qed.

Lemma ex_billiard2 d : let e := mkEllipse (0, 0) 5 3 0 d in
  billiard_trajectory e 1 (4, 9 / 5) (0, -1) = Ok [mkLine (4, 9 / 5) (4, - (9 / 5)) true true; mkLine (- (364 / 73), 81 / 365) (4, - (9 / 5)) true true] /\
  on_line (4, 9 / 5) (vadd (4, 9 / 5) (0, -1)) (4, 0) /\ on_line (4, - (9 / 5)) (- (364 / 73), 81 / 365) (-4, 0) /\
  billiard_frames e 1 (4, 9 / 5) (0, -1) = Ok [[mkLine (4, 9 / 5) (4, - (9 / 5)) true true]] /\
  billiard_trajectory e 1 (3, 12 / 5) (0, -1) = Ok [mkLine (3, 12 / 5) (3, - (12 / 5)) true true; mkLine (- (385917 / 148417), 1901532 / 742085) (3, - (12 / 5)) true true].
Proof.
  intros e. pose proof (ex_focal d) as E. cbv zeta in E. fold e in E. split; [exact E|]. split. { exists (9 / 5). unfold at_line. unpt. apply pair_eq; field. }
  split. { exists (73 / 82). unfold at_line. unpt. apply pair_eq; field. }
  split. { unfold billiard_frames. rewrite E. reflexivity. } exact (ex_hyperbolic d).
Qed.
