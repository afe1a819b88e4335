(** * Cases in which the order of the arguments, or the points chosen on a line, do matter. *)

From Coq Require Import Reals Lra Lia Psatz List Bool ZArith Permutation.
From Verif Require Import Base BaseLemmas Spec SpecLemmas SpecTriangle SpecSym ModelInternal ModelLine ModelCircle ModelAffine ModelEllipse ModelTransfo ModelTriangle ModelInversion PLine PCircle PCircle2 PCircleEx PTriangle PTriangle2 PSym PSym2 PSym5.
Import ListNotations.
Local Open Scope R_scope.

Definition dl : R := 100100005 / 10000000000000.

Lemma circleAB_order : circleAB (1, 0) (1 + dl, 0) = Raise ValueError /\ exists c, circleAB (1 + dl, 0) (1, 0) = Ok c.
Proof.
  split; [apply circleAB_spec; unfold dl; evalclose|].
  destruct (proj2 (circleAB_spec (1 + dl, 0) (1, 0))) as (c & E & _); [unfold dl; evalclose|eauto].
Qed.

Lemma circle_equal_order : circle_is_equal (mkCircle (1, 0) 1) (mkCircle (1 + dl, 0) 1) = true /\ circle_is_equal (mkCircle (1 + dl, 0) 1) (mkCircle (1, 0) 1) = false.
Proof. unfold circle_is_equal. cbn [cr cO]. rewrite approx_equal_refl. unfold dl. split; evalclose. Qed.

Lemma atan_small x : 0 < x -> 0 < atan x <= x.
Proof.
  intros H. split; [rewrite <- atan_0; apply atan_increasing; exact H|].
  destruct (MVT_cor2 atan (fun y => / (1 + y ^ 2)) 0 x H) as (c & E & Hc).
  { intros y _. apply derivable_pt_lim_atan. }
  rewrite atan_0, !Rminus_0_r in E. rewrite E. assert (0 < 1 + c ^ 2) by nra. assert (/ (1 + c ^ 2) <= 1).
  { pose proof (Rinv_le_contravar 1 (1 + c ^ 2) ltac:(lra) ltac:(nra)) as K. rewrite Rinv_1 in K. exact K. }
  nra.
Qed.

(** the lines through (1, 0), (1, 10) and through (1 + dl, 0), (1 + dl - 5e-8, 10) *)
Definition la : line := mkLine (1, 0) (1, 10) true true.
Definition lb : line := mkLine (1 + dl, 0) (1 + dl - / 20000000, 10) true true.
Definition th : R := atan (/ 200000000).

Lemma th_range : 0 < th <= / 200000000.
Proof. apply atan_small. lra. Qed.

Lemma do_la : direction_offset la = (0, 1).
Proof. unfold direction_offset, la. cbn [lA lB fst snd]. evalb. reflexivity. Qed.

Lemma do_lb : exists o, direction_offset lb = (th, o) /\ 1 + dl - / 10000000000000000 <= o <= 1 + dl.
Proof.
  pose proof th_range as T. pose proof PI_RGT_0. assert (2 < PI) by (pose proof PI2_1; lra).
  exists ((1 + dl) * cos th). split.
  - unfold direction_offset, lb. cbn [lA lB fst snd]. evalb.
    assert (E : - atan2 (1 + dl - / 20000000 - (1 + dl)) (10 - 0) = th).
    { unfold atan2. destruct (Rlt_dec 0 (10 - 0)); [|lra]. unfold th. rewrite <- atan_opp. f_equal. lra. }
    rewrite E. assert (C : 0 < cos th) by (apply cos_gt_0; lra). replace ((1 + dl) * cos th + 0 * sin th) with ((1 + dl) * cos th) by ring.
    assert (0 < (1 + dl) * cos th) by (unfold dl in *; nra). rewrite (proj2 (ltb_false _ 0)) by lra. f_equal.
    apply (pymod_unique _ _ _ 0); lra.
  - pose proof (COS_bound th) as [_ C]. 
    assert (L : 1 - th * th / 2 <= cos th).
    { replace th with (2 * (th / 2)) at 3 by field. rewrite cos_2a_sin. assert (sin (th / 2) <= th / 2) by (left; apply sin_lt_x; lra). assert (0 <= sin (th / 2)) by (apply sin_ge_0; lra). nra. }
    unfold dl. split; nra.
Qed.

Lemma line_equal_order : line_is_equal la lb = true /\ line_is_equal lb la = false.
Proof.
  destruct do_lb as (o & E & Ho). pose proof th_range as T. unfold line_is_equal. rewrite do_la, E. cbn [fst snd].
  assert (N : approx_equal_ 1 o = false).
  { unfold approx_equal_, isclose. apply orb_false_iff. unfold dl in Ho. split; apply leb_false; rewrite !Rabs_right by lra || idtac; unfold Rmax; destruct Rle_dec; rewrite ?Rabs_left1 by lra; lra. }
  rewrite N, approx_equal_sym, N. unfold allclose, allclose1. cbn [fst snd]. unfold dl in Ho. split.
  - apply andb_true_iff. split; apply leb_true; split_Rabs; lra.
  - apply andb_false_iff. right. apply leb_false. split_Rabs; lra.
Qed.

Lemma meet_order : intersection_line_line la lb false = None /\ exists P, intersection_line_line lb la false = Some P.
Proof.
  destruct line_equal_order as [E1 E2]. unfold intersection_line_line. rewrite E1, E2. split; [reflexivity|].
  assert (N : is_parallel lb la = false).
  { unfold is_parallel, lb, la, det2x2_. cbn [lA lB fst snd]. apply ltb_false. unfold sepsilon_. split_Rabs; lra. }
  rewrite N. cbn [negb]. unfold line_line_intersection_, lb, la, det2x2_. cbn [lA lB fst snd]. rewrite (proj2 (eqb_false _ 0)) by lra. eauto.
Qed.

Lemma lines_accepted : Line_init (1, 0) (1, 10) true true = Ok la /\ Line_init (1 + dl, 0) (1 + dl - / 20000000, 10) true true = Ok lb.
Proof.
  unfold Line_init. replace (allclose (1, 0) (1, 10)) with false by (symmetry; evalclose).
  replace (allclose (1 + dl, 0) (1 + dl - / 20000000, 10)) with false by (symmetry; unfold dl; evalclose). auto.
Qed.

(** ** The same line given by other points *)

Lemma same_two A B s : A <> B -> s <> 0 -> same_line A B A (at_line A B s).
Proof.
  intros H Hs M. split; intros [t ->].
  - exists (t / s). unfold at_line, vadd, vscal, vsub. cbn [fst snd]. f_equal; field; auto.
  - exists (t * s). unfold at_line, vadd, vscal, vsub. cbn [fst snd]. f_equal; ring.
Qed.

(** two lines through the origin, one of them given by a near or by a far point *)
Lemma parallel_points : let l := mkLine (0, 0) (1, 0) true true in let m := mkLine (0, 0) (1, / 100000000) true true in let m' := mkLine (0, 0) (100, / 1000000) true true in
  Line_init (0, 0) (1, 0) true true = Ok l /\ Line_init (0, 0) (1, / 100000000) true true = Ok m /\ Line_init (0, 0) (100, / 1000000) true true = Ok m' /\
  same_line (lA m) (lB m) (lA m') (lB m') /\ is_parallel l m = true /\ is_parallel l m' = false.
Proof.
  intros l m m'. unfold Line_init.
  replace (allclose (0, 0) (1, 0)) with false by (symmetry; evalclose).
  replace (allclose (0, 0) (1, / 100000000)) with false by (symmetry; evalclose).
  replace (allclose (0, 0) (100, / 1000000)) with false by (symmetry; evalclose).
  split; [reflexivity|]. split; [reflexivity|]. split; [reflexivity|]. split; [|split].
  - unfold m, m'. cbn [lA lB]. replace (100, / 1000000) with (at_line (0, 0) (1, / 100000000) 100) by (unspec; f_equal; lra). apply same_two; [intros E; injection E; lra|lra].
  - unfold is_parallel, l, m, det2x2_. cbn [lA lB fst snd]. apply ltb_true. unfold sepsilon_. split_Rabs; lra.
  - unfold is_parallel, l, m', det2x2_. cbn [lA lB fst snd]. apply ltb_false. unfold sepsilon_. split_Rabs; lra.
Qed.

Lemma includes_points : let l := mkLine (0, 0) (1, 0) true true in let l' := mkLine (3, 0) (4, 0) true true in let M := (0, / 1000000000) in
  same_line (lA l) (lB l) (lA l') (lB l') /\ line_includes l M false true = Ok true /\ line_includes l' M false true = Ok false.
Proof.
  intros l l' M. split; [|split].
  - unfold l, l'; cbn [lA lB]. apply same_line_cross; try (intros E; injection E; lra). unspec. split; ring.
  - apply includes_close. left. unfold l, M. cbn [lA]. evalclose.
  - destruct (includes_decides l' M true) as (b & -> & E); try (unfold l', M; cbn [lA lB]; evalclose). destruct b; [|reflexivity]. exfalso.
    assert (O : on_line (lA l') (lB l') M) by (apply E; reflexivity). apply on_line_cross in O; unfold l', M in *; cbn [lA lB] in *; [|intros X; injection X; lra]. unspec. lra.
Qed.

Lemma icl_points : let l := mkLine (0, 0) (1, 0) true true in let l' := mkLine (0, 0) (/ 100000, 0) true true in let c := mkCircle (0, 0) 1 in
  Line_init (0, 0) (1, 0) true true = Ok l /\ Line_init (0, 0) (/ 100000, 0) true true = Ok l' /\
  same_line (lA l) (lB l) (lA l') (lB l') /\
  (exists P Q, intersection_circle_line c l = Ok (ITwo P Q)) /\ exists P, intersection_circle_line c l' = Ok (IOne P).
Proof.
  intros l l' c. unfold Line_init.
  replace (allclose (0, 0) (1, 0)) with false by (symmetry; evalclose).
  replace (allclose (0, 0) (/ 100000, 0)) with false by (symmetry; evalclose).
  split; [reflexivity|]. split; [reflexivity|]. split; [|split].
  - unfold l, l'. cbn [lA lB]. replace (/ 100000, 0) with (at_line (0, 0) (1, 0) (/ 100000)) by (unspec; f_equal; lra). apply same_two; [intros E; injection E; lra|lra].
  - unfold intersection_circle_line, circle_line_intersection_, c, l, det2x2_. cbn [cO cr lA lB vsub fst snd]. unfold sepsilon_. evalb. cbn [bind]. eauto.
  - unfold intersection_circle_line, circle_line_intersection_, c, l', det2x2_. cbn [cO cr lA lB vsub fst snd]. unfold sepsilon_. evalb. cbn [bind]. eauto.
Qed.

Lemma icc_order : exists P P', intersection_circle_circle (mkCircle (0, 0) 1) (mkCircle (0, 0) (10001 / 10000)) = Ok (CCPoints (IOne P)) /\
  intersection_circle_circle (mkCircle (0, 0) (10001 / 10000)) (mkCircle (0, 0) 1) = Ok (CCPoints (IOne P')) /\ P <> P'.
Proof.
  assert (N : approx_equal_ 1 (10001 / 10000) = false) by (unfold approx_equal_, isclose; apply orb_false_iff; split; apply leb_false; rsolve).
  destruct (icc_concentric (mkCircle (0, 0) 1) (mkCircle (0, 0) (10001 / 10000))) as [[P E] D]; cbn [cO cr]; unfold sepsilon_; auto; try lra.
  destruct (icc_concentric (mkCircle (0, 0) (10001 / 10000)) (mkCircle (0, 0) 1)) as [[P' E'] _]; cbn [cO cr]; unfold sepsilon_; auto; try lra; [rewrite approx_equal_sym; exact N|].
  exists P, P'. split; [exact E|]. split; [exact E'|]. intros <-.
  pose proof (icc_spec (mkCircle (0, 0) 1) (mkCircle (0, 0) (10001 / 10000)) ltac:(cbn; lra) ltac:(cbn; lra)) as S. rewrite E in S.
  pose proof (icc_spec (mkCircle (0, 0) (10001 / 10000)) (mkCircle (0, 0) 1) ltac:(cbn; lra) ltac:(cbn; lra)) as S'. rewrite E' in S'.
  apply (D P); tauto.
Qed.

Lemma ex_C89 : let c1 := mkCircle (0, 0) 5 in let c2 := mkCircle (6, 0) 5 in
  circle_is_equal c1 c2 = false /\ circle_is_equal c2 c1 = false /\ exists P Q, intersection_circle_circle c1 c2 = Ok (CCPoints (ITwo P Q)).
Proof.
  intros c1 c2. unfold circle_is_equal, c1, c2. cbn [cO cr]. rewrite approx_equal_refl. split; [|split; [|exact ex_C15]]; evalclose.
Qed.

Lemma ex_C90 : let l := mkLine (0, 0) (1, 2) true true in let l' := mkLine (2, 4) (-1, -2) true true in
  same_line (lA l) (lB l) (lA l') (lB l') /\ line_projection l (5, 0) = Some (1, 2) /\ line_projection l' (5, 0) = Some (1, 2).
Proof.
  intros l l'. assert (S : same_line (lA l) (lB l) (lA l') (lB l')).
  { unfold l, l'; cbn [lA lB]. apply same_line_cross; try (intros E; injection E; lra). unspec. split; ring. }
  assert (P : line_projection l (5, 0) = Some (1, 2)).
  { unfold line_projection, line_line_intersection_, det2x2_, l, vadd. cbn [lA lB fst snd]. rewrite (proj2 (eqb_false _ 0)) by lra. f_equal. f_equal; field. }
  split; [exact S|]. split; [exact P|]. rewrite <- P. symmetry. apply projection_same; auto; unfold l, l'; cbn [lA lB]; intros E; injection E; lra.
Qed.
