(** * Proofs about affine maps. *)

From Coq Require Import Reals Lra Lia Psatz List Bool.
From Verif Require Import Base BaseLemmas Spec SpecLemmas ModelInternal ModelLine ModelCircle ModelAffine PLine.
Import ListNotations.
Local Open Scope R_scope.

Ltac unaff := unfold affine_transform, affine_compose, affine_of_mat3, affine_mat3, mm3, mv2, tr3, cols in *;
  cbn [afA afb m11 m12 m21 m22 n11 n12 n13 n21 n22 n23 n31 n32 n33 fst snd] in *; unpt.

Lemma compose_left f g P :
  affine_transform (affine_compose f g true) P = affine_transform g (affine_transform f P).
Proof. destruct f as [[a b c d] [x y]], g as [[a' b' c' d'] [x' y']], P. unaff. f_equal; ring. Qed.

Lemma compose_right f g P :
  affine_transform (affine_compose f g false) P = affine_transform f (affine_transform g P).
Proof. destruct f as [[a b c d] [x y]], g as [[a' b' c' d'] [x' y']], P. unaff. f_equal; ring. Qed.

Lemma compose_list fs f P :
  affine_transform (fold_left (fun acc g => affine_compose acc g true) fs f) P =
  fold_left (fun Q g => affine_transform g Q) fs (affine_transform f P).
Proof.
  revert f. induction fs as [|g fs IH]; intros f; cbn [fold_left]; auto. rewrite IH, compose_left. auto.
Qed.

Lemma det3_affine f : det3 (affine_mat3 f) = det2 (afA f).
Proof. destruct f as [[a b c d] [x y]]. unfold det3, det2. unaff. ring. Qed.

Lemma inverse_spec f :
  (det2 (afA f) = 0 -> affine_inverse f = Ok None) /\
  (det2 (afA f) <> 0 -> exists g, affine_inverse f = Ok (Some g) /\ det2 (afA g) <> 0 /\
     (forall P, affine_transform g (affine_transform f P) = P) /\
     (forall P, affine_transform f (affine_transform g P) = P)).
Proof.
  split; intros H; unfold affine_inverse.
  - rewrite (proj2 (eqb_true _ _) H). auto.
  - rewrite (proj2 (eqb_false _ _) H). unfold inv3. rewrite det3_affine, (proj2 (eqb_false _ _) H). cbn [bind].
    destruct f as [[a b c d] [x y]]. unfold det2 in H; cbn [afA m11 m12 m21 m22] in H. 
    eexists. split; [reflexivity|]. unfold det2. split; [|split].
    + unaff. intros E. assert (E' : (a * d - b * c) * ((d * 1 - y * 0) / (a * d - b * c) * ((a * 1 - x * 0) / (a * d - b * c)) -
       (x * 0 - b * 1) / (a * d - b * c) * ((y * 0 - c * 1) / (a * d - b * c))) = 1) by (field; auto). rewrite E in E'. lra.
    + intros [u v]. unaff. f_equal; field; auto.
    + intros [u v]. unaff. f_equal; field; auto.
Qed.

(** the linear part of an affine map, acting on vectors *)
Lemma affine_at_line f A B t :
  affine_transform f (at_line A B t) = at_line (affine_transform f A) (affine_transform f B) t.
Proof. destruct f as [[a b c d] [x y]], A, B. unspec. unaff. f_equal; ring. Qed.

Lemma affine_inj f P Q : det2 (afA f) <> 0 -> affine_transform f P = affine_transform f Q -> P = Q.
Proof.
  intros H E. destruct (proj2 (inverse_spec f) H) as (g & _ & _ & K & _). rewrite <- (K P), <- (K Q), E. auto.
Qed.

Lemma transform_line_spec f l :
  (det2 (afA f) = 0 -> affine_transform_line f l = Ok None) /\
  (det2 (afA f) <> 0 ->
     (allclose (affine_transform f (lA l)) (affine_transform f (lB l)) = true /\
        affine_transform_line f l = Raise ValueError) \/
     exists l', affine_transform_line f l = Ok (Some l') /\ lextA l' = lextA l /\ lextB l' = lextB l /\
       lA l' = affine_transform f (lA l) /\ lB l' = affine_transform f (lB l) /\ allclose (lA l') (lB l') = false /\
       (forall t, at_line (lA l') (lB l') t = affine_transform f (at_line (lA l) (lB l) t)) /\
       (forall M, on_line (lA l) (lB l) M <-> on_line (lA l') (lB l') (affine_transform f M))).
Proof.
  split; intros H; unfold affine_transform_line.
  - rewrite (proj2 (eqb_true _ _) H). auto.
  - rewrite (proj2 (eqb_false _ _) H). fold (affine_transform f (lA l)) (affine_transform f (lB l)).
    destruct (Line_init_cases (affine_transform f (lA l)) (affine_transform f (lB l)) (lextA l) (lextB l)) as [[E1 E2]|[E1 E2]];
      rewrite E2; cbn [bind]; [right|left; auto].
    eexists. split; [reflexivity|]. cbn [lA lB lextA lextB]. do 5 (split; auto). split.
    + intros t. rewrite affine_at_line. auto.
    + intros M. split.
      * intros [t ->]. exists t. apply affine_at_line.
      * intros [t Et]. rewrite <- affine_at_line in Et. apply affine_inj in Et; auto. exists t; auto.
Qed.

Lemma three_points_spec P1 P2 P3 Q1 Q2 Q3 f : affine_from_three_points P1 P2 P3 Q1 Q2 Q3 = Ok (Some f) ->
  affine_transform f P1 = Q1 /\ affine_transform f P2 = Q2 /\ affine_transform f P3 = Q3 /\
  forall g, affine_transform g P1 = Q1 -> affine_transform g P2 = Q2 -> affine_transform g P3 = Q3 ->
    forall M, affine_transform g M = affine_transform f M.
Proof.
  unfold affine_from_three_points. intros H.
  apply bind_Ok in H. destruct H as (cp & Hcp & H). destruct cp; [discriminate|].
  apply bind_Ok in H. destruct H as (cq & Hcq & H). destruct cq; [discriminate|].
  set (f1 := mkAffine (cols (vsub P2 P1) (vsub P3 P1)) P1) in *.
  set (f2 := mkAffine (cols (vsub Q2 Q1) (vsub Q3 Q1)) Q1) in *.
  destruct (Req_EM_T (det2 (afA f1)) 0) as [E|E].
  { rewrite (proj1 (inverse_spec f1) E) in H. discriminate. }
  destruct (proj2 (inverse_spec f1) E) as (g & Hg & _ & K1 & K2). rewrite Hg in H. cbn [bind] in H.
  injection H as <-.
  assert (T : forall M, affine_transform (affine_compose g f2 true) M = affine_transform f2 (affine_transform g M)) by (intros; apply compose_left).
  assert (A1 : affine_transform f1 (0, 0) = P1) by (unfold f1; destruct P1, P2, P3; unaff; f_equal; ring).
  assert (A2 : affine_transform f1 (1, 0) = P2) by (unfold f1; destruct P1, P2, P3; unaff; f_equal; ring).
  assert (A3 : affine_transform f1 (0, 1) = P3) by (unfold f1; destruct P1, P2, P3; unaff; f_equal; ring).
  assert (B1 : affine_transform f2 (0, 0) = Q1) by (unfold f2; destruct Q1, Q2, Q3; unaff; f_equal; ring).
  assert (B2 : affine_transform f2 (1, 0) = Q2) by (unfold f2; destruct Q1, Q2, Q3; unaff; f_equal; ring).
  assert (B3 : affine_transform f2 (0, 1) = Q3) by (unfold f2; destruct Q1, Q2, Q3; unaff; f_equal; ring).
  split; [|split; [|split]].
  - rewrite T, <- A1, K1, B1. auto.
  - rewrite T, <- A2, K1, B2. auto.
  - rewrite T, <- A3, K1, B3. auto.
  - intros h H1 H2 H3 M. rewrite T. rewrite <- (K2 M) at 1.
    assert (U : forall N, affine_transform h (affine_transform f1 N) = affine_transform f2 N).
    { intros [u v]. clear T K1 K2 Hg. rewrite <- A1 in H1. rewrite <- A2 in H2. rewrite <- A3 in H3. rewrite <- B1 in H1. rewrite <- B2 in H2. rewrite <- B3 in H3.
      clear A1 A2 A3 B1 B2 B3. destruct h as [[a b c d] [x y]]. clearbody f1 f2. destruct f1 as [[a1 b1 c1 d1] [x1 y1]], f2 as [[a2 b2 c2 d2] [x2 y2]].
      unaff. injection H1 as X1 Y1. injection H2 as X2 Y2. injection H3 as X3 Y3.
      f_equal; nra. }
    apply U.
Qed.

Lemma collinear_false A B C : collinear_ A B C = Ok false ->
  ~ collinear A B C /\ allclose A B = false /\ allclose A C = false /\ allclose B C = false.
Proof.
  intros H. destruct (allclose A B) eqn:E1; [unfold collinear_, collinear_tol_ in H; rewrite E1 in H; discriminate|].
  destruct (allclose A C) eqn:E2; [rewrite collinear_close in H by auto; discriminate|].
  destruct (allclose B C) eqn:E3; [rewrite collinear_close in H by auto; discriminate|].
  split; auto. intros Hc. destruct (collinear_not_close A B C E1 E2 E3) as (b & Hb & K). rewrite Hb in H. injection H as ->.
  enough (false = true) by discriminate. apply K. apply on_line_cross. apply allclose_false_neq; auto. apply collinear_cross; auto.
Qed.

Lemma collinear_not A B C : ~ collinear A B C -> allclose A B = false -> allclose A C = false -> allclose B C = false ->
  collinear_ A B C = Ok false.
Proof.
  intros H E1 E2 E3. destruct (collinear_not_close A B C E1 E2 E3) as (b & Hb & K). rewrite Hb.
  destruct b; auto. exfalso. apply H. apply collinear_cross. apply on_line_cross; [apply allclose_false_neq; auto|]. apply K; auto.
Qed.

Lemma collinear_true A B C : collinear A B C -> collinear_ A B C = Ok true.
Proof.
  intros H. destruct (collinear_total A B C) as [b Hb]. destruct b; auto.
  apply collinear_false in Hb. tauto.
Qed.

Lemma three_points_total P1 P2 P3 Q1 Q2 Q3 :
  (collinear P1 P2 P3 \/ collinear Q1 Q2 Q3 -> affine_from_three_points P1 P2 P3 Q1 Q2 Q3 = Ok None) /\
  (collinear_ P1 P2 P3 = Ok false -> collinear_ Q1 Q2 Q3 = Ok false ->
     exists f, affine_from_three_points P1 P2 P3 Q1 Q2 Q3 = Ok (Some f)).
Proof.
  split.
  - intros H. unfold affine_from_three_points. destruct (collinear_total P1 P2 P3) as [b Hb]. rewrite Hb. cbn [bind]. destruct b; auto.
    destruct H as [H|H]; [rewrite (collinear_true _ _ _ H) in Hb; discriminate|].
    rewrite (collinear_true _ _ _ H). cbn [bind]. auto.
  - intros H1 H2. unfold affine_from_three_points. rewrite H1, H2. cbn [bind].
    set (f1 := mkAffine (cols (vsub P2 P1) (vsub P3 P1)) P1).
    destruct (Req_EM_T (det2 (afA f1)) 0) as [E|E].
    + exfalso. apply collinear_false in H1. apply (proj1 H1). apply collinear_cross. rewrite <- E. unfold f1, det2. unspec. unaff. ring.
    + destruct (proj2 (inverse_spec f1) E) as (g & Hg & _). rewrite Hg. cbn [bind]. eauto.
Qed.
