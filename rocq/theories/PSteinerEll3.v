(** * The Steiner ellipses: the statements on solid ellipses. *)

From Coq Require Import Reals Lra Psatz List Bool.
From Verif Require Import Base BaseLemmas Spec SpecLemmas SpecTriangle SpecRandom ModelInternal ModelLine ModelCircle ModelAffine ModelEllipse ModelTransfo ModelTriangle
  PLine PCircle PAffine PEllipse PSteinerEll PSteinerEll2.
Import ListNotations.
Local Open Scope R_scope.

Lemma inellipse_largest A B C : ~ collinear A B C -> allclose A B = false -> allclose A C = false -> allclose B C = false ->
  exists e, steiner_inellipse (mkTri A B C) = Ok (Some e) /\
    (forall M, in_ellipse (eO e) (ea e) (eb e) (ell_th e) M -> in_closed_triangle A B C M) /\
    (forall O a b th, 0 < a -> 0 < b -> (forall M, in_ellipse O a b th M -> in_closed_triangle A B C M) ->
       PI * a * b <= PI * ea e * eb e /\
       (PI * a * b = PI * ea e * eb e -> forall M, in_ellipse O a b th M <-> in_ellipse (eO e) (ea e) (eb e) (ell_th e) M)).
Proof.
  intros N E1 E2 E3. destruct (steiner_extremal A B C N E1 E2 E3) as (e & e' & _ & He & HI & HM & _). exists e'. split; [exact He|]. split; [exact HI|]. intros O a b th Ha Hb H. destruct (HM O a b th Ha Hb H) as (L & K). split; [exact L|]. intros E M. unfold in_ellipse. rewrite (K E M). tauto.
Qed.

Lemma circumellipse_smallest A B C : ~ collinear A B C -> allclose A B = false -> allclose A C = false -> allclose B C = false ->
  exists e, steiner_ellipse (mkTri A B C) = Ok (Some e) /\
    (forall O a b th, 0 < a -> 0 < b -> Forall (in_ellipse O a b th) [A; B; C] ->
       PI * ea e * eb e <= PI * a * b /\
       (PI * a * b = PI * ea e * eb e -> forall M, in_ellipse O a b th M <-> in_ellipse (eO e) (ea e) (eb e) (ell_th e) M)).
Proof.
  intros N E1 E2 E3. destruct (steiner_extremal A B C N E1 E2 E3) as (e & e' & He & _ & _ & _ & HM & _). exists e. split; [exact He|]. intros O a b th Ha Hb H. destruct (HM O a b th Ha Hb H) as (L & K). split; [exact L|]. intros E M. unfold in_ellipse. rewrite (K E M). tauto.
Qed.

Lemma form_double O a b th M : ell_form O a b th (vadd O (vscal 2 (vsub M O))) = 4 * ell_form O a b th M.
Proof. unfold ell_form, fx, fy, vadd, vscal, vsub, Rdiv. cbn [fst snd]. ring. Qed.

Lemma steiner_areas A B C : ~ collinear A B C -> allclose A B = false -> allclose A C = false -> allclose B C = false ->
  exists e e', steiner_ellipse (mkTri A B C) = Ok (Some e) /\ steiner_inellipse (mkTri A B C) = Ok (Some e') /\
    PI * ea e' * eb e' = PI / (3 * sqrt 3) * triangle_area A B C /\ PI * ea e * eb e = 4 * (PI * ea e' * eb e') /\
    eO e = eO e' /\ ea e = 2 * ea e' /\ eb e = 2 * eb e' /\
    (forall M, in_ellipse (eO e') (ea e') (eb e') (ell_th e') M <-> in_ellipse (eO e) (ea e) (eb e) (ell_th e) (vadd (eO e) (vscal 2 (vsub M (eO e))))).
Proof.
  intros N E1 E2 E3. destruct (steiner_extremal A B C N E1 E2 E3) as (e & e' & He & He' & _ & _ & _ & H1 & H2 & H3 & H4 & H5 & H6). exists e, e'. do 7 (split; [assumption|]). intros M. unfold in_ellipse. rewrite form_double, H6. tauto.
Qed.
