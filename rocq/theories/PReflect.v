(** * Proofs about Reflection, Projection, Rotation, Shear, ScalingXY, Homothety, Scaling. *)

From Coq Require Import Reals Lra Lia Psatz List Bool.
From Verif Require Import Base BaseLemmas Spec SpecLemmas ModelInternal ModelLine ModelCircle ModelAffine ModelEllipse ModelTransfo PLine PCircle PInvBase PAffine.
Import ListNotations.
Local Open Scope R_scope.

(** ** Mirror images *)

Lemma mirror_sym A B P Q : mirror A B P Q -> mirror A B Q P.
Proof.
  intros [H1 H2]. split.
  - replace (midpoint Q P) with (midpoint P Q); auto. unspec. f_equal; field.
  - unspec. lra.
Qed.

Lemma mirror_cross A B P Q : A <> B -> (mirror A B P Q <->
  scross (vsub B A) (vsub P A) + scross (vsub B A) (vsub Q A) = 0 /\ sdot (vsub Q P) (vsub B A) = 0).
Proof.
  intros H. unfold mirror. rewrite (on_line_cross A B) by auto. unspec. split; intros [H1 H2]; split; auto; lra.
Qed.

Lemma mirror_unique A B P Q Q' : A <> B -> mirror A B P Q -> mirror A B P Q' -> Q = Q'.
Proof.
  intros H H1 H2. apply mirror_cross in H1; auto. apply mirror_cross in H2; auto. destruct H1 as [X1 Y1], H2 as [X2 Y2].
  pose proof (pt_neq A B H) as Hp. unspec. set (u := fst B - fst A) in *. set (v := snd B - snd A) in *.
  assert (E1 : u * (snd Q - snd Q') - v * (fst Q - fst Q') = 0) by lra.
  assert (E2 : u * (fst Q - fst Q') + v * (snd Q - snd Q') = 0) by lra.
  assert (F1 : (u * u + v * v) * (fst Q - fst Q') = 0).
  { transitivity (u * (u * (fst Q - fst Q') + v * (snd Q - snd Q')) - v * (u * (snd Q - snd Q') - v * (fst Q - fst Q'))); [ring|]. rewrite E1, E2. ring. }
  assert (F2 : (u * u + v * v) * (snd Q - snd Q') = 0).
  { transitivity (v * (u * (fst Q - fst Q') + v * (snd Q - snd Q')) + u * (u * (snd Q - snd Q') - v * (fst Q - fst Q'))); [ring|]. rewrite E1, E2. ring. }
  apply Rmult_integral in F1. apply Rmult_integral in F2. destruct Q, Q'; cbn [fst snd] in *. f_equal; lra.
Qed.

Lemma mirror_self A B P : A <> B -> (mirror A B P P <-> on_line A B P).
Proof.
  intros H. unfold mirror. replace (midpoint P P) with P by (destruct P; unspec; f_equal; field). unspec.
  split; [tauto|]. intros; split; auto. ring.
Qed.

(** ** Reflection *)

Lemma reflection_cases l P : allclose (lA l) (lB l) = false ->
  ((allclose (lA l) P = true \/ allclose (lB l) P = true \/ on_line (lA l) (lB l) P) ->
      reflection_transform_pt l P = Ok P) /\
  (allclose (lA l) P = false -> allclose (lB l) P = false -> ~ on_line (lA l) (lB l) P ->
     exists H, line_projection l P = Some H /\
       (allclose H P = true -> reflection_transform_pt l P = Raise ValueError) /\
       (allclose H P = false -> exists Q, reflection_transform_pt l P = Ok Q /\ mirror (lA l) (lB l) P Q)).
Proof.
  intros HAB. pose proof (allclose_false_neq _ _ HAB) as NAB. split.
  - intros H. unfold reflection_transform_pt. rewrite includes_nonstrict.
    assert (E : collinear_ (lA l) (lB l) P = Ok true).
    { destruct H as [H|[H|H]]; [apply collinear_close; auto..|apply collinear_on_line; auto]. }
    rewrite E. cbn [bind]. auto.
  - intros H1 H2 H3. destruct (collinear_not_close _ _ P HAB H1 H2) as (b & Eb & Kb).
    assert (b = false) by (destruct b; auto; exfalso; apply H3; apply Kb; auto). subst b.
    destruct (projection_spec l P NAB) as (F & EF & F1 & F2). exists F. split; auto.
    unfold reflection_transform_pt. rewrite includes_nonstrict, Eb. cbn [bind].
    destruct (perpendicular l P false false) as [l'|e] eqn:EP.
    + pose proof (perpendicular_spec l P false false l' NAB EP) as (_ & _ & C3 & C4 & _).
      rewrite includes_nonstrict in C4. destruct (C4 Eb) as (C5 & C6 & _). rewrite EF in C5. injection C5 as C5.
      split; intros K; [rewrite C5 in K; rewrite C6 in C3; congruence|].
      cbn [bind]. eexists. split; [reflexivity|]. rewrite C6. subst F.
      split.
      * replace (midpoint P _) with (lA l'); auto. destruct P, (lA l') as [x y]. unspec. f_equal; field.
      * clear - F2. unspec. lra.
    + assert (EE : allclose F P = true).
      { clear - EP Eb EF HAB F1 F2 NAB. unfold perpendicular in EP. rewrite includes_nonstrict, Eb in EP. cbn [bind] in EP.
        revert EP. match goal with |- context [line_line_intersection_ ?a ?b ?c ?d] => pose proof (line_line_intersection_spec a b c d) as K; destruct (line_line_intersection_ a b c d) as [X|] end.
        - intros EP. destruct K as (K1 & K2 & K3). assert (X = F).
          { apply (lli_unique (lA l) (lB l) (vsub P (- snd (vsub (lB l) (lA l)), fst (vsub (lB l) (lA l)))) (vadd P (- snd (vsub (lB l) (lA l)), fst (vsub (lB l) (lA l))))); auto.
            - apply on_line_cross; auto.
            - clear - F2. unspec. lra. }
          subst X. destruct (Line_init_cases F P false false) as [[? E]|[? E]]; auto. rewrite E in EP. discriminate.
        - intros _. exfalso. pose proof (pt_neq _ _ NAB). unspec. nra. }
      rewrite (perpendicular_raises _ _ _ _ _ NAB EP). split; auto. intros K; congruence.
Qed.

Lemma reflection_spec l P Q : allclose (lA l) (lB l) = false ->
  allclose (lA l) P = false -> allclose (lB l) P = false ->
  reflection_transform_pt l P = Ok Q -> mirror (lA l) (lB l) P Q.
Proof.
  intros H H1 H2 E. destruct (reflection_cases l P H) as [K1 K2]. pose proof (allclose_false_neq _ _ H) as N.
  destruct (Req_EM_T (scross (vsub (lB l) (lA l)) (vsub P (lA l))) 0) as [Z|Z].
  - apply on_line_cross in Z; auto. rewrite K1 in E by auto. injection E as <-. apply mirror_self; auto.
  - destruct K2 as (F & _ & F1 & F2); auto; [intros L; apply on_line_cross in L; auto|].
    destruct (allclose F P) eqn:EF; [rewrite F1 in E by auto; discriminate|].
    destruct F2 as (Q' & E' & M); auto. rewrite E in E'. injection E' as ->. auto.
Qed.

Lemma reflection_involutive l P Q P' : allclose (lA l) (lB l) = false ->
  allclose (lA l) P = false -> allclose (lB l) P = false ->
  allclose (lA l) Q = false -> allclose (lB l) Q = false ->
  reflection_transform_pt l P = Ok Q -> reflection_transform_pt l Q = Ok P' -> P' = P.
Proof.
  intros H H1 H2 H3 H4 E1 E2. apply reflection_spec in E1; auto. apply reflection_spec in E2; auto.
  apply mirror_sym in E1. apply (mirror_unique (lA l) (lB l) Q); auto. apply allclose_false_neq; auto.
Qed.

Lemma reflection_isometry l P Q P' Q' : allclose (lA l) (lB l) = false ->
  allclose (lA l) P = false -> allclose (lB l) P = false ->
  allclose (lA l) Q = false -> allclose (lB l) Q = false ->
  reflection_transform_pt l P = Ok P' -> reflection_transform_pt l Q = Ok Q' -> dist P' Q' = dist P Q.
Proof.
  intros H H1 H2 H3 H4 E1 E2. apply reflection_spec in E1; auto. apply reflection_spec in E2; auto.
  apply dist_eq_iff. symmetry. apply (mirror_dist (lA l) (lB l)); auto. apply allclose_false_neq; auto.
Qed.

Lemma reflection_affine_spec l : lA l <> lB l ->
  exists f, reflection_as_affine l = Ok f /\ forall P, mirror (lA l) (lB l) P (affine_transform f P).
Proof.
  intros H. pose proof (pt_neq _ _ H) as Hp. destruct l as [[ax ay] [bx by_] e1 e2]. cbn [lA lB fst snd] in *.
  unfold reflection_as_affine, reflection_mat3, inv3, det3, rows3. cbn [lA lB]. unpt. unaff.
  match goal with |- context [eqb ?d 0] => assert (D : d = (bx - ax) * (bx - ax) + (by_ - ay) * (by_ - ay)) by ring; rewrite D end.
  rewrite (proj2 (eqb_false _ _)) by lra. cbn [bind]. eexists. split; [reflexivity|].
  intros [x y]. apply mirror_cross; auto. unfold move_row. unaff. unspec.
  set (u := bx - ax) in *. set (v := by_ - ay) in *. split; field; lra.
Qed.

Lemma reflect_circle_spec l c c' : allclose (lA l) (lB l) = false -> 0 < cr c ->
  allclose (lA l) (cO c) = false -> allclose (lB l) (cO c) = false ->
  reflect_circle l c = Ok c' ->
  cr c' = cr c /\ mirror (lA l) (lB l) (cO c) (cO c') /\
  mirror_maps (lA l) (lB l) (cO c) (cr c) (cO c') (cr c').
Proof.
  intros H Hr H1 H2 E. unfold reflect_circle in E. apply bind_Ok in E. destruct E as (Q & EQ & E).
  apply Circle_init_Ok in E. destruct E as [_ ->]. cbn [cO cr]. apply reflection_spec in EQ; auto.
  split; auto. split; auto. apply mirror_maps_of_centers; auto; [apply allclose_false_neq; auto|lra].
Qed.

Lemma mirror_at_line A B P Q P' Q' t : A <> B -> mirror A B P P' -> mirror A B Q Q' ->
  mirror A B (at_line P Q t) (at_line P' Q' t).
Proof.
  intros H H1 H2. apply mirror_cross in H1; auto. apply mirror_cross in H2; auto. apply mirror_cross; auto.
  destruct H1 as [X1 Y1], H2 as [X2 Y2]. split.
  - transitivity ((1 - t) * (scross (vsub B A) (vsub P A) + scross (vsub B A) (vsub P' A)) + t * (scross (vsub B A) (vsub Q A) + scross (vsub B A) (vsub Q' A))).
    + clear. unspec. ring.
    + rewrite X1, X2. ring.
  - transitivity ((1 - t) * sdot (vsub P' P) (vsub B A) + t * sdot (vsub Q' Q) (vsub B A)).
    + clear. unspec. ring.
    + rewrite Y1, Y2. ring.
Qed.

Lemma reflect_line_spec l m m' : allclose (lA l) (lB l) = false ->
  allclose (lA l) (lA m) = false -> allclose (lB l) (lA m) = false ->
  allclose (lA l) (lB m) = false -> allclose (lB l) (lB m) = false ->
  reflect_line l m = Ok m' ->
  lextA m' = lextA m /\ lextB m' = lextB m /\
  forall t, mirror (lA l) (lB l) (at_line (lA m) (lB m) t) (at_line (lA m') (lB m') t).
Proof.
  intros H H1 H2 H3 H4 E. unfold reflect_line in E. apply bind_Ok in E. destruct E as (P & EP & E).
  apply bind_Ok in E. destruct E as (Q & EQ & E). apply Line_init_Ok in E. destruct E as [_ ->]. cbn [lA lB lextA lextB].
  apply reflection_spec in EP; auto. apply reflection_spec in EQ; auto. split; auto. split; auto.
  intros t. apply mirror_at_line; auto. apply allclose_false_neq; auto.
Qed.

(** a point at distance 1/200 of the line y = 1000 cannot be reflected *)
Lemma reflection_near_raises :
  let l := mkLine (0, 1000) (1, 1000) true true in
  allclose (lA l) (lB l) = false /\ reflection_transform_pt l (1 / 2, 1000 + / 200) = Raise ValueError.
Proof.
  intros l. assert (H : allclose (lA l) (lB l) = false) by (unfold l; cbn [lA lB]; evalclose). split; auto.
  destruct (reflection_cases l (1 / 2, 1000 + / 200) H) as [_ K]. destruct K as (F & EF & K & _).
  - unfold l; cbn [lA lB]. evalclose.
  - unfold l; cbn [lA lB]. evalclose.
  - intros [t E]. unfold l in E; cbn [lA lB] in E. unspec. injection E as E1 E2. lra.
  - apply K. unfold line_projection, line_line_intersection_, det2x2_, l in EF; cbn [lA lB fst snd] in EF. unpt.
    revert EF. match goal with |- context [eqb ?d 0] => replace (eqb d 0) with false by (symmetry; apply eqb_false; lra) end.
    intros EF. injection EF as EF. subst F.
    match goal with |- allclose ?X _ = _ => replace X with (1 / 2, 1000) by (f_equal; field) end. clear. evalclose.
Qed.


Lemma Reflection_init_spec l :
  (forall l', Reflection_init l = Ok l' -> lA l' = lA l /\ lB l' = lB l /\ lextA l' = true /\ lextB l' = true) /\
  (Reflection_init l = Raise ValueError <-> allclose (lA l) (lB l) = true).
Proof.
  unfold Reflection_init. destruct (Line_init_cases (lA l) (lB l) true true) as [[Hc ->]|[Hc ->]]; split; intros.
  - injection H as <-. cbn. auto.
  - rewrite Hc. split; discriminate.
  - discriminate.
  - rewrite Hc. tauto.
Qed.

Lemma reflection_transform_spec l E : reflection_transform l Inf = Ok Inf /\
  forall P, allclose (lA l) (lB l) = false -> allclose (lA l) P = false -> allclose (lB l) P = false ->
    reflection_transform l (Pt P) = Ok E -> exists Q, E = Pt Q /\ mirror (lA l) (lB l) P Q.
Proof.
  split; [reflexivity|]. intros P H H1 H2 K. apply bind_Ok in K. destruct K as (Q & EQ & K). injection K as <-. exists Q. split; auto.
  exact (reflection_spec l P Q H H1 H2 EQ).
Qed.
