(** * Images of circles by Möbius transformations: a concrete case. *)

From Coq Require Import Reals Lra Psatz List Bool.
From Verif Require Import Base BaseLemmas Spec SpecLemmas SpecMobius ModelInternal ModelLine ModelCircle ModelInversion ModelMobius ModelMobWord PLine PMobius PMobius2 PMobius4 PMobiusEx PMobCirc.
Import ListNotations.
Local Open Scope R_scope.

Lemma exJ_out c p : 0 < cr c -> cr c < dist (cO c) (0, 0) -> transform exJ (Pt p) = Ok Inf -> cr c < dist (cO c) p.
Proof.
  intros H Hd T. apply transform_pole in T; [|apply exJ_det]. assert (E : p = (0, 0)). { destruct p as [x y]. revert T. unfold exJ. cbn [mc md]. unC. intros T. injection T as T1 T2. apply pair_eq; lra. }
  subst. auto.
Qed.
Lemma ex_C112 : let c1 := mkCircle (2, 0) 1 in let c2 := mkCircle (4, 0) 1 in
  mdet exJ <> C0 /\ ext_tangent (cO c1) (cr c1) (cO c2) (cr c2) /\
  (exists c1' c2', transform_circle_word 0 [exJ] c1 c1' /\ transform_circle_word 0 [exJ] c2 c2' /\ ext_tangent (cO c1') (cr c1') (cO c2') (cr c2')) /\
  (forall p, transform exJ (Pt p) = Ok Inf -> cr c1 < dist (cO c1) p /\ cr c2 < dist (cO c2) p).
Proof.
  intros c1 c2. assert (D : forall x r, 0 < r -> r < x -> dist (x, 0) (0, 0) = x).
  { intros x r Hr Hx. unfold dist. apply sqrt_eq; [lra|]. unspec. ring. }
  assert (HT : ext_tangent (cO c1) (cr c1) (cO c2) (cr c2)) by (unfold ext_tangent, dist, c1, c2; cbn [cO cr]; apply sqrt_eq; [lra|]; unspec; ring).
  assert (HO : forall p, transform exJ (Pt p) = Ok Inf -> cr c1 < dist (cO c1) p /\ cr c2 < dist (cO c2) p).
  { intros p T. split; apply exJ_out; auto; unfold c1, c2; cbn [cO cr]; try lra; rewrite (D _ 1); lra. }
  split; [apply exJ_det|]. split; auto. split; auto.
  destruct (transform_circle_circle 0 exJ c1 exJ_det) as (d1 & E1 & _); [unfold c1; cbn; lra|intros p T; destruct (HO p T); unfold on_circle; lra|].
  destruct (transform_circle_circle 0 exJ c2 exJ_det) as (d2 & E2 & _); [unfold c2; cbn; lra|intros p T; destruct (HO p T); unfold on_circle; lra|].
  exists d1, d2. split; [exists d1; cbn; auto|]. split; [exists d2; cbn; auto|].
  apply (proj1 (mob_ext 0 exJ c1 c2 d1 d2 exJ_det ltac:(unfold c1; cbn; lra) ltac:(unfold c2; cbn; lra) E1 E2 HT)). auto.
Qed.
