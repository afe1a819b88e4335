(** * Images of circles by Möbius transformations: composition, inverse, tangency, orthogonality, angles. *)

From Coq Require Import Reals List.
From Verif Require Import Base Spec SpecMobius ModelInternal ModelLine ModelCircle ModelMobius ModelMobWord PMobiusEx PMobCirc PMobCircEx.
Import ListNotations.
Local Open Scope R_scope.

(** ** C112 *)
Theorem C112_compose fuel M N c c1 c2 (left : bool) : mdet M <> C0 -> mdet N <> C0 -> 0 < cr c ->
  transform_circle fuel M c = Some (Ok (GC c1)) -> transform_circle fuel N c1 = Some (Ok (GC c2)) ->
  transform_circle fuel (if left then compose M N true else compose N M false) c = Some (Ok (GC c2)).
Proof. exact (tc_compose fuel M N c c1 c2 left). Qed.
Print Assumptions C112_compose.

Theorem C112_inverse fuel M c c' : mdet M <> C0 -> 0 < cr c ->
  transform_circle fuel M c = Some (Ok (GC c')) -> transform_circle fuel (inverse M) c' = Some (Ok (GC c)).
Proof. exact (tc_inverse fuel M c c'). Qed.
Print Assumptions C112_inverse.

Theorem C112_tangent_orthogonal fuel w c1 c2 c1' c2' : Forall (fun M => mdet M <> C0) w -> 0 < cr c1 -> 0 < cr c2 ->
  transform_circle_word fuel w c1 c1' -> transform_circle_word fuel w c2 c2' ->
  (ext_tangent (cO c1) (cr c1) (cO c2) (cr c2) \/ int_tangent (cO c1) (cr c1) (cO c2) (cr c2) <->
   ext_tangent (cO c1') (cr c1') (cO c2') (cr c2') \/ int_tangent (cO c1') (cr c1') (cO c2') (cr c2')) /\
  (circ_orthogonal (cO c1) (cr c1) (cO c2) (cr c2) <-> circ_orthogonal (cO c1') (cr c1') (cO c2') (cr c2')) /\
  Rabs (dist2 (cO c1') (cO c2') - cr c1' ^ 2 - cr c2' ^ 2) / (cr c1' * cr c2') =
  Rabs (dist2 (cO c1) (cO c2) - cr c1 ^ 2 - cr c2 ^ 2) / (cr c1 * cr c2).
Proof. exact (mob_preserves fuel w c1 c2 c1' c2'). Qed.
Print Assumptions C112_tangent_orthogonal.

(** which tangency: according to the position of the pole *)
Theorem C112_external_tangency fuel M c1 c2 c1' c2' : mdet M <> C0 -> 0 < cr c1 -> 0 < cr c2 ->
  transform_circle fuel M c1 = Some (Ok (GC c1')) -> transform_circle fuel M c2 = Some (Ok (GC c2')) ->
  ext_tangent (cO c1) (cr c1) (cO c2) (cr c2) ->
  ((forall p, transform M (Pt p) = Ok Inf -> (cr c1 < dist (cO c1) p /\ cr c2 < dist (cO c2) p)) -> ext_tangent (cO c1') (cr c1') (cO c2') (cr c2')) /\
  ((exists p, transform M (Pt p) = Ok Inf /\ (dist (cO c1) p < cr c1 \/ dist (cO c2) p < cr c2)) -> int_tangent (cO c1') (cr c1') (cO c2') (cr c2')).
Proof. exact (mob_ext fuel M c1 c2 c1' c2'). Qed.
Print Assumptions C112_external_tangency.

(** the angle of circles that meet is kept, or replaced by its supplement if the pole is
    inside exactly one of them *)
Theorem C112_angle fuel M c1 c2 c1' c2' : mdet M <> C0 -> 0 < cr c1 -> 0 < cr c2 ->
  (cr c1 - cr c2) ^ 2 <= dist2 (cO c1) (cO c2) <= (cr c1 + cr c2) ^ 2 ->
  transform_circle fuel M c1 = Some (Ok (GC c1')) -> transform_circle fuel M c2 = Some (Ok (GC c2')) ->
  exists t t', circle_angle c1 c2 = Ok (Some t) /\ circle_angle c1' c2' = Ok (Some t') /\
    ((forall p, transform M (Pt p) = Ok Inf -> (cr c1 < dist (cO c1) p <-> cr c2 < dist (cO c2) p)) -> t' = t) /\
    ((exists p, transform M (Pt p) = Ok Inf /\ (cr c1 < dist (cO c1) p <-> dist (cO c2) p < cr c2)) -> t' = PI - t).
Proof. exact (mob_angle fuel M c1 c2 c1' c2'). Qed.
Print Assumptions C112_angle.

(** z -> 1/z and two tangent circles *)
Example C112_example : let c1 := mkCircle (2, 0) 1 in let c2 := mkCircle (4, 0) 1 in
  mdet exJ <> C0 /\ ext_tangent (cO c1) (cr c1) (cO c2) (cr c2) /\
  (exists c1' c2', transform_circle_word 0 [exJ] c1 c1' /\ transform_circle_word 0 [exJ] c2 c2' /\ ext_tangent (cO c1') (cr c1') (cO c2') (cr c2')) /\
  (forall p, transform exJ (Pt p) = Ok Inf -> cr c1 < dist (cO c1) p /\ cr c2 < dist (cO c2) p).
Proof. exact ex_C112. Qed.
