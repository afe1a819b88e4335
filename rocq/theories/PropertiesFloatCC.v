(** * C125: two circles in binary64 *)

From Coq Require Import Reals ZArith Lia Lra Bool SpecFloat.
From Verif Require Import SpecF64 SpecLibm Base Spec SpecLemmas ModelFloat ModelFloatInter ModelFloatCC PFloatEx PFloatCC2 PFloatCC3 PFloatCC4 PFloatCCEx.
Local Open Scope R_scope.

(** Integers: the number of common points is the exact one, whatever acos, atan2, cos and sin. *)
Theorem C125_intersection m acosf cosf sinf atan2f c1 c2 :
  on_grid 0 1048576 (c64_radius c1) -> on_grid 0 1048576 (c64_radius c2) -> 0 < SF2R (c64_radius c1) -> 0 < SF2R (c64_radius c2) ->
  on_grid2 0 65536 (c64_center c1) -> on_grid2 0 65536 (c64_center c2) ->
  let O1 := P2R (c64_center c1) in let O2 := P2R (c64_center c2) in
  let r1 := SF2R (c64_radius c1) in let r2 := SF2R (c64_radius c2) in
  let both M := on_circle O1 r1 M /\ on_circle O2 r2 M in
  match intersection_circle_circle64 m acosf cosf sinf atan2f c1 c2 with
  | Same64 c => c = c1 /\ O1 = O2 /\ r1 = r2
  | Points64 INone64 => forall M, ~ both M
  | Points64 (IOne64 _) => exists M, both M /\ forall N, both N -> N = M
  | Points64 (ITwo64 _ _) => exists M N, M <> N /\ both M /\ both N /\ forall L, both L -> L = M \/ L = N
  end.
Proof. exact (intersection_cc64_int m acosf cosf sinf atan2f c1 c2). Qed.
Print Assumptions C125_intersection.

(** The points, for accurate acos, atan2, cos and sin: on the first circle and of small power
    with respect to the second one, up to a few roundings, one on each side of the line of centres. *)
Theorem C125_points acosf cosf sinf atan2f : libm_cos_sin cosf sinf -> libm_acos_atan2 acosf atan2f ->
  forall m c1 c2, on_grid 0 1048576 (c64_radius c1) -> on_grid 0 1048576 (c64_radius c2) -> 0 < SF2R (c64_radius c1) -> 0 < SF2R (c64_radius c2) ->
  on_grid2 0 65536 (c64_center c1) -> on_grid2 0 65536 (c64_center c2) ->
  let near := near_common (P2R (c64_center c1)) (SF2R (c64_radius c1)) (P2R (c64_center c2)) (SF2R (c64_radius c2)) in
  match intersection_circle_circle64 m acosf cosf sinf atan2f c1 c2 with
  | Points64 (IOne64 P) => near 1 P
  | Points64 (ITwo64 P Q) => near 1 P /\ near (-1) Q
  | _ => True
  end.
Proof. exact (intersection_cc64_points acosf cosf sinf atan2f). Qed.
Print Assumptions C125_points.

Example C125_libm : (exists cosf sinf, libm_cos_sin cosf sinf) /\ exists acosf atan2f, libm_acos_atan2 acosf atan2f.
Proof. split; do 2 eexists; [exact libm_exists|exact libm_inverse_exists]. Qed.

(** With larger integers circles that cross are taken for the same circle. *)
Theorem C125_same_refuted m : exists c1 c2, on_grid2 0 200001 (c64_center c1) /\ on_grid2 0 200001 (c64_center c2) /\ on_grid 0 5 (c64_radius c1) /\ on_grid 0 5 (c64_radius c2) /\
  0 < SF2R (c64_radius c1) /\ 0 < SF2R (c64_radius c2) /\
  (exists M N, M <> N /\ forall X, on_circle (P2R (c64_center c1)) (SF2R (c64_radius c1)) X /\ on_circle (P2R (c64_center c2)) (SF2R (c64_radius c2)) X <-> X = M \/ X = N) /\
  forall acosf cosf sinf atan2f, intersection_circle_circle64 m acosf cosf sinf atan2f c1 c2 = Same64 c1.
Proof. exact (cc64_same_refuted m). Qed.
Print Assumptions C125_same_refuted.

(** Circle.angle answers None exactly when the circles have no common point. *)
Theorem C125_angle_none m acosf c1 c2 :
  on_grid 0 1048576 (c64_radius c1) -> on_grid 0 1048576 (c64_radius c2) -> 0 < SF2R (c64_radius c1) -> 0 < SF2R (c64_radius c2) ->
  on_grid2 0 1048576 (c64_center c1) -> on_grid2 0 1048576 (c64_center c2) ->
  (circle_angle64 m acosf c1 c2 = Ok None <->
   forall M, ~ (on_circle (P2R (c64_center c1)) (SF2R (c64_radius c1)) M /\ on_circle (P2R (c64_center c2)) (SF2R (c64_radius c2)) M)).
Proof. exact (angle64_int m acosf c1 c2). Qed.
Print Assumptions C125_angle_none.

(** Circles that cross: an angle is returned, whose cosine is, up to roundings, that of the angle
    between the vectors from the first centre to a common point and from this point to the second one. *)
Theorem C125_angle acosf atan2f : libm_acos_atan2 acosf atan2f -> forall m c1 c2 M N,
  on_grid2 0 1048576 (c64_center c1) -> on_grid2 0 1048576 (c64_center c2) -> on_grid 0 1048576 (c64_radius c1) -> on_grid 0 1048576 (c64_radius c2) ->
  let O1 := P2R (c64_center c1) in let O2 := P2R (c64_center c2) in let r1 := SF2R (c64_radius c1) in let r2 := SF2R (c64_radius c2) in
  0 < r1 -> 0 < r2 -> (O1, r1) <> (O2, r2) -> M <> N -> on_circle O1 r1 M /\ on_circle O2 r2 M -> on_circle O1 r1 N /\ on_circle O2 r2 N ->
  exists a, circle_angle64 m acosf c1 c2 = Ok (Some a) /\ fin a /\
    - 8 * u64 <= SF2R a <= PI + 8 * u64 /\
    Rabs (cos (SF2R a) - sdot (vsub M O1) (vsub O2 M) / (r1 * r2)) <= 40 * u64 * ((dist2 (0, 0) O1 + dist2 (0, 0) O2 + r1 * r1 + r2 * r2) / (r1 * r2)) + 8 * u64.
Proof. exact (angle64_value acosf atan2f). Qed.
Print Assumptions C125_angle.

Example C125_angle_example : let O1 := P2R (fz 0, fz 0) in let O2 := P2R (fz 6, fz 0) in let r := SF2R (fz 5) in
  on_grid2 0 1048576 (fz 0, fz 0) /\ on_grid2 0 1048576 (fz 6, fz 0) /\ on_grid 0 1048576 (fz 5) /\ 0 < r /\ (O1, r) <> (O2, r) /\
  (3, 4) <> (3, -4) /\ (on_circle O1 r (3, 4) /\ on_circle O2 r (3, 4)) /\ on_circle O1 r (3, -4) /\ on_circle O2 r (3, -4).
Proof.
  intros O1 O2 r. unfold O1, O2, r. rewrite !fz_P2R, (proj2 (fz_ok 5 ltac:(lia))) by lia. split; [apply fz_grid2; lia|]. split; [apply fz_grid2; lia|]. split; [apply fz_grid; lia|]. split; [lra|].
  split; [intros E; injection E; lra|]. split; [intros E; injection E; lra|]. repeat split; apply on_circle_sq; try lra; unspec; lra.
Qed.

(** Circle.angle raises for tangent circles with small integers. *)
Theorem C125_angle_tangent_refuted m acosf : exists c1 c2, on_grid2 0 10 (c64_center c1) /\ on_grid2 0 10 (c64_center c2) /\ on_grid 0 10 (c64_radius c1) /\ on_grid 0 10 (c64_radius c2) /\
  0 < SF2R (c64_radius c1) /\ 0 < SF2R (c64_radius c2) /\
  (exists M, forall X, on_circle (P2R (c64_center c1)) (SF2R (c64_radius c1)) X /\ on_circle (P2R (c64_center c2)) (SF2R (c64_radius c2)) X <-> X = M) /\
  circle_angle64 m acosf c1 c2 = Raise ValueError.
Proof. exact (angle64_tangent_refuted m acosf). Qed.
Print Assumptions C125_angle_tangent_refuted.

(** Circle.is_orthogonal is exact for integers up to 10000 (coordinates) and 20000 (radii). *)
Theorem C125_is_orthogonal m c1 c2 : on_grid2 0 10000 (c64_center c1) -> on_grid2 0 10000 (c64_center c2) -> on_grid 0 20000 (c64_radius c1) -> on_grid 0 20000 (c64_radius c2) ->
  (is_orthogonal64 m c1 c2 = true <->
   dist2 (P2R (c64_center c1)) (P2R (c64_center c2)) = SF2R (c64_radius c1) * SF2R (c64_radius c1) + SF2R (c64_radius c2) * SF2R (c64_radius c2)).
Proof. exact (is_orthogonal64_int m c1 c2). Qed.
Print Assumptions C125_is_orthogonal.

Theorem C125_is_orthogonal_refuted m : exists c1 c2, on_grid2 0 50000 (c64_center c1) /\ on_grid2 0 50000 (c64_center c2) /\ on_grid 0 50000 (c64_radius c1) /\ on_grid 0 50000 (c64_radius c2) /\
  dist2 (P2R (c64_center c1)) (P2R (c64_center c2)) <> SF2R (c64_radius c1) * SF2R (c64_radius c1) + SF2R (c64_radius c2) * SF2R (c64_radius c2) /\ is_orthogonal64 m c1 c2 = true.
Proof. exact (is_orthogonal64_large_refuted m). Qed.
Print Assumptions C125_is_orthogonal_refuted.

(** Circle.radical_center: the point of the line of centres with equal powers, up to a few roundings. *)
Theorem C125_radical_center m c1 c2 : on_grid2 0 65536 (c64_center c1) -> on_grid2 0 65536 (c64_center c2) -> on_grid 0 131072 (c64_radius c1) -> on_grid 0 131072 (c64_radius c2) ->
  let O1 := P2R (c64_center c1) in let O2 := P2R (c64_center c2) in
  let r1 := SF2R (c64_radius c1) in let r2 := SF2R (c64_radius c2) in
  let z := radical_center64 m c1 c2 in
  (O1 = O2 -> z = (S754_infinity false, S754_infinity false)) /\
  (O1 <> O2 -> exists C t, C = vadd O1 (vscal t (vsub O2 O1)) /\ dist2 O1 C - r1 * r1 = dist2 O2 C - r2 * r2 /\ fin2 z /\
     Rabs (SF2R (fst z) - fst C) <= 3 * u64 * (Rabs (fst C) + Rabs ((fst O1 + fst O2) / 2)) + 2 * eta64 /\
     Rabs (SF2R (snd z) - snd C) <= 3 * u64 * (Rabs (snd C) + Rabs ((snd O1 + snd O2) / 2)) + 2 * eta64).
Proof. exact (radical_center64_int m c1 c2). Qed.
Print Assumptions C125_radical_center.

(** Crossing, tangent, disjoint, equal and orthogonal circles with integer data. *)
Example C125_example : forall acosf cosf sinf atan2f,
  let c := Circle64 (fz 0, fz 0) (fz 5) in let at_ x r := Circle64 (fz x, fz 0) (fz r) in
  let go := intersection_circle_circle64 Separate acosf cosf sinf atan2f c in
  (exists P Q, go (at_ 6 5)%Z = Points64 (ITwo64 P Q)) /\ (exists P, go (at_ 7 2)%Z = Points64 (IOne64 P)) /\ (exists P, go (at_ 3 2)%Z = Points64 (IOne64 P)) /\
  go (at_ 9 2)%Z = Points64 INone64 /\ go (at_ 0 5)%Z = Same64 c /\
  is_orthogonal64 Separate (at_ 0 3)%Z (at_ 5 4)%Z = true /\ is_orthogonal64 Separate (at_ 0 3)%Z (at_ 5 5)%Z = false /\
  on_grid2 0 10000 (c64_center c) /\ on_grid 0 20000 (c64_radius c) /\ 0 < SF2R (c64_radius c) /\
  P2R (radical_center64 Separate c (at_ 8 3)%Z) = (5, 0).
Proof.
  intros acosf cosf sinf atan2f c at_ go. split; [apply kind_two; vm_compute; reflexivity|]. split; [apply kind_one; vm_compute; reflexivity|]. split; [apply kind_one; vm_compute; reflexivity|].
  do 4 (split; [vm_compute; reflexivity|]). split; [apply fz_grid2; lia|]. split; [apply fz_grid; lia|]. split; [cbn [c c64_radius]; rewrite (proj2 (fz_ok 5 ltac:(lia))); lra|].
  replace (radical_center64 Separate c (at_ 8 3)%Z) with (fz 5, fz 0) by (vm_compute; reflexivity). rewrite fz_P2R by lia. reflexivity.
Qed.
