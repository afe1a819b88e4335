(** * Later additions to C08 and C15 *)

From Coq Require Import Reals Lra.
From Verif Require Import Base BaseLemmas Spec ModelInternal ModelLine ModelCircle PInterWhich.
Local Open Scope R_scope.

(** ** C08 *)
(** lines at an angle of sine more than 10^-4 whose direction vectors have a
    cross product of at least 2^-26 *)
Theorem C08_intersection_complete_angle l1 l2 : let d1 := vsub (lB l1) (lA l1) in let d2 := vsub (lB l2) (lA l2) in
  / 67108864 <= Rabs (scross d1 d2) -> / 10000 * (dist (lA l1) (lB l1) * dist (lA l2) (lB l2)) < Rabs (scross d1 d2) ->
  exists P, intersection_line_line l1 l2 false = Some P /\
    on_line (lA l1) (lB l1) P /\ on_line (lA l2) (lB l2) P.
Proof. exact (intersection_far_on l1 l2). Qed.
Print Assumptions C08_intersection_complete_angle.

(** with [strict=True] the common point of two crossing segments is not returned *)
Theorem C08_strict_refuted : exists l1 l2 P,
  Line_init (0, 0) (2, 2) false false = Ok l1 /\ Line_init (0, 2) (2, 0) false false = Ok l2 /\
  on_segment (lA l1) (lB l1) P /\ on_segment (lA l2) (lB l2) P /\
  intersection_line_line l1 l2 false = Some P /\ intersection_line_line l1 l2 true = None.
Proof. exact intersection_strict_none. Qed.
Print Assumptions C08_strict_refuted.

(** the x-axis and the diagonal *)
Example C08_example_angle : let l1 := mkLine (0, 0) (1, 0) true true in let l2 := mkLine (0, 0) (1, 1) true true in
  let d1 := vsub (lB l1) (lA l1) in let d2 := vsub (lB l2) (lA l2) in
  / 67108864 <= Rabs (scross d1 d2) /\ / 10000 * (dist (lA l1) (lB l1) * dist (lA l2) (lB l2)) < Rabs (scross d1 d2).
Proof. exact intersection_far_example. Qed.

(** ** C15 *)
Theorem C15_which c1 c2 : 0 < cr c1 -> 0 < cr c2 -> circle_is_equal c1 c2 = false ->
  let d2 := dist2 (cO c1) (cO c2) in let smin := (cr c1 - cr c2) ^ 2 in let smax := (cr c1 + cr c2) ^ 2 in
  (intersection_circle_circle c1 c2 = Ok (CCPoints INone) <-> smax + / 67108864 < d2 \/ d2 < smin - / 67108864) /\
  ((exists P Q, intersection_circle_circle c1 c2 = Ok (CCPoints (ITwo P Q))) <-> smin + / 67108864 <= d2 <= smax - / 67108864) /\
  ((exists P, intersection_circle_circle c1 c2 = Ok (CCPoints (IOne P))) <->
     smin - / 67108864 <= d2 <= smax + / 67108864 /\ (d2 < smin + / 67108864 \/ smax - / 67108864 < d2)).
Proof. exact (circle_circle_which c1 c2). Qed.
Print Assumptions C15_which.

Theorem C15_single_point_near c1 c2 P : 0 < cr c1 -> 0 < cr c2 ->
  intersection_circle_circle c1 c2 = Ok (CCPoints (IOne P)) ->
  on_circle (cO c1) (cr c1) P /\ Rabs (dist (cO c2) P - cr c2) <= / 8192.
Proof. exact (single_point_on_near c1 c2 P). Qed.
Print Assumptions C15_single_point_near.

(** circles of radius 1 and 2 whose centres are 3 apart, and 3 + 2^-30 apart *)
Example C15_example_which : let c1 := mkCircle (0, 0) 1 in let c2 := mkCircle (3, 0) 2 in let c3 := mkCircle (3 + / 1073741824, 0) 2 in
  circle_is_equal c1 c2 = false /\ circle_is_equal c1 c3 = false /\
  (exists P, intersection_circle_circle c1 c2 = Ok (CCPoints (IOne P))) /\
  (exists P, intersection_circle_circle c1 c3 = Ok (CCPoints (IOne P))).
Proof. exact circle_circle_which_example. Qed.
