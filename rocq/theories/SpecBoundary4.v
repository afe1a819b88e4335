(** * Specification for four boundary points: convex position, triangles. *)

From Coq Require Import Reals List Permutation.
From Verif Require Import Base Spec.
Import ListNotations.
Local Open Scope R_scope.

(** the four points, in some order, are the vertices of a convex quadrilateral: its
    diagonals AC and BD cross at a point inside both, and it is not flat *)
Definition convex_position (P1 P2 P3 P4 : pt) : Prop := exists A B C D s t,
  Permutation [P1; P2; P3; P4] [A; B; C; D] /\ 0 < s < 1 /\ 0 < t < 1 /\
  at_line A C s = at_line B D t /\ ~ collinear A B C.

(** one of the four points is strictly inside the triangle of the three others *)
Definition one_inside (P1 P2 P3 P4 : pt) : Prop := exists A B C x y z,
  Permutation [P1; P2; P3; P4] [A; B; C; vadd (vscal x A) (vadd (vscal y B) (vscal z C))] /\
  0 < x /\ 0 < y /\ 0 < z /\ x + y + z = 1 /\ ~ collinear A B C.

(** no three of the four points on a line *)
Definition no_three_collinear (P1 P2 P3 P4 : pt) : Prop :=
  ~ collinear P1 P2 P3 /\ ~ collinear P1 P2 P4 /\ ~ collinear P1 P3 P4 /\ ~ collinear P2 P3 P4.

(** no line through two of the points is parallel to the line through the two others *)
Definition no_two_parallel (P1 P2 P3 P4 : pt) : Prop :=
  ~ parallel (vsub P2 P1) (vsub P4 P3) /\ ~ parallel (vsub P3 P1) (vsub P4 P2) /\ ~ parallel (vsub P4 P1) (vsub P3 P2).
