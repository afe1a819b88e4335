(** * Specification of the smallest ellipse containing points. *)

From Coq Require Import Reals List Permutation.
From Verif Require Import Base Spec.
Import ListNotations.
Local Open Scope R_scope.

(** the ellipse contains the points, its area is the least among the ellipses that contain them, and it
    is the only one with this area *)
Definition smallest_enclosing (O : pt) (a b th : R) (points : list pt) : Prop :=
  0 < a /\ 0 < b /\ Forall (in_ellipse O a b th) points /\
  forall O' a' b' th', 0 < a' -> 0 < b' -> Forall (in_ellipse O' a' b' th') points ->
    PI * a * b <= PI * a' * b' /\
    (PI * a * b = PI * a' * b' -> forall M, in_ellipse O' a' b' th' M <-> in_ellipse O a b th M).

(** an ellipse passing through five different points of the list *)
Definition through_five (points : list pt) (O : pt) (a b th : R) : Prop :=
  0 < a /\ 0 < b /\ exists l, length l = 5%nat /\ NoDup l /\ incl l points /\ Forall (on_ellipse O a b th) l.

(** a circle, or an ellipse whose axes are not the diagonals of the axes of coordinates *)
Definition not_diagonal (a b th : R) : Prop := a = b \/ cos (2 * th) <> 0.

(** no three points of the list (at different places of the list) are on a line *)
Definition no_three_aligned (points : list pt) : Prop :=
  forall A B C l, Permutation points (A :: B :: C :: l) -> ~ collinear A B C.
