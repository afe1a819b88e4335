(** * Specification of the arcs of a tessellation of a disc. *)

From Coq Require Import Reals List.
From Verif Require Import Base Spec ModelCircle.
Local Open Scope R_scope.

(** the arc joins the two points *)
Definition joins (A : arc) (P Q : pt) : Prop :=
  (starting_point A = P /\ ending_point A = Q) \/ (starting_point A = Q /\ ending_point A = P).

(** the arc is an arc, inside the circle of centre (0, 0) and radius [r], of a circle orthogonal to it *)
Definition hyperbolic_line (r : R) (A : arc) : Prop :=
  0 < ar A /\ circ_orthogonal (0, 0) r (aO A) (ar A) /\
  forall t, radians (adeg A) (aalpha1 A) <= t <= radians (adeg A) (aalpha2 A) -> in_disk (0, 0) r (vadd (aO A) (vscal (ar A) (cos t, sin t))).

(** two arcs meet inside the circle only if they are the same *)
Definition do_not_cross (r : R) (A B : arc) : Prop :=
  forall M, on_circle (aO A) (ar A) M -> on_circle (aO B) (ar B) M -> dist (0, 0) M < r ->
    aO A = aO B /\ ar A = ar B /\ joins A (starting_point B) (ending_point B).

(** the images of the points of [V] by the inversions in the sides: the first side is the one opposite to the point and no
    side is used twice in a row; [d] is the number of inversions, [i] the last side used *)
Inductive mirrored (sides : list arc) (V : list pt) : nat -> nat -> pt -> Prop :=
| mirrored_first i A P M : nth_error sides i = Some A -> nth_error V ((i + 2) mod 3) = Some P -> P <> aO A ->
    M = inv_pt (aO A) (ar A ^ 2) P -> mirrored sides V 1 i M
| mirrored_next d i j A M N : mirrored sides V d i M -> j <> i -> nth_error sides j = Some A -> M <> aO A ->
    N = inv_pt (aO A) (ar A ^ 2) M -> mirrored sides V (Datatypes.S d) j N.

(** the point of the circle of centre (0, 0) and radius [r] in the direction of [M] (to the right if [M] is the centre) *)
Definition seen_at (r : R) (M P : pt) : Prop :=
  (M = (0, 0) /\ P = (r, 0)) \/ (M <> (0, 0) /\ P = vscal (r / dist (0, 0) M) M).
