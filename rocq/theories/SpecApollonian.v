(** * Specification of a packing of circles in a circle. *)

From Coq Require Import Reals List.
From Verif Require Import Base Spec SpecTriangle ModelCircle SpecGasket.
Import ListNotations.
Local Open Scope R_scope.

Definition disc_in_disc (c c0 : circle) : Prop :=
  forall M, in_disk (cO c) (cr c) M -> in_disk (cO c0) (cr c0) M.

(** [c] touches [c0] from inside *)
Definition touches_inside (c c0 : circle) : Prop := dist (cO c0) (cO c) = cr c0 - cr c.

(** [c] is tangent to three different circles among those of [l] and [c0] *)
Definition touches_three_in (c0 : circle) (l : list circle) (c : circle) : Prop :=
  (exists c1 c2 c3, incl [c1; c2; c3] l /\ NoDup [c1; c2; c3] /\
     circles_touch c c1 /\ circles_touch c c2 /\ circles_touch c c3) \/
  (exists c1 c2, incl [c1; c2] l /\ c1 <> c2 /\
     circles_touch c c1 /\ circles_touch c c2 /\ touches_inside c c0).

(** Descartes: the signed curvature of the outer circle tangent to three mutually tangent circles
    of radii [x], [y], [z] *)
Definition outer_curvature (x y z : R) : R := / x + / y + / z - 2 * sqrt (/ (x * y) + / (y * z) + / (x * z)).
