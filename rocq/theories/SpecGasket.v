(** * Specification of a packing of circles in a triangle. *)

From Coq Require Import Reals List.
From Verif Require Import Base Spec SpecTriangle ModelCircle.
Import ListNotations.
Local Open Scope R_scope.

(** [P], [Q], [V] are the vertices of the triangle ABC, in some order *)
Definition vertices_of (A B C P Q V : pt) : Prop :=
  (P = A /\ Q = B /\ V = C) \/ (P = A /\ Q = C /\ V = B) \/ (P = B /\ Q = A /\ V = C) \/
  (P = B /\ Q = C /\ V = A) \/ (P = C /\ Q = A /\ V = B) \/ (P = C /\ Q = B /\ V = A).

Definition circles_touch (c c' : circle) : Prop := ext_tangent (cO c) (cr c) (cO c') (cr c').
Definition side_touched (c : circle) (P Q : pt) : Prop := line_tangent P Q (cO c) (cr c).

(** the open discs have no common point *)
Definition not_overlapping (c c' : circle) : Prop := cr c + cr c' <= dist (cO c) (cO c').

Definition disc_in_triangle (A B C : pt) (c : circle) : Prop :=
  forall M, in_disk (cO c) (cr c) M -> in_closed_triangle A B C M.

(** [c] is tangent to three different things among the circles of [l] and the sides of ABC *)
Definition touches_three (A B C : pt) (l : list circle) (c : circle) : Prop :=
  (exists c1 c2 c3, incl [c1; c2; c3] l /\ NoDup [c1; c2; c3] /\
     circles_touch c c1 /\ circles_touch c c2 /\ circles_touch c c3) \/
  (exists c1 c2 P Q V, incl [c1; c2] l /\ c1 <> c2 /\ vertices_of A B C P Q V /\
     circles_touch c c1 /\ circles_touch c c2 /\ side_touched c P Q) \/
  (exists c1 P Q V, In c1 l /\ vertices_of A B C P Q V /\
     circles_touch c c1 /\ side_touched c P Q /\ side_touched c P V).

Definition bounded (M : R) (P : pt) : Prop := Rabs (fst P) <= M /\ Rabs (snd P) <= M.

(** In the corner V the radii decrease by the factor (d-r)/(d+r), where r is the radius of
    the first circle and d the distance of its centre to V; sqrt(d*d-r*r)/d is the cosine
    of the half angle.  W1 and W2 are the other vertices; 67108864 is 2^26. *)
Definition corner_tolerance (M : R) (n : nat) (V W1 W2 : pt) (c : circle) : Prop :=
  let d := dist V (cO c) in let r := cr c in let rho := r * ((d - r) / (d + r)) ^ n in
  (1 + M) / 10000 <= rho /\
  / 67108864 <= rho * dist V W1 * (sqrt (d * d - r * r) / d) /\
  / 67108864 <= rho * dist V W2 * (sqrt (d * d - r * r) / d).
