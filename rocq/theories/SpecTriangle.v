(** * Specification: triangles (nothing refers to the model of the library). *)

From Coq Require Import Reals.
From Verif Require Import Base Spec.
Local Open Scope R_scope.

(** the point of weights u, v, w *)
Definition bary (u v w : R) (A B C : pt) : pt :=
  (u * fst A + v * fst B + w * fst C, u * snd A + v * snd B + w * snd C).

(** interior of the triangle, closed triangle *)
Definition inside_triangle (A B C M : pt) : Prop :=
  exists u v w, 0 < u /\ 0 < v /\ 0 < w /\ u + v + w = 1 /\ M = bary u v w A B C.
Definition in_closed_triangle (A B C M : pt) : Prop :=
  exists u v w, 0 <= u /\ 0 <= v /\ 0 <= w /\ u + v + w = 1 /\ M = bary u v w A B C.

(** P and Q are on the same side / on different sides of the line (AB) *)
Definition same_side (A B P Q : pt) : Prop :=
  0 < scross (vsub B A) (vsub P A) * scross (vsub B A) (vsub Q A).
Definition opposite_sides (A B P Q : pt) : Prop :=
  scross (vsub B A) (vsub P A) * scross (vsub B A) (vsub Q A) < 0.

(** counterclockwise and clockwise triples *)
Definition counterclockwise (A B C : pt) : Prop := 0 < scross (vsub B A) (vsub C A).
Definition clockwise (A B C : pt) : Prop := scross (vsub B A) (vsub C A) < 0.

(** [F] is the foot of the altitude from [A] on the line (BC) *)
Definition altitude_foot (A B C F : pt) : Prop :=
  on_line B C F /\ orthogonal (vsub F A) (vsub C B).

(** [alpha] is the (unoriented) angle BAC *)
Definition is_angle (B A C : pt) (alpha : R) : Prop :=
  0 <= alpha <= PI /\ cos alpha * dist A B * dist A C = sdot (vsub B A) (vsub C A).
