(** * Specification: perimeter of a triangle, discs packed in a triangle. *)

From Coq Require Import Reals List.
From Verif Require Import Base Spec SpecTriangle.
Import ListNotations.
Local Open Scope R_scope.

Definition perimeter (D E F : pt) : R := dist D E + dist E F + dist F D.

(** the disc of centre [O] and radius [r] is contained in the triangle *)
Definition disc_in_triangle (A B C O : pt) (r : R) : Prop := forall M, dist O M <= r -> in_closed_triangle A B C M.

(** three discs of positive radii in the triangle, no two of which overlap *)
Definition packed3 (A B C : pt) (O1 : pt) (r1 : R) (O2 : pt) (r2 : R) (O3 : pt) (r3 : R) : Prop :=
  (0 < r1 /\ 0 < r2 /\ 0 < r3) /\
  (disc_in_triangle A B C O1 r1 /\ disc_in_triangle A B C O2 r2 /\ disc_in_triangle A B C O3 r3) /\
  (r1 + r2 <= dist O1 O2 /\ r2 + r3 <= dist O2 O3 /\ r1 + r3 <= dist O1 O3).
