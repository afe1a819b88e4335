(** * Vocabulary for the incircle in binary64 *)

From Coq Require Import Reals.
From Verif Require Import Base Spec.
Local Open Scope R_scope.

(** How slender a triangle is: the sum of the ratios of the perimeter to the sum of two sides minus
    the third one; 9 for an equilateral triangle, large for an almost flat one. *)
Definition slenderness (A B C : pt) : R :=
  let a := dist B C in let b := dist A C in let c := dist A B in
  (a + b + c) / (b + c - a) + (a + b + c) / (a + c - b) + (a + b + c) / (a + b - c).

(** The coordinates of a point are at most [X] in absolute value. *)
Definition in_square (X : R) (P : pt) : Prop := Rabs (fst P) <= X /\ Rabs (snd P) <= X.
