(** * Specification: hyperbolas, tangent of half the eccentric angle. *)

From Coq Require Import Reals.
From Verif Require Import Base Spec.
Local Open Scope R_scope.

(** the hyperbola x²/a² - y²/b² = 1 *)
Definition on_hyperbola (a b : R) (M : pt) : Prop := (fst M / a) ^ 2 - (snd M / b) ^ 2 = 1.

(** the line (AB) is tangent to the hyperbola, its only common point T with it being the point of contact, or is one of its asymptotes *)
Definition touches_hyperbola (a b : R) (A B : pt) : Prop :=
  (exists T, on_line A B T /\ on_hyperbola a b T /\
     fst T * fst (vsub B A) / a ^ 2 = snd T * snd (vsub B A) / b ^ 2 /\
     forall M, on_line A B M -> on_hyperbola a b M -> M = T) \/
  (on_line A B (0, 0) /\ (on_line A B (a, b) \/ on_line A B (a, - b))).

(** tan(t/2) for the point (a cos t, b sin t) *)
Definition half_tan (a b : R) (Q : pt) : R := a * snd Q / (b * (a + fst Q)).
