(** * Specification: similarities of the plane (nothing refers to the model of the library). *)

From Coq Require Import Reals.
From Verif Require Import Base Spec.
Local Open Scope R_scope.

(** [f] multiplies all distances by [s]: for s = 1 an isometry (rotation, translation,
    reflection, ...) *)
Definition similarity (s : R) (f : pt -> pt) : Prop := 0 < s /\ forall P Q, dist (f P) (f Q) = s * dist P Q.

(** the result of a call mapped by [g]; exceptions are unchanged *)
Definition rmap {A B} (g : A -> B) (r : res A) : res B := match r with Ok x => Ok (g x) | Raise e => Raise e end.
