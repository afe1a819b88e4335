(** * Specification: signed area of a triangle. *)

From Coq Require Import Reals.
From Verif Require Import Base Spec.
Local Open Scope R_scope.

(** positive for a counterclockwise triangle *)
Definition area (A B C : pt) : R := scross (vsub B A) (vsub C A) / 2.

(** [f] multiplies the signed areas by [k] *)
Definition scales_areas (k : R) (f : pt -> pt) : Prop := forall A B C, area (f A) (f B) (f C) = k * area A B C.
