(** * Specification: images by an inversion of pole [P], up to roundings *)

From Coq Require Import Reals ZArith SpecFloat.
From Verif Require Import SpecF64 Base Spec.
Local Open Scope R_scope.

(** The coordinates of the computed point [X] are those of [Q] up to [n] units of roundoff relative
    to the coordinates of [Q] and of the pole, and up to [e]. *)
Definition near_image (n e : R) (P Q : pt) (X : spec_float * spec_float) : Prop :=
  fin2 X /\
  Rabs (SF2R (fst X) - fst Q) <= n * u64 * (Rabs (fst Q) + Rabs (fst P)) + e /\
  Rabs (SF2R (snd X) - snd Q) <= n * u64 * (Rabs (snd Q) + Rabs (snd P)) + e.
