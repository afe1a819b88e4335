(** * What is assumed of the inverse functions of the C library; accuracy of a common point *)

From Coq Require Import Reals ZArith SpecFloat.
From Verif Require Import SpecF64 Base Spec.
Local Open Scope R_scope.

(** The errors of acos and atan2 are at most two units in the last place of pi. *)
Definition libm_acos_atan2 (acosf : spec_float -> spec_float) (atan2f : spec_float -> spec_float -> spec_float) : Prop :=
  (forall x, fin x -> -1 <= SF2R x <= 1 -> fin (acosf x) /\ Rabs (SF2R (acosf x) - acos (SF2R x)) <= 8 * u64) /\
  (forall y x, fin y -> fin x -> (SF2R x, SF2R y) <> (0, 0) -> fin (atan2f y x) /\ Rabs (SF2R (atan2f y x) - atan2 (SF2R y) (SF2R x)) <= 8 * u64).

(** The point [P] is, up to roundings, a point of the first circle on the side [s] (1: the left,
    -1: the right) of the ray from [O2] through [O1], whose power with respect to the second
    circle is small. *)
Definition near_common (O1 : pt) (r1 : R) (O2 : pt) (r2 s : R) (P : spec_float * spec_float) : Prop :=
  exists Q, on_circle O1 r1 Q /\ Rabs (dist2 O2 Q - r2 * r2) <= 54 * u64 * (r1 * dist O1 O2) /\
    - (23 * u64 * (r1 * dist O1 O2)) <= s * scross (vsub O1 O2) (vsub Q O1) /\
    fin2 P /\ Rabs (SF2R (fst P) - fst Q) <= 5 * u64 * (r1 + Rabs (fst O1)) /\ Rabs (SF2R (snd P) - snd Q) <= 5 * u64 * (r1 + Rabs (snd O1)).
