(** * Vocabulary for the radical axis in binary64 *)

From Coq Require Import Reals SpecFloat.
From Verif Require Import Base Spec SpecF64.
Local Open Scope R_scope.

(** The points with the same power with respect to two circles. *)
Definition equal_powers (O1 : pt) (r1 : R) (O2 : pt) (r2 : R) (X : pt) : Prop := dist2 O1 X - r1 * r1 = dist2 O2 X - r2 * r2.

(** The finite number [x] is [X] up to an error of 5 roundings of numbers of the size [S]. *)
Definition near5 (S X : R) (x : spec_float) : Prop := fin x /\ Rabs (SF2R x - X) <= 5 * u64 * S + 3 * eta64.
