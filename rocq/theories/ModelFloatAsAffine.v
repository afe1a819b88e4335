(** * Homotheties and axis scalings as affine maps, in binary64 *)

From Coq Require Import ZArith Bool SpecFloat.
From Verif Require Import ModelFloat ModelFloatTransfo.

(** An [Affine] object: the rows of the matrix A and the vector b. *)
Record affine_map64 := Affine64 { a64_row1 : fpt; a64_row2 : fpt; a64_b : fpt }.

(** [Affine.transform] (geometry.py:2172-2183) at one point. *)
Definition affine_transform64 (m1 m2 : how) (f : affine_map64) (M : fpt) : fpt :=
  affine64 m1 m2 (fst (a64_row1 f)) (snd (a64_row1 f)) (fst (a64_row2 f)) (snd (a64_row2 f)) (a64_b f) M.

(** [Homothety.get3x3matrix] and [Homothety.as_affine] (geometry.py:3260-3275). *)
Definition homothety_as_affine64 (center : fpt) (s : spec_float) : affine_map64 :=
  let r := (f1 - s)%f64 in
  Affine64 (s, f0) (f0, s) (r * fst center, r * snd center)%f64.

(** [ScalingXY.get3x3matrix] and [ScalingXY.as_affine] (geometry.py:3185-3199). *)
Definition scaling_xy_as_affine64 (O : fpt) (sx sy : spec_float) : affine_map64 :=
  Affine64 (sx, f0) (f0, sy) (scaling_xy64 O sx sy (f0, f0)).
