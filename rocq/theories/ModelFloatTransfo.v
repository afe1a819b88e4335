(** * Transformations of points, in binary64 (continues ModelFloat)

    The numbers are the finite and special values of [spec_float]; the array operations of
    numpy used here (difference, sum and product by a number) work entry by entry, each result
    being rounded once. Only the transformation of one point is written: a matrix of points is
    transformed row by row. The scale factors and the angle are Python floats. *)

From Coq Require Import ZArith Bool SpecFloat.
From Verif Require Import ModelFloat.

(** [Rotation.rotate] (geometry.py:2876-2911): the angle is multiplied by the quotient of
    math.pi by 180 when it is in degrees; [cosf] and [sinf] are the functions of the C library. *)
Definition rotate64 (cosf sinf : spec_float -> spec_float) (O : fpt) (theta : spec_float) (degrees : bool) (M : fpt) : fpt :=
  let t := if degrees then (theta * (fpi / f180))%f64 else theta in
  let c := cosf t in
  let s := sinf t in
  let v := fp_sub M O in
  let x := fst v in
  let y := snd v in
  fp_map2 SF64add (c * x - s * y, s * x + c * y)%f64 O.

(** [Homothety.transform] (geometry.py:3225-3247): (1 - s) * center + s * M. *)
Definition homothety64 (center : fpt) (s : spec_float) (M : fpt) : fpt :=
  let r := (f1 - s)%f64 in
  fp_map2 SF64add (r * fst center, r * snd center)%f64 (s * fst M, s * snd M)%f64.

(** [ScalingXY.transform] (geometry.py:3160-3183): f * (M - O) + O. *)
Definition scaling_xy64 (O : fpt) (sx sy : spec_float) (M : fpt) : fpt :=
  let v := fp_sub M O in
  fp_map2 SF64add (sx * fst v, sy * snd v)%f64 O.

(** [Affine.transform] (geometry.py:2172-2183): [np.matmul] of the matrix [[a11, a12], [a21, a22]]
    and the point, then the sum with b; [m1] and [m2] are the ways the two sums of two products
    are computed. *)
Definition affine64 (m1 m2 : how) (a11 a12 a21 a22 : spec_float) (b M : fpt) : fpt :=
  fp_map2 SF64add (sum2 m1 a11 (fst M) a12 (snd M), sum2 m2 a21 (fst M) a22 (snd M)) b.

(** [Line.translate] (geometry.py:291-300) on each of the two points of the line. *)
Definition translate64 (v A : fpt) : fpt := fp_map2 SF64add A v.
