(** * Reflections in binary64 *)

From Coq Require Import Bool ZArith SpecFloat.
From Verif Require Import SpecF64 Base ModelFloat ModelFloatInter ModelFloatAxis.

(** [Line.perpendicular] (geometry.py:207-227); the two points of the [Line]. The result [None] of
    [line_line_intersection_] is not a point for [Line] ([error_if_not_point_]); the booleans
    [extendH] and [extendM] are not modelled. *)
Definition perpendicular64 (m1 m2 : how) (A B M : fpt) : res (fpt * fpt) :=
  let A_B := fp_sub B A in
  let v := (SFopp (snd A_B), fst A_B) in
  let! on := line_includes64 m1 m2 A B M in
  if on then line_init64 M (fp_add M v)
  else match line_line_intersection64 A B (fp_sub M v) (fp_add M v) with
       | None => Raise ValueError
       | Some H => line_init64 H M
       end.

(** [Reflection.__init__] and [Reflection.transform] (geometry.py:2664-2667, 2704-2719), also
    [Line.reflection] (geometry.py:254-263). *)
Definition reflect64 (m1 m2 : how) (A B P : fpt) : res fpt :=
  let! line := line_init64 A B in
  let! on := line_includes64 m1 m2 (fst line) (snd line) P in
  if on then Ok P
  else
    let! perp := perpendicular64 m1 m2 (fst line) (snd line) P in
    let d := fp_sub (fst perp) (snd perp) in
    Ok (fp_add P (f2 * fst d, f2 * snd d)%f64).
