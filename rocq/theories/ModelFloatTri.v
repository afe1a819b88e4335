(** * Triangles in binary64: [contains] and [flatness] *)

From Coq Require Import Bool SpecFloat.
From Verif Require Import Base SpecF64 ModelFloat.

(** [Triangle.contains] (geometry.py:1816-1828). The vertices are float arrays, so the operands
    are numpy scalars: a division by zero gives an infinity or a NaN, and no exception. [M] is
    given by floats (integers become floats in the products). The test [dsArea == 0] of the
    real model is not in the code and is not needed here. *)
Definition triangle_contains64 (A B C M : fpt) : bool :=
  let (A0, A1) := A in
  let (B0, B1) := B in
  let (C0, C1) := C in
  let (M0, M1) := M in
  let dsArea := ((- B1) * C0 + A1 * ((- B0) + C0) + A0 * (B1 - C1) + B0 * C1)%f64 in
  let s := ((A1 * C0 - A0 * C1 + (C1 - A1) * M0 + (A0 - C0) * M1) / dsArea)%f64 in
  let t := ((A0 * B1 - A1 * B0 + (A1 - B1) * M0 + (B0 - A0) * M1) / dsArea)%f64 in
  ((f0 <? s) && (f0 <? t) && (f0 <? f1 - s - t))%f64.

(** [Triangle.flatness] (geometry.py:1764-1775). The parts of a Python complex number are
    Python floats, whose division by zero raises; [m1], [m2] as in [collinear64]. *)
Definition flatness64 (m1 m2 : how) (A B C : fpt) : res spec_float :=
  let AB := fp_sub B A in let AC := fp_sub C A in
  let re := sum2 m1 (fst AB) (fst AC) (- (- snd AB))%f64 (snd AC) in
  let im := sum2 m2 (fst AB) (snd AC) (- snd AB)%f64 (fst AC) in
  let re2 := (re * re)%f64 in
  let s := (re2 + im * im)%f64 in
  if (s =? f0)%f64 then Raise ZeroDivisionError else Ok (re2 / s)%f64.

(** The test [self.flatness == 1] with which [circumcircle], [malfatti_circles],
    [steiner_ellipse] and [steiner_inellipse] (geometry.py:1900, 1981, 2074, 2092) print "The
    triangle is flat." and return None. *)
Definition called_flat64 (m1 m2 : how) (A B C : fpt) : res bool :=
  let! f := flatness64 m1 m2 A B C in Ok (f =? f1)%f64.
