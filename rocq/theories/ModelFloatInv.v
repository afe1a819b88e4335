(** * Images of circles by an inversion in binary64 *)

From Coq Require Import Bool ZArith SpecFloat.
From Verif Require Import SpecF64 Base ModelFloat ModelFloatInter.

(** A generalized circle: a [Circle] or the two points of a [Line]. *)
Inductive gcircle64 := GC64 (c : circle64) | GL64 (A B : fpt).

(** [Line.__init__] (geometry.py:60-68) at the results of [Inversion.invert]: [inf] is not a
    point ([error_if_not_point_]), and the two points must not be close. *)
Definition line64 (A B : option fpt) : res gcircle64 :=
  match A, B with
  | Some a, Some b => if allclose64 a b then Raise ValueError else Ok (GL64 a b)
  | _, _ => Raise ValueError
  end.

(** [Inversion.invert_circle] (geometry.py:1520-1534); the squares written [**2] are products
    (those of the theorems are exact). *)
Definition invert_circle64 (m : how) (pole : fpt) (k : spec_float) (circ : circle64) : res gcircle64 :=
  let c0 := pole in
  let c1 := c64_center circ in
  let r1 := c64_radius circ in
  let D1 := ((fst c1 - fst c0) * (fst c1 - fst c0) + (snd c1 - snd c0) * (snd c1 - snd c0) - r1 * r1)%f64 in
  if (fsepsilon <? SFabs D1)%f64 then
    let s := (k / D1)%f64 in
    let! c := mk_circle64 (fst c0 + s * (fst c1 - fst c0), snd c0 + s * (snd c1 - snd c0))%f64 (SFabs s * r1)%f64 in
    Ok (GC64 c)
  else
    let Ot := fp_sub c0 c1 in
    let R180 := fp_sub c1 Ot in
    let R90 := fp_add (SFopp (snd Ot), fst Ot) c1 in
    line64 (invert64 m pole k R180) (invert64 m pole k R90).
