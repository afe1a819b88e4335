(** * The radical axis of two circles in binary64 *)

From Coq Require Import Bool ZArith SpecFloat.
From Verif Require Import SpecF64 Base ModelFloat ModelFloatInter ModelFloatCC.

(** [Line.__init__] (geometry.py:60-68): the two points must not be close. That the arguments are
    points ([error_if_not_point_]) is not modelled: the numbers of the theorems are finite. *)
Definition line_init64 (A B : fpt) : res (fpt * fpt) := if allclose64 A B then Raise ValueError else Ok (A, B).

(** [Circle.radical_axis] (geometry.py:561-578); the two points of the [Line], [None] if the
    centres are close. *)
Definition radical_axis64 (m : how) (c1 c2 : circle64) : res (option (fpt * fpt)) :=
  let C1 := c64_center c1 in
  let C2 := c64_center c2 in
  if allclose64 C1 C2 then Ok None
  else
    let xy := fp_sub C2 C1 in
    let v := (SFopp (snd xy), fst xy) in
    let R := radical_center64 m c1 c2 in
    let! l := line_init64 R (fp_add R v) in
    Ok (Some l).
