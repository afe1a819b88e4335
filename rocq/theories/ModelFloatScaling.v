(** * Scalings in a direction, in binary64 *)

From Coq Require Import ZArith Bool SpecFloat.
From Verif Require Import ModelFloat.

(** [Scaling.transform] (geometry.py:3336-3379) at one point; [atan2f], [cosf] and [sinf] are the
    functions of the C library. *)
Definition scaling64 (cosf sinf : spec_float -> spec_float) (atan2f : spec_float -> spec_float -> spec_float) (Q w : fpt) (s : spec_float) (M : fpt) : fpt :=
  let wQ := (SFopp (fst Q), SFopp (snd Q)) in
  let theta := SFopp (atan2f (snd w) (fst w)) in
  let M := fp_add M wQ in
  let costheta := cosf theta in
  let sintheta := sinf theta in
  let M := (costheta * fst M - sintheta * snd M, sintheta * fst M + costheta * snd M)%f64 in
  let M := (s * fst M, snd M)%f64 in
  let sintheta := SFopp sintheta in
  let M := (costheta * fst M - sintheta * snd M, sintheta * fst M + costheta * snd M)%f64 in
  fp_sub M wQ.
