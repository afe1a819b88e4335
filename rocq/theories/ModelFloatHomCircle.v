(** * Images of circles under homotheties, in binary64 *)

From Coq Require Import ZArith Bool SpecFloat.
From Verif Require Import Base ModelFloat ModelFloatTransfo.

(** [Homothety.transform_circle] (geometry.py:3249-3258). *)
Definition homothety_circle64 (O : fpt) (s : spec_float) (c : circle64) : res circle64 :=
  mk_circle64 (homothety64 O s (c64_center c)) (SFabs s * c64_radius c)%f64.
