(** * The incircle of a triangle in binary64 *)

From Coq Require Import Bool ZArith SpecFloat.
From Verif Require Import SpecF64 Base ModelFloat ModelFloatInter.

(** [math.sqrt]: a ValueError for negative numbers. *)
Definition py_sqrt64 (x : spec_float) : res spec_float := if (x <? f0)%f64 then Raise ValueError else Ok (SF64sqrt x).

(** [Triangle.incircle] (geometry.py:1882-1897). *)
Definition incircle64 (m : how) (A B C : fpt) : res circle64 :=
  let a := distance64 m B C in
  let b := distance64 m A C in
  let c := distance64 m B A in
  let p := (a + b + c)%f64 in
  let s := (p / f2)%f64 in
  let! areaABC := py_sqrt64 (s * (s - a) * (s - b) * (s - c))%f64 in
  let center := ((a * fst A + b * fst B + c * fst C) / p, (a * snd A + b * snd B + c * snd C) / p)%f64 in
  let radius := (areaABC / s)%f64 in
  mk_circle64 center radius.
