(** * Where a line meets a circle, and projections, in binary64 *)

From Coq Require Import ZArith Bool SpecFloat.
From Verif Require Import SpecF64 Base ModelFloat.

Inductive inter64 := INone64 | IOne64 (P : fpt) | ITwo64 (P Q : fpt).

(** [circle_line_intersection_] (internal.py:110-133); the products by [sgn] are products by
    1.0 or -1.0. *)
Definition circle_line_intersection64 (A1 A2 : fpt) (r : spec_float) : inter64 :=
  let dx := (fst A2 - fst A1)%f64 in
  let dy := (snd A2 - snd A1)%f64 in
  let dr2 := (dx * dx + dy * dy)%f64 in
  let D := det64 A1 A2 in
  let Delta := (r * r * dr2 - D * D)%f64 in
  if (Delta <? f0)%f64 then INone64
  else if (Delta <? fsepsilon)%f64 then
    let q := (D / dr2)%f64 in IOne64 (q * dy, q * - dx)%f64
  else
    let sgn := (if dy <? f0 then - f1 else f1)%f64 in
    let Ddy := (D * dy)%f64 in
    let sqrtDelta := SF64sqrt Delta in
    ITwo64 ((Ddy + sgn * dx * sqrtDelta) / dr2, (- D * dx + SFabs dy * sqrtDelta) / dr2)%f64
           ((Ddy - sgn * dx * sqrtDelta) / dr2, (- D * dx - SFabs dy * sqrtDelta) / dr2)%f64.

(** [intersection_circle_line] (geometry.py:766-785), of the line through [A] and [B]. *)
Definition intersection_circle_line64 (c : circle64) (A B : fpt) : inter64 :=
  let C := c64_center c in
  match circle_line_intersection64 (fp_sub A C) (fp_sub B C) (c64_radius c) with
  | INone64 => INone64
  | IOne64 P => IOne64 (fp_add P C)
  | ITwo64 P Q => ITwo64 (fp_add P C) (fp_add Q C)
  end.

(** [Line.projection] and [Line.distance] (geometry.py:229-252). *)
Definition projection64 (A B M : fpt) : option fpt :=
  let v := fp_sub B A in
  line_line_intersection64 A B M (fp_add M (- snd v, fst v)%f64).
Definition line_distance64 (m : how) (A B M : fpt) : option spec_float :=
  match projection64 A B M with None => None | Some P => Some (distance64 m M P) end.
