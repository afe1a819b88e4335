(** * Two circles in binary64 *)

From Coq Require Import Bool ZArith SpecFloat.
From Verif Require Import SpecF64 Base ModelFloat ModelFloatInter.

(** [Circle.is_equal] (geometry.py:376-388). *)
Definition circle_is_equal64 (c1 c2 : circle64) : bool :=
  approx_equal64 (c64_radius c1) (c64_radius c2) && allclose64 (c64_center c1) (c64_center c2).

(** [Circle.radical_center] (geometry.py:541-559). *)
Definition radical_center64 (m : how) (c1 c2 : circle64) : fpt :=
  let C1 := c64_center c1 in
  let C2 := c64_center c2 in
  let r1 := c64_radius c1 in
  let r2 := c64_radius c2 in
  let k := (r1 * r1 - r2 * r2)%f64 in
  let C1_C2 := fp_sub C2 C1 in
  let C1C2sqr := dot64 m C1_C2 C1_C2 in
  if (C1C2sqr =? f0)%f64 then (S754_infinity false, S754_infinity false)
  else let M := fp_add C1 C2 in
    (fst M / f2 + k / f2 * fst C1_C2 / C1C2sqr, snd M / f2 + k / f2 * snd C1_C2 / C1C2sqr)%f64.

(** The comparisons that [Circle.angle] and [intersection_circle_circle] have in common
    (geometry.py:632-634, 804-807); the squares written [**2] are products (the squares of
    the theorems are exact). *)
Definition apart64 (d2 r1 r2 : spec_float) : bool :=
  let sumRadii2 := ((r1 + r2) * (r1 + r2))%f64 in
  (sumRadii2 + fsepsilon <? d2)%f64 || (d2 <? (r1 - r2) * (r1 - r2) - fsepsilon)%f64.

(** [Circle.angle] (geometry.py:622-644); [acosf] is the arc cosine of the C library, which is
    called by Python for a number of [-1, 1] only ([math.acos] raises a ValueError otherwise). *)
Definition acos64 (acosf : spec_float -> spec_float) (x : spec_float) : res spec_float :=
  if ((- f1 <=? x) && (x <=? f1))%f64 then Ok (acosf x) else Raise ValueError.
Definition circle_angle64 (m : how) (acosf : spec_float -> spec_float) (c1 c2 : circle64) : res (option spec_float) :=
  let center1 := c64_center c1 in
  let center2 := c64_center c2 in
  let r1 := c64_radius c1 in
  let r2 := c64_radius c2 in
  let v := fp_sub center1 center2 in
  if apart64 (dot64 m v v) r1 r2 then Ok None
  else
    let b1 := (f1 / r1)%f64 in
    let b2 := (f1 / r2)%f64 in
    let a1 := (b1 * fst center1, b1 * snd center1)%f64 in
    let a2 := (b2 * fst center2, b2 * snd center2)%f64 in
    let bprime1 := (r1 * (dot64 m a1 a1 - f1))%f64 in
    let bprime2 := (r2 * (dot64 m a2 a2 - f1))%f64 in
    let cos_theta := (b1 * bprime2 / f2 + b2 * bprime1 / f2 - dot64 m a1 a2)%f64 in
    let! a := acos64 acosf cos_theta in Ok (Some a).

(** [intersection_circle_circle] (geometry.py:787-821); [acosf], [atan2f], [cosf], [sinf] are
    the functions of the C library. *)
Inductive inter_cc64 := Same64 (c : circle64) | Points64 (i : inter64).

Definition f4 : spec_float := S754_finite false 4503599627370496 (-50).

Definition intersection_circle_circle64 (m : how) (acosf cosf sinf : spec_float -> spec_float)
    (atan2f : spec_float -> spec_float -> spec_float) (c1 c2 : circle64) : inter_cc64 :=
  if circle_is_equal64 c1 c2 then Same64 c1
  else
    let r1 := c64_radius c1 in
    let r2 := c64_radius c2 in
    let center1 := c64_center c1 in
    let center2 := c64_center c2 in
    let v := fp_sub center1 center2 in
    let d2 := dot64 m v v in
    let sumRadii2 := ((r1 + r2) * (r1 + r2))%f64 in
    if apart64 d2 r1 r2 then Points64 INone64
    else
      let touch := (sumRadii2 - d2 <? fsepsilon)%f64 || (d2 - (r1 - r2) * (r1 - r2) <? fsepsilon)%f64 in
      let x := fst v in
      let y := snd v in
      let lsquared := (x * x + y * y)%f64 in
      let cosine0 := ((r2 * r2 - r1 * r1 - lsquared) / (r1 * SF64sqrt (f4 * lsquared)))%f64 in
      let cosine1 := if (f1 <? cosine0)%f64 then f1 else cosine0 in
      let cosine := if (cosine1 <? - f1)%f64 then (- f1)%f64 else cosine1 in
      let atg2 := atan2f y x in
      let point := fun theta => (fst center1 + r1 * cosf theta, snd center1 + r1 * sinf theta)%f64 in
      let P1 := point (atg2 + acosf cosine)%f64 in
      if touch then Points64 (IOne64 P1)
      else Points64 (ITwo64 P1 (point (atg2 - acosf cosine)%f64)).
