(** * The code in binary64 arithmetic

    The other model files compute with real numbers. Here some functions are modelled with
    the numbers the program really uses: IEEE 754 binary64, rounding to nearest even,
    infinities, NaN and signed zeros, as defined by [SpecFloat] in Coq's standard library.

    Every Python or numpy scalar operation rounds once. The dot product of two vectors of
    length 2 ([np.vdot], [x.dot(x)] in [np.linalg.norm]) is computed by BLAS, the product of
    two complex numbers by C code: a compiler may contract the last multiplication and
    addition into a fused multiply-add, so the two products are combined in any of the ways of
    [how]; the theorems hold for each of them. Not modelled: extended precision (x87). *)

From Coq Require Import ZArith Bool SpecFloat.
From Verif Require Import SpecF64 Base.

(** ** Arithmetic *)

Definition SF64add := SFadd prec emax.
Definition SF64sub := SFsub prec emax.
Definition SF64mul := SFmul prec emax.
Definition SF64div := SFdiv prec emax.
Definition SF64sqrt := SFsqrt prec emax.

(** x * y + z rounded once (IEEE 754 fusedMultiplyAdd; not in [SpecFloat]). *)
Definition SF64fma (x y z : spec_float) : spec_float :=
  match x, y, z with
  | S754_finite sx mx ex, S754_finite sy my ey, S754_finite sz mz ez =>
      let e := Z.min (ex + ey) ez in
      binary_normalize prec emax
        (cond_Zopp (xorb sx sy) (Zpos (fst (shl_align (mx * my) (ex + ey) e))) + cond_Zopp sz (Zpos (fst (shl_align mz ez e)))) e false
  | S754_finite _ _ _, S754_finite _ _ _, S754_infinity _ => z
  | _, _, _ => SF64add (SF64mul x y) z
  end.

Declare Scope f64_scope.
Delimit Scope f64_scope with f64.
Infix "+" := SF64add : f64_scope.
Infix "-" := SF64sub : f64_scope.
Infix "*" := SF64mul : f64_scope.
Infix "/" := SF64div : f64_scope.
Infix "<=?" := SFleb : f64_scope.
Infix "<?" := SFltb : f64_scope.
Infix "=?" := SFeqb : f64_scope.
Notation "- x" := (SFopp x) : f64_scope.

(** Literals: the binary64 number nearest to the decimal one. *)
Definition f0 : spec_float := S754_zero false.
Definition f1 : spec_float := S754_finite false 4503599627370496 (-52).
Definition f2 : spec_float := S754_finite false 4503599627370496 (-51).
Definition f1em9 : spec_float := S754_finite false 4835703278458517 (-82).
Definition f1em8 : spec_float := S754_finite false 6044629098073146 (-79).
Definition f1em5 : spec_float := S754_finite false 5902958103587057 (-69).

(** ** Points, dot products *)

Definition fpt : Type := spec_float * spec_float.

Definition fp_map2 (f : spec_float -> spec_float -> spec_float) (P Q : fpt) : fpt := (f (fst P) (fst Q), f (snd P) (snd Q)).
Definition fp_add : fpt -> fpt -> fpt := fp_map2 SF64add.
Definition fp_sub : fpt -> fpt -> fpt := fp_map2 SF64sub.

(** Ways of computing a * b + c * d. *)
Inductive how := Separate | FmaFirst | FmaLast.

Definition sum2 (m : how) (a b c d : spec_float) : spec_float :=
  match m with
  | Separate => a * b + c * d
  | FmaFirst => SF64fma a b (c * d)
  | FmaLast => SF64fma c d (a * b)
  end%f64.

(** [dot_] (internal.py:84-87). *)
Definition dot64 (m : how) (u v : fpt) : spec_float := sum2 m (fst u) (fst v) (snd u) (snd v).

(** [distance_] (internal.py:78-79); for a vector [np.linalg.norm] is sqrt(x.dot(x)). *)
Definition distance64 (m : how) (A B : fpt) : spec_float := let v := fp_sub B A in SF64sqrt (dot64 m v v).

(** ** Approximate equality *)

Definition is_inf64 (x : spec_float) : bool := match x with S754_infinity _ => true | _ => false end.

(** [math.isclose] with rel_tol=1e-09, abs_tol=0.0 (mathmodule.c). *)
Definition isclose64 (a b : spec_float) : bool :=
  if (a =? b)%f64 then true
  else if is_inf64 a || is_inf64 b then false
  else let diff := SFabs (b - a)%f64 in
    (diff <=? SFabs (f1em9 * b))%f64 || (diff <=? SFabs (f1em9 * a))%f64 || (diff <=? f0)%f64.

(** [approx_equal_] (internal.py:6-7). *)
Definition approx_equal64 (x y : spec_float) : bool := isclose64 x y || isclose64 (x + f1)%f64 (y + f1)%f64.

(** [np.isclose] for two numbers with rtol=1e-05, atol=1e-08 and [np.allclose] for points. *)
Definition npclose64 (x y : spec_float) : bool :=
  ((SFabs (x - y) <=? f1em8 + f1em5 * SFabs y)%f64 && is_finite y) || (x =? y)%f64.
Definition allclose64 (P Q : fpt) : bool := npclose64 (fst P) (fst Q) && npclose64 (snd P) (snd Q).

(** ** Circles *)

Record circle64 := Circle64 { c64_center : fpt; c64_radius : spec_float }.

(** [Circle.__init__] (geometry.py:361-366). *)
Definition mk_circle64 (center : fpt) (radius : spec_float) : res circle64 :=
  if (radius <=? f0)%f64 then Raise ValueError else Ok (Circle64 center radius).

(** [Circle.includes] (geometry.py:390-402), [Circle.contains] (404-416), [Circle.power] (529-539). *)
Definition circle_includes64 (m : how) (c : circle64) (P : fpt) : bool :=
  let r := c64_radius c in let v := fp_sub P (c64_center c) in
  let d2 := dot64 m v v in approx_equal64 d2 (r * r)%f64.
Definition circle_contains64 (m : how) (c : circle64) (P : fpt) : bool :=
  let r := c64_radius c in let v := fp_sub P (c64_center c) in
  let d2 := dot64 m v v in (d2 <=? r * r)%f64.
Definition circle_power64 (m : how) (c : circle64) (M : fpt) : spec_float :=
  let r := c64_radius c in let v := fp_sub M (c64_center c) in (dot64 m v v - r * r)%f64.

(** [Circle.is_orthogonal] (geometry.py:607-620). *)
Definition is_orthogonal64 (m : how) (c c2 : circle64) : bool :=
  let v := fp_sub (c64_center c) (c64_center c2) in let d2 := dot64 m v v in
  let r := c64_radius c in let r2 := c64_radius c2 in
  approx_equal64 d2 (r * r + r2 * r2)%f64.

(** [circleAB] (geometry.py:646-659) and [circleOA] (geometry.py:661-674). *)
Definition circleAB64 (m : how) (A B : fpt) : res circle64 :=
  if allclose64 A B then Raise ValueError
  else let S := fp_add A B in mk_circle64 (fst S / f2, snd S / f2)%f64 (distance64 m A B / f2)%f64.
Definition circleOA64 (m : how) (O A : fpt) : res circle64 :=
  if allclose64 O A then Raise ValueError else mk_circle64 O (distance64 m O A).

(** [unit_vector_] (internal.py:136-137) and [Circle.point_from_angle] (geometry.py:438-450);
    [cosf] and [sinf] are the functions of the C library, pi/180 is the quotient of the
    binary64 number math.pi by 180. *)
Definition fpi : spec_float := S754_finite false 7074237752028440 (-51).
Definition f180 : spec_float := S754_finite false 6333186975989760 (-45).
Definition point_from_angle64 (cosf sinf : spec_float -> spec_float) (c : circle64) (alpha : spec_float) (degrees : bool) : fpt :=
  let a := if degrees then (alpha * (fpi / f180))%f64 else alpha in
  let r := c64_radius c in
  (fst (c64_center c) + r * cosf a, snd (c64_center c) + r * sinf a)%f64.

(** ** Lines *)

(** [collinear_] (internal.py:159-171) with tol = 0. The real and imaginary parts of
    conj(AB) * AC come from the product of two Python complex numbers; [m1] and [m2] are the
    ways the two parts are computed. Python's division raises when the divisor is zero. *)
Definition collinear64 (m1 m2 : how) (A B C : fpt) : res bool :=
  if allclose64 A B || allclose64 A C || allclose64 B C then Ok true
  else
    let AB := fp_sub B A in let AC := fp_sub C A in
    let re := sum2 m1 (fst AB) (fst AC) (- (- snd AB))%f64 (snd AC) in
    let im := sum2 m2 (fst AB) (snd AC) (- snd AB)%f64 (fst AC) in
    let re2 := (re * re)%f64 in
    let s := (re2 + im * im)%f64 in
    if (s =? f0)%f64 then Raise ZeroDivisionError
    else Ok (f1 <=? re2 / s)%f64.

(** [Line.includes] (geometry.py:169-205) with the default strict=False. *)
Definition line_includes64 (m1 m2 : how) (A B M : fpt) : res bool :=
  let! c := collinear64 m1 m2 A B M in
  if c then collinear64 m1 m2 A B M else Ok false.

(** ** Inversions *)

(** [Inversion.invert] (geometry.py:1508-1518) at a point: [None] for the result inf. *)
Definition invert64 (m : how) (pole : fpt) (k : spec_float) (M : fpt) : option fpt :=
  if allclose64 pole M then None
  else
    let v := fp_sub M pole in
    let q := (k / dot64 m v v)%f64 in
    Some (fst pole + q * fst v, snd pole + q * snd v)%f64.

(** ** Triangles *)

(** [Triangle.orientation] (geometry.py:1806-1814). *)
Definition orientation64 (A B C : fpt) : Z :=
  let val := ((snd B - snd A) * (fst C - fst B) - (fst B - fst A) * (snd C - snd B))%f64 in
  if (val =? f0)%f64 then 0%Z else if (f0 <? val)%f64 then 1%Z else (-1)%Z.

(** The argument of [acos] in [Triangle.angleA] (geometry.py:1841-1853), and whether
    [math.acos] raises ValueError (outside [-1, 1], but not for NaN). *)
Definition cos_angle64 (m1 m2 m3 : how) (A B C : fpt) : spec_float :=
  let AC := fp_sub C A in let AB := fp_sub B A in
  let b := SF64sqrt (dot64 m1 AC AC) in let c := SF64sqrt (dot64 m2 AB AB) in
  (dot64 m3 AC AB / b / c)%f64.
Definition acos_raises64 (x : spec_float) : bool := ((x <? - f1) || (f1 <? x))%f64.

(** ** More functions of lines and triangles *)

(** [det2x2_] (internal.py:89-90). *)
Definition det64 (r1 r2 : fpt) : spec_float := (fst r1 * snd r2 - fst r2 * snd r1)%f64.

(** [line_line_intersection_] (internal.py:95-109); [None] for parallel lines. *)
Definition line_line_intersection64 (P1 P2 Q1 Q2 : fpt) : option fpt :=
  let dx1 := (fst P1 - fst P2)%f64 in let dx2 := (fst Q1 - fst Q2)%f64 in
  let dy1 := (snd P1 - snd P2)%f64 in let dy2 := (snd Q1 - snd Q2)%f64 in
  let D := det64 (dx1, dy1) (dx2, dy2) in
  if (D =? f0)%f64 then None
  else
    let D1 := det64 P1 P2 in let D2 := det64 Q1 Q2 in
    Some (det64 (D1, dx1) (D2, dx2) / D, det64 (D1, dy1) (D2, dy2) / D)%f64.

(** [sepsilon_] (internal.py:76) is 2^-26. *)
Definition fsepsilon : spec_float := S754_finite false 4503599627370496 (-78).

(** [Line.is_parallel] (geometry.py:135-153) and [Line.is_perpendicular] (155-166). *)
Definition is_parallel64 (P1 P2 Q1 Q2 : fpt) : bool :=
  let dx1 := (fst P1 - fst P2)%f64 in let dx2 := (fst Q1 - fst Q2)%f64 in
  let dy1 := (snd P1 - snd P2)%f64 in let dy2 := (snd Q1 - snd Q2)%f64 in
  (SFabs (det64 (dx1, dy1) (dx2, dy2)) <? fsepsilon)%f64.
Definition is_perpendicular64 (m : how) (A B C D : fpt) : bool :=
  approx_equal64 (dot64 m (fp_sub B A) (fp_sub D C)) f0.

(** [Triangle.is_acute] (geometry.py:1830-1838): [sort] puts the lengths of the sides in
    increasing order. *)
Definition sort3 (a b c : spec_float) : spec_float * spec_float * spec_float :=
  let '(x, y) := if (b <? a)%f64 then (b, a) else (a, b) in
  if (c <? x)%f64 then (c, x, y) else if (c <? y)%f64 then (x, c, y) else (x, y, c).
Definition is_acute64 (m1 m2 m3 : how) (A B C : fpt) : bool :=
  let '(e0, e1, e2) := sort3 (distance64 m1 B C) (distance64 m2 A C) (distance64 m3 A B) in
  (e2 * e2 <=? e0 * e0 + e1 * e1)%f64.
