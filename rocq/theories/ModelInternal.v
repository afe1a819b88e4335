(** * Model of planegeometry/internal.py (helpers). *)

From Coq Require Import Reals List Bool.
From Verif Require Import Base.
Import ListNotations.
Local Open Scope R_scope.

(** internal.py:6-7 *)
Definition approx_equal_ (x y : R) : bool := isclose x y || isclose (x + 1) (y + 1).

(** internal.py:78-79 [np.linalg.norm(B-A)] *)
Definition vlength_ (v : pt) : R := sqrt (fst v * fst v + snd v * snd v).
Definition distance_ (A B : pt) : R := vlength_ (vsub B A).

(** internal.py:84-87 (np.vdot on real vectors) *)
Definition dot_ (u v : pt) : R := fst u * fst v + snd u * snd v.

(** internal.py:89-90 *)
Definition det2x2_ (row1 row2 : pt) : R := fst row1 * snd row2 - fst row2 * snd row1.

(** internal.py:95-108.  [None] when the determinant is exactly 0. *)
Definition line_line_intersection_ (P1 P2 Q1 Q2 : pt) : option pt :=
  let dx1 := fst P1 - fst P2 in
  let dx2 := fst Q1 - fst Q2 in
  let dy1 := snd P1 - snd P2 in
  let dy2 := snd Q1 - snd Q2 in
  let D := det2x2_ (dx1, dy1) (dx2, dy2) in
  if eqb D 0 then None
  else
    let D1 := det2x2_ P1 P2 in
    let D2 := det2x2_ Q1 Q2 in
    Some (det2x2_ (D1, dx1) (D2, dx2) / D, det2x2_ (D1, dy1) (D2, dy2) / D).

(** Result of an intersection: [None], one point, or a list of two points. *)
Inductive inter := INone | IOne (P : pt) | ITwo (P Q : pt).

(** internal.py:110-133.  The divisions by [dr2] are numpy divisions: [dr2 = 0]
    (never the case for the points of a Line) would give nan. *)
Definition circle_line_intersection_ (A1 A2 : pt) (r : R) : res inter :=
  let dx := fst A2 - fst A1 in
  let dy := snd A2 - snd A1 in
  let dr2 := dx * dx + dy * dy in
  let D := det2x2_ A1 A2 in
  let Delta := r * r * dr2 - D * D in
  if ltb Delta 0 then Ok INone
  else if eqb dr2 0 then Raise NonFinite
  else if ltb Delta sepsilon_ then Ok (IOne (D / dr2 * dy, D / dr2 * (- dx)))
  else
    let sgn := if ltb dy 0 then -1 else 1 in
    let Ddy := D * dy in
    let sqrtDelta := sqrt Delta in
    Ok (ITwo ((Ddy + sgn * dx * sqrtDelta) / dr2, (- D * dx + Rabs dy * sqrtDelta) / dr2)
             ((Ddy - sgn * dx * sqrtDelta) / dr2, (- D * dx - Rabs dy * sqrtDelta) / dr2)).

(** internal.py:136-137 *)
Definition unit_vector_ (beta : R) : pt := (cos beta, sin beta).

(** internal.py:139-149, one row of the array *)
Definition ellipse_point_ (t : R) (O : pt) (a b alpha : R) : pt :=
  let x := a * cos t in
  let y := b * sin t in
  (fst O + cos alpha * x - sin alpha * y, snd O + sin alpha * x + cos alpha * y).

(** internal.py:151-157, one row of the array *)
Definition circle_point_ (t : R) (O : pt) (r : R) : pt :=
  (fst O + r * cos t, snd O + r * sin t).

(** internal.py:159-171.  The quotient is a Python float division. *)
Definition collinear_tol_ (A B C : pt) (tol : R) : res bool :=
  if allclose A B || allclose A C || allclose B C then Ok true
  else
    let AB := vsub B A in
    let AC := vsub C A in
    let z := Cmul (Cconj AB) AC in
    let re2 := fst z * fst z in
    let im := snd z in
    let! q := py_div re2 (re2 + im * im) in
    Ok (leb (1 - tol) q).
Definition collinear_ (A B C : pt) : res bool := collinear_tol_ A B C 0.

