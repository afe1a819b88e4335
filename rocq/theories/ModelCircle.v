(** * Model of [Circle], circle functions and [Arc] (geometry.py:357-821, 857-935).

    [orthogonal_through_two_points_in_circle] (it needs inversions) is in
    ModelInversion.v, [intersection_ellipse_line] in ModelEllipse.v. *)

From Coq Require Import Reals List Bool ZArith.
From Verif Require Import Base ModelInternal ModelLine.
Import ListNotations.
Local Open Scope R_scope.

(** geometry.py:357-366 *)
Record circle := mkCircle { cO : pt; cr : R }.

(** geometry.py:361-366 and internal.py:25-30 (type validation: ModelPy.v) *)
Definition Circle_init (center : pt) (radius : R) : res circle :=
  if leb radius 0 then Raise ValueError else Ok (mkCircle center radius).

(** generalized circles *)
Inductive gcircle := GC (c : circle) | GL (l : line).

(** geometry.py:376-388 [is_equal] *)
Definition circle_is_equal (c1 c2 : circle) : bool :=
  approx_equal_ (cr c1) (cr c2) && allclose (cO c1) (cO c2).

(** geometry.py:390-402 [includes] *)
Definition circle_includes (c : circle) (P : pt) : bool :=
  let r := cr c in
  let d2 := dot_ (vsub P (cO c)) (vsub P (cO c)) in
  approx_equal_ d2 (r * r).

(** geometry.py:404-416 [contains] *)
Definition circle_contains (c : circle) (P : pt) : bool :=
  let r := cr c in
  let d2 := dot_ (vsub P (cO c)) (vsub P (cO c)) in
  leb d2 (r * r).

(** geometry.py:438-450 [point_from_angle] *)
Definition circle_point_from_angle (c : circle) (alpha : R) (degrees : bool) : pt :=
  let alpha := if degrees then alpha * (PI / 180) else alpha in
  vadd (cO c) (vscal (cr c) (unit_vector_ alpha)).

(** geometry.py:529-539 [power] *)
Definition power (c : circle) (M : pt) : R :=
  dot_ (vsub M (cO c)) (vsub M (cO c)) - cr c * cr c.

(** geometry.py:541-559 [radical_center]; the concentric case returns (inf, inf) *)
Definition radical_center2 (c1 c2 : circle) : res pt :=
  let C1 := cO c1 in
  let C2 := cO c2 in
  let r1 := cr c1 in
  let r2 := cr c2 in
  let k := r1 * r1 - r2 * r2 in
  let C1_C2 := vsub C2 C1 in
  let C1C2sqr := dot_ C1_C2 C1_C2 in
  if eqb C1C2sqr 0 then Raise NonFinite
  else Ok (vadd (vscal (/ 2) (vadd C1 C2)) (vscal (/ C1C2sqr) (vscal (k / 2) C1_C2))).

(** geometry.py:561-578 [radical_axis] *)
Definition radical_axis (c1 c2 : circle) : res (option line) :=
  let C1 := cO c1 in
  let C2 := cO c2 in
  if allclose C1 C2 then Ok None
  else
    let (x, y) := vsub C2 C1 in
    let v := (- y, x) in
    let! R := radical_center2 c1 c2 in
    let! l := Line_init R (vadd R v) true true in
    Ok (Some l).

(** geometry.py:607-620 [is_orthogonal] *)
Definition is_orthogonal (c1 c2 : circle) : bool :=
  let d2 := dot_ (vsub (cO c1) (cO c2)) (vsub (cO c1) (cO c2)) in
  let r := cr c1 in
  let r2 := cr c2 in
  approx_equal_ d2 (r * r + r2 * r2).

(** geometry.py:622-644 [angle]; the radii are not 0 *)
Definition circle_angle (c1 c2 : circle) : res (option R) :=
  let center1 := cO c1 in
  let center2 := cO c2 in
  let r1 := cr c1 in
  let r2 := cr c2 in
  let d2 := dot_ (vsub center1 center2) (vsub center1 center2) in
  if ltb ((r1 + r2) ^ 2 + sepsilon_) d2 || ltb d2 ((r1 - r2) ^ 2 - sepsilon_)
  then Ok None
  else
    let b1 := 1 / r1 in
    let b2 := 1 / r2 in
    let a1 := vscal b1 center1 in
    let a2 := vscal b2 center2 in
    let bprime1 := r1 * (dot_ a1 a1 - 1) in
    let bprime2 := r2 * (dot_ a2 a2 - 1) in
    let cos_theta := b1 * bprime2 / 2 + b2 * bprime1 / 2 - dot_ a1 a2 in
    let! t := py_acos cos_theta in
    Ok (Some t).

(** geometry.py:646-659 *)
Definition circleAB (A B : pt) : res circle :=
  if allclose A B then Raise ValueError
  else Circle_init (vscal (/ 2) (vadd A B)) (distance_ A B / 2).

(** geometry.py:661-674 *)
Definition circleOA (O A : pt) : res circle :=
  if allclose O A then Raise ValueError
  else Circle_init O (distance_ O A).

(** geometry.py:677-694; a [None] axis has no attribute A: AttributeError *)
Definition radical_center3 (c1 c2 c3 : circle) : res (option pt) :=
  let! l1 := radical_axis c1 c2 in
  let! l2 := radical_axis c1 c3 in
  match l1, l2 with
  | Some l1, Some l2 => Ok (line_line_intersection_ (lA l1) (lB l1) (lA l2) (lB l2))
  | _, _ => Raise AttributeError
  end.

(** geometry.py:697-763 [mid_circles].  The result is a list of generalized
    circles; a list of length 1 stands for the bare object. *)
Definition mid_circles (c1 c2 : circle) : res (list gcircle) :=
  let r1 := cr c1 in
  let r2 := cr c2 in
  let O1 := cO c1 in
  let O2 := cO c2 in
  if eqb r1 r2 then
    if allclose O1 O2 then Ok [GC c1]
    else
      let d2 := dot_ (vsub O1 O2) (vsub O1 O2) in
      let sumRadii2 := (r1 + r2) ^ 2 in
      let I := vscal (/ 2) (vadd O1 O2) in
      let (x, y) := vsub O2 O1 in
      let v := (y, - x) in
      let! line := Line_init (vadd I v) (vsub I v) true true in
      if ltb d2 sumRadii2 then
        let! c := Circle_init I (sqrt (Rabs (dot_ (vsub I O2) (vsub I O2) - r2 * r2))) in
        Ok [GC c; GL line]
      else Ok [GL line]
  else
    let d2 := dot_ (vsub O1 O2) (vsub O1 O2) in
    let sumRadii2 := (r1 + r2) ^ 2 in
    let rho := r1 / r2 in
    let Iext := vsub O1 (vscal (rho / (1 - rho)) (vsub O2 O1)) in
    let Iint := vadd O1 (vscal (rho / (1 + rho)) (vsub O2 O1)) in
    let k I := rho * Rabs (dot_ (vsub I O2) (vsub I O2) - r2 * r2) in
    if ltb (sumRadii2 + sepsilon_) d2 then
      let! c := Circle_init Iext (sqrt (k Iext)) in Ok [GC c]
    else if ltb d2 ((r1 - r2) ^ 2 - sepsilon_) then
      let! c := Circle_init Iint (sqrt (k Iint)) in Ok [GC c]
    else if ltb (sumRadii2 - d2) sepsilon_ then
      let! c := Circle_init Iext (sqrt (k Iext)) in Ok [GC c]
    else if ltb (d2 - (r1 - r2) ^ 2) sepsilon_ then
      let! c := Circle_init Iint (sqrt (k Iint)) in Ok [GC c]
    else
      let! ca := Circle_init Iext (sqrt (k Iext)) in
      let! cb := Circle_init Iint (sqrt (k Iint)) in
      Ok [GC ca; GC cb].

(** geometry.py:766-785 *)
Definition intersection_circle_line (c : circle) (l : line) : res inter :=
  let C := cO c in
  let! is := circle_line_intersection_ (vsub (lA l) C) (vsub (lB l) C) (cr c) in
  match is with
  | INone => Ok INone
  | IOne P => Ok (IOne (vadd P C))
  | ITwo P Q => Ok (ITwo (vadd P C) (vadd Q C))
  end.

(** geometry.py:787-821 [intersection_circle_circle].  The quotient is a numpy
    division: for concentric circles it is +-inf, which min/max clamp. *)
Inductive ccinter := CCSame (c : circle) | CCPoints (i : inter).

Definition clamp1 (x : R) : R := Rmax (Rmin x 1) (-1).

Definition intersection_circle_circle (c1 c2 : circle) : res ccinter :=
  if circle_is_equal c1 c2 then Ok (CCSame c1)
  else
    let r1 := cr c1 in
    let r2 := cr c2 in
    let center1 := cO c1 in
    let center2 := cO c2 in
    let d2 := dot_ (vsub center1 center2) (vsub center1 center2) in
    let sumRadii2 := (r1 + r2) ^ 2 in
    if ltb (sumRadii2 + sepsilon_) d2 || ltb d2 ((r1 - r2) ^ 2 - sepsilon_)
    then Ok (CCPoints INone)
    else
      let touch := ltb (sumRadii2 - d2) sepsilon_ || ltb (d2 - (r1 - r2) ^ 2) sepsilon_ in
      let (x, y) := vsub center1 center2 in
      let lsquared := x * x + y * y in
      let num := r2 * r2 - r1 * r1 - lsquared in
      let den := r1 * sqrt (4 * lsquared) in
      let! cosine :=
        (if eqb den 0 then
           if ltb 0 num then Ok 1 else if ltb num 0 then Ok (-1) else Raise NonFinite
         else Ok (clamp1 (num / den))) in
      let atg2 := atan2 y x in
      let theta := atg2 + acos cosine in
      let P1 := vadd center1 (vscal r1 (unit_vector_ theta)) in
      if touch then Ok (CCPoints (IOne P1))
      else
        let theta' := atg2 - acos cosine in
        Ok (CCPoints (ITwo P1 (vadd center1 (vscal r1 (unit_vector_ theta'))))).

(** ** Arc *)

(** geometry.py:857-876 *)
Record arc := mkArc { aO : pt; ar : R; aalpha1 : R; aalpha2 : R; adeg : bool }.

Definition Arc_init (center : pt) (radius alpha1 alpha2 : R) (degrees : bool) : res arc :=
  if leb radius 0 then Raise ValueError else Ok (mkArc center radius alpha1 alpha2 degrees).

(** [np.linspace(start, stop, n)] *)
Definition linspace (start stop : R) (n : nat) : list R :=
  match n with
  | 1%nat => [start]
  | _ => map (fun i => start + INR i * ((stop - start) / (INR n - 1))) (seq 0 n)
  end.

(** geometry.py:890-917 [Arc.path]; n_points is a Python int *)
Definition arc_path (a : arc) (n_points : Z) : res (list pt) :=
  if (n_points <=? 0)%Z then Raise ValueError
  else
    let alpha1 := if adeg a then aalpha1 a * PI / 180 else aalpha1 a in
    let alpha2 := if adeg a then aalpha2 a * PI / 180 else aalpha2 a in
    let alpha1 := pymod alpha1 (2 * PI) in
    let alpha2 := pymod alpha2 (2 * PI) in
    let dalpha := alpha2 - alpha1 in
    let dalpha := if ltb dalpha 0 then dalpha + 2 * PI else dalpha in
    let theta := linspace 0 dalpha (Z.to_nat n_points) in
    Ok (map (fun t => circle_point_ (alpha1 + t) (aO a) (ar a)) theta).

(** geometry.py:919-926 *)
Definition starting_point (a : arc) : pt :=
  let alpha := if adeg a then aalpha1 a * (PI / 180) else aalpha1 a in
  vadd (aO a) (vscal (ar a) (unit_vector_ alpha)).

(** geometry.py:928-935 *)
Definition ending_point (a : arc) : pt :=
  let alpha := if adeg a then aalpha2 a * (PI / 180) else aalpha2 a in
  vadd (aO a) (vscal (ar a) (unit_vector_ alpha)).

(** geometry.py:494-527 [orthogonal_through_two_points_on_circle] *)
Inductive ocirc := OLine (l : line) | OCircle (c : circle) | OArc (a : arc).

Definition orthogonal_through_two_points_on_circle (c : circle) (alpha1 alpha2 : R) (arc : bool)
  : res ocirc :=
  let I := cO c in
  let r := cr c in
  let dalpha := alpha1 - alpha2 in
  if eqb (pymod dalpha PI) 0 then
    let eialpha1 := unit_vector_ alpha1 in
    let A := vadd I (vscal r eialpha1) in
    let B := vsub I (vscal r eialpha1) in
    let! l := Line_init A B (negb arc) (negb arc) in Ok (OLine l)
  else
    let r0 := r * Rabs (tan (dalpha / 2)) in
    let IO := r / cos (dalpha / 2) in
    let center := vadd I (vscal IO (unit_vector_ ((alpha1 + alpha2) / 2))) in
    if arc then
      let dalpha := pymod (alpha2 - alpha1) (2 * PI) in
      let delta := if leb PI dalpha then PI else 0 in
      let beta1 := - PI / 2 + delta in
      let beta2 := beta1 - PI + dalpha in
      let theta1 := beta1 + alpha1 in
      let theta2 := beta2 + alpha1 in
      let! a := Arc_init center r0 (Rmin theta1 theta2) (Rmax theta1 theta2) false in
      Ok (OArc a)
    else
      let! c' := Circle_init center r0 in Ok (OCircle c').

(** ** Random points on and in a circle *)

(** internal.py:181-184, one column: [g] is the drawn pair of normal deviates
    (nan if both are 0) *)
Definition runif_on_circle1_ (r : R) (g : pt) : res pt :=
  let norm := vlength_ g in
  if eqb norm 0 then Raise NonFinite
  else Ok (r * fst g / norm, r * snd g / norm).

(** internal.py:186-187, one point: [u] is the uniform draw in [0,1) *)
Definition runif_in_circle1_ (r : R) (u : R) (g : pt) : res pt :=
  let! p := runif_on_circle1_ (sqrt u) g in Ok (vscal r p).

Inductive where_arg := WhereIn | WhereOn | WhereOther.

(** geometry.py:418-435 [Circle.random_points]; [draws] is the list of n_points
    outcomes (u, g) of the random generator *)
Definition circle_random_points (c : circle) (n_points : Z) (w : where_arg)
  (draws : list (R * pt)) : res (list pt) :=
  if (n_points <=? 0)%Z then Raise ValueError
  else match w with
  | WhereIn => mapM (fun d => let! p := runif_in_circle1_ (cr c) (fst d) (snd d) in Ok (vadd p (cO c))) draws
  | WhereOn => mapM (fun d => let! p := runif_on_circle1_ (cr c) (snd d) in Ok (vadd p (cO c))) draws
  | WhereOther => Raise ValueError
  end.
