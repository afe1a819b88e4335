(** * Model of [Affine.transform_ellipse], [Affine.from_ellipse_to_ellipse]
    (geometry.py:2198-2235, 2272-2311) and of the classes [Reflection],
    [Projection], [Rotation], [Shear], [ScalingXY], [Homothety], [Scaling]
    (geometry.py:2658-3413). *)

From Coq Require Import Reals List Bool.
From Verif Require Import Base ModelInternal ModelLine ModelCircle ModelAffine ModelEllipse.
Import ListNotations.
Local Open Scope R_scope.

(** An argument that is a [Circle] or an [Ellipse]. *)
Inductive circ_or_ell := ACircle (c : circle) | AEllipse (e : ellipse).

(** geometry.py:2198-2235 [transform_ellipse].  np.sqrt of a negative number and
    numpy divisions by zero are NonFinite. *)
Definition np_sqrt (x : R) : res R := if Rlt_dec x 0 then Raise NonFinite else Ok (sqrt x).

Definition affine_transform_ellipse (f : affine) (arg : circ_or_ell) : res (option ellipse) :=
  if eqb (det2 (afA f)) 0 then Ok None
  else
    let! e := match arg with ACircle c => circle_as_ellipse c | AEllipse e => Ok e end in
    let '(A, B, C, D, E, F) := ellipse_equation e in
    let X := mkM3 A (B / 2) (D / 2) (B / 2) C (E / 2) (D / 2) (E / 2) F in
    let! Mat := inv3 (affine_mat3 f) in
    let Y := mm3 (mm3 (tr3 Mat) X) Mat in
    let A := n11 Y in
    let B := 2 * n12 Y in
    let C := n22 Y in
    let D := 2 * n13 Y in
    let E := 2 * n23 Y in
    let F := n33 Y in
    let Delta := B * B - 4 * A * C in
    let! s := py_sqrt ((A - C) ^ 2 + B * B) in
    let k := 2 * (A * E * E + C * D * D - B * D * E + Delta * F) in
    let! sa := np_sqrt (k * ((A + C) + s)) in
    let! sb := np_sqrt (k * ((A + C) + - s)) in
    let! a := np_div (- sa) Delta in
    let! b := np_div (- sb) Delta in
    let! x0 := np_div (2 * C * D - B * E) Delta in
    let! y0 := np_div (2 * A * E - B * D) Delta in
    let theta := atan2 (C - A - s) B in
    let degrees := edeg e in
    let theta := if degrees then pymod (theta * 180 / PI) 180 else pymod theta PI in
    let! e' := Ellipse_init (x0, y0) a b theta degrees in
    Ok (Some e').

(** geometry.py:2281-2295: the map sending the unit circle to the argument *)
Definition frame_of (arg : circ_or_ell) : affine :=
  match arg with
  | ACircle c => mkAffine (cols (vscal (cr c) (1, 0)) (vscal (cr c) (- 0, 1))) (cO c)
  | AEllipse e =>
      let theta := ell_angle e in
      mkAffine (cols (vscal (ea e) (cos theta, sin theta)) (vscal (eb e) (- sin theta, cos theta))) (eO e)
  end.

(** geometry.py:2272-2311 [from_ellipse_to_ellipse] *)
Definition from_ellipse_to_ellipse (ell1 ell2 : circ_or_ell) : res affine :=
  let! i := affine_inverse (frame_of ell1) in
  match i with
  | None => Raise AttributeError
  | Some g => Ok (affine_compose g (frame_of ell2) true)
  end.

(** ** Reflection (geometry.py:2658-2765) *)

(** geometry.py:2664-2667: the line, made infinite *)
Definition Reflection_init (l : line) : res line := Line_init (lA l) (lB l) true true.

(** geometry.py:2699-2702, 3094-3097 and 3330-3333: the column 2 is replaced by
    the row 2 and then the row 2 by (0, 0, 1) *)
Definition move_row (M : mat3) : mat3 :=
  mkM3 (n11 M) (n12 M) (n31 M) (n21 M) (n22 M) (n32 M) 0 0 1.

(** [np.hstack((np.array([u, v, Q]), [[0],[0],[1]]))] *)
Definition rows3 (u v Q : pt) : mat3 :=
  mkM3 (fst u) (snd u) 0 (fst v) (snd v) 0 (fst Q) (snd Q) 1.

(** geometry.py:2677-2702 *)
Definition reflection_mat3 (l : line) : res mat3 :=
  let Q := lA l in
  let w := vsub (lB l) (lA l) in
  let wt := (- snd w, fst w) in
  let M1 := rows3 w wt Q in
  let M2 := rows3 w (vopp wt) Q in
  let! J := inv3 M1 in
  Ok (move_row (mm3 J M2)).

(** geometry.py:2704-2719 [transform]; the point may be [inf] *)
Definition reflection_transform_pt (l : line) (P : pt) : res pt :=
  let! inc := line_includes l P false true in
  if inc then Ok P
  else
    let! perp := perpendicular l P false false in
    Ok (vadd P (vscal 2 (vsub (lA perp) (lB perp)))).
Definition reflection_transform (l : line) (P : ept) : res ept :=
  match P with
  | Inf => Ok Inf
  | Pt P => let! Q := reflection_transform_pt l P in Ok (Pt Q)
  end.

(** geometry.py:2727-2734 *)
Definition reflect_circle (l : line) (c : circle) : res circle :=
  let! P := reflection_transform_pt l (cO c) in Circle_init P (cr c).

(** geometry.py:2742-2752 *)
Definition reflect_line (l l' : line) : res line :=
  let! A := reflection_transform_pt l (lA l') in
  let! B := reflection_transform_pt l (lB l') in
  Line_init A B (lextA l') (lextB l').

(** geometry.py:2760-2765 *)
Definition reflection_as_affine (l : line) : res affine :=
  let! M := reflection_mat3 l in Ok (affine_of_mat3 M).

(** ** Projection (geometry.py:2768-2847) *)

Record projection := mkProj { pD : line; pDelta : line; porth : bool }.

(** geometry.py:2776-2787 *)
Definition Projection_init (D : line) (Delta : option line) : res projection :=
  let! D' := Line_init (lA D) (lB D) true true in
  match Delta with
  | None =>
      let v := vsub (lB D) (lA D) in
      let! Delta' := Line_init (0, 0) (- snd v, fst v) true true in
      Ok (mkProj D' Delta' true)
  | Some Delta =>
      let! Delta' := Line_init (lA Delta) (lB Delta) true true in
      Ok (mkProj D' Delta' false)
  end.

(** geometry.py:2801-2818 [project]; [dot_(ab, u)] is a numpy number *)
Definition project (p : projection) (M : pt) : res pt :=
  let D := pD p in
  let! inc := line_includes D M false true in
  if inc then Ok M
  else
    let u := vsub (lB (pDelta p)) (lA (pDelta p)) in
    let d := direction_offset D in
    let ab := unit_vector_ (fst d) in
    let! k := np_div (- (dot_ ab M - snd d)) (dot_ ab u) in
    Ok (vadd (vscal k u) M).

(** geometry.py:2826-2840 *)
Definition projection_mat3 (p : projection) : res mat3 :=
  let! b := project p (0, 0) in
  let! c1 := project p (1, 0) in
  let! c2 := project p (0, 1) in
  let col1 := vsub c1 b in
  let col2 := vsub c2 b in
  Ok (mkM3 (fst col1) (fst col2) (fst b) (snd col1) (snd col2) (snd b) 0 0 1).

(** geometry.py:2842-2847 *)
Definition projection_as_affine (p : projection) : res affine :=
  let! M := projection_mat3 p in Ok (affine_of_mat3 M).

(** ** Rotation (geometry.py:2850-3009) *)

Record rotation := mkRot { rO : pt; rtheta : R; rdeg : bool }.

Definition rot_angle (r : rotation) : R := if rdeg r then rtheta r * (PI / 180) else rtheta r.

(** geometry.py:2876-2911 [rotate], on one row *)
Definition rotate (r : rotation) (M : pt) : pt :=
  let O := rO r in
  let costheta := cos (rot_angle r) in
  let sintheta := sin (rot_angle r) in
  let (x, y) := vsub M O in
  vadd (costheta * x - sintheta * y, sintheta * x + costheta * y) O.

(** geometry.py:2919-2928 *)
Definition rotate_circle (r : rotation) (c : circle) : res circle :=
  Circle_init (rotate r (cO c)) (cr c).

(** geometry.py:2936-2954 *)
Definition rotate_ellipse (r : rotation) (e : ellipse) : res ellipse :=
  let degrees := edeg e in
  let theta := if degrees && negb (rdeg r) then rtheta r * (180 / PI)
               else if negb degrees && rdeg r then rtheta r * (PI / 180)
               else rtheta r in
  Ellipse_init (rotate r (eO e)) (ea e) (eb e) (ealpha e + theta) degrees.

(** geometry.py:2962-2973 *)
Definition rotate_line (r : rotation) (l : line) : res line :=
  Line_init (rotate r (lA l)) (rotate r (lB l)) (lextA l) (lextB l).

(** geometry.py:2981-3002 *)
Definition rotation_mat3 (r : rotation) : mat3 :=
  let c := cos (rot_angle r) in
  let s := sin (rot_angle r) in
  let (x, y) := rO r in
  mkM3 c (- s) ((1 - c) * x + s * y) s c (- s * x + (1 - c) * y) 0 0 1.

(** geometry.py:3004-3009 *)
Definition rotation_as_affine (r : rotation) : affine := affine_of_mat3 (rotation_mat3 r).

(** ** Shear (geometry.py:3013-3129) *)

Record shear := mkShear { sQ : pt; sw : pt; sratio : R; sangle : R; sdeg : bool }.

(** geometry.py:3036-3063 on points and numbers *)
Definition Shear_init (vertex vector : pt) (ratio angle : R) (degrees : bool) : res shear :=
  if leb ratio 0 then Raise ValueError
  else if (if degrees then leb angle (-90) || leb 90 angle
           else leb angle (- PI / 2) || leb (PI / 2) angle) then Raise ValueError
  else Ok (mkShear vertex vector ratio angle degrees).

Definition shear_angle (s : shear) : R := if sdeg s then sangle s * (PI / 180) else sangle s.

(** geometry.py:3080-3097 *)
Definition shear_mat3 (s : shear) : res mat3 :=
  let Q := sQ s in
  let w := sw s in
  let wt := vscal (sratio s) (- snd w, fst w) in
  let M1 := rows3 w wt Q in
  let M2 := rows3 w (vadd (vscal (tan (shear_angle s)) w) wt) Q in
  let! J := inv3 M1 in
  Ok (move_row (mm3 J M2)).

(** [np.matmul(Mat, A)[0:2, :]] for one column (x, y, 1) *)
Definition mat3_apply (M : mat3) (P : pt) : pt :=
  (n11 M * fst P + n12 M * snd P + n13 M * 1, n21 M * fst P + n22 M * snd P + n23 M * 1).

(** geometry.py:3099-3122 [transform], on one row *)
Definition shear_transform (s : shear) (M : pt) : res pt :=
  let! Mat := shear_mat3 s in Ok (mat3_apply Mat M).

(** geometry.py:3124-3129 *)
Definition shear_as_affine (s : shear) : res affine :=
  let! M := shear_mat3 s in Ok (affine_of_mat3 M).

(** ** ScalingXY (geometry.py:3132-3199) *)

Record scalingxy := mkSXY { xyO : pt; xysx : R; xysy : R }.

(** geometry.py:3160-3183 [transform], on one row *)
Definition scalingxy_transform (s : scalingxy) (M : pt) : pt :=
  let d := vsub M (xyO s) in
  vadd (xysx s * fst d, xysy s * snd d) (xyO s).

(** geometry.py:3185-3192 *)
Definition scalingxy_mat3 (s : scalingxy) : mat3 :=
  let (x, y) := scalingxy_transform s (0, 0) in
  mkM3 (xysx s) 0 x 0 (xysy s) y 0 0 1.

(** geometry.py:3194-3199 *)
Definition scalingxy_as_affine (s : scalingxy) : affine := affine_of_mat3 (scalingxy_mat3 s).

(** ** Homothety (geometry.py:3202-3275) *)

Record homothety := mkHom { hO : pt; hscale : R }.

(** geometry.py:3225-3247 [transform], on one row *)
Definition homothety_transform (h : homothety) (M : pt) : pt :=
  vadd (vscal (1 - hscale h) (hO h)) (vscal (hscale h) M).

(** geometry.py:3249-3258 *)
Definition homothety_transform_circle (h : homothety) (c : circle) : res circle :=
  Circle_init (homothety_transform h (cO c)) (Rabs (hscale h) * cr c).

(** geometry.py:3260-3268 *)
Definition homothety_mat3 (h : homothety) : mat3 :=
  let s := hscale h in
  let (x, y) := vscal (1 - s) (hO h) in
  mkM3 s 0 x 0 s y 0 0 1.

(** geometry.py:3270-3275 *)
Definition homothety_as_affine (h : homothety) : affine := affine_of_mat3 (homothety_mat3 h).

(** ** Scaling (geometry.py:3278-3413) *)

Record scaling := mkScaling { scO : pt; scw : pt; scs : R }.

(** geometry.py:3318-3333 *)
Definition scaling_mat3 (S : scaling) : res mat3 :=
  let Q := scO S in
  let w := scw S in
  let v := (- snd w, fst w) in
  let M1 := rows3 w v Q in
  let M2 := rows3 (vscal (scs S) w) v Q in
  let! J := inv3 M1 in
  Ok (move_row (mm3 J M2)).

(** geometry.py:3336-3379 [transform], on one row *)
Definition scaling_transform (S : scaling) (M : pt) : pt :=
  let Q := scO S in
  let w := scw S in
  let s := scs S in
  let wQ := vopp Q in
  let theta := - atan2 (snd w) (fst w) in
  let M := vadd M wQ in
  let costheta := cos theta in
  let sintheta := sin theta in
  let M := (costheta * fst M - sintheta * snd M, sintheta * fst M + costheta * snd M) in
  let M := (s * fst M, snd M) in
  let sintheta := - sintheta in
  let M := (costheta * fst M - sintheta * snd M, sintheta * fst M + costheta * snd M) in
  vsub M wQ.

(** geometry.py:3381-3386 *)
Definition scaling_as_affine (S : scaling) : res affine :=
  let! M := scaling_mat3 S in Ok (affine_of_mat3 M).

(** ** [Affine.compose] with an object of any class that has a method [get3x3matrix] *)
Inductive transfo :=
| TAffine (f : affine) | TReflection (l : line) | TProjection (p : projection) | TRotation (r : rotation)
| TShear (s : shear) | TScalingXY (s : scalingxy) | THomothety (h : homothety) | TScaling (sc : scaling).

Definition get3x3matrix (T : transfo) : res mat3 :=
  match T with
  | TAffine f => Ok (affine_mat3 f) | TReflection l => reflection_mat3 l | TProjection p => projection_mat3 p | TRotation r => Ok (rotation_mat3 r)
  | TShear s => shear_mat3 s | TScalingXY s => Ok (scalingxy_mat3 s) | THomothety h => Ok (homothety_mat3 h) | TScaling sc => scaling_mat3 sc
  end.

(** geometry.py:2159-2170 *)
Definition affine_compose_any (f : affine) (T : transfo) (left : bool) : res affine :=
  let M0 := affine_mat3 f in
  let! M1 := get3x3matrix T in
  Ok (affine_of_mat3 (if left then mm3 M1 M0 else mm3 M0 M1)).

(** geometry.py:3388-3413 [scale_circle]; the divisions by [lw] are numpy's *)
Definition scale_circle (S : scaling) (c : circle) : res ellipse :=
  let w := scw S in
  let C := cO c in
  let r := cr c in
  let O := scaling_transform S C in
  let lw := vlength_ w in
  if eqb lw 0 then Raise NonFinite
  else
    let A1 := scaling_transform S (vadd C (vscal (/ lw) (vscal r w))) in
    let wt := (- snd w, fst w) in
    let A2 := scaling_transform S (vadd C (vscal (/ lw) (vscal r wt))) in
    if leb 1 (scs S) then
      Ellipse_init O (distance_ A1 O) (distance_ A2 O)
        (atan2 (snd A1 - snd O) (fst A1 - fst O) * 180 / PI) true
    else
      Ellipse_init O (distance_ A2 O) (distance_ A1 O)
        (atan2 (snd A2 - snd O) (fst A2 - fst O) * 180 / PI) true.
