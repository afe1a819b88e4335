(** * Model of examples/EllipticalBilliard.py (the functions [reflect] and
    [trajectory], lines 12-32).  The global variable [ell] of the script is the
    argument [e]. *)

From Coq Require Import Reals List Bool ZArith.
From Verif Require Import Base ModelInternal ModelLine ModelCircle ModelAffine ModelEllipse.
Import ListNotations.
Local Open Scope R_scope.

(** EllipticalBilliard.py:12-13 [reflect] *)
Definition billiard_reflect (incidentDir normalVec : pt) : pt :=
  vsub incidentDir (vscal (2 * dot_ normalVec incidentDir) normalVec).

(** [inters[0], inters[1]] (EllipticalBilliard.py:21-22 and 29): [None] cannot be
    indexed; the two entries of a single point are numbers, which [Line] rejects *)
Definition two_points (i : inter) : res (pt * pt) :=
  match i with
  | INone => Raise TypeError
  | IOne _ => Raise ValueError
  | ITwo P Q => Ok (P, Q)
  end.

(** EllipticalBilliard.py:24-29 and 31, one turn of the loop from the points P0 and
    Q0: the new segment and the next Q0 *)
Definition billiard_step (e : ellipse) (P0 Q0 : pt) : res (line * pt) :=
  let theta := atan2 (snd Q0) (fst Q0) in
  let! t := theta2t e theta false in
  let nrmlVec := ellipse_normal e t in
  let v := billiard_reflect (vsub Q0 P0) nrmlVec in
  let! l := Line_init Q0 (vadd Q0 v) true true in
  let! inters := intersection_ellipse_line e l in
  let! (I0, I1) := two_points inters in
  let! seg := Line_init I0 I1 true true in
  Ok (seg, if allclose Q0 I0 then I1 else I0).

(** EllipticalBilliard.py:23-31, [k] turns of the loop *)
Fixpoint billiard_loop (e : ellipse) (k : nat) (P0 Q0 : pt) : res (list line) :=
  match k with
  | O => Ok []
  | S k' =>
      let! (seg, Q1) := billiard_step e P0 Q0 in
      let! rest := billiard_loop e k' Q0 Q1 in
      Ok (seg :: rest)
  end.

(** EllipticalBilliard.py:17-32 [trajectory(n, P0, v0)] for n = k + 1 *)
Definition billiard_trajectory (e : ellipse) (k : nat) (P0 v0 : pt) : res (list line) :=
  let! l := Line_init P0 (vadd P0 v0) true true in
  let! inters := intersection_ellipse_line e l in
  let! (I0, I1) := two_points inters in
  let! seg := Line_init I0 I1 true true in
  let! rest := billiard_loop e k P0 I1 in
  Ok (seg :: rest).
