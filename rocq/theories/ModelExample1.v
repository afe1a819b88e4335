(** * Model of the checks that examples/example1.py prints, as functions of their data.  The lines 41 and 46 call
    [LownerJohnEllipse] and [from_boundary4] (see [ModelLowner.v], [ModelBoundary4.v]); the plots are not modelled. *)

From Coq Require Import Reals List Bool.
From Verif Require Import Base ModelInternal ModelLine ModelCircle ModelAffine ModelEllipse ModelTriangle ModelInversion ModelTransfo ModelMobius ModelAlias ModelBilliard.
Import ListNotations.
Local Open Scope R_scope.

(** example1.py:62 and 67-68 (A is a vertex of the triangle); [None] has no method [includes] *)
Definition ex1_circumcircle (A B C : pt) : res bool :=
  let! c := circumcircle (mkTri A B C) in
  match c with
  | None => Raise AttributeError
  | Some c => Ok (circle_includes c A)
  end.

(** example1.py:95-96; [two_points] is [Is[0], Is[1]]: a single point has numbers as entries, rejected by [includes] *)
Definition ex1_circle_line (c : circle) (l : line) : res bool :=
  let! i := intersection_circle_line c l in
  let! (I0, I1) := two_points i in
  Ok (circle_includes c I0 && circle_includes c I1).

(** example1.py:101-102 *)
Definition ex1_ellipse_line (e : ellipse) (l : line) : res bool :=
  let! i := intersection_ellipse_line e l in
  let! (I0, I1) := two_points i in
  Ok (ellipse_includes e I0 && ellipse_includes e I1).

(** example1.py:121-122 *)
Definition ex1_ellipses (e1 e2 : ellipse) : res (option ellipse) :=
  let! f := from_ellipse_to_ellipse (AEllipse e1) (AEllipse e2) in
  affine_transform_ellipse f (AEllipse e1).

(** example1.py:135-138; [inf] is not a point, [includes] rejects it; [None]: the search of [transform_circle] does not end *)
Definition ex1_mobius (fuel : nat) (M : mobius) (c : circle) (alpha : R) (degrees : bool) : option (res bool) :=
  match transform_circle fuel M c with
  | None => None
  | Some r => Some (
      let! c2 := r in
      let! B := transform M (Pt (circle_point_from_angle c alpha degrees)) in
      match B with
      | Inf => Raise ValueError
      | Pt B => match c2 with
                | GC c2 => Ok (circle_includes c2 B)
                | GL l => line_includes l B false true
                end
      end)
  end.

(** example1.py:143-144; [None] is not a point *)
Definition ex1_projection (l : line) (P : pt) : res bool :=
  match line_projection l P with
  | None => Raise ValueError
  | Some M => line_includes l M false true
  end.

(** example1.py:149-151 *)
Definition ex1_reflection (l : line) (P : pt) : res pt :=
  let! Q := line_reflection l P in
  let! R := line_reflection l Q in
  Ok (vsub P R).
