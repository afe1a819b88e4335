(** * Model of the methods that call another function of the package: the
    shortcuts of [Line], [Circle], [Ellipse], [Triangle] and [Rotation]. *)

From Coq Require Import Reals List Bool String.
From Verif Require Import Base ModelInternal ModelLine ModelCircle ModelEllipse ModelTriangle ModelInversion ModelAffine ModelTransfo.
Import ListNotations.
Local Open Scope R_scope.

(** geometry.py:254-263 [Line.reflection]; the reflection is about the whole line *)
Definition line_reflection (l : line) (M : pt) : res pt :=
  let! R := Reflection_init l in reflection_transform_pt R M.

(** geometry.py:302-311 [Line.invert] *)
Definition line_invert (l : line) (iota : inversion) : res (option gcircle) := invert_line iota l.

(** geometry.py:313-320 [Line.intersection_with_circle] *)
Definition line_intersection_with_circle (l : line) (c : circle) : res inter := intersection_circle_line c l.

(** geometry.py:322-329 [Line.intersection_with_ellipse] *)
Definition line_intersection_with_ellipse (l : line) (e : ellipse) : res inter := intersection_ellipse_line e l.

(** geometry.py:331-338 [Line.intersection_with_line] *)
Definition line_intersection_with_line (l l2 : line) (strict : bool) : option pt := intersection_line_line l l2 strict.

(** geometry.py:589-596 [Circle.intersection_with_line] *)
Definition circle_intersection_with_line (c : circle) (l : line) : res inter := intersection_circle_line c l.

(** geometry.py:598-605 [Circle.intersection_with_circle] *)
Definition circle_intersection_with_circle (c c2 : circle) : res ccinter := intersection_circle_circle c c2.

(** geometry.py:1205-1212 [Ellipse.intersection_with_line] *)
Definition ellipse_intersection_with_line (e : ellipse) (l : line) : res inter := intersection_ellipse_line e l.

(** geometry.py:1799-1803 [Triangle.edges]: a dictionary *)
Definition triangle_edges (T : triangle) : list (string * R) :=
  [("a", side_a T); ("b", side_b T); ("c", side_c T)]%string.

(** geometry.py:2913-2917, 2930-2934, 2956-2960, 2975-2979 [Rotation.transform] and
    its variants for circles, ellipses and lines *)
Definition rotation_transform (r : rotation) (M : pt) : pt := rotate r M.
Definition rotation_transform_circle (r : rotation) (c : circle) : res circle := rotate_circle r c.
Definition rotation_transform_ellipse (r : rotation) (e : ellipse) : res ellipse := rotate_ellipse r e.
Definition rotation_transform_line (r : rotation) (l : line) : res line := rotate_line r l.
