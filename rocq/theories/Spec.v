(** * Independent geometric specification.

    Plane geometry as point sets: nothing here refers to the model of the
    library.  The property theorems are stated with these notions only. *)

From Coq Require Import Reals List.
From Verif Require Import Base.
Local Open Scope R_scope.

(** scalar and cross product of two vectors, squared length and distances *)
Definition sdot (u v : pt) : R := fst u * fst v + snd u * snd v.
Definition scross (u v : pt) : R := fst u * snd v - snd u * fst v.
Definition dist2 (P Q : pt) : R := sdot (vsub Q P) (vsub Q P).
Definition dist (P Q : pt) : R := sqrt (dist2 P Q).

Definition orthogonal (u v : pt) : Prop := sdot u v = 0.
(** two vectors are parallel when one is a multiple of the other *)
Definition parallel (u v : pt) : Prop := (exists k, v = vscal k u) \/ (exists k, u = vscal k v).
Definition midpoint (A B : pt) : pt := ((fst A + fst B) / 2, (snd A + snd B) / 2).

Definition centroid (A B C : pt) : pt := ((fst A + fst B + fst C) / 3, (snd A + snd B + snd C) / 3).

(** the point A + t (B - A) *)
Definition at_line (A B : pt) (t : R) : pt := vadd A (vscal t (vsub B A)).

(** infinite line, closed segment, open half-line with origin A *)
Definition on_line (A B M : pt) : Prop := exists t, M = at_line A B t.
Definition on_segment (A B M : pt) : Prop := exists t, 0 <= t <= 1 /\ M = at_line A B t.
Definition on_open_ray (A B M : pt) : Prop := exists t, 0 < t /\ M = at_line A B t.

(** three points on a common line *)
Definition collinear (A B C : pt) : Prop :=
  exists P v a b c, A = vadd P (vscal a v) /\ B = vadd P (vscal b v) /\ C = vadd P (vscal c v).

(** two infinite lines are the same set of points *)
Definition same_line (A B C D : pt) : Prop := forall M, on_line A B M <-> on_line C D M.

(** circles and disks *)
Definition on_circle (O : pt) (r : R) (M : pt) : Prop := dist O M = r.
Definition in_disk (O : pt) (r : R) (M : pt) : Prop := dist O M <= r.

(** mirror image with respect to the line (AB) *)
Definition mirror (A B P Q : pt) : Prop :=
  on_line A B (midpoint P Q) /\ orthogonal (vsub Q P) (vsub B A).

(** rotation by [theta] radians about [O] *)
Definition rot (theta : R) (O P : pt) : pt :=
  (fst O + (cos theta * (fst P - fst O) - sin theta * (snd P - snd O)),
   snd O + (sin theta * (fst P - fst O) + cos theta * (snd P - snd O))).

(** degrees to radians *)
Definition deg (x : R) : R := x * PI / 180.

(** angle in radians of an angle given in degrees or radians *)
Definition radians (degrees : bool) (x : R) : R := if degrees then deg x else x.

(** coordinates of [M] in the frame of centre [O] rotated by [theta] *)
Definition fx (O : pt) (theta : R) (M : pt) : R :=
  cos theta * (fst M - fst O) + sin theta * (snd M - snd O).
Definition fy (O : pt) (theta : R) (M : pt) : R :=
  - sin theta * (fst M - fst O) + cos theta * (snd M - snd O).

(** ellipse of centre O, semi-axes a (in direction theta) and b *)
Definition ell_form (O : pt) (a b theta : R) (M : pt) : R :=
  (fx O theta M / a) ^ 2 + (fy O theta M / b) ^ 2.
Definition on_ellipse (O : pt) (a b theta : R) (M : pt) : Prop := ell_form O a b theta M = 1.
Definition in_ellipse (O : pt) (a b theta : R) (M : pt) : Prop := ell_form O a b theta M <= 1.

(** [v] is the direction of the tangent to the ellipse at [M]: the line through [M]
    of direction [v] meets the ellipse at [M] only *)
Definition ell_tangent (O : pt) (a b th : R) (M v : pt) : Prop :=
  on_ellipse O a b th M /\ v <> (0, 0) /\ forall k, on_ellipse O a b th (vadd M (vscal k v)) -> k = 0.

(** tangent circles *)
Definition ext_tangent (O1 : pt) (r1 : R) (O2 : pt) (r2 : R) : Prop := dist O1 O2 = r1 + r2.
Definition int_tangent (O1 : pt) (r1 : R) (O2 : pt) (r2 : R) : Prop := dist O1 O2 = Rabs (r1 - r2).
(** orthogonal circles: the radii at a common point are orthogonal (Pythagoras) *)
Definition circ_orthogonal (O1 : pt) (r1 : R) (O2 : pt) (r2 : R) : Prop :=
  dist2 O1 O2 = r1 ^ 2 + r2 ^ 2.
(** power of a point with respect to a circle *)
Definition pow_circle (O : pt) (r : R) (M : pt) : R := dist2 O M - r ^ 2.
(** a line is tangent to a circle: its distance to the centre is the radius;
    [F] is the tangency point *)
Definition line_tangent_at (A B O : pt) (r : R) (F : pt) : Prop :=
  on_line A B F /\ orthogonal (vsub F O) (vsub B A) /\ dist O F = r.
Definition line_tangent (A B O : pt) (r : R) : Prop := exists F, line_tangent_at A B O r F.

(** inversion of pole [I] and power [k], on points distinct from the pole *)
Definition inv_pt (I : pt) (k : R) (M : pt) : pt := vadd I (vscal (k / dist2 I M) (vsub M I)).

(** the inversion of pole [I] and power [k] maps the circle (O1, r1) onto the
    circle (O2, r2), point by point *)
Definition inv_maps (I : pt) (k : R) (O1 : pt) (r1 : R) (O2 : pt) (r2 : R) : Prop :=
  ~ on_circle O1 r1 I /\ ~ on_circle O2 r2 I /\
  forall M, M <> I -> (on_circle O1 r1 M <-> on_circle O2 r2 (inv_pt I k M)).

(** the reflection in the line (AB) maps the circle (O1, r1) onto (O2, r2) *)
Definition mirror_maps (A B O1 : pt) (r1 : R) (O2 : pt) (r2 : R) : Prop :=
  forall M M', mirror A B M M' -> (on_circle O1 r1 M <-> on_circle O2 r2 M').
