(** * Specification of nested chains of circles, of ellipses and of ellipsoids *)

From Coq Require Import Reals List.
From Verif Require Import Base Spec SpecTriangle SpecGasket SpecApollonian ModelInternal ModelCircle ModelEllipse.
Import ListNotations.
Local Open Scope R_scope.

(** a closed chain of [n] figures in [x0], with the figure [inner] in the middle: every figure of the
    chain touches [x0] from inside, [inner], the next one and the previous one, and no two overlap *)
Definition closed_chain {A : Type} (inside touch_in touch apart : A -> A -> Prop) (x0 : A) (n : nat) (chain : list A) (inner : A) : Prop :=
  length chain = n /\ inside x0 inner /\
  (forall x, In x chain -> touch_in x0 x /\ touch x inner) /\
  (forall i, (i < n)%nat -> touch (nth i chain x0) (nth (S i mod n) chain x0)) /\
  ForallOrdPairs apart (chain ++ [inner]).

(** every figure of such a chain (except the one in the middle) has a chain of [n'] figures in it; the
    figures of all these chains do not overlap *)
Definition nested_chains_in {A : Type} (inside touch_in touch apart : A -> A -> Prop) (x0 : A) (n n' : nat) (big : list A) (small : list (list A)) : Prop :=
  exists chain inner, big = chain ++ [inner] /\ closed_chain inside touch_in touch apart x0 n chain inner /\ length small = n /\
    (forall k, (k < n)%nat -> exists chain' inner', nth k small [] = chain' ++ [inner'] /\
       closed_chain inside touch_in touch apart (nth k chain x0) n' chain' inner') /\
    Forall (inside x0) (concat small) /\ ForallOrdPairs apart (concat small ++ [inner]).

(** ** Circles *)
Definition circle_inside (c0 c : circle) : Prop := 0 < cr c /\ disc_in_disc c c0.
Definition circle_touch_in (c0 c : circle) : Prop := 0 < cr c < cr c0 /\ dist (cO c0) (cO c) = cr c0 - cr c.
Definition circle_chain := closed_chain circle_inside circle_touch_in circles_touch not_overlapping.
Definition circle_nested := nested_chains_in circle_inside circle_touch_in circles_touch not_overlapping.

(** ** Figures given by a function which is less than 1 inside, 1 on the boundary *)
Definition region (X : Type) := X -> R.
Definition reg_inside {X} (f0 f : region X) : Prop := forall M, f M <= 1 -> f0 M <= 1.
(** no common interior point *)
Definition reg_apart {X} (f f' : region X) : Prop := forall M, ~ (f M < 1 /\ f' M < 1).
(** exactly one common point, on both boundaries *)
Definition reg_touch {X} (f f' : region X) : Prop :=
  exists M, f M = 1 /\ f' M = 1 /\ forall M', f M' <= 1 -> f' M' <= 1 -> M' = M.
(** one in the other and exactly one common point of the boundaries *)
Definition reg_touch_in {X} (f0 f : region X) : Prop :=
  reg_inside f0 f /\ exists M, f M = 1 /\ f0 M = 1 /\ forall M', f M' <= 1 -> f0 M' = 1 -> M' = M.

(** ** Ellipses *)
Definition eform (e : ellipse) : region pt := ell_form (eO e) (ea e) (eb e) (radians (edeg e) (ealpha e)).

Definition ell_inside (e e' : ellipse) : Prop := reg_inside (eform e) (eform e').
Definition ell_touch_in (e e' : ellipse) : Prop := reg_touch_in (eform e) (eform e').
Definition ell_touch (e e' : ellipse) : Prop := reg_touch (eform e) (eform e').
Definition ell_apart (e e' : ellipse) : Prop := reg_apart (eform e) (eform e').
Definition ell_chain := closed_chain ell_inside ell_touch_in ell_touch ell_apart.
Definition ell_nested := nested_chains_in ell_inside ell_touch_in ell_touch ell_apart.

(** [e] is [e0], [k] times as large and elsewhere *)
Definition scaled_copy (k : R) (e0 e : ellipse) : Prop :=
  0 < k /\ ea e = k * Rmax (ea e0) (eb e0) /\ eb e = k * Rmin (ea e0) (eb e0) /\
  forall v, eform e (vadd (eO e) (vscal k v)) = eform e0 (vadd (eO e0) v).

(** ** Ellipsoids: the horizontal section is an ellipse, the vertical half axis is [h] *)
Definition solid := (ellipse * R)%type.
Definition sform (s : solid) : region (pt * R) := fun P => eform (fst s) (fst P) + (snd P / snd s) ^ 2.

Definition sol_inside (e e' : solid) : Prop := reg_inside (sform e) (sform e').
Definition sol_touch_in (e e' : solid) : Prop := reg_touch_in (sform e) (sform e').
Definition sol_touch (e e' : solid) : Prop := reg_touch (sform e) (sform e').
Definition sol_apart (e e' : solid) : Prop := reg_apart (sform e) (sform e').
Definition sol_chain := closed_chain sol_inside sol_touch_in sol_touch sol_apart.
Definition sol_nested := nested_chains_in sol_inside sol_touch_in sol_touch sol_apart.

Definition dist2_3 (P Q : pt * R) : R := dist2 (fst P) (fst Q) + (snd P - snd Q) ^ 2.

(** the image of the sphere by the map [T] is the surface of [s] *)
Definition sphere_image (T : pt * R -> pt * R) (O : pt * R) (r : R) (s : solid) : Prop :=
  0 < snd s /\ forall Q, sform s Q = 1 <-> exists P, dist2_3 O P = r * r /\ T P = Q.

(** a 4 x 4 matrix of an affine map of the space in homogeneous coordinates: four rows of four numbers,
    the last one being (0, 0, 0, 1) *)
Definition homogeneous (M : list (list R)) : Prop :=
  exists rows, M = rows ++ [[0; 0; 0; 1]] /\ length rows = 3%nat /\ Forall (fun row => length row = 4%nat) rows.

(** the smallest and the largest radius of the circles of a chain of [n] circles in a circle of radius [r0] *)
Definition least_radius (r0 : R) (n : Z) (phi : R) : R :=
  let s := sin (PI / IZR n) in let p := Rabs phi in r0 * s * (1 - p) / (1 + p + s * (1 - p)).
Definition largest_radius (r0 : R) (n : Z) (phi : R) : R :=
  let s := sin (PI / IZR n) in let p := Rabs phi in r0 * s * (1 + p) / (1 - p + s * (1 + p)).

(** the tolerance of the inversion does not matter *)
Definition steiner_safe (r0 phi : R) : Prop := phi = 0 \/ sepsilon_ <= (r0 / Rabs phi - r0) * (r0 / Rabs phi - r0).
