(** * Model with a heap: which numpy arrays are shared, and which are written.

    Everywhere else in the model objects are values.  Here a float64 array is a location of a heap.
    [np.asarray(x, dtype=float)] returns x itself when x is a float64 array and a new array otherwise.
    The only in-place write of the package to an array it has not allocated itself is [theta *= pi/180]
    in [Ellipse.point_from_angle] (geometry.py:1061): the other augmented assignments
    (geometry.py:279, 449, 841, ...) are to Python or numpy numbers, which are immutable, and the
    subscript assignments (geometry.py:1373-1377, 1699-1700, 2700-2701, 3095-3096, 3331-3332,
    internal.py:210-218) are to arrays or lists allocated in the same function. *)

From Coq Require Import Reals List Bool Arith.
From Verif Require Import Base ModelInternal ModelLine ModelCircle ModelEllipse ModelInversion ModelAffine ModelTransfo.
Import ListNotations.
Local Open Scope R_scope.

(** locations below [next] are allocated *)
Record heap := mkHeap { next : nat; cell : nat -> list R }.

Definition alloc (h : heap) (xs : list R) : heap * nat :=
  (mkHeap (S (next h)) (fun l => if l =? next h then xs else cell h l)%nat, next h).

(** the caller's [arr[:] = xs] *)
Definition write (h : heap) (l : nat) (xs : list R) : heap :=
  mkHeap (next h) (fun l' => if l' =? l then xs else cell h l')%nat.

(** array-like arguments: a one-dimensional float64 array, or anything that [np.asarray(., dtype=float)] copies
    (a tuple, a list, an array of integers) *)
Inductive arg := AFloat (l : nat) | ASeq (xs : list R).

(** [np.asarray(a, dtype=float)] *)
Definition asarray (h : heap) (a : arg) : heap * nat :=
  match a with AFloat l => (h, l) | ASeq xs => alloc h xs end.

(** the numbers in the argument *)
Definition values (h : heap) (a : arg) : list R :=
  match a with AFloat l => cell h l | ASeq xs => xs end.

Definition as_pt (xs : list R) : pt := (nth 0 xs 0, nth 1 xs 0).

(** [error_if_not_point_] on such an argument: its length is 2 *)
Definition check_point (h : heap) (a : arg) : res unit :=
  if (length (values h a) =? 2)%nat then Ok tt else Raise ValueError.

(** geometry.py:361-366 *)
Record hcircle := mkHC { hcO : nat; hcr : R }.
Definition Circle_h (h : heap) (center : arg) (radius : R) : res (heap * hcircle) :=
  let! _ := check_point h center in
  if leb radius 0 then Raise ValueError
  else let (h, l) := asarray h center in Ok (h, mkHC l radius).

(** geometry.py:60-68 *)
Record hline := mkHL { hlA : nat; hlB : nat; hlextA : bool; hlextB : bool }.
Definition Line_h (h : heap) (A B : arg) (extendA extendB : bool) : res (heap * hline) :=
  let! _ := check_point h A in
  let! _ := check_point h B in
  let (h, a) := asarray h A in
  let (h, b) := asarray h B in
  if allclose (as_pt (cell h a)) (as_pt (cell h b)) then Raise ValueError
  else Ok (h, mkHL a b extendA extendB).

(** geometry.py:1494-1498 *)
Record hinversion := mkHI { hiO : nat; hik : R }.
Definition Inversion_h (h : heap) (pole : arg) (power : R) : res (heap * hinversion) :=
  let! _ := check_point h pole in
  let (h, l) := asarray h pole in Ok (h, mkHI l power).

(** geometry.py:1580-1589 [on_circle]: the centre, a float64 array, is passed to the constructor *)
Definition on_circle_h (h : heap) (c : hcircle) : res (heap * hinversion) :=
  Inversion_h h (AFloat (hcO c)) (hcr c ^ 2).

(** geometry.py:2664-2667 [Reflection.__init__] *)
Definition Reflection_h (h : heap) (l : hline) : res (heap * hline) :=
  Line_h h (AFloat (hlA l)) (AFloat (hlB l)) true true.

(** geometry.py:1508-1511 [invert(inf)]: the pole itself *)
Definition invert_inf_h (iota : hinversion) : nat := hiO iota.

(** the values of the objects in a heap *)
Definition circle_of (h : heap) (c : hcircle) : circle := mkCircle (as_pt (cell h (hcO c))) (hcr c).
Definition line_of (h : heap) (l : hline) : line := mkLine (as_pt (cell h (hlA l))) (as_pt (cell h (hlB l))) (hlextA l) (hlextB l).
Definition inversion_of (h : heap) (i : hinversion) : inversion := mkInv (as_pt (cell h (hiO i))) (hik i).

(** geometry.py:2704-2719 [Reflection.transform] on a point: a point included in the line is returned itself *)
Definition reflection_transform_h (h : heap) (l : hline) (P : arg) : res (heap * nat) :=
  let! _ := check_point h P in
  let (h, p) := asarray h P in
  let! inc := line_includes (line_of h l) (as_pt (cell h p)) false true in
  if inc then Ok (h, p)
  else
    let! Q := reflection_transform_pt (line_of h l) (as_pt (cell h p)) in
    Ok (alloc h [fst Q; snd Q]).

(** geometry.py:2727-2734 [reflect_circle] *)
Definition reflect_circle_h (h : heap) (l : hline) (c : hcircle) : res (heap * hcircle) :=
  let! (h, p) := reflection_transform_h h l (AFloat (hcO c)) in
  Circle_h h (AFloat p) (hcr c).

(** the rest of [Ellipse.point_from_angle] (geometry.py:1062-1069), on an angle in radians *)
Definition point_from_radians (e : ellipse) (theta : R) : pt :=
  let theta_mod_2pi := pymod theta (2 * PI) in
  let sgn := if leb theta_mod_2pi sepsilon_ then 1 else -1 in
  let theta_eps := theta + sepsilon_ * sgn in
  let at2 := if eqb (sin theta_mod_2pi) 0 then 0 else atan2 (ea e / eb e) (cot theta_mod_2pi) in
  let t := at2 + theta_eps - pymod theta_eps PI in
  ellipse_point_ t (eO e) (ea e) (eb e) (ell_angle e).

(** a point, or a matrix with one point per row *)
Inductive pout := OnePoint (p : pt) | Points (ps : list pt).

(** geometry.py:1067-1069: [if len(theta) == 1: out = out[0]] *)
Definition squeeze (ps : list pt) : pout := match ps with [p] => OnePoint p | _ => Points ps end.

(** geometry.py:1037-1069 [Ellipse.point_from_angle] on a vector of angles; a number is [ASeq [theta]] (geometry.py:1053) *)
Definition point_from_angle_h (h : heap) (e : ellipse) (theta : arg) (degrees : bool) : heap * pout :=
  let (h, l) := asarray h theta in
  let h := if degrees then write h l (map (fun x => x * (PI / 180)) (cell h l)) else h in
  (h, squeeze (map (point_from_radians e) (cell h l))).
