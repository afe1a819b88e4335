(** * Argument validation: what the constructors do with arbitrary Python values
    (internal.py:8-62 and the [__init__] methods of geometry.py). *)

From Coq Require Import Reals List Bool ZArith.
From Verif Require Import Base.
Import ListNotations.
Local Open Scope R_scope.

(** a double as seen without rounding: a real number, an infinity or nan *)
Inductive xnum := Fin (x : R) | PInf | NInf | NaN.

(** The Python values of the model.  Numbers with an exact value: [bool], [int], [float]
    (and its subclass [np.float64]), and the other numpy scalars registered as real
    numbers ([np.float32], [np.int64], ...).  An [ndarray] of one dimension is the list of
    the objects obtained by indexing it; other arrays have no content in the model.
    [VLine], ... are instances of the classes of the package, whose content is irrelevant
    to the validation. *)
Inductive pyval :=
| VNone
| VBool (b : bool)
| VInt (z : Z)
| VFloat (x : xnum)
| VNpReal (x : xnum)
| VNpBool (b : bool)
| VComplex (re im : xnum)
| VStr (n : nat)
| VTuple (l : list pyval)
| VList (l : list pyval)
| VArray1 (l : list pyval)
| VArrayN (ndim : nat)
| VObject (n : nat).

(** internal.py:9-10 [is_inf_] *)
Definition is_inf_ (x : pyval) : bool :=
  match x with VFloat PInf | VFloat NInf => true | _ => false end.

(** internal.py:15-16 [is_number_]: [isinstance(x, numbers.Number)] and not complex; [bool] is a
    subclass of [int], [np.bool_] is not a number *)
Definition is_number_ (x : pyval) : bool :=
  match x with VBool _ | VInt _ | VFloat _ | VNpReal _ => true | _ => false end.

(** internal.py:18-23 *)
Definition error_if_not_number_ (x : pyval) : res unit := if is_number_ x then Ok tt else Raise ValueError.

(** [x <= 0] for a float: false for nan *)
Definition xle0 (x : xnum) : bool :=
  match x with Fin x => leb x 0 | NInf => true | PInf | NaN => false end.

(** [x <= 0] for a Python value: TypeError when the comparison is not supported
    (complex numbers, strings, None, sequences, other objects); arrays are left out: their
    comparison is an array *)
Definition py_le0 (x : pyval) : res bool :=
  match x with
  | VBool b => Ok (negb b)
  | VNpBool b => Ok (negb b)
  | VInt z => Ok (Z.leb z 0)
  | VFloat x | VNpReal x => Ok (xle0 x)
  | _ => Raise TypeError
  end.

(** internal.py:25-30 *)
Definition error_if_not_positive_ (x : pyval) : res unit :=
  let! b := py_le0 x in if b then Raise ValueError else Ok tt.

(** internal.py:32-37 *)
Definition error_if_not_boolean_ (x : pyval) : res unit :=
  match x with VBool _ => Ok tt | _ => Raise ValueError end.

(** internal.py:39-40 [is_vector_] *)
Definition is_vector_ (P : pyval) : bool :=
  match P with VTuple _ | VList _ | VArray1 _ => true | _ => false end.

(** [len(P)] and [P[i]] for a vector *)
Definition elements (P : pyval) : list pyval :=
  match P with VTuple l | VList l | VArray1 l => l | _ => [] end.

(** internal.py:45-46 [is_point_]; the conjunction is evaluated from left to right, so
    that [P[0]] and [P[1]] exist when they are read *)
Definition is_point_ (P : pyval) : bool :=
  is_vector_ P &&
  match elements P with
  | [x; y] => is_number_ x && is_number_ y
  | _ => false
  end.

(** internal.py:48-55 and 57-62: both test [is_point_] *)
Definition error_if_not_point_ (P : pyval) : res unit := if is_point_ P then Ok tt else Raise ValueError.
Definition error_if_not_vector_ (P : pyval) : res unit := if is_point_ P then Ok tt else Raise ValueError.

(** conversion of a number to a float; a Python integer which rounds to 2^1024 or more is too
    large.  Smaller integers are kept exactly: rounding is not modelled. *)
Definition max_int : Z := (2 ^ 1024 - 2 ^ 970)%Z.
Definition to_float (x : pyval) : res xnum :=
  match x with
  | VBool b => Ok (Fin (if b then 1 else 0))
  | VInt z => if (Z.abs z <? max_int)%Z then Ok (Fin (IZR z)) else Raise OverflowError
  | VFloat x | VNpReal x => Ok x
  | _ => Raise TypeError
  end.

(** [np.asarray(P, dtype=float)] of a value accepted by [is_point_] *)
Definition as_point (P : pyval) : res (xnum * xnum) :=
  match elements P with
  | [x; y] => let! x := to_float x in let! y := to_float y in Ok (x, y)
  | _ => Raise ValueError
  end.

(** [np.allclose] on two points: infinities are close to themselves only, nan to nothing *)
Definition xclose (x y : xnum) : bool :=
  match x, y with
  | Fin x, Fin y => allclose1 x y
  | PInf, PInf | NInf, NInf => true
  | _, _ => false
  end.
Definition xallclose (P Q : xnum * xnum) : bool := xclose (fst P) (fst Q) && xclose (snd P) (snd Q).

(** ** Constructors.  Points are converted, the other arguments are stored as they are. *)

(** geometry.py:60-68; [extendA] and [extendB] are not validated *)
Record pline := mkPLine { plA : xnum * xnum; plB : xnum * xnum; plextA : pyval; plextB : pyval }.
Definition Line_py (A B extendA extendB : pyval) : res pline :=
  let! _ := error_if_not_point_ A in
  let! _ := error_if_not_point_ B in
  let! A := as_point A in
  let! B := as_point B in
  if xallclose A B then Raise ValueError else Ok (mkPLine A B extendA extendB).

(** geometry.py:361-366 *)
Record pcircle := mkPCircle { pcO : xnum * xnum; pcr : pyval }.
Definition Circle_py (center radius : pyval) : res pcircle :=
  let! _ := error_if_not_point_ center in
  let! _ := error_if_not_number_ radius in
  let! _ := error_if_not_positive_ radius in
  let! O1 := as_point center in
  Ok (mkPCircle O1 radius).

(** geometry.py:865-876 *)
Record parc := mkPArc { paO : xnum * xnum; par : pyval; pa1 : pyval; pa2 : pyval; padeg : pyval }.
Definition Arc_py (center radius alpha1 alpha2 degrees : pyval) : res parc :=
  let! _ := error_if_not_point_ center in
  let! _ := error_if_not_number_ radius in
  let! _ := error_if_not_positive_ radius in
  let! _ := error_if_not_number_ alpha1 in
  let! _ := error_if_not_number_ alpha2 in
  let! _ := error_if_not_boolean_ degrees in
  let! O1 := as_point center in
  Ok (mkPArc O1 radius alpha1 alpha2 degrees).

(** geometry.py:947-959 *)
Record pellipse := mkPEllipse { peO : xnum * xnum; pea : pyval; peb : pyval; pealpha : pyval; pedeg : pyval }.
Definition Ellipse_py (center rmajor rminor alpha degrees : pyval) : res pellipse :=
  let! _ := error_if_not_point_ center in
  let! _ := error_if_not_number_ rmajor in
  let! _ := error_if_not_positive_ rmajor in
  let! _ := error_if_not_number_ rminor in
  let! _ := error_if_not_positive_ rminor in
  let! _ := error_if_not_number_ alpha in
  let! _ := error_if_not_boolean_ degrees in
  let! O1 := as_point center in
  Ok (mkPEllipse O1 rmajor rminor alpha degrees).

(** geometry.py:1494-1498, 3206-3215: [Inversion(pole, power)] and [Homothety(center, scale)]
    validate and store alike *)
Record ppn := mkPPN { ppP : xnum * xnum; ppn1 : pyval }.
Definition Inversion_py (pole power : pyval) : res ppn :=
  let! _ := error_if_not_point_ pole in
  let! _ := error_if_not_number_ power in
  let! P := as_point pole in
  Ok (mkPPN P power).
Definition Homothety_py (center scale : pyval) : res ppn :=
  let! _ := error_if_not_point_ center in
  let! _ := error_if_not_number_ scale in
  let! P := as_point center in
  Ok (mkPPN P scale).

(** geometry.py:1742-1748 *)
Record ptriangle := mkPTriangle { ptA : xnum * xnum; ptB : xnum * xnum; ptC : xnum * xnum }.
Definition Triangle_py (A B C : pyval) : res ptriangle :=
  let! _ := error_if_not_point_ A in
  let! _ := error_if_not_point_ B in
  let! _ := error_if_not_point_ C in
  let! A := as_point A in
  let! B := as_point B in
  let! C := as_point C in
  Ok (mkPTriangle A B C).

(** geometry.py:2858-2864 *)
Record protation := mkPRotation { prO : xnum * xnum; prtheta : pyval; prdeg : pyval }.
Definition Rotation_py (center theta degrees : pyval) : res protation :=
  let! _ := error_if_not_point_ center in
  let! _ := error_if_not_number_ theta in
  let! _ := error_if_not_boolean_ degrees in
  let! O1 := as_point center in
  Ok (mkPRotation O1 theta degrees).

(** [x <= b] and [x >= b] for a number and a real bound *)
Definition num_val (x : pyval) : xnum :=
  match x with
  | VBool b => Fin (if b then 1 else 0)
  | VInt z => Fin (IZR z)
  | VFloat x | VNpReal x => x
  | _ => NaN
  end.
Definition num_le (x : pyval) (b : R) : bool :=
  match num_val x with Fin x => leb x b | NInf => true | _ => false end.
Definition num_ge (x : pyval) (b : R) : bool :=
  match num_val x with Fin x => leb b x | PInf => true | _ => false end.

(** geometry.py:3036-3063 *)
Record pshear := mkPShear { psQ : xnum * xnum; psw : xnum * xnum; psratio : pyval; psangle : pyval; psdeg : pyval }.
Definition Shear_py (vertex vector ratio angle degrees : pyval) : res pshear :=
  let! _ := error_if_not_point_ vertex in
  let! _ := error_if_not_point_ vector in
  let! _ := error_if_not_number_ ratio in
  let! _ := error_if_not_positive_ ratio in
  let! _ := error_if_not_number_ angle in
  let! _ := error_if_not_boolean_ degrees in
  let bound := match degrees with VBool true => 90 | _ => PI / 2 end in
  if num_le angle (- bound) || num_ge angle bound then Raise ValueError
  else
    let! Q := as_point vertex in
    let! w := as_point vector in
    Ok (mkPShear Q w ratio angle degrees).

(** geometry.py:3137-3149 *)
Record pscalingxy := mkPSXY { pxyO : xnum * xnum; pxysx : pyval; pxysy : pyval }.
Definition ScalingXY_py (center sx sy : pyval) : res pscalingxy :=
  let! _ := error_if_not_point_ center in
  let! _ := error_if_not_number_ sx in
  let! _ := error_if_not_number_ sy in
  let! O1 := as_point center in
  Ok (mkPSXY O1 sx sy).

(** geometry.py:3295-3307 *)
Record pscaling := mkPScaling { pscO : xnum * xnum; pscw : xnum * xnum; pscs : pyval }.
Definition Scaling_py (center direction scale : pyval) : res pscaling :=
  let! _ := error_if_not_point_ center in
  let! _ := error_if_not_vector_ direction in
  let! _ := error_if_not_number_ scale in
  let! O1 := as_point center in
  let! w := as_point direction in
  Ok (mkPScaling O1 w scale).

(** ** Arguments of methods *)

(** A point or infinity: the first lines of [Inversion.invert] (geometry.py:1508-1513),
    [Mobius.transform] (2436-2439), [Reflection.transform] (2711-2714); [None] stands for infinity. *)
Definition ept_arg (M : pyval) : res (option (list pyval)) :=
  if is_inf_ M then Ok None
  else let! _ := error_if_not_point_ M in Ok (Some (elements M)).

(** The number of points: [random_points] (geometry.py:426-428, 1026-1028, 2110-2112), [Arc.path]
    and [Ellipse.path] (897-899, 1003-1005), and the [n] of [SteinerChain] (1706-1708):
    [isinstance(n, int)] (true for a bool, false for a numpy integer), then positive *)
Definition int_arg (n : pyval) : res Z :=
  match n with
  | VInt _ | VBool _ => let! _ := error_if_not_positive_ n in
      Ok (match n with VInt z => z | VBool b => if b then 1%Z else 0%Z | _ => 0%Z end)
  | _ => Raise ValueError
  end.
