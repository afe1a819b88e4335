(** * Base: exceptions, real arithmetic helpers, tolerances, points, complex numbers.

    Everything here is the vocabulary in which the model of [planegeometry] is
    written.  Numbers are exact reals: floating-point rounding is not modelled
    (see DESIGN.md), but every tolerance of the code is. *)

From Coq Require Import Reals Lra Lia ZArith List Bool Field.
Import ListNotations.
Local Open Scope R_scope.

(** ** Exceptions as values *)

(** Python exceptions raised by the modelled code.  [NonFinite] is not a Python
    exception: it marks a numpy computation that produced inf or nan (numpy only
    warns on a division by zero). *)
Inductive exn :=
| ValueError | TypeError | ZeroDivisionError | AttributeError | LinAlgError | OverflowError
| NonFinite.

Inductive res (A : Type) := Ok (a : A) | Raise (e : exn).
Arguments Ok {A} a.
Arguments Raise {A} e.

Definition bind {A B} (m : res A) (k : A -> res B) : res B :=
  match m with Ok a => k a | Raise e => Raise e end.

Notation "'let!' x ':=' e 'in' k" := (bind e (fun x => k))
  (at level 200, x pattern, e at level 200, k at level 200, right associativity).

Fixpoint mapM {A B} (f : A -> res B) (l : list A) : res (list B) :=
  match l with
  | [] => Ok []
  | a :: l' => let! b := f a in let! bs := mapM f l' in Ok (b :: bs)
  end.

(** ** Boolean comparisons of real numbers (Python [<], [<=], [==]) *)

Definition ltb (x y : R) : bool := if Rlt_dec x y then true else false.
Definition leb (x y : R) : bool := if Rle_dec x y then true else false.
Definition eqb (x y : R) : bool := if Req_EM_T x y then true else false.

(** ** Python's float modulo: [x % m = x - m*floor(x/m)], used with m > 0 only *)
Definition floorR (x : R) : R := IZR (Int_part x).
Definition pymod (x m : R) : R := x - m * floorR (x / m).

(** [math.atan2(y, x)] (signed zeros not distinguished). *)
Definition atan2 (y x : R) : R :=
  if Rlt_dec 0 x then atan (y / x)
  else if Rlt_dec x 0 then
         if Rle_dec 0 y then atan (y / x) + PI else atan (y / x) - PI
       else if Rlt_dec 0 y then PI / 2
            else if Rlt_dec y 0 then - PI / 2 else 0.

(** [math.sqrt], [math.acos]: ValueError outside the domain.  Python's float
    division raises ZeroDivisionError, numpy's yields inf/nan. *)
Definition py_sqrt (x : R) : res R := if Rlt_dec x 0 then Raise ValueError else Ok (sqrt x).
Definition py_acos (x : R) : res R :=
  if Rlt_dec x (-1) then Raise ValueError
  else if Rlt_dec 1 x then Raise ValueError else Ok (acos x).
Definition py_div (x y : R) : res R :=
  if Req_EM_T y 0 then Raise ZeroDivisionError else Ok (x / y).
Definition np_div (x y : R) : res R :=
  if Req_EM_T y 0 then Raise NonFinite else Ok (x / y).

(** ** Tolerances *)

(** internal.py:74-76: [epsilon_ = np.finfo(float).eps = 2^-52], so
    [sepsilon_ = sqrt(epsilon_) = 2^-26] exactly. *)
Definition sepsilon_ : R := / 67108864.

(** [math.isclose(x, y)] with the default rel_tol=1e-9, abs_tol=0. *)
Definition isclose (x y : R) : bool :=
  leb (Rabs (x - y)) (/ 1000000000 * Rmax (Rabs x) (Rabs y)).

(** [numpy.allclose] on scalars with default rtol=1e-5, atol=1e-8 (asymmetric:
    the reference is the second argument), and componentwise on points. *)
Definition allclose1 (x y : R) : bool :=
  leb (Rabs (x - y)) (/ 100000000 + / 100000 * Rabs y).

(** ** Points, vectors (numpy arrays of length 2) *)

Definition pt := (R * R)%type.

Definition vadd (u v : pt) : pt := (fst u + fst v, snd u + snd v).
Definition vsub (u v : pt) : pt := (fst u - fst v, snd u - snd v).
Definition vscal (k : R) (u : pt) : pt := (k * fst u, k * snd u).
Definition vopp (u : pt) : pt := (- fst u, - snd u).

Definition allclose (p q : pt) : bool :=
  allclose1 (fst p) (fst q) && allclose1 (snd p) (snd q).

(** A point or the float [inf]. *)
Inductive ept := Pt (p : pt) | Inf.

(** ** Complex numbers are pairs (re, im) *)

Definition C := (R * R)%type.
Definition Cadd (z w : C) : C := (fst z + fst w, snd z + snd w).
Definition Csub (z w : C) : C := (fst z - fst w, snd z - snd w).
Definition Copp (z : C) : C := (- fst z, - snd z).
Definition Cmul (z w : C) : C :=
  (fst z * fst w - snd z * snd w, fst z * snd w + snd z * fst w).
Definition Cinv (z : C) : C :=
  (fst z / (fst z * fst z + snd z * snd z), - snd z / (fst z * fst z + snd z * snd z)).
Definition Cdiv (z w : C) : C := Cmul z (Cinv w).
Definition Cconj (z : C) : C := (fst z, - snd z).
Definition RtoC (x : R) : C := (x, 0).
Definition C0 : C := (0, 0).
Definition C1 : C := (1, 0).
Definition Ci : C := (0, 1).
Definition Ceqb (z w : C) : bool := eqb (fst z) (fst w) && eqb (snd z) (snd w).

Declare Scope C_scope.
Delimit Scope C_scope with C.
Infix "+" := Cadd : C_scope.
Infix "-" := Csub : C_scope.
Infix "*" := Cmul : C_scope.
Infix "/" := Cdiv : C_scope.
Notation "- z" := (Copp z) : C_scope.
