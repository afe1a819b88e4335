(** * Specification of valid arguments, on the Python values of ModelPy.v *)

From Coq Require Import Reals List Bool ZArith.
From Verif Require Import Base ModelPy.
Import ListNotations.
Local Open Scope R_scope.

(** [real_number v x]: the Python value v is a real number, whose value is x *)
Inductive real_number : pyval -> xnum -> Prop :=
| rn_false : real_number (VBool false) (Fin 0)
| rn_true : real_number (VBool true) (Fin 1)
| rn_int z : real_number (VInt z) (Fin (IZR z))
| rn_float x : real_number (VFloat x) x
| rn_np x : real_number (VNpReal x) x.

(** v is a tuple, a list or a one-dimensional array with the two elements a and b *)
Definition pair_of (v a b : pyval) : Prop := v = VTuple [a; b] \/ v = VList [a; b] \/ v = VArray1 [a; b].

(** v is a point with coordinates p *)
Definition point_arg (v : pyval) (p : xnum * xnum) : Prop :=
  exists a b, pair_of v a b /\ real_number a (fst p) /\ real_number b (snd p).

(** a coordinate of v is an integer too large for a float *)
Definition huge (v : pyval) : Prop :=
  exists a b z, pair_of v a b /\ (a = VInt z \/ b = VInt z) /\ (2 ^ 1024 - 2 ^ 970 <= Z.abs z)%Z.

(** not <= 0, which is not the same as > 0 *)
Definition not_le0 (x : xnum) : Prop :=
  match x with Fin x => 0 < x | PInf => True | NInf => False | NaN => True end.

(** v is a number which is not <= 0 *)
Definition pos_arg (v : pyval) : Prop := exists x, real_number v x /\ not_le0 x.
Definition num_arg (v : pyval) : Prop := exists x, real_number v x.
Definition bool_arg (v : pyval) : Prop := v = VBool true \/ v = VBool false.

(** an angle which is neither <= - b nor >= b *)
Definition angle_arg (v : pyval) (b : R) : Prop :=
  exists x, real_number v x /\ match x with Fin x => - b < x < b | NaN => True | _ => False end.

(** coordinates which are close in the sense of numpy *)
Definition xclose_spec (x y : xnum) : Prop :=
  match x, y with
  | Fin x, Fin y => Rabs (x - y) <= / 100000000 + / 100000 * Rabs y
  | PInf, PInf => True
  | NInf, NInf => True
  | _, _ => False
  end.

(** the three outcomes of a constructor: an object with the attributes described by [made] exactly
    when the arguments are valid and none of the coordinates is [big]; ValueError exactly when they are
    not valid; OverflowError otherwise *)
Definition outcome {A} (r : res A) (valid big : Prop) (made : A -> Prop) : Prop :=
  (forall o, r = Ok o <-> valid /\ ~ big /\ made o) /\
  (forall e, r = Raise e <-> (~ valid /\ e = ValueError) \/ (valid /\ big /\ e = OverflowError)).
