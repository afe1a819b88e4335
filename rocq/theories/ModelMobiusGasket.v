(** * Model of examples/ApollonianGasketMobius.py, lines 56-65 and 77-87: the gasket moved by the
    powers of a Möbius transformation.  The gasket itself is [apollonian_gasket]
    (ModelApollonian.v).  The figures are not modelled: a picture is the list of the circles drawn. *)

From Coq Require Import Reals List Bool ZArith.
From Verif Require Import Base ModelInternal ModelLine ModelCircle ModelEllipse ModelInversion ModelMobius ModelApollonian ModelModular.
Import ListNotations.
Local Open Scope R_scope.

(** ApollonianGasketMobius.py:56-65 [mobius]; Python divides by zero when h = 0: in h**t or
    in d1.imag/h *)
Definition mobius_power (gamma : C) (t : R) : res mobius :=
  let g := cabs gamma in
  let! h := py_sqrt (1 - g * g) in
  if eqb h 0 then Raise ZeroDivisionError
  else
    let d2 := (RtoC (Rpower h t) * (RtoC (cos (t * PI / 2)) + Ci * RtoC (sin (t * PI / 2))))%C in
    let d1 := Cconj d2 in
    let h11 := (RtoC (fst d1) - Ci * RtoC (snd d1) / RtoC h)%C in
    let h12 := (RtoC (snd d2) * gamma / RtoC h)%C in
    let h21 := Cconj h12 in
    let h22 := Cconj h11 in
    Ok (mkMob h11 h12 h21 h22).

(** ApollonianGasketMobius.py:83-87: one picture *)
Definition mobius_picture (fuel : nat) (gamma : C) (gens : list (list circle)) (t : R) : option (res (list (list circle))) :=
  match mobius_power gamma t with
  | Raise e => Some (Raise e)
  | Ok M => in_turn (map (fun circles => in_turn (map (fun circ => the_drawn (transform_circle fuel M circ)) circles)) gens)
  end.

(** ApollonianGasketMobius.py:7-53, 79-87: the pictures, for the exterior circle of centre (0, 0)
    and radius 1 *)
Definition mobius_gasket (fuel : nat) (n : Z) (phi shift : R) (depth : nat) (gamma : C) (ts : list R) : option (res (list (list (list circle)))) :=
  match apollonian_gasket (mkCircle (0, 0) 1) n phi shift depth with
  | Raise e => Some (Raise e)
  | Ok gens => in_turn (map (mobius_picture fuel gamma gens) ts)
  end.
