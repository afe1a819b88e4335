(** * Model of examples/ModularTessellation.py, lines 6-65 (and of one frame of
    ModularTessellation_animation.py).  The figure is not modelled: what is modelled is the list
    of the circles drawn, in order. *)

From Coq Require Import Reals List Bool ZArith.
From Verif Require Import Base ModelInternal ModelLine ModelCircle ModelInversion ModelMobius ModelFarey.
Import ListNotations.
Local Open Scope R_scope.

(** ModularTessellation.py:6-9 *)
Definition mobT : mobius := mkMob C0 (RtoC (-1)) C1 C0.
Definition mobU : mobius := mkMob C1 C1 C0 C1.
Definition mobR : mobius := compose mobU mobT true.

(** ModularTessellation.py:15, 19 *)
Definition circI : circle := mkCircle (0, 3 / 2) (1 / 2).
Definition mobPhi : mobius := mkMob Ci C1 C1 Ci.

(** ModularTessellation.py:22-28 [draw_circle] takes the attribute [center]: a line has none.
    [None]: a computation that does not end. *)
Definition the_drawn (o : option (res gcircle)) : option (res circle) :=
  match o with
  | None => None
  | Some (Raise e) => Some (Raise e)
  | Some (Ok (GL _)) => Some (Raise AttributeError)
  | Some (Ok (GC c)) => Some (Ok c)
  end.

(** one computation after the other: the first that fails or does not end stops the program *)
Fixpoint in_turn {A} (l : list (option (res A))) : option (res (list A)) :=
  match l with
  | [] => Some (Ok [])
  | None :: _ => None
  | Some (Raise e) :: _ => Some (Raise e)
  | Some (Ok a) :: l =>
      match in_turn l with
      | Some (Ok r) => Some (Ok (a :: r))
      | o => o
      end
  end.

(** ModularTessellation.py:30-37: the two circles drawn by a call of [draw_pair] *)
Definition draw_two (fuel : nat) (arg : C -> R) (eig : mobius -> C * C * mobius) (TI : circle) (M : mobius) (u : R) : option (res (list circle)) :=
  match gpower arg eig mobR u with
  | Raise e => Some (Raise e)
  | Ok Rt =>
      let A := compose (compose M Rt true) mobPhi true in
      in_turn [the_drawn (transform_circle fuel A circI); the_drawn (transform_circle fuel A TI)]
  end.

(** ModularTessellation.py:30-39 [draw_pair] called with [compose=False] *)
Definition draw_pair fuel arg eig (TI : circle) (M : mobius) (u : R) : list (option (res (list circle))) :=
  [draw_two fuel arg eig TI M u; draw_two fuel arg eig TI (compose M mobT true) u].

(** the [Mobius] object made from an integer matrix *)
Definition zmob (m : zmat) : mobius :=
  mkMob (RtoC (IZR (m11 m))) (RtoC (IZR (m12 m))) (RtoC (IZR (m21 m))) (RtoC (IZR (m22 m))).

(** ModularTessellation.py:50-65: the values of [M] in the body of the loop *)
Definition loop_matrices (transfo : zmat) : list mobius :=
  let M := zmob transfo in
  let transfo := mkZM (- m11 transfo) (m12 transfo) (m21 transfo) (- m22 transfo) in
  let M' := zmob transfo in
  [M; inverse M; M'; inverse M'] ++
  if (m11 transfo =? m22 transfo)%Z then []
  else
    let transfo := mkZM (m22 transfo) (m12 transfo) (m21 transfo) (m11 transfo) in
    let M'' := zmob transfo in
    [M''; inverse M''].

(** ModularTessellation.py:49-65: all the circles drawn by the loop, for the matrices [transfos] *)
Definition draw_frame (fuel : nat) (arg : C -> R) (eig : mobius -> C * C * mobius) (TI : circle) (transfos : list zmat) (u : R) : option (res (list circle)) :=
  match in_turn (flat_map (fun M => draw_pair fuel arg eig TI M u) (flat_map loop_matrices transfos)) with
  | Some (Ok l) => Some (Ok (concat l))
  | Some (Raise e) => Some (Raise e)
  | None => None
  end.

(** ModularTessellation.py:16, 41-65 *)
Definition modular_tessellation (fuel : nat) (arg : C -> R) (eig : mobius -> C * C * mobius) (n : Z) (u : R) : option (res (list circle)) :=
  match the_drawn (transform_circle fuel mobT circI) with
  | None => None
  | Some (Raise e) => Some (Raise e)
  | Some (Ok TI) =>
      match unimodular_matrices n with
      | Raise e => Some (Raise e)
      | Ok transfos => draw_frame fuel arg eig TI transfos u
      end
  end.

(** ModularTessellation.py:54, 59-61: the body of the loop changes the matrix in place; this is
    what it leaves behind *)
Definition loop_after (transfo : zmat) : zmat :=
  let transfo := mkZM (- m11 transfo) (m12 transfo) (m21 transfo) (- m22 transfo) in
  if (m11 transfo =? m22 transfo)%Z then transfo
  else mkZM (m22 transfo) (m12 transfo) (m21 transfo) (m11 transfo).

(** ModularTessellation_animation.py:47-66: one picture for each [u], all from the same list of
    matrices, which each picture changes in place *)
Fixpoint draw_frames (fuel : nat) (arg : C -> R) (eig : mobius -> C * C * mobius) (TI : circle) (transfos : list zmat) (us : list R) : list (option (res (list circle))) :=
  match us with
  | [] => []
  | u :: us => draw_frame fuel arg eig TI transfos u :: draw_frames fuel arg eig TI (map loop_after transfos) us
  end.

(** ModularTessellation_animation.py:16-17, 42-66 *)
Definition modular_animation (fuel : nat) (arg : C -> R) (eig : mobius -> C * C * mobius) (n : Z) (us : list R) : option (res (list (list circle))) :=
  match the_drawn (transform_circle fuel mobT circI) with
  | None => None
  | Some (Raise e) => Some (Raise e)
  | Some (Ok TI) =>
      match unimodular_matrices n with
      | Raise e => Some (Raise e)
      | Ok transfos => in_turn (draw_frames fuel arg eig TI transfos us)
      end
  end.
