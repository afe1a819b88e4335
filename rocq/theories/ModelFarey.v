(** * Model of [unimodular_matrices] (geometry.py:2639-2656; internal.py:64-72),
    on integers: no real number is involved. *)

From Coq Require Import List Bool ZArith.
From Verif Require Import Base.
Import ListNotations.
Local Open Scope Z_scope.

(** Python's [range(a, b)] *)
Definition range (a b : Z) : list Z := map (fun i => a + Z.of_nat i) (seq 0 (Z.to_nat (b - a))).

(** [fractions.Fraction(m, k)] for positive k: (numerator, denominator), reduced *)
Definition Fr (m k : Z) : Z * Z := (m / Z.gcd m k, k / Z.gcd m k).

(** comparison of fractions *)
Definition fr_compare (f g : Z * Z) : comparison := (fst f * snd g ?= fst g * snd f).

(** comparison of rows of integers, in lexicographic order *)
Fixpoint row_compare (u v : list Z) : comparison :=
  match u, v with
  | [], [] => Eq
  | [], _ => Lt
  | _, [] => Gt
  | x :: u, y :: v => match x ?= y with Eq => row_compare u v | c => c end
  end.

(** insertion in a sorted list without repetition *)
Fixpoint insert {A} (cmp : A -> A -> comparison) (x : A) (l : list A) : list A :=
  match l with
  | [] => [x]
  | y :: l' => match cmp x y with Lt => x :: l | Eq => l | Gt => y :: insert cmp x l' end
  end.

(** [sorted] of a set of fractions, resp. [np.unique(..., axis=0)]: the different elements
    in increasing order *)
Definition sorted_set {A} (cmp : A -> A -> comparison) (l : list A) : list A := fold_right (insert cmp) [] l.

(** internal.py:64-67 [farey_] *)
Definition farey_ (n : Z) : list (Z * Z) :=
  Fr 0 1 :: sorted_set fr_compare (flat_map (fun k => map (fun m => Fr m k) (range 1 (k + 1))) (range 1 (n + 1))).

(** internal.py:69-72 [farey_stack_]; [lists[i] + lists[i+1]] for consecutive indices *)
Definition farey_stack_ (n : Z) : list (list Z) :=
  let fractions := farey_ n in
  let lists := map (fun f => [snd f; fst f]) fractions in
  map (fun p => fst p ++ snd p) (combine lists (tl lists)).

(** 2x2 integer matrices [[m11, m12], [m21, m22]] *)
Record zmat := mkZM { m11 : Z; m12 : Z; m21 : Z; m22 : Z }.

(** [arr.reshape((2,2), order="F")] of a row of length 4: column by column; ValueError for
    another length *)
Definition reshapeF (row : list Z) : res zmat :=
  match row with
  | [x0; x1; x2; x3] => Ok (mkZM x0 x2 x1 x3)
  | _ => Raise ValueError
  end.

(** geometry.py:2639-2656 [unimodular_matrices] for an integer [n] *)
Definition unimodular_matrices (n : Z) : res (list zmat) :=
  if n <? 1 then Raise ValueError
  else
    let I2 := mkZM 1 0 0 1 in
    if n =? 1 then Ok [I2]
    else
      let out := map farey_stack_ (range 1 (n + 1)) in
      let out := sorted_set row_compare (concat out) in
      let! ms := mapM reshapeF out in
      Ok (I2 :: ms).
