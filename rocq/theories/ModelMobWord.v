(** * [Mobius.transform_circle] (geometry.py:2472-2513) applied in turn, as in
    examples/Schottky.py and examples/ModularTessellation.py. *)

From Coq Require Import Reals List.
From Verif Require Import Base ModelInternal ModelLine ModelCircle ModelMobius.
Import ListNotations.

(** [for M in w: circ = M.transform_circle(circ)], when every image is a circle *)
Fixpoint transform_circle_word (fuel : nat) (w : list mobius) (c c' : circle) : Prop :=
  match w with
  | [] => c' = c
  | M :: w' => exists d, transform_circle fuel M c = Some (Ok (GC d)) /\ transform_circle_word fuel w' d c'
  end.
