(** * Specification of the pictures of ApollonianGasketMobius.py. *)

From Coq Require Import Reals List.
From Verif Require Import Base Spec SpecTriangle SpecGasket SpecApollonian ModelCircle.
Import ListNotations.
Local Open Scope R_scope.

(** generations of circles that pack the unit disc: [m + 1] circles, then m^i * (m - 1) circles in
    generation i; positive radii, inside the disc, not overlapping, each tangent to three others *)
Definition packing (m depth : nat) (gens : list (list circle)) : Prop :=
  length gens = depth /\ length (nth 0 gens []) = (m + 1)%nat /\
  (forall i, (1 <= i < depth)%nat -> length (nth i gens []) = (m ^ i * (m - 1))%nat) /\
  Forall (fun c => 0 < cr c /\ disc_in_disc c (mkCircle (0, 0) 1)) (concat gens) /\
  ForallOrdPairs not_overlapping (concat gens) /\
  forall i c, In c (nth i gens []) -> touches_three_in (mkCircle (0, 0) 1) (concat (firstn (S i) gens)) c.
