(** * Specification of a scaling in a direction *)

From Coq Require Import Reals.
From Verif Require Import Base Spec.
Local Open Scope R_scope.

(** [T] is the image of [M]: the component of the vector from the centre [Q] to [M] along [w] is
    multiplied by [s], the orthogonal component is kept. *)
Definition stretched (Q w : pt) (s : R) (M T : pt) : Prop :=
  exists k n, orthogonal n w /\ vsub M Q = vadd (vscal k w) n /\ T = vadd Q (vadd (vscal (s * k) w) n).
