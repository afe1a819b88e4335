(** * Normal form of an ellipse. *)

From Coq Require Import Reals.
From Verif Require Import Base Spec ModelInternal ModelLine ModelCircle ModelAffine ModelEllipse.
Local Open Scope R_scope.

(** major axis first, angle in the half-turn, 0 for a circle *)
Definition normal_e (e : ellipse) : Prop :=
  0 < eb e <= ea e /\ 0 <= ealpha e < (if edeg e then 180 else PI) /\ (ea e = eb e -> ealpha e = 0).
