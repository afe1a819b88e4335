(** * Specification of evenly distributed points (nothing refers to the model of the library). *)

From Coq Require Import Reals List.
From Verif Require Import Base Spec.
Import ListNotations.
Local Open Scope R_scope.

Definition triangle_area (A B C : pt) : R := Rabs (scross (vsub B A) (vsub C A)) / 2.

(** [M] is the point of the boundary of the triangle reached from [A] after the length [u], through [B] and [C] *)
Definition along (A B C : pt) (u : R) (M : pt) : Prop :=
  (0 <= u <= dist A B /\ on_segment A B M /\ dist A M = u) \/
  (dist A B <= u <= dist A B + dist B C /\ on_segment B C M /\ dist B M = u - dist A B) \/
  (dist A B + dist B C <= u <= dist A B + dist B C + dist C A /\ on_segment C A M /\ dist C M = u - dist A B - dist B C).

(** length of the polygonal line through the points *)
Fixpoint polyline (l : list pt) : R :=
  match l with
  | P :: r => match r with Q :: _ => dist P Q + polyline r | [] => 0 end
  | [] => 0
  end.

(** the angles are between [lo] and [hi], in increasing order *)
Fixpoint increasing (lo hi : R) (l : list R) : Prop :=
  match l with
  | [] => lo <= hi
  | t :: r => lo <= t /\ increasing t hi r
  end.
