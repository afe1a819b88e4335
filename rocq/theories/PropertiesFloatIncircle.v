(** * C127: the incircle of a triangle in binary64 *)

From Coq Require Import Reals ZArith Lia Lra Bool SpecFloat.
From Verif Require Import SpecF64 SpecExtremal SpecFloatIncircle Base Spec SpecLemmas ModelFloat ModelFloatInter ModelFloatIncircle PFloat PFloat3 PFloatEx PTriangle PFloatIncircle.
Local Open Scope R_scope.

(** A circle is returned for every triangle that is not too slender. Its centre and its radius are
    those of the largest disc contained in the triangle up to a few roundings; the error on the radius
    is proportional to the slenderness. *)
Theorem C127_value m A B C : on_grid2 0 1048576 A -> on_grid2 0 1048576 B -> on_grid2 0 1048576 C -> ~ collinear (P2R A) (P2R B) (P2R C) ->
  u64 * slenderness (P2R A) (P2R B) (P2R C) <= / 100000 ->
  exists c I r, incircle64 m A B C = Ok c /\ 0 < r /\ disc_in_triangle (P2R A) (P2R B) (P2R C) I r /\
    (forall O q, 0 <= q -> disc_in_triangle (P2R A) (P2R B) (P2R C) O q -> q <= r /\ (q = r -> O = I)) /\
    fin2 (c64_center c) /\ fin (c64_radius c) /\
    (forall X, 1 <= X <= 1048576 -> in_square X (P2R A) -> in_square X (P2R B) -> in_square X (P2R C) -> in_square (9 * u64 * X) (vsub (P2R (c64_center c)) I)) /\
    Rabs (SF2R (c64_radius c) - r) <= 20 * (u64 * slenderness (P2R A) (P2R B) (P2R C)) * r.
Proof. exact (incircle64_value m A B C). Qed.
Print Assumptions C127_value.

(** No triangle with integer coordinates up to 140 is too slender. *)
Theorem C127_small A B C : on_grid2 0 140 A -> on_grid2 0 140 B -> on_grid2 0 140 C -> ~ collinear (P2R A) (P2R B) (P2R C) ->
  u64 * slenderness (P2R A) (P2R B) (P2R C) <= / 100000.
Proof. exact (slender_le A B C). Qed.
Print Assumptions C127_small.

(** It is not true that a triangle whose vertices are not aligned always gets an incircle. *)
Theorem C127_any_refuted m : exists A B C, on_grid2 0 10000 A /\ on_grid2 0 10000 B /\ on_grid2 0 10000 C /\
  ~ collinear (P2R A) (P2R B) (P2R C) /\ incircle64 m A B C = Raise ValueError.
Proof. exact (incircle64_raises m). Qed.
Print Assumptions C127_any_refuted.

(** The triangle of sides 3, 4 and 5: the circle of centre (1, 1) and radius 1. *)
Example C127_example : let A := (fz 0, fz 0) in let B := (fz 3, fz 0) in let C := (fz 0, fz 4) in
  on_grid2 0 140 A /\ on_grid2 0 140 B /\ on_grid2 0 140 C /\ ~ collinear (P2R A) (P2R B) (P2R C) /\
  incircle64 Separate A B C = Ok (Circle64 (fz 1, fz 1) (fz 1)).
Proof.
  intros A B C. unfold A, B, C. do 3 (split; [apply fz_grid2; lia|]). split; [|vm_compute; reflexivity].
  rewrite !fz_P2R by lia. apply not_collinear_dbl. unfold dbl. unspec. lra.
Qed.
