(** * C92: the circles drawn by examples/Circles_simultaneously_tangent.py *)

From Coq Require Import Reals.
From Verif Require Import Base Spec ModelCircle ModelTangentCircles PTangentCircles PTangentCirclesEx.
Local Open Scope R_scope.

(** each circle found has exactly one point in common with each of the three circles *)
Theorem C92_tangent_to_three C1 C2 C3 s0 s1 S C : 0 < cr C1 -> 0 < cr C2 -> 0 < cr C3 ->
  tangent_circles C1 C2 C3 = Ok (s0, s1) -> s0 = Some S \/ s1 = Some S -> C = C1 \/ C = C2 \/ C = C3 ->
  0 < cr S /\ exists T, unique (fun M => on_circle (cO S) (cr S) M /\ on_circle (cO C) (cr C) M) T.
Proof. intros P1 P2 P3 E HS HC. destruct (proj1 (tangent_circles_spec C1 C2 C3 s0 s1 P1 P2 P3 E) S HS) as [H1 H2]. auto. Qed.
Print Assumptions C92_tangent_to_three.

(** the two circles are different *)
Theorem C92_two_circles C1 C2 C3 S0 S1 : 0 < cr C1 -> 0 < cr C2 -> 0 < cr C3 ->
  tangent_circles C1 C2 C3 = Ok (Some S0, Some S1) -> S0 <> S1.
Proof. intros P1 P2 P3 E ->. exact (proj2 (tangent_circles_spec C1 C2 C3 _ _ P1 P2 P3 E) S1 eq_refl eq_refl). Qed.
Print Assumptions C92_two_circles.

(** the circles of the script *)
Example C92_example : exists S0 S1,
  tangent_circles (mkCircle (0, 0) 2) (mkCircle (5, 5) 3) (mkCircle (6, -2) 1) = Ok (Some S0, Some S1).
Proof. exact ex_tangent_circles. Qed.
