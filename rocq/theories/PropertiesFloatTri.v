(** * C118: Triangle.contains and Triangle.flatness in binary64 *)

From Coq Require Import Reals ZArith Lia Lra Bool SpecFloat.
From Verif Require Import SpecF64 Base Spec SpecTriangle ModelFloat ModelFloatTri PFloatEx PFloatTri.
Local Open Scope R_scope.

(** Coordinates that are integers up to 2^23 times a common power of two: the answer is the
    exact one, except possibly for points of the open side BC. *)
Theorem C118_contains g A B C M : (-500 <= g <= 400)%Z -> on_grid2 g 8388608 A -> on_grid2 g 8388608 B -> on_grid2 g 8388608 C -> on_grid2 g 8388608 M ->
  ~ (exists r, 0 < r < 1 /\ P2R M = at_line (P2R B) (P2R C) r) ->
  (triangle_contains64 A B C M = true <-> ~ collinear (P2R A) (P2R B) (P2R C) /\ inside_triangle (P2R A) (P2R B) (P2R C) (P2R M)).
Proof. exact (contains64_tri g A B C M). Qed.
Print Assumptions C118_contains.

(** A point M of the side BC is accepted, and is no more with the vertices in another order; a
    point N of another side is rejected. All coordinates are integers up to 3. *)
Theorem C118_contains_refuted : exists A B C M N, on_grid2 0 3 A /\ on_grid2 0 3 B /\ on_grid2 0 3 C /\ on_grid2 0 3 M /\ on_grid2 0 3 N /\
  on_segment (P2R B) (P2R C) (P2R M) /\ on_segment (P2R C) (P2R A) (P2R N) /\
  triangle_contains64 A B C M = true /\ triangle_contains64 B C A M = false /\ triangle_contains64 A B C N = false.
Proof. exact contains64_refuted. Qed.
Print Assumptions C118_contains_refuted.

(** |cr / dt| is the tangent of the angle at A. *)
Theorem C118_flatness m1 m2 A B C : fin2 A -> fin2 B -> fin2 C -> within (bp 240) A -> within (bp 240) B -> within (bp 240) C ->
  allclose64 A B = false -> allclose64 A C = false -> allclose64 B C = false ->
  let dt := sdot (vsub (P2R B) (P2R A)) (vsub (P2R C) (P2R A)) in
  let cr := scross (vsub (P2R B) (P2R A)) (vsub (P2R C) (P2R A)) in
  exists f, flatness64 m1 m2 A B C = Ok f /\ fin f /\ 0 <= SF2R f <= 1 /\
    called_flat64 m1 m2 A B C = Ok (SFeqb f f1) /\ (SFeqb f f1 = true <-> SF2R f = 1) /\
    (SF2R f = 1 -> Rabs cr <= / 67108864 * Rabs dt) /\ (Rabs cr <= / 268435456 * Rabs dt -> SF2R f = 1).
Proof. exact (called_flat64_ok m1 m2 A B C). Qed.
Print Assumptions C118_flatness.

(** If B or C is at A the test raises. *)
Theorem C118_flat_degenerate m1 m2 A B C : fin2 A -> fin2 B -> fin2 C -> within (bp 1022) A -> within (bp 1022) B -> within (bp 1022) C ->
  (P2R A = P2R B \/ P2R A = P2R C) -> flatness64 m1 m2 A B C = Raise ZeroDivisionError.
Proof. exact (flatness64_degenerate m1 m2 A B C). Qed.
Print Assumptions C118_flat_degenerate.

Theorem C118_flat_integers m1 m2 A B C : on_grid2 0 2800 A -> on_grid2 0 2800 B -> on_grid2 0 2800 C -> P2R A <> P2R B -> P2R A <> P2R C -> P2R B <> P2R C ->
  exists r, called_flat64 m1 m2 A B C = Ok r /\ (r = true <-> collinear (P2R A) (P2R B) (P2R C)).
Proof. exact (called_flat64_grid m1 m2 A B C). Qed.
Print Assumptions C118_flat_integers.

(** A triangle of area 1/2 is called flat, whatever vertex comes first. *)
Theorem C118_flat_refuted m1 m2 : exists A B C, moderate A /\ moderate B /\ moderate C /\ P2R A = (0, 0) /\ P2R B = (1, 0) /\ P2R C = (1000000000, 1) /\
  called_flat64 m1 m2 A B C = Ok true /\ ~ collinear (P2R A) (P2R B) (P2R C) /\ called_flat64 m1 m2 B C A = Ok true /\ called_flat64 m1 m2 C A B = Ok true.
Proof. exact (flat64_refuted m1 m2). Qed.
Print Assumptions C118_flat_refuted.

Example C118_example : triangle_contains64 (fz 0, fz 0) (fz 5, fz 1) (fz 1, fz 7) (fz 2, fz 3) = true /\ triangle_contains64 (fz 0, fz 0) (fz 5, fz 1) (fz 1, fz 7) (fz 4, fz 4) = false /\
  triangle_contains64 (fz 0, fz 0) (fz 1, fz 1) (fz 3, fz 3) (fz 2, fz 2) = false /\
  on_grid2 0 8388608 (fz 5, fz 1) /\ on_grid2 0 8388608 (fz 2, fz 3) /\
  called_flat64 Separate FmaLast (fz 0, fz 0) (fz 2, fz 4) (fz 3, fz 6) = Ok true /\ called_flat64 Separate FmaFirst (fz 0, fz 0) (fz 2, fz 4) (fz 3, fz 7) = Ok false /\
  allclose64 (fz 0, fz 0) (fz 2, fz 4) = false /\ on_grid2 0 2800 (fz 3, fz 7).
Proof. do 3 (split; [vm_compute; reflexivity|]). do 2 (split; [apply fz_grid2; lia|]). do 3 (split; [vm_compute; reflexivity|]). apply fz_grid2; lia. Qed.
