(** * C120: a line and a circle in binary64; projections and distances to a line *)

From Coq Require Import Reals ZArith Lia Lra Bool SpecFloat.
From Verif Require Import SpecF64 Base Spec ModelFloat ModelFloatInter PFloatEx PFloatInter PFloatInter2.
Local Open Scope R_scope.

(** Coordinates that are integers times a common power of two (at least 2^-6): the number of
    points is the exact one, and each point is accurate. *)
Theorem C120_circle_line g c A B : (-6 <= g <= 100)%Z -> on_grid2 g 2048 (c64_center c) -> on_grid2 g 2048 A -> on_grid2 g 2048 B ->
  on_grid g 4096 (c64_radius c) -> 0 < SF2R (c64_radius c) -> P2R A <> P2R B ->
  let O := P2R (c64_center c) in let r := SF2R (c64_radius c) in
  let common X := on_line (P2R A) (P2R B) X /\ on_circle O r X in
  let near P X := fin2 P /\ Rabs (SF2R (fst P) - fst X) <= 6 * u64 * (r + Rabs (fst O)) /\ Rabs (SF2R (snd P) - snd X) <= 6 * u64 * (r + Rabs (snd O)) in
  match intersection_circle_line64 c A B with
  | INone64 => forall X, ~ common X
  | IOne64 P => exists X, common X /\ (forall Y, common Y -> Y = X) /\ near P X
  | ITwo64 P Q => exists X Y, X <> Y /\ common X /\ common Y /\ (forall Z, common Z -> Z = X \/ Z = Y) /\ near P X /\ near Q Y
  end.
Proof. exact (icl64_ok g c A B). Qed.
Print Assumptions C120_circle_line.

(** With decimals a tangent line is said not to meet the circle. *)
Theorem C120_tangent_refuted : exists c A B, moderate (c64_center c) /\ moderate A /\ moderate B /\ 0 < SF2R (c64_radius c) /\ P2R A <> P2R B /\
  (exists X, on_line (P2R A) (P2R B) X /\ on_circle (P2R (c64_center c)) (SF2R (c64_radius c)) X) /\ intersection_circle_line64 c A B = INone64.
Proof. exact tangent_missed. Qed.
Print Assumptions C120_tangent_refuted.

(** With large integers a line outside the circle gets a point. *)
Theorem C120_disjoint_refuted : exists c A B P, on_grid2 0 200000000 (c64_center c) /\ on_grid2 0 200000000 A /\ on_grid2 0 200000000 B /\ on_grid 0 200000000 (c64_radius c) /\
  P2R A <> P2R B /\ (forall X, on_line (P2R A) (P2R B) X -> SF2R (c64_radius c) < dist (P2R (c64_center c)) X) /\ intersection_circle_line64 c A B = IOne64 P.
Proof. exact disjoint_tangent. Qed.
Print Assumptions C120_disjoint_refuted.

(** Line.projection: the coordinates are those of the foot of the perpendicular, rounded once. *)
Theorem C120_projection g A B M : (-300 <= g <= 200)%Z -> on_grid2 g 20000 A -> on_grid2 g 20000 B -> on_grid2 g 20000 M -> P2R A <> P2R B ->
  exists P X, projection64 A B M = Some P /\ on_line (P2R A) (P2R B) X /\ orthogonal (vsub X (P2R M)) (vsub (P2R B) (P2R A)) /\
    rounds (fst P) (fst X) /\ rounds (snd P) (snd X).
Proof. exact (projection64_ok g A B M). Qed.
Print Assumptions C120_projection.

(** Line.distance: X is the foot of the perpendicular. *)
Theorem C120_distance m A B M : on_grid2 0 20000 A -> on_grid2 0 20000 B -> on_grid2 0 20000 M -> P2R A <> P2R B ->
  exists z X, line_distance64 m A B M = Some z /\ fin z /\ on_line (P2R A) (P2R B) X /\ orthogonal (vsub X (P2R M)) (vsub (P2R B) (P2R A)) /\
    Rabs (SF2R z - dist (P2R M) X) <= u64 * (5 * dist (P2R M) X + 2 * (Rabs (fst X) + Rabs (snd X))) /\
    (on_line (P2R A) (P2R B) (P2R M) -> SF2R z = 0).
Proof. exact (line_distance64_ok m A B M). Qed.
Print Assumptions C120_distance.

Example C120_example :
  (exists P Q, intersection_circle_line64 (Circle64 (fz 0, fz 0) (fz 5)) (fz 0, fz 3) (fz 1, fz 3) = ITwo64 P Q) /\
  (exists P, intersection_circle_line64 (Circle64 (fz 0, fz 0) (fz 5)) (fz 0, fz 5) (fz 1, fz 5) = IOne64 P) /\
  intersection_circle_line64 (Circle64 (fz 0, fz 0) (fz 5)) (fz 0, fz 6) (fz 1, fz 6) = INone64 /\
  on_grid2 0 2048 (fz 0, fz 6) /\ on_grid2 0 2048 (fz 1, fz 6) /\ on_grid 0 4096 (fz 5) /\ P2R (fz 0, fz 6) <> P2R (fz 1, fz 6) /\
  (exists z, line_distance64 Separate (fz 0, fz 0) (fz 4, fz 3) (fz 0, fz 5) = Some z /\ SFeqb z f0 = false) /\ on_grid2 0 20000 (fz 4, fz 3).
Proof.
  split; [do 2 eexists; vm_compute; reflexivity|]. split; [eexists; vm_compute; reflexivity|]. split; [vm_compute; reflexivity|]. do 2 (split; [apply fz_grid2; lia|]). split; [apply fz_grid; lia|].
  split; [rewrite !fz_P2R by lia; intros E; injection E as E; lra|]. split; [eexists; split; vm_compute; reflexivity|]. apply fz_grid2; lia.
Qed.
