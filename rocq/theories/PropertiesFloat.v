(** * Properties in binary64 arithmetic

    Points have coordinates in IEEE 754 binary64; [P2R] and [SF2R] give the exact real values
    of the inputs and outputs, [d2R] the exact square of a distance; u64 is 2^-53, eta64 is
    2^-1075. [moderate] points have finite coordinates of absolute value at most 2^500. The
    parameters of type [how] range over the ways BLAS or a C compiler may compute a * b + c * d
    (with or without fused multiply-add). *)

From Coq Require Import Reals ZArith Lia Lra SpecFloat.
From Verif Require Import SpecF64 Base Spec ModelFloat PFloat PFloat3 PFloat4 PFloatCircle PFloatCircle2 PFloatLine PFloatAngle PFloatGrid PFloatMisc PFloatMisc2 PFloatTol PFloatEx.
Local Open Scope R_scope.

(** ** C78, points on circles *)

Theorem C78_includes m c P : moderate (c64_center c) -> fin (c64_radius c) -> Rabs (SF2R (c64_radius c)) <= bp 502 -> moderate P ->
  let D := d2R P (c64_center c) in let S := SF2R (c64_radius c) * SF2R (c64_radius c) in
  (circle_includes64 m c P = true -> Rabs (D - S) <= 1000100 / 1000000000000000 * (1 + Rmax D S)) /\
  (Rabs (D - S) <= 999900 / 1000000000000000 * (1 + Rmax D S) -> circle_includes64 m c P = true).
Proof. exact (includes64_ok m c P). Qed.
Print Assumptions C78_includes.

Theorem C78_circleOA m O A : moderate O -> moderate A ->
  (allclose64 O A = true -> circleOA64 m O A = Raise ValueError) /\
  (allclose64 O A = false -> exists c, circleOA64 m O A = Ok c /\ c64_center c = O /\ fin (c64_radius c) /\
     Rabs (SF2R (c64_radius c) - sqrt (d2R O A)) <= 4 * u64 * sqrt (d2R O A) /\ forall m', circle_includes64 m' c A = true).
Proof. intros HO HA. split; [intros H; unfold circleOA64; rewrite H; reflexivity|exact (circleOA64_ok m O A HO HA)]. Qed.
Print Assumptions C78_circleOA.

Theorem C78_circleAB m A B b : fin2 A -> fin2 B -> within b A -> within b B -> b <= bp 499 ->
  (allclose64 A B = true -> circleAB64 m A B = Raise ValueError) /\
  (allclose64 A B = false -> b <= 262144 * sqrt (d2R A B) ->
   exists c, circleAB64 m A B = Ok c /\ moderate (c64_center c) /\ fin (c64_radius c) /\
    Rabs (SF2R (c64_radius c) - sqrt (d2R A B) / 2) <= 3 * u64 * sqrt (d2R A B) /\
    Rabs (SF2R (fst (c64_center c)) - (SF2R (fst A) + SF2R (fst B)) / 2) <= 3 * u64 * b /\
    Rabs (SF2R (snd (c64_center c)) - (SF2R (snd A) + SF2R (snd B)) / 2) <= 3 * u64 * b /\
    forall m', circle_includes64 m' c A = true /\ circle_includes64 m' c B = true).
Proof. intros FA FB WA WB Hb. split; [intros H; unfold circleAB64; rewrite H; reflexivity|exact (circleAB64_ok m A B b FA FB WA WB Hb)]. Qed.
Print Assumptions C78_circleAB.

(** without the condition on the size of the coordinates the diameter need not end on the circle *)
Theorem C78_circleAB_refuted m m' : exists A B c, moderate A /\ moderate B /\ 5 = d2R A B /\ circleAB64 m A B = Ok c /\ circle_includes64 m' c A = false.
Proof. exact (circleAB_refuted m m'). Qed.
Print Assumptions C78_circleAB_refuted.

Theorem C78_integers m c P : on_grid2 0 10000 (c64_center c) -> on_grid2 0 10000 P -> on_grid 0 30000 (c64_radius c) ->
  (circle_includes64 m c P = true <-> d2R P (c64_center c) = SF2R (c64_radius c) * SF2R (c64_radius c)).
Proof. exact (includes64_grid m c P). Qed.
Print Assumptions C78_integers.

Theorem C78_orthogonal m c c2 : moderate (c64_center c) -> moderate (c64_center c2) ->
  fin (c64_radius c) -> Rabs (SF2R (c64_radius c)) <= bp 502 -> fin (c64_radius c2) -> Rabs (SF2R (c64_radius c2)) <= bp 502 ->
  let D := d2R (c64_center c) (c64_center c2) in
  let S := SF2R (c64_radius c) * SF2R (c64_radius c) + SF2R (c64_radius c2) * SF2R (c64_radius c2) in
  (is_orthogonal64 m c c2 = true -> Rabs (D - S) <= 1000100 / 1000000000000000 * (1 + Rmax D S)) /\
  (Rabs (D - S) <= 999900 / 1000000000000000 * (1 + Rmax D S) -> is_orthogonal64 m c c2 = true).
Proof. exact (orthogonal64_ok m c c2). Qed.
Print Assumptions C78_orthogonal.

(** the constructor rejects the radii that are not positive *)
Theorem C78_init C r : fin r ->
  (0 < SF2R r -> mk_circle64 C r = Ok (Circle64 C r)) /\ (SF2R r <= 0 -> mk_circle64 C r = Raise ValueError).
Proof. exact (circle_init64 C r). Qed.
Print Assumptions C78_init.

(** the absolute tolerance is the binary64 number written 1e-8 *)
Theorem C78_coincident A : fin2 A -> (allclose64 A (fz 0, fz 0) = true <-> within (SF2R (fq 1 100000000)) A).
Proof. exact (allclose64_origin A). Qed.
Print Assumptions C78_coincident.

Example C78_example : moderate (fz 1, fz 2) /\ moderate (fz 4, fz 6) /\ allclose64 (fz 1, fz 2) (fz 4, fz 6) = false /\
  on_grid2 0 10000 (fz 1, fz 2) /\ on_grid 0 30000 (fz 5) /\
  circleOA64 Separate (fz 1, fz 2) (fz 4, fz 6) = Ok (Circle64 (fz 1, fz 2) (fz 5)) /\
  fin2 (fz 1, fz 2) /\ within (IZR 6) (fz 1, fz 2).
Proof.
  split; [apply fz_moderate; lia|]. split; [apply fz_moderate; lia|]. split; [reflexivity|]. split; [apply fz_grid2; lia|]. split; [apply fz_grid; lia|]. split; [reflexivity|]. apply fz_within; lia.
Qed.

(** ** C79, disks and powers *)

Theorem C79_contains m c P : moderate (c64_center c) -> fin (c64_radius c) -> Rabs (SF2R (c64_radius c)) <= bp 502 -> moderate P ->
  let D := d2R P (c64_center c) in let S := SF2R (c64_radius c) * SF2R (c64_radius c) in
  (circle_contains64 m c P = true -> D <= S + 6 * u64 * S + 5 * eta64) /\
  (D <= S - 6 * u64 * S - 5 * eta64 -> circle_contains64 m c P = true).
Proof. exact (contains64_ok m c P). Qed.
Print Assumptions C79_contains.

Theorem C79_power m c P : moderate (c64_center c) -> fin (c64_radius c) -> Rabs (SF2R (c64_radius c)) <= bp 502 -> moderate P ->
  let D := d2R P (c64_center c) in let S := SF2R (c64_radius c) * SF2R (c64_radius c) in
  fin (circle_power64 m c P) /\ Rabs (SF2R (circle_power64 m c P) - (D - S)) <= 6 * u64 * (D + S) + 5 * eta64.
Proof. exact (power64_ok m c P). Qed.
Print Assumptions C79_power.

(** exact if the coordinates are multiples of a power of two (for g = 0: integers) *)
Theorem C79_integers m g N c P : (0 <= N < 2 ^ 25)%Z -> (-537 <= g <= 400)%Z ->
  on_grid2 g N (c64_center c) -> on_grid2 g N P -> on_grid g 94906265 (c64_radius c) ->
  (circle_contains64 m c P = true <-> d2R P (c64_center c) <= SF2R (c64_radius c) * SF2R (c64_radius c)) /\
  SF2R (circle_power64 m c P) = d2R P (c64_center c) - SF2R (c64_radius c) * SF2R (c64_radius c).
Proof. exact (contains64_grid m g N c P). Qed.
Print Assumptions C79_integers.

Theorem C79_contains_refuted m : exists O A c, moderate O /\ moderate A /\ circleOA64 m O A = Ok c /\ circle_contains64 m c A = false.
Proof. exact (contains_refuted m). Qed.
Print Assumptions C79_contains_refuted.

Example C79_example : circle_contains64 Separate (Circle64 (fz 1, fz 2) (fz 5)) (fz 4, fz 6) = true /\
  circle_contains64 FmaLast (Circle64 (fz 1, fz 2) (fz 5)) (fz 5, fz 6) = false /\
  on_grid2 0 10 (fz 1, fz 2) /\ on_grid2 0 10 (fz 4, fz 6) /\ on_grid 0 94906265 (fz 5).
Proof. split; [reflexivity|]. split; [reflexivity|]. split; [apply fz_grid2; lia|]. split; [apply fz_grid2; lia|apply fz_grid; lia]. Qed.

(** ** C80, points on lines *)

(** [dt] and [cr] are the exact scalar product and determinant of AB and AM: |cr / dt| is the
    tangent of the angle between them. Points exactly on the line are always accepted. *)
Theorem C80_line_includes m1 m2 A B M : fin2 A -> fin2 B -> fin2 M -> within (bp 240) A -> within (bp 240) B -> within (bp 240) M ->
  let dt := sdot (vsub (P2R B) (P2R A)) (vsub (P2R M) (P2R A)) in
  let cr := scross (vsub (P2R B) (P2R A)) (vsub (P2R M) (P2R A)) in
  exists r, line_includes64 m1 m2 A B M = Ok r /\
    (r = true -> allclose64 A B = true \/ allclose64 A M = true \/ allclose64 B M = true \/ Rabs cr <= / 67108864 * Rabs dt) /\
    (Rabs cr <= / 268435456 * Rabs dt -> r = true).
Proof. rewrite line_includes64_eq. exact (collinear64_ok m1 m2 A B M). Qed.
Print Assumptions C80_line_includes.

Theorem C80_integers m1 m2 A B M : on_grid2 0 2800 A -> on_grid2 0 2800 B -> on_grid2 0 2800 M ->
  exists r, line_includes64 m1 m2 A B M = Ok r /\ (r = true <-> scross (vsub (P2R B) (P2R A)) (vsub (P2R M) (P2R A)) = 0).
Proof. rewrite line_includes64_eq. exact (collinear64_grid m1 m2 A B M). Qed.
Print Assumptions C80_integers.

(** the tolerance grows with the distance from A and ignores the scale of the segment *)
Theorem C80_exact_refuted m1 m2 : exists A B M, moderate A /\ moderate B /\ moderate M /\ line_includes64 m1 m2 A B M = Ok true /\
  P2R A = (0, 0) /\ P2R B = (1, 0) /\ SF2R (fst M) = 100 /\ / 10000000 < SF2R (snd M).
Proof. exact (includes_line_refuted m1 m2). Qed.
Print Assumptions C80_exact_refuted.

Example C80_example : line_includes64 Separate FmaLast (fz 1, fz 2) (fz 4, fz 6) (fz 7, fz 10) = Ok true /\
  line_includes64 FmaFirst Separate (fz 1, fz 2) (fz 4, fz 6) (fz 7, fz 9) = Ok false /\ on_grid2 0 2800 (fz 7, fz 10).
Proof. split; [reflexivity|]. split; [reflexivity|]. apply fz_grid2; lia. Qed.

(** ** C81, orientation of a triangle *)

Theorem C81_sign A B C : moderate A -> moderate B -> moderate C ->
  let P := (SF2R (snd B) - SF2R (snd A)) * (SF2R (fst C) - SF2R (fst B)) in
  let Q := (SF2R (fst B) - SF2R (fst A)) * (SF2R (snd C) - SF2R (snd B)) in
  4 * u64 * (Rabs P + Rabs Q) + 2 * eta64 < Rabs (P - Q) ->
  (orientation64 A B C = 1%Z <-> 0 < P - Q) /\ (orientation64 A B C = (-1)%Z <-> P - Q < 0) /\ orientation64 A B C <> 0%Z.
Proof. exact (orientation64_sign A B C). Qed.
Print Assumptions C81_sign.

Theorem C81_integers g N A B C : (0 <= N < 2 ^ 25)%Z -> (-537 <= g <= 400)%Z -> on_grid2 g N A -> on_grid2 g N B -> on_grid2 g N C ->
  let V := - scross (vsub (P2R B) (P2R A)) (vsub (P2R C) (P2R A)) in
  (orientation64 A B C = 1%Z <-> 0 < V) /\ (orientation64 A B C = 0%Z <-> V = 0) /\ (orientation64 A B C = (-1)%Z <-> V < 0).
Proof. exact (orientation64_grid g N A B C). Qed.
Print Assumptions C81_integers.

(** wrong sign; a flat triangle reported as oriented; a triangle reported as flat *)
Theorem C81_sign_refuted : exists A B C A' B' C' A'' B'' C'',
  (orientation64 A B C = 1%Z /\ 0 < scross (vsub (P2R B) (P2R A)) (vsub (P2R C) (P2R A))) /\
  (orientation64 A' B' C' = (-1)%Z /\ scross (vsub (P2R B') (P2R A')) (vsub (P2R C') (P2R A')) = 0) /\
  (orientation64 A'' B'' C'' = 0%Z /\ scross (vsub (P2R B'') (P2R A'')) (vsub (P2R C'') (P2R A'')) < 0).
Proof. exact orientation_refuted. Qed.
Print Assumptions C81_sign_refuted.

Example C81_example : orientation64 (fz 0, fz 0) (fz 1, fz 0) (fz 0, fz 1) = (-1)%Z /\ on_grid2 0 100 (fz 1, fz 0) /\ on_grid2 0 100 (fz 0, fz 1).
Proof. split; [reflexivity|]. split; apply fz_grid2; lia. Qed.

(** ** C82, inversions *)

(** each coordinate of the image: the exact value is p + t *)
Theorem C82_invert m P k M : moderate P -> fin k -> Rabs (SF2R k) <= bp 400 -> moderate M ->
  (allclose64 P M = true -> invert64 m P k M = None) /\
  (allclose64 P M = false -> exists I, invert64 m P k M = Some I /\ fin2 I /\
    forall f : spec_float * spec_float -> spec_float, f = fst \/ f = snd ->
      let p := SF2R (f P) in let t := SF2R k * (SF2R (f M) - SF2R (f P)) / d2R M P in
      Rabs (SF2R (f I) - (p + t)) <= u64 * Rabs (p + t) + 10 * u64 * Rabs t + 3 * eta64 * (1 + Rabs (SF2R (f M) - SF2R (f P)))).
Proof. intros HP Fk Bk HM. split; [intros H; unfold invert64; rewrite H; reflexivity|exact (invert64_ok m P k M HP Fk Bk HM)]. Qed.
Print Assumptions C82_invert.

Example C82_example : invert64 Separate (fz 0, fz 0) (fz 50) (fz 3, fz 4) = Some (fz 6, fz 8) /\ moderate (fz 3, fz 4) /\
  allclose64 (fz 0, fz 0) (fz 3, fz 4) = false.
Proof. split; [reflexivity|]. split; [apply fz_moderate; lia|reflexivity]. Qed.

(** ** C83, points from angles *)

Theorem C83_point_from_angle cosf sinf c alpha degrees b : libm_cos_sin cosf sinf ->
  fin2 (c64_center c) -> within b (c64_center c) -> fin (c64_radius c) -> 0 < SF2R (c64_radius c) <= bp 498 ->
  b <= 1048576 * SF2R (c64_radius c) -> b <= bp 498 -> fin alpha -> Rabs (SF2R alpha) <= bp 1020 ->
  let P := point_from_angle64 cosf sinf c alpha degrees in
  moderate P /\ forall m, circle_includes64 m c P = true.
Proof. exact (point_from_angle64_ok cosf sinf c alpha degrees b). Qed.
Print Assumptions C83_point_from_angle.

(** on a circle of radius 1 far from the origin the point is not accepted *)
Theorem C83_far_refuted : exists c, moderate (c64_center c) /\ SF2R (c64_radius c) = 1 /\
  forall cosf sinf m, libm_cos_sin cosf sinf -> circle_includes64 m c (point_from_angle64 cosf sinf c f0 false) = false.
Proof. exact far_refuted. Qed.
Print Assumptions C83_far_refuted.

Example C83_example : libm_cos_sin (approx_f cos) (approx_f sin) /\ fin2 (fz 1, fz 2) /\ within (IZR 2) (fz 1, fz 2) /\ SF2R (fz 5) = 5.
Proof. split; [exact libm_exists|]. split; [apply (fz_within 1 2 2); lia|]. split; [apply (fz_within 1 2 2); lia|apply fz_ok; lia]. Qed.

(** ** C84, angles of a triangle *)

Theorem C84_cosine m1 m2 m3 A B C : moderate A -> moderate B -> moderate C ->
  / 100000000000000000000 <= d2R A B -> / 100000000000000000000 <= d2R A C ->
  let c := sdot (vsub (P2R C) (P2R A)) (vsub (P2R B) (P2R A)) / (sqrt (d2R A C) * sqrt (d2R A B)) in
  fin (cos_angle64 m1 m2 m3 A B C) /\ Rabs (SF2R (cos_angle64 m1 m2 m3 A B C) - c) <= 15 * u64 /\ -1 <= c <= 1.
Proof. exact (cos_angle64_ok m1 m2 m3 A B C). Qed.
Print Assumptions C84_cosine.

Theorem C84_no_error m1 m2 m3 A B C : moderate A -> moderate B -> moderate C ->
  / 100000000000000000000 <= d2R A B -> / 100000000000000000000 <= d2R A C ->
  let c := sdot (vsub (P2R C) (P2R A)) (vsub (P2R B) (P2R A)) / (sqrt (d2R A C) * sqrt (d2R A B)) in
  Rabs c <= 1 - 15 * u64 -> acos_raises64 (cos_angle64 m1 m2 m3 A B C) = false.
Proof. exact (acos_no_error m1 m2 m3 A B C). Qed.
Print Assumptions C84_no_error.

Theorem C84_error_refuted m1 m2 m3 : exists A B C, moderate A /\ moderate B /\ moderate C /\
  scross (vsub (P2R B) (P2R A)) (vsub (P2R C) (P2R A)) <> 0 /\ acos_raises64 (cos_angle64 m1 m2 m3 A B C) = true.
Proof. exact (acos_refuted m1 m2 m3). Qed.
Print Assumptions C84_error_refuted.

Theorem C84_flat_refuted m1 m2 m3 : acos_raises64 (cos_angle64 m1 m2 m3 (fz 0, fz 0) (fz 3, fz 3) (fz 6, fz 6)) = true.
Proof. exact (acos_ex m1 m2 m3). Qed.
Print Assumptions C84_flat_refuted.

Example C84_example : moderate (fz 3, fz 0) /\ moderate (fz 0, fz 4) /\ d2R (fz 0, fz 0) (fz 3, fz 0) = 9 /\ d2R (fz 0, fz 0) (fz 0, fz 4) = 16.
Proof. split; [apply fz_moderate; lia|]. split; [apply fz_moderate; lia|]. unfold d2R. cbn [fst snd]. rewrite !(fun n H => proj2 (fz_ok n H)) by lia. split; ring. Qed.

(** ** C85, acute triangles *)

Theorem C85_is_acute m1 m2 m3 A B C : moderate A -> moderate B -> moderate C ->
  / 100000000000000000000 <= d2R B C -> / 100000000000000000000 <= d2R A C -> / 100000000000000000000 <= d2R A B ->
  let a := d2R B C in let b := d2R A C in let c := d2R A B in
  (is_acute64 m1 m2 m3 A B C = true -> a <= (1 + 21 * u64) * (b + c) /\ b <= (1 + 21 * u64) * (a + c) /\ c <= (1 + 21 * u64) * (a + b)) /\
  (a <= (1 - 21 * u64) * (b + c) -> b <= (1 - 21 * u64) * (a + c) -> c <= (1 - 21 * u64) * (a + b) -> is_acute64 m1 m2 m3 A B C = true).
Proof. exact (is_acute64_ok m1 m2 m3 A B C). Qed.
Print Assumptions C85_is_acute.

(** two right-angled triangles with integer vertices, one acute and one not *)
Theorem C85_right_refuted m1 m2 m3 : exists A B C B' C', moderate A /\ moderate B /\ moderate C /\ moderate B' /\ moderate C' /\
  sdot (vsub (P2R B) (P2R A)) (vsub (P2R C) (P2R A)) = 0 /\ sdot (vsub (P2R B') (P2R A)) (vsub (P2R C') (P2R A)) = 0 /\
  is_acute64 m1 m2 m3 A B C = false /\ is_acute64 m1 m2 m3 A B' C' = true.
Proof. exact (acute_refuted m1 m2 m3). Qed.
Print Assumptions C85_right_refuted.

Example C85_example : is_acute64 Separate Separate Separate (fz 0, fz 0) (fz 4, fz 0) (fz 1, fz 5) = true /\
  is_acute64 Separate FmaFirst FmaLast (fz 0, fz 0) (fz 4, fz 0) (fz (-1), fz 1) = false /\ moderate (fz (-1), fz 1).
Proof. split; [reflexivity|]. split; [reflexivity|apply fz_moderate; lia]. Qed.

(** ** C86, lines through integer points *)

Theorem C86_parallel N P1 P2 Q1 Q2 : (0 <= N < 2 ^ 25)%Z -> on_grid2 0 N P1 -> on_grid2 0 N P2 -> on_grid2 0 N Q1 -> on_grid2 0 N Q2 ->
  (is_parallel64 P1 P2 Q1 Q2 = true <-> scross (vsub (P2R P2) (P2R P1)) (vsub (P2R Q2) (P2R Q1)) = 0).
Proof. exact (is_parallel64_grid N P1 P2 Q1 Q2). Qed.
Print Assumptions C86_parallel.

(** with smaller coordinates the threshold of the determinant is exactly 2^-26 *)
Theorem C86_parallel_threshold g N P1 P2 Q1 Q2 : (0 <= N < 2 ^ 25)%Z -> (-500 <= g <= 400)%Z ->
  on_grid2 g N P1 -> on_grid2 g N P2 -> on_grid2 g N Q1 -> on_grid2 g N Q2 ->
  (is_parallel64 P1 P2 Q1 Q2 = true <-> Rabs (scross (vsub (P2R P2) (P2R P1)) (vsub (P2R Q2) (P2R Q1))) < / 67108864).
Proof. exact (is_parallel64_threshold g N P1 P2 Q1 Q2). Qed.
Print Assumptions C86_parallel_threshold.

Theorem C86_perpendicular m N A B C D : (0 <= N < 2 ^ 25)%Z -> on_grid2 0 N A -> on_grid2 0 N B -> on_grid2 0 N C -> on_grid2 0 N D ->
  (is_perpendicular64 m A B C D = true <-> sdot (vsub (P2R B) (P2R A)) (vsub (P2R D) (P2R C)) = 0).
Proof. exact (is_perpendicular64_grid m N A B C D). Qed.
Print Assumptions C86_perpendicular.

Theorem C86_perpendicular_general m A B C D : fin2 A -> fin2 B -> fin2 C -> fin2 D ->
  within (bp 490) A -> within (bp 490) B -> within (bp 490) C -> within (bp 490) D ->
  let u := vsub (P2R B) (P2R A) in let v := vsub (P2R D) (P2R C) in
  let err := 5 * u64 * (Rabs (fst u * fst v) + Rabs (snd u * snd v)) in
  (is_perpendicular64 m A B C D = true -> Rabs (sdot u v) <= 10002 / 10000000000000 + err) /\
  (Rabs (sdot u v) <= 9998 / 10000000000000 - err -> is_perpendicular64 m A B C D = true).
Proof. exact (is_perpendicular64_ok m A B C D). Qed.
Print Assumptions C86_perpendicular_general.

(** X is the exact intersection; the result is the nearest binary64 point *)
Theorem C86_intersection g P1 P2 Q1 Q2 : (-300 <= g <= 200)%Z ->
  on_grid2 g 65536 P1 -> on_grid2 g 65536 P2 -> on_grid2 g 65536 Q1 -> on_grid2 g 65536 Q2 ->
  let u := vsub (P2R P2) (P2R P1) in let v := vsub (P2R Q2) (P2R Q1) in
  (scross u v = 0 -> line_line_intersection64 P1 P2 Q1 Q2 = None) /\
  (scross u v <> 0 -> exists I X, line_line_intersection64 P1 P2 Q1 Q2 = Some I /\
    scross u (vsub X (P2R P1)) = 0 /\ scross v (vsub X (P2R Q1)) = 0 /\ rounds (fst I) (fst X) /\ rounds (snd I) (snd X)).
Proof. exact (intersection64_grid g P1 P2 Q1 Q2). Qed.
Print Assumptions C86_intersection.

(** larger integers: two secant lines for which no intersection is found *)
Theorem C86_intersection_refuted : exists P1 P2 Q1 Q2, moderate P1 /\ moderate P2 /\ moderate Q1 /\ moderate Q2 /\
  scross (vsub (P2R P2) (P2R P1)) (vsub (P2R Q2) (P2R Q1)) <> 0 /\ line_line_intersection64 P1 P2 Q1 Q2 = None.
Proof. exact intersection_refuted. Qed.
Print Assumptions C86_intersection_refuted.

Example C86_example : line_line_intersection64 (fz 0, fz 0) (fz 3, fz 1) (fz 1, fz 0) (fz 1, fz 5) = Some (fz 1, fq 1 3) /\
  on_grid2 0 65536 (fz 3, fz 1) /\ on_grid2 0 65536 (fz 1, fz 5).
Proof. split; [reflexivity|]. split; apply fz_grid2; lia. Qed.
