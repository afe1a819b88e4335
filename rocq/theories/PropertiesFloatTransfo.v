(** * C94: transformations of points in binary64 *)

From Coq Require Import Reals ZArith Lia Lra Bool SpecFloat.
From Verif Require Import SpecF64 Base Spec ModelFloat ModelFloatTransfo PFloat PFloat3 PFloatEx PFloatPi PFloatTransfo.
Local Open Scope R_scope.

(** ** Rotations *)

(** The exact angle is [theta], or theta * PI / 180; the error of each coordinate is one
    rounding of the result plus a few units in the last place of the distance to the centre,
    growing with the angle (the conversion from degrees has a relative error). *)
Theorem C94_rotation cosf sinf O theta (degrees : bool) M : libm_cos_sin cosf sinf -> moderate O -> moderate M -> fin theta -> Rabs (SF2R theta) <= bp 1020 ->
  let A := if degrees then SF2R theta * PI / 180 else SF2R theta in
  let dx := SF2R (fst M) - SF2R (fst O) in let dy := SF2R (snd M) - SF2R (snd O) in
  let ex := cos A * dx - sin A * dy + SF2R (fst O) in let ey := sin A * dx + cos A * dy + SF2R (snd O) in
  let w := (6 + 4 * Rabs A) * u64 * (Rabs dx + Rabs dy) + eta64 * (3 + 2 * (Rabs dx + Rabs dy)) in
  let Z := rotate64 cosf sinf O theta degrees M in
  fin2 Z /\ Rabs (SF2R (fst Z) - ex) <= u64 * Rabs ex + w /\ Rabs (SF2R (snd Z) - ey) <= u64 * Rabs ey + w.
Proof. exact (rotate64_position2 cosf sinf O theta degrees M). Qed.
Print Assumptions C94_rotation.

(** In radians the error does not grow with the angle. *)
Theorem C94_rotation_radians cosf sinf O theta M : libm_cos_sin cosf sinf -> moderate O -> moderate M -> fin theta -> Rabs (SF2R theta) <= bp 1020 ->
  let A := SF2R theta in
  let dx := SF2R (fst M) - SF2R (fst O) in let dy := SF2R (snd M) - SF2R (snd O) in
  let ex := cos A * dx - sin A * dy + SF2R (fst O) in let ey := sin A * dx + cos A * dy + SF2R (snd O) in
  let Z := rotate64 cosf sinf O theta false M in
  fin2 Z /\
  Rabs (SF2R (fst Z) - ex) <= u64 * Rabs ex + 6 * u64 * (Rabs dx + Rabs dy) + 3 * eta64 /\
  Rabs (SF2R (snd Z) - ey) <= u64 * Rabs ey + 6 * u64 * (Rabs dx + Rabs dy) + 3 * eta64.
Proof. exact (rotate64_ok cosf sinf O theta false M). Qed.
Print Assumptions C94_rotation_radians.

Theorem C94_rotation_centre cosf sinf O theta degrees : libm_cos_sin cosf sinf -> moderate O -> fin theta -> Rabs (SF2R theta) <= bp 1020 ->
  let Z := rotate64 cosf sinf O theta degrees O in fin2 Z /\ P2R Z = P2R O.
Proof. exact (rotate64_centre cosf sinf O theta degrees). Qed.
Print Assumptions C94_rotation_centre.

(** The rotation of angle 0 is not the identity, whatever the C library does elsewhere. *)
Theorem C94_rotation_zero_refuted : exists O M, moderate O /\ moderate M /\
  forall cosf sinf, cosf f0 = f1 -> sinf f0 = f0 -> P2R (rotate64 cosf sinf O f0 false M) <> P2R M.
Proof. exact rotate64_zero_refuted. Qed.
Print Assumptions C94_rotation_zero_refuted.

(** ** Homotheties *)

Theorem C94_homothety O s M : moderate O -> moderate M -> fin s -> Rabs (SF2R s) <= bp 500 ->
  let Z := homothety64 O s M in
  fin2 Z /\ forall f : spec_float * spec_float -> spec_float, f = fst \/ f = snd ->
    let c := (1 - SF2R s) * SF2R (f O) in let m := SF2R s * SF2R (f M) in
    Rabs (SF2R (f Z) - (c + m)) <= u64 * Rabs (c + m) + 3 * u64 * Rabs c + 2 * u64 * Rabs m + 3 * eta64.
Proof. exact (homothety64_ok O s M). Qed.
Print Assumptions C94_homothety.

Theorem C94_homothety_one O s M : moderate O -> moderate M -> fin s -> SF2R s = 1 -> P2R (homothety64 O s M) = P2R M /\ fin2 (homothety64 O s M).
Proof. exact (homothety64_one O s M). Qed.
Print Assumptions C94_homothety_one.

Theorem C94_homothety_zero O s M : moderate O -> moderate M -> fin s -> SF2R s = 0 -> P2R (homothety64 O s M) = P2R O /\ fin2 (homothety64 O s M).
Proof. exact (homothety64_zero O s M). Qed.
Print Assumptions C94_homothety_zero.

(** The centre of a homothety is not always fixed. *)
Theorem C94_homothety_centre_refuted : exists O s, moderate O /\ fin s /\ Rabs (SF2R s) <= 1 /\ P2R (homothety64 O s O) <> P2R O.
Proof. exact homothety64_centre_refuted. Qed.
Print Assumptions C94_homothety_centre_refuted.

(** ** Axis scalings *)

Theorem C94_scaling O sx sy M : moderate O -> moderate M -> moderate (sx, sy) ->
  let Z := scaling_xy64 O sx sy M in
  fin2 Z /\ forall f : spec_float * spec_float -> spec_float, f = fst \/ f = snd ->
    let t := SF2R (f (sx, sy)) * (SF2R (f M) - SF2R (f O)) in let e := t + SF2R (f O) in
    Rabs (SF2R (f Z) - e) <= u64 * Rabs e + 3 * u64 * Rabs t + 2 * eta64.
Proof. exact (scaling_xy64_ok O sx sy M). Qed.
Print Assumptions C94_scaling.

Theorem C94_scaling_centre O sx sy : moderate O -> fin2 (sx, sy) -> fin2 (scaling_xy64 O sx sy O) /\ P2R (scaling_xy64 O sx sy O) = P2R O.
Proof. exact (scaling_xy64_centre O sx sy). Qed.
Print Assumptions C94_scaling_centre.

(** The scaling of factors 1 and 1 is not always the identity. *)
Theorem C94_scaling_one_refuted : exists O M, moderate O /\ moderate M /\ P2R (scaling_xy64 O f1 f1 M) <> P2R M.
Proof. exact scaling_xy64_one_refuted. Qed.
Print Assumptions C94_scaling_one_refuted.

(** ** Affine maps and translations *)

Theorem C94_affine m1 m2 a11 a12 a21 a22 b M : moderate (a11, a12) -> moderate (a21, a22) -> moderate b -> moderate M ->
  let x := SF2R (fst M) in let y := SF2R (snd M) in
  let ex := SF2R a11 * x + SF2R a12 * y + SF2R (fst b) in let ey := SF2R a21 * x + SF2R a22 * y + SF2R (snd b) in
  let Z := affine64 m1 m2 a11 a12 a21 a22 b M in
  fin2 Z /\
  Rabs (SF2R (fst Z) - ex) <= u64 * Rabs ex + 3 * u64 * (Rabs (SF2R a11 * x) + Rabs (SF2R a12 * y)) + 4 * eta64 /\
  Rabs (SF2R (snd Z) - ey) <= u64 * Rabs ey + 3 * u64 * (Rabs (SF2R a21 * x) + Rabs (SF2R a22 * y)) + 4 * eta64.
Proof. exact (affine64_ok m1 m2 a11 a12 a21 a22 b M). Qed.
Print Assumptions C94_affine.

Theorem C94_translation v A : moderate v -> moderate A -> let Z := translate64 v A in
  rounds (fst Z) (SF2R (fst A) + SF2R (fst v)) /\ rounds (snd Z) (SF2R (snd A) + SF2R (snd v)).
Proof. exact (translate64_ok v A). Qed.
Print Assumptions C94_translation.

(** ** Exact results: integer factors, points on a grid of step 2^g *)

Theorem C94_homothety_grid g K N O s M : (0 <= K)%Z -> (0 <= N)%Z -> ((2 * K + 1) * N < 2 ^ 53)%Z -> (K + 1 < 2 ^ 53)%Z -> (-1074 <= g <= 970)%Z ->
  on_grid 0 K s -> on_grid2 g N O -> on_grid2 g N M ->
  P2R (homothety64 O s M) = vadd (vscal (1 - SF2R s) (P2R O)) (vscal (SF2R s) (P2R M)).
Proof. exact (homothety64_grid g K N O s M). Qed.
Print Assumptions C94_homothety_grid.

Theorem C94_scaling_grid g K N O sx sy M : (0 <= K)%Z -> (0 <= N)%Z -> ((2 * K + 1) * N < 2 ^ 53)%Z -> (2 * N < 2 ^ 53)%Z -> (-1074 <= g <= 970)%Z ->
  on_grid2 0 K (sx, sy) -> on_grid2 g N O -> on_grid2 g N M ->
  P2R (scaling_xy64 O sx sy M) = (SF2R sx * (SF2R (fst M) - SF2R (fst O)) + SF2R (fst O), SF2R sy * (SF2R (snd M) - SF2R (snd O)) + SF2R (snd O)).
Proof. exact (scaling_xy64_grid g K N O sx sy M). Qed.
Print Assumptions C94_scaling_grid.

Theorem C94_affine_grid m1 m2 g K N a11 a12 a21 a22 b M : (0 <= K)%Z -> (0 <= N)%Z -> ((2 * K + 1) * N < 2 ^ 53)%Z -> (-1074 <= g <= 970)%Z ->
  on_grid2 0 K (a11, a12) -> on_grid2 0 K (a21, a22) -> on_grid2 g N b -> on_grid2 g N M ->
  P2R (affine64 m1 m2 a11 a12 a21 a22 b M) =
  (SF2R a11 * SF2R (fst M) + SF2R a12 * SF2R (snd M) + SF2R (fst b), SF2R a21 * SF2R (fst M) + SF2R a22 * SF2R (snd M) + SF2R (snd b)).
Proof. exact (affine64_grid m1 m2 g K N a11 a12 a21 a22 b M). Qed.
Print Assumptions C94_affine_grid.

Theorem C94_translation_grid g N v A : (0 <= N)%Z -> (2 * N < 2 ^ 53)%Z -> (-1074 <= g <= 970)%Z -> on_grid2 g N v -> on_grid2 g N A ->
  P2R (translate64 v A) = vadd (P2R A) (P2R v).
Proof. exact (translate64_grid g N v A). Qed.
Print Assumptions C94_translation_grid.

Example C94_example : libm_cos_sin (approx_f cos) (approx_f sin) /\ moderate (fz 3, fz 4) /\ moderate (fq 1 10, fz 0) /\ on_grid2 0 7 (fz 3, fz (-7)) /\
  P2R (homothety64 (fz 1, fz 2) (fz (-3)) (fz 4, fz 4)) = (-8, -4) /\
  P2R (affine64 Separate FmaLast (fz 2) (fz 1) (fz 0) (fz (-1)) (fz 5, fz 6) (fz 1, fz 1)) = (8, 5).
Proof.
  split; [exact libm_exists|]. split; [apply fzm; lia|]. split; [exact fq_moderate1|]. split; [split; apply grid_ex; lia|].
  assert (G : forall a b, (Z.abs a <= 100)%Z -> (Z.abs b <= 100)%Z -> on_grid2 0 100 (fz a, fz b)) by (intros; split; apply grid_ex; cbn [fst snd]; lia).
  assert (V : forall a, (Z.abs a <= 100)%Z -> SF2R (fz a) = IZR a) by (intros; apply fz_ok; lia). split.
  - rewrite (homothety64_grid 0 100 100) by (try apply G; try apply (G (-3)%Z 0%Z); lia). unfold vadd, vscal, P2R. cbn [fst snd]. rewrite !V by lia. f_equal; lra.
  - rewrite (affine64_grid _ _ 0 100 100) by (try apply G; lia). cbn [fst snd]. rewrite !V by lia. f_equal; lra.
Qed.

(** ** C83, the position of the point of a circle with a given angle *)

Theorem C83_position cosf sinf c alpha (degrees : bool) b : libm_cos_sin cosf sinf ->
  fin2 (c64_center c) -> within b (c64_center c) -> fin (c64_radius c) -> 0 <= SF2R (c64_radius c) <= bp 500 -> b <= bp 500 ->
  fin alpha -> Rabs (SF2R alpha) <= bp 1020 ->
  let A := if degrees then SF2R alpha * PI / 180 else SF2R alpha in let r := SF2R (c64_radius c) in
  let P := point_from_angle64 cosf sinf c alpha degrees in
  fin2 P /\
  Rabs (SF2R (fst P) - (SF2R (fst (c64_center c)) + r * cos A)) <= u64 * b + (5 + 3 * Rabs A) * u64 * r + eta64 * (2 + r) /\
  Rabs (SF2R (snd P) - (SF2R (snd (c64_center c)) + r * sin A)) <= u64 * b + (5 + 3 * Rabs A) * u64 * r + eta64 * (2 + r).
Proof. exact (point_from_angle64_position cosf sinf c alpha degrees b). Qed.
Print Assumptions C83_position.
