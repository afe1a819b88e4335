(** * C132: homotheties and axis scalings as affine maps, in binary64 *)

From Coq Require Import Reals ZArith Lia Lra Bool SpecFloat.
From Verif Require Import SpecF64 SpecFloatSame Base Spec SpecLemmas ModelFloat ModelFloatTransfo ModelFloatAsAffine PFloat PFloat3 PFloatEx PFloatTransfo PFloatAsAffine.
Local Open Scope R_scope.

(** Homothety.as_affine: the same image, to the last bit, whatever the centre and the factor. *)
Theorem C132_homothety m1 m2 O s M : fin2 M -> same2 (affine_transform64 m1 m2 (homothety_as_affine64 O s) M) (homothety64 O s M).
Proof. exact (homothety_as_affine64_same m1 m2 O s M). Qed.
Print Assumptions C132_homothety.

(** ScalingXY.as_affine: the same image for integer factors and data on a grid of step 2^g. *)
Theorem C132_scaling m1 m2 g K N O sx sy M : (0 <= K)%Z -> (0 <= N)%Z -> ((2 * K + 1) * ((K + 1) * N) < 2 ^ 53)%Z -> (2 * N < 2 ^ 53)%Z -> (-1074 <= g <= 970)%Z ->
  on_grid2 0 K (sx, sy) -> on_grid2 g N O -> on_grid2 g N M ->
  P2R (affine_transform64 m1 m2 (scaling_xy_as_affine64 O sx sy) M) = P2R (scaling_xy64 O sx sy M).
Proof. exact (scaling_xy_as_affine64_grid m1 m2 g K N O sx sy M). Qed.
Print Assumptions C132_scaling.

(** Affine.transform is exact for an integer matrix and data on a grid. *)
Theorem C132_affine m1 m2 g K N f M : (0 <= K)%Z -> (0 <= N)%Z -> ((2 * K + 1) * N < 2 ^ 53)%Z -> (-1074 <= g <= 970)%Z ->
  on_grid2 0 K (a64_row1 f) -> on_grid2 0 K (a64_row2 f) -> on_grid2 g N (a64_b f) -> on_grid2 g N M ->
  P2R (affine_transform64 m1 m2 f M) = vadd (sdot (P2R (a64_row1 f)) (P2R M), sdot (P2R (a64_row2 f)) (P2R M)) (P2R (a64_b f)).
Proof. exact (affine_transform64_grid m1 m2 g K N f M). Qed.
Print Assumptions C132_affine.

(** ScalingXY.as_affine, not in general: the centre (0.1, 0) is fixed by the scaling with the factors 4 and 1, but not by
    the affine map. *)
Theorem C132_scaling_refuted m1 m2 : exists O sx sy, moderate O /\ moderate (sx, sy) /\
  P2R (scaling_xy64 O sx sy O) = P2R O /\ P2R (affine_transform64 m1 m2 (scaling_xy_as_affine64 O sx sy) O) <> P2R O.
Proof. exact (scaling_xy_as_affine64_refuted m1 m2). Qed.
Print Assumptions C132_scaling_refuted.

(** The homothety of centre (0.3, 2) and factor 0.7, with rounded results; the scaling of centre
    (1, 2) and factors 3 and -2 sends (4, 4) to (10, -2). *)
Example C132_example : fin2 (fq 1 10, fz 4) /\ homothety64 (fq 3 10, fz 2) (fq 7 10) (fq 1 10, fz 4) = affine_transform64 FmaFirst FmaLast (homothety_as_affine64 (fq 3 10, fz 2) (fq 7 10)) (fq 1 10, fz 4) /\
  on_grid2 0 3 (fz 3, fz (-2)) /\ on_grid2 0 4 (fz 1, fz 2) /\ on_grid2 0 4 (fz 4, fz 4) /\
  affine_transform64 Separate FmaLast (scaling_xy_as_affine64 (fz 1, fz 2) (fz 3) (fz (-2))) (fz 4, fz 4) = (fz 10, fz (-2)).
Proof.
  split; [split; split; vm_compute; reflexivity|]. split; [vm_compute; reflexivity|]. do 3 (split; [apply fz_grid2; lia|]). vm_compute. reflexivity.
Qed.
Example C132_example_affine : let f := Affine64 (fz 1, fz 2) (fz 3, fz 4) (fz 5, fz 6) in
  on_grid2 0 9 (a64_row1 f) /\ on_grid2 0 9 (a64_row2 f) /\ on_grid2 0 9 (a64_b f) /\ on_grid2 0 9 (fz 7, fz 8) /\ affine_transform64 FmaFirst Separate f (fz 7, fz 8) = (fz 28, fz 59).
Proof. cbn zeta. cbn [a64_row1 a64_row2 a64_b]. do 4 (split; [apply fz_grid2; lia|]). vm_compute. reflexivity. Qed.
