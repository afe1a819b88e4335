(** * C131: images of circles under homotheties, in binary64 *)

From Coq Require Import Reals ZArith Lia Lra Bool SpecFloat.
From Verif Require Import SpecF64 Base Spec SpecLemmas ModelFloat ModelFloatTransfo ModelFloatHomCircle PFloat PFloat3 PFloatEx PFloatHomCircle.
Local Open Scope R_scope.

(** The radius of the image is rounded once, and its centre is accurate; an error is raised if the
    radius underflows (2^-1075 is half the smallest positive number). *)
Theorem C131_circle O s c : moderate O -> moderate (c64_center c) -> fin s -> Rabs (SF2R s) <= bp 500 -> fin (c64_radius c) -> 0 < SF2R (c64_radius c) <= bp 502 ->
  let r := Rabs (SF2R s) * SF2R (c64_radius c) in
  (r < bp (-1075) -> homothety_circle64 O s c = Raise ValueError) /\
  (bp (-1075) < r -> exists c', homothety_circle64 O s c = Ok c' /\ rounds (c64_radius c') r /\ 0 < SF2R (c64_radius c') /\ fin2 (c64_center c') /\
     forall f : spec_float * spec_float -> spec_float, f = fst \/ f = snd ->
       let a := (1 - SF2R s) * SF2R (f O) in let m := SF2R s * SF2R (f (c64_center c)) in
       Rabs (SF2R (f (c64_center c')) - (a + m)) <= u64 * Rabs (a + m) + 3 * u64 * Rabs a + 2 * u64 * Rabs m + 3 * eta64).
Proof. exact (homothety_circle64_ok O s c). Qed.
Print Assumptions C131_circle.

(** Everything is exact for an integer factor and data on a grid of step 2^g; the disk of the image
    contains the images of the points of the disk, and no image of another point. *)
Theorem C131_disk m g K N O s c : (0 <= K)%Z -> (0 <= N)%Z -> ((2 * K + 1) * N < 2 ^ 25)%Z -> (K + 1 < 2 ^ 53)%Z -> (-537 <= g <= 400)%Z ->
  on_grid 0 K s -> SF2R s <> 0 -> on_grid2 g N O -> on_grid2 g N (c64_center c) -> on_grid g N (c64_radius c) -> 0 < SF2R (c64_radius c) ->
  exists c', homothety_circle64 O s c = Ok c' /\
    P2R (c64_center c') = vadd (vscal (1 - SF2R s) (P2R O)) (vscal (SF2R s) (P2R (c64_center c))) /\ SF2R (c64_radius c') = Rabs (SF2R s) * SF2R (c64_radius c) /\
    forall M, on_grid2 g N M -> circle_contains64 m c' (homothety64 O s M) = circle_contains64 m c M.
Proof. exact (homothety_circle64_grid m g K N O s c). Qed.
Print Assumptions C131_disk.

(** It is not true that a circle has an image if the factor is not 0. *)
Theorem C131_nonzero_refuted : exists O s c, moderate O /\ fin s /\ 0 < SF2R s /\ moderate (c64_center c) /\ fin (c64_radius c) /\ 0 < SF2R (c64_radius c) /\
  homothety_circle64 O s c = Raise ValueError.
Proof. exact homothety_circle64_raises. Qed.
Print Assumptions C131_nonzero_refuted.

(** The homothety of centre (1, 2) and factor -3, and the circle of centre (4, 4) and radius 5: the
    centre of the image is (-8, -4) and its radius 15; the disk contains (8, 7) but not (8, 8). *)
Example C131_example : let O := (fz 1, fz 2) in let s := fz (-3) in let c := Circle64 (fz 4, fz 4) (fz 5) in
  on_grid 0 3 s /\ SF2R s <> 0 /\ on_grid2 0 8 O /\ on_grid2 0 8 (c64_center c) /\ on_grid 0 8 (c64_radius c) /\ 0 < SF2R (c64_radius c) /\
  homothety_circle64 O s c = Ok (Circle64 (fz (-8), fz (-4)) (fz 15)) /\
  circle_contains64 FmaFirst c (fz 8, fz 7) = true /\ circle_contains64 FmaFirst c (fz 8, fz 8) = false.
Proof.
  assert (V : SF2R (fz (-3)) = -3) by (apply fz_ok; lia). assert (V5 : SF2R (fz 5) = 5) by (apply fz_ok; lia). cbn zeta. cbn [c64_center c64_radius]. rewrite V, V5.
  split; [apply fz_grid; lia|]. split; [lra|]. split; [apply fz_grid2; lia|]. split; [apply fz_grid2; lia|]. split; [apply fz_grid; lia|]. split; [lra|].
  split; [|split]; vm_compute; reflexivity.
Qed.
