(** * C130: scalings in a direction, in binary64 *)

From Coq Require Import Reals ZArith Lia Lra Bool SpecFloat.
From Verif Require Import SpecF64 SpecLibm SpecFloatScaling Base Spec SpecLemmas ModelFloat ModelFloatScaling PFloat PFloat3 PFloatCC3 PFloatCC4 PFloatEx PFloatScaling.
Local Open Scope R_scope.

(** The image is accurate with respect to the sizes S of the coordinates and K of the factor. *)
Theorem C130_scaling cosf sinf acosf atan2f Q w s M S K : libm_cos_sin cosf sinf -> libm_acos_atan2 acosf atan2f ->
  fin2 Q -> fin2 w -> fin s -> fin2 M -> P2R w <> (0, 0) -> bp (-60) <= S <= bp 60 -> 1 <= K <= bp 60 -> within S Q -> within S M -> Rabs (SF2R s) <= K ->
  let z := scaling64 cosf sinf atan2f Q w s M in
  exists T, stretched (P2R Q) (P2R w) (SF2R s) (P2R M) T /\ fin2 z /\
    Rabs (SF2R (fst z) - fst T) <= 250 * u64 * (K * S) /\ Rabs (SF2R (snd z) - snd T) <= 250 * u64 * (K * S).
Proof. exact (fun HC HA => scaling64_ok cosf sinf atan2f acosf HC HA Q w s M S K). Qed.
Print Assumptions C130_scaling.

(** The exact image is unique. *)
Theorem C130_unique Q w s M T T' : w <> (0, 0) -> stretched Q w s M T -> stretched Q w s M T' -> T = T'.
Proof. exact (stretched_unique Q w s M T T'). Qed.
Print Assumptions C130_unique.

(** The centre is its own image, exactly. *)
Theorem C130_centre cosf sinf acosf atan2f Q w s M : libm_cos_sin cosf sinf -> libm_acos_atan2 acosf atan2f ->
  fin2 Q -> fin2 w -> fin s -> fin2 M -> P2R w <> (0, 0) -> within (bp 1000) Q -> P2R M = P2R Q ->
  let z := scaling64 cosf sinf atan2f Q w s M in fin2 z /\ P2R z = P2R Q.
Proof. exact (fun HC HA => scaling64_centre cosf sinf atan2f acosf HC HA Q w s M). Qed.
Print Assumptions C130_centre.

(** The scaling of centre (1, 2), direction (3, 4) and factor 2 sends (8, 1) to (251/25, 93/25), up
    to roundings; the hypotheses hold for S = 8 and K = 2. *)
Example C130_example : (exists cosf sinf, libm_cos_sin cosf sinf) /\ (exists acosf atan2f, libm_acos_atan2 acosf atan2f) /\
  fin2 (fz 1, fz 2) /\ fin2 (fz 3, fz 4) /\ fin (fz 2) /\ fin2 (fz 8, fz 1) /\ P2R (fz 3, fz 4) <> (0, 0) /\ bp (-60) <= 8 <= bp 60 /\ 1 <= 2 <= bp 60 /\
  within 8 (fz 1, fz 2) /\ within 8 (fz 8, fz 1) /\ Rabs (SF2R (fz 2)) <= 2 /\
  stretched (P2R (fz 1, fz 2)) (P2R (fz 3, fz 4)) (SF2R (fz 2)) (P2R (fz 8, fz 1)) (251 / 25, 93 / 25).
Proof.
  assert (B1 : bp (-60) <= bp 3) by (apply bp_le; lia). assert (B2 : bp 3 <= bp 60) by (apply bp_le; lia). assert (B3 : bp 3 = 8) by (rewrite bp_IZR by lia; reflexivity).
  split; [do 2 eexists; exact libm_exists|]. split; [do 2 eexists; exact libm_inverse_exists|].
  split; [apply (fz_within 1 2 8); lia|]. split; [apply (fz_within 3 4 8); lia|]. split; [apply fz_ok; lia|]. split; [apply (fz_within 8 1 8); lia|].
  rewrite !fz_P2R by lia. split; [intros E; injection E as E; lra|]. split; [lra|]. split; [lra|].
  split; [apply (fz_within 1 2 8); lia|]. split; [apply (fz_within 8 1 8); lia|].
  assert (V : SF2R (fz 2) = 2) by (apply fz_ok; lia). rewrite V. split; [rewrite Rabs_right; lra|].
  exists (17 / 25), (124 / 25, -93 / 25). unfold orthogonal, sdot, vsub, vadd, vscal. cbn [fst snd]. split; [lra|]. split; f_equal; lra.
Qed.
