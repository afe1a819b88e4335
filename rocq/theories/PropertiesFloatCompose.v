(** * C133: composition of affine maps, in binary64 *)

From Coq Require Import Reals ZArith Lia Lra Bool SpecFloat.
From Verif Require Import SpecF64 Base Spec SpecLemmas ModelFloat ModelFloatTransfo ModelFloatAsAffine ModelFloatCompose PFloat PFloat3 PFloatEx PFloatTransfo PFloatCompose.
Local Open Scope R_scope.

(** The composition is the map obtained by applying f then h (left), or h then f, for integer
    matrices and data on a grid of step 2^g. *)
Theorem C133_compose w m1 m2 m3 m4 m5 m6 g K N f h M : (-1074 <= g <= 970)%Z -> (1 <= K)%Z -> (0 <= N)%Z -> (5 * (K * K) * ((2 * K + 1) * N) < 2 ^ 53)%Z -> (3 * (K * K) < 2 ^ 53)%Z ->
  on_grid2 0 K (a64_row1 f) -> on_grid2 0 K (a64_row2 f) -> on_grid2 g N (a64_b f) -> on_grid2 0 K (a64_row1 h) -> on_grid2 0 K (a64_row2 h) -> on_grid2 g N (a64_b h) -> on_grid2 g N M ->
  P2R (affine_transform64 m1 m2 (compose64 w f h true) M) = P2R (affine_transform64 m3 m4 h (affine_transform64 m5 m6 f M)) /\
  P2R (affine_transform64 m1 m2 (compose64 w f h false) M) = P2R (affine_transform64 m3 m4 f (affine_transform64 m5 m6 h M)).
Proof. exact (compose64_grid w m1 m2 m3 m4 m5 m6 g K N f h M). Qed.
Print Assumptions C133_compose.

(** Not in general, even for two translations: by 0.2, then by 0.3, of the point (0.1, 0). *)
Theorem C133_compose_refuted w m1 m2 m3 m4 m5 m6 : exists f h M, moderate (a64_row1 f) /\ moderate (a64_row2 f) /\ moderate (a64_b f) /\ moderate (a64_row1 h) /\ moderate (a64_row2 h) /\ moderate (a64_b h) /\ moderate M /\
  P2R (affine_transform64 m1 m2 (compose64 w f h true) M) <> P2R (affine_transform64 m3 m4 h (affine_transform64 m5 m6 f M)).
Proof. exact (compose64_refuted w m1 m2 m3 m4 m5 m6). Qed.
Print Assumptions C133_compose_refuted.

(** Two maps that do not commute; the hypotheses hold for g = 0, K = 4 and N = 9. *)
Example C133_example : let f := Affine64 (fz 1, fz 2) (fz 3, fz 4) (fz 5, fz 6) in let h := Affine64 (fz 0, fz (-1)) (fz 1, fz 0) (fz 2, fz 0) in let w := fun _ => (FmaLast, true) in
  on_grid2 0 4 (a64_row1 f) /\ on_grid2 0 4 (a64_row2 f) /\ on_grid2 0 9 (a64_b f) /\ on_grid2 0 4 (a64_row1 h) /\ on_grid2 0 4 (a64_row2 h) /\ on_grid2 0 9 (a64_b h) /\ on_grid2 0 9 (fz 7, fz 8) /\
  (5 * (4 * 4) * ((2 * 4 + 1) * 9) < 2 ^ 53)%Z /\
  affine_transform64 FmaFirst Separate (compose64 w f h true) (fz 7, fz 8) = (fz (-57), fz 28) /\ affine_transform64 FmaFirst Separate (compose64 w f h false) (fz 7, fz 8) = (fz 13, fz 16).
Proof. cbn zeta. cbn [a64_row1 a64_row2 a64_b]. do 7 (split; [apply fz_grid2; lia|]). split; [lia|]. split; vm_compute; reflexivity. Qed.
