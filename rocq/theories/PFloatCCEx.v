(** * Two circles in binary64: where it goes wrong, and examples *)

From Coq Require Import Reals ZArith Lia Lra Psatz Bool SpecFloat.
From Verif Require Import SpecF64 Base Spec BaseLemmas SpecLemmas ModelFloat ModelFloatInter ModelFloatCC PFloat PFloatEx PFloatCC PFloatCC2.
Local Open Scope R_scope.

Lemma cc64_same_refuted m : exists c1 c2, on_grid2 0 200001 (c64_center c1) /\ on_grid2 0 200001 (c64_center c2) /\ on_grid 0 5 (c64_radius c1) /\ on_grid 0 5 (c64_radius c2) /\
  0 < SF2R (c64_radius c1) /\ 0 < SF2R (c64_radius c2) /\
  (exists M N, M <> N /\ forall X, on_circle (P2R (c64_center c1)) (SF2R (c64_radius c1)) X /\ on_circle (P2R (c64_center c2)) (SF2R (c64_radius c2)) X <-> X = M \/ X = N) /\
  forall acosf cosf sinf atan2f, intersection_circle_circle64 m acosf cosf sinf atan2f c1 c2 = Same64 c1.
Proof.
  exists (Circle64 (fz 200000, fz 0) (fz 5)), (Circle64 (fz 200001, fz 0) (fz 5)). cbn [c64_center c64_radius].
  split; [apply fz_grid2; lia|]. split; [apply fz_grid2; lia|]. split; [apply fz_grid; lia|]. split; [apply fz_grid; lia|].
  rewrite !(proj2 (fz_ok 5 ltac:(lia))), !fz_P2R by lia. split; [lra|]. split; [lra|]. split.
  - destruct (common_two (IZR 200000, IZR 0) (IZR 200001, IZR 0) (IZR 5) (IZR 5)) as (M & N & D & HM & HN & A); try lra; try (unspec; lra). exists M, N. split; auto. intros X. split; [apply A|]. intros [->| ->]; auto.
  - intros. destruct m; vm_compute; reflexivity.
Qed.

Lemma angle64_tangent_refuted m acosf : exists c1 c2, on_grid2 0 10 (c64_center c1) /\ on_grid2 0 10 (c64_center c2) /\ on_grid 0 10 (c64_radius c1) /\ on_grid 0 10 (c64_radius c2) /\
  0 < SF2R (c64_radius c1) /\ 0 < SF2R (c64_radius c2) /\
  (exists M, forall X, on_circle (P2R (c64_center c1)) (SF2R (c64_radius c1)) X /\ on_circle (P2R (c64_center c2)) (SF2R (c64_radius c2)) X <-> X = M) /\
  circle_angle64 m acosf c1 c2 = Raise ValueError.
Proof.
  exists (Circle64 (fz 0, fz 0) (fz 1)), (Circle64 (fz 6, fz 0) (fz 5)). cbn [c64_center c64_radius].
  split; [apply fz_grid2; lia|]. split; [apply fz_grid2; lia|]. split; [apply fz_grid; lia|]. split; [apply fz_grid; lia|].
  rewrite !(proj2 (fz_ok 5 ltac:(lia))), !(proj2 (fz_ok 1 ltac:(lia))), !fz_P2R by lia. split; [lra|]. split; [lra|]. split.
  - destruct (common_one (IZR 0, IZR 0) (IZR 6, IZR 0) (IZR 1) (IZR 5)) as (M & HM & A); try lra; try (unspec; lra). exists M. intros X. split; [apply A|]. intros ->; auto.
  - destruct m; vm_compute; reflexivity.
Qed.

Lemma is_orthogonal64_large_refuted m : exists c1 c2, on_grid2 0 50000 (c64_center c1) /\ on_grid2 0 50000 (c64_center c2) /\ on_grid 0 50000 (c64_radius c1) /\ on_grid 0 50000 (c64_radius c2) /\
  dist2 (P2R (c64_center c1)) (P2R (c64_center c2)) <> SF2R (c64_radius c1) * SF2R (c64_radius c1) + SF2R (c64_radius c2) * SF2R (c64_radius c2) /\ is_orthogonal64 m c1 c2 = true.
Proof.
  exists (Circle64 (fz 0, fz 0) (fz 40000)), (Circle64 (fz 50000, fz 1) (fz 30000)). cbn [c64_center c64_radius].
  split; [apply fz_grid2; lia|]. split; [apply fz_grid2; lia|]. split; [apply fz_grid; lia|]. split; [apply fz_grid; lia|].
  rewrite (proj2 (fz_ok 40000 ltac:(lia))), (proj2 (fz_ok 30000 ltac:(lia))), !fz_P2R by lia. split; [unspec; lra|]. destruct m; vm_compute; reflexivity.
Qed.

(** Which kind of answer, computed without the points. *)
Definition kind64 (i : inter_cc64) : nat := match i with Same64 _ => 3 | Points64 INone64 => 0 | Points64 (IOne64 _) => 1 | Points64 (ITwo64 _ _) => 2 end.
Lemma kind_one i : kind64 i = 1%nat -> exists P, i = Points64 (IOne64 P).
Proof. destruct i as [|[]]; try discriminate. eauto. Qed.
Lemma kind_two i : kind64 i = 2%nat -> exists P Q, i = Points64 (ITwo64 P Q).
Proof. destruct i as [|[]]; try discriminate. eauto. Qed.
