(** * C128: the radical axis of two circles in binary64 *)

From Coq Require Import Reals ZArith Lia Lra Bool SpecFloat.
From Verif Require Import SpecF64 SpecFloatAxis Base Spec SpecLemmas ModelFloat ModelFloatInter ModelFloatCC ModelFloatAxis PFloat PFloat3 PFloatEx PFloatAxis.
Local Open Scope R_scope.

(** [None] exactly for circles with the same centre. Otherwise the two points of the line are, up to
    a few roundings, two points whose line is the exact set of points with equal powers; an error can
    be raised only if a coordinate of the first one is beyond 65536. *)
Theorem C128_axis m c1 c2 : on_grid2 0 65536 (c64_center c1) -> on_grid2 0 65536 (c64_center c2) -> on_grid 0 131072 (c64_radius c1) -> on_grid 0 131072 (c64_radius c2) ->
  let O1 := P2R (c64_center c1) in let O2 := P2R (c64_center c2) in
  let r1 := SF2R (c64_radius c1) in let r2 := SF2R (c64_radius c2) in
  (O1 = O2 -> radical_axis64 m c1 c2 = Ok None) /\
  (O1 <> O2 -> exists A B a b t, A = vadd O1 (vscal t (vsub O2 O1)) /\ dist A B = dist O1 O2 /\ (forall X, equal_powers O1 r1 O2 r2 X <-> on_line A B X) /\
     (let S := Rabs (fst A) + Rabs ((fst O1 + fst O2) / 2) + Rabs (snd O2 - snd O1) in near5 S (fst A) (fst a) /\ near5 S (fst B) (fst b)) /\
     (let S := Rabs (snd A) + Rabs ((snd O1 + snd O2) / 2) + Rabs (fst O2 - fst O1) in near5 S (snd A) (snd a) /\ near5 S (snd B) (snd b)) /\
     (radical_axis64 m c1 c2 = Ok (Some (a, b)) \/
      (65536 < Rabs (fst A) \/ 65536 < Rabs (snd A)) /\ allclose64 a b = true /\ radical_axis64 m c1 c2 = Raise ValueError)).
Proof. exact (radical_axis64_value m c1 c2). Qed.
Print Assumptions C128_axis.

(** It is not true that two circles with distinct centres always have a radical axis: an error is
    raised for the circles of centres (0, 0) and (1, 1) and radii 1000 and 1. *)
Theorem C128_axis_refuted m : exists c1 c2, on_grid2 0 1 (c64_center c1) /\ on_grid2 0 1 (c64_center c2) /\ on_grid 0 1000 (c64_radius c1) /\ on_grid 0 1000 (c64_radius c2) /\
  0 < SF2R (c64_radius c1) /\ 0 < SF2R (c64_radius c2) /\ P2R (c64_center c1) <> P2R (c64_center c2) /\ radical_axis64 m c1 c2 = Raise ValueError.
Proof. exact (radical_axis64_raises m). Qed.
Print Assumptions C128_axis_refuted.

(** For larger integers it is not true that [None] means equal centres. *)
Theorem C128_none_refuted m : exists c1 c2, on_grid2 0 100001 (c64_center c1) /\ on_grid2 0 100001 (c64_center c2) /\ on_grid 0 1 (c64_radius c1) /\ on_grid 0 1 (c64_radius c2) /\
  0 < SF2R (c64_radius c1) /\ 0 < SF2R (c64_radius c2) /\ P2R (c64_center c1) <> P2R (c64_center c2) /\ radical_axis64 m c1 c2 = Ok None.
Proof. exact (radical_axis64_none m). Qed.
Print Assumptions C128_none_refuted.

(** The circles of centres (0, 0) and (8, 0) and radii 5 and 3: the line through (5, 0) and (5, 8). *)
Example C128_example : let c1 := Circle64 (fz 0, fz 0) (fz 5) in let c2 := Circle64 (fz 8, fz 0) (fz 3) in
  on_grid2 0 65536 (c64_center c1) /\ on_grid2 0 65536 (c64_center c2) /\ on_grid 0 131072 (c64_radius c1) /\ on_grid 0 131072 (c64_radius c2) /\
  P2R (c64_center c1) <> P2R (c64_center c2) /\ exists a b, radical_axis64 Separate c1 c2 = Ok (Some (a, b)) /\ P2R a = (5, 0) /\ P2R b = (5, 8).
Proof.
  cbn [c64_center c64_radius]. do 2 (split; [apply fz_grid2; lia|]). do 2 (split; [apply fz_grid; lia|]). split; [rewrite !fz_P2R by lia; intros Q; injection Q as Q; lra|].
  exists (fz 5, fz 0), (fz 5, fz 8). split; [vm_compute; reflexivity|]. rewrite !fz_P2R by lia. split; reflexivity.
Qed.
