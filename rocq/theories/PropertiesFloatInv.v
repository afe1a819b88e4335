(** * C126: the image of a circle by an inversion in binary64 *)

From Coq Require Import Reals ZArith Lia Lra Bool SpecFloat.
From Verif Require Import SpecF64 SpecFloatInv Base Spec SpecLemmas ModelFloat ModelFloatInter ModelFloatInv PFloat PFloat3 PFloatEx PFloatInv.
Local Open Scope R_scope.

(** The pole is not on the circle: a circle is returned, which is the exact image up to a few roundings. *)
Theorem C126_circle m P k c : on_grid2 0 65536 P -> on_grid2 0 65536 (c64_center c) -> on_grid 0 1048576 (c64_radius c) ->
  fin k -> bp (-400) <= Rabs (SF2R k) <= bp 400 -> 0 < SF2R (c64_radius c) ->
  ~ on_circle (P2R (c64_center c)) (SF2R (c64_radius c)) (P2R P) ->
  exists c' C R, invert_circle64 m P k c = Ok (GC64 c') /\ 0 < R /\
    inv_maps (P2R P) (SF2R k) (P2R (c64_center c)) (SF2R (c64_radius c)) C R /\
    near_image 4 0 (P2R P) C (c64_center c') /\ fin (c64_radius c') /\ Rabs (SF2R (c64_radius c') - R) <= 3 * u64 * R.
Proof. exact (invert_circle64_far m P k c). Qed.
Print Assumptions C126_circle.

(** The pole is on the circle: a line is returned, whose two points are points of the exact image up to
    a few roundings; an error can be raised only if the power is smaller than the radius. *)
Theorem C126_line m P k c : on_grid2 0 20000 P -> on_grid2 0 20000 (c64_center c) -> on_grid 0 1048576 (c64_radius c) ->
  fin k -> SF2R k <> 0 -> Rabs (SF2R k) <= bp 400 -> 0 < SF2R (c64_radius c) ->
  on_circle (P2R (c64_center c)) (SF2R (c64_radius c)) (P2R P) ->
  exists A B A' B', A' <> B' /\
    (forall X, on_circle (P2R (c64_center c)) (SF2R (c64_radius c)) X -> X <> P2R P -> on_line A' B' (inv_pt (P2R P) (SF2R k) X)) /\
    near_image 11 (bp (-1000)) (P2R P) A' A /\ near_image 11 (bp (-1000)) (P2R P) B' B /\
    (invert_circle64 m P k c = Ok (GL64 A B) \/
     Rabs (SF2R k) < SF2R (c64_radius c) /\ allclose64 A B = true /\ invert_circle64 m P k c = Raise ValueError).
Proof. exact (invert_circle64_on m P k c). Qed.
Print Assumptions C126_line.

(** It is not true that a circle always has an image: with the power 1, the two points computed on
    the image line can be too close. *)
Theorem C126_line_refuted m : exists P c, on_grid2 0 20010 P /\ on_grid2 0 20010 (c64_center c) /\ on_grid 0 10 (c64_radius c) /\ 0 < SF2R (c64_radius c) /\
  on_circle (P2R (c64_center c)) (SF2R (c64_radius c)) (P2R P) /\ invert_circle64 m P f1 c = Raise ValueError.
Proof. exact (invert_circle64_raises m). Qed.
Print Assumptions C126_line_refuted.

(** For larger integers, the error can be raised whatever the power. *)
Theorem C126_any_power_refuted m : exists P c, on_grid2 0 200001 P /\ on_grid2 0 200001 (c64_center c) /\ on_grid 0 1 (c64_radius c) /\ 0 < SF2R (c64_radius c) /\
  on_circle (P2R (c64_center c)) (SF2R (c64_radius c)) (P2R P) /\ forall k, invert_circle64 m P k c = Raise ValueError.
Proof. exact (invert_circle64_raises_far m). Qed.
Print Assumptions C126_any_power_refuted.

(** The pole (0, 0), the power 16: the circle of centre (3, 0) and radius 1 is sent to the circle
    of centre (6, 0) and radius 2, the circle of centre (4, 0) and radius 4 to the line x = 2. *)
Example C126_example :
  let P := (fz 0, fz 0) in let c := Circle64 (fz 3, fz 0) (fz 1) in let d := Circle64 (fz 4, fz 0) (fz 4) in
  on_grid2 0 20000 P /\ on_grid2 0 20000 (c64_center c) /\ on_grid 0 1048576 (c64_radius c) /\ fin (fz 16) /\ bp (-400) <= Rabs (SF2R (fz 16)) <= bp 400 /\
  ~ on_circle (P2R (c64_center c)) (SF2R (c64_radius c)) (P2R P) /\ on_circle (P2R (c64_center d)) (SF2R (c64_radius d)) (P2R P) /\
  invert_circle64 Separate P (fz 16) c = Ok (GC64 (Circle64 (fz 6, fz 0) (fz 2))) /\
  invert_circle64 Separate P (fz 16) d = Ok (GL64 (fz 2, fz 0) (fz 2, fz (-2))).
Proof.
  intros P c d. destruct (fz_ok 16 ltac:(lia)) as (F & E). cbn [c d P c64_center c64_radius]. rewrite E, (proj2 (fz_ok 1 ltac:(lia))), (proj2 (fz_ok 4 ltac:(lia))), !fz_P2R by lia.
  split; [apply fz_grid2; lia|]. split; [apply fz_grid2; lia|]. split; [apply fz_grid; lia|]. split; [exact F|]. split.
  { rewrite Rabs_right by lra. split; [apply Rle_trans with (bp 0); [apply bp_le; lia|rewrite bp_0; lra]|apply Rle_trans with (bp 4); [rewrite bp_IZR by lia; cbn; lra|apply bp_le; lia]]. }
  unfold P. rewrite !fz_P2R by lia. split; [rewrite on_circle_sq by lra; unspec; lra|]. split; [apply on_circle_sq; [lra|]; unspec; lra|]. split; vm_compute; reflexivity.
Qed.
