(** * C129: reflections in binary64 *)

From Coq Require Import Reals ZArith Lia Lra Bool SpecFloat.
From Verif Require Import SpecF64 SpecFloatInv Base Spec SpecLemmas ModelFloat ModelFloatInter ModelFloatAxis ModelFloatRefl PFloat PFloat3 PFloatEx PFloatRefl.
Local Open Scope R_scope.

(** X is the foot of the perpendicular, of which the foot h used by the code is the rounding. The
    points of the line are left unchanged; the image of another point is accurate, unless an error
    is raised because h and the point are close. This does not happen for integers up to 150. *)
Theorem C129_reflection m1 m2 N A B M : (N <= 2800)%Z -> on_grid2 0 N A -> on_grid2 0 N B -> on_grid2 0 N M -> P2R A <> P2R B ->
  (on_line (P2R A) (P2R B) (P2R M) -> reflect64 m1 m2 A B M = Ok M) /\
  (~ on_line (P2R A) (P2R B) (P2R M) -> exists h w X, on_line (P2R A) (P2R B) X /\ orthogonal (vsub X (P2R M)) (vsub (P2R B) (P2R A)) /\
     rounds (fst h) (fst X) /\ rounds (snd h) (snd X) /\
     near_image 10 (bp (-1070)) (P2R M) (vsub (vscal 2 X) (P2R M)) w /\
     (reflect64 m1 m2 A B M = Ok w \/ allclose64 h M = true /\ reflect64 m1 m2 A B M = Raise ValueError) /\ ((N <= 150)%Z -> allclose64 h M = false)).
Proof. exact (reflect64_gen m1 m2 A B M N). Qed.
Print Assumptions C129_reflection.

(** Line.perpendicular: through a point of the line, the second point is exact; from another point,
    the first point is the foot of the perpendicular rounded once. *)
Theorem C129_perpendicular m1 m2 A B M : on_grid2 0 2800 A -> on_grid2 0 2800 B -> on_grid2 0 2800 M -> P2R A <> P2R B ->
  (on_line (P2R A) (P2R B) (P2R M) -> exists Q, perpendicular64 m1 m2 A B M = Ok (M, Q) /\ fin2 Q /\ orthogonal (vsub (P2R Q) (P2R M)) (vsub (P2R B) (P2R A)) /\ dist (P2R M) (P2R Q) = dist (P2R A) (P2R B)) /\
  (~ on_line (P2R A) (P2R B) (P2R M) -> exists h X, on_line (P2R A) (P2R B) X /\ orthogonal (vsub X (P2R M)) (vsub (P2R B) (P2R A)) /\
     rounds (fst h) (fst X) /\ rounds (snd h) (snd X) /\ perpendicular64 m1 m2 A B M = if allclose64 h M then Raise ValueError else Ok (h, M)).
Proof. exact (perpendicular64_gen m1 m2 A B M). Qed.
Print Assumptions C129_perpendicular.

(** It is not true that every point has an image: an error is raised for the point (2001, 2001)
    and the line through (2000, 2000) and (2100, 2099). *)
Theorem C129_reflection_refuted m1 m2 : exists A B M, on_grid2 0 2100 A /\ on_grid2 0 2100 B /\ on_grid2 0 2100 M /\ P2R A <> P2R B /\
  reflect64 m1 m2 A B M = Raise ValueError.
Proof. exact (reflect64_raises m1 m2). Qed.
Print Assumptions C129_reflection_refuted.

(** The point (5, 0) and the line y = 2 x: the image is (-3, 4). *)
Example C129_example : let A := (fz 0, fz 0) in let B := (fz 1, fz 2) in let M := (fz 5, fz 0) in
  on_grid2 0 150 A /\ on_grid2 0 150 B /\ on_grid2 0 150 M /\ P2R A <> P2R B /\ ~ on_line (P2R A) (P2R B) (P2R M) /\ on_line (P2R A) (P2R B) (P2R (fz 2, fz 4)) /\
  exists w, reflect64 Separate FmaFirst A B M = Ok w /\ P2R w = (-3, 4).
Proof.
  assert (E : P2R (fz 0, fz 0) <> P2R (fz 1, fz 2)) by (rewrite !fz_P2R by lia; intros Q; injection Q as Q; lra).
  cbn zeta. do 3 (split; [apply fz_grid2; lia|]). split; [exact E|]. split; [rewrite on_line_cross by exact E; rewrite !fz_P2R by lia; unspec; lra|].
  split; [rewrite on_line_cross by exact E; rewrite !fz_P2R by lia; unspec; lra|].
  exists (fz (-3), fz 4). split; [vm_compute; reflexivity|]. rewrite !fz_P2R by lia. reflexivity.
Qed.
