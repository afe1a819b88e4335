(** * C100: the pictures of the scripts HyperbolicTesselation.py and HyperbolicTesselation2.py. *)

From Coq Require Import Reals List Bool Arith Lia Lra.
From Verif Require Import Base BaseLemmas Spec SpecHyperbolic ModelInternal ModelLine ModelCircle ModelInversion ModelHyperbolic PHyp1 PHyp2 PHyp3 PHyp4 PHyp5 PHypEx.
Import ListNotations.
Local Open Scope R_scope.

(** the arcs drawn: how many, the points they join, and where these points come from *)
Theorem C100_arcs : forall r t0 t1 t2 depth pic A0, 0 < r -> (2 <= depth)%nat -> hyperbolic_tessellation r t0 t1 t2 depth = Ok pic ->
  length pic = depth /\
  (exists ps : nat -> list pt, ps 0%nat = [vscal r (cos t0, sin t0); vscal r (cos t1, sin t1); vscal r (cos t2, sin t2)] /\ (forall d, (d < depth)%nat ->
     incl (ps d) (ps (Datatypes.S d)) /\ Forall (on_circle (0, 0) r) (ps d) /\
     (forall P, In P (ps d) <-> In P (ps 0%nat) \/ exists e i M, (1 <= e <= d)%nat /\ mirrored (nth 0 pic []) [(cos t0, sin t0); (cos t1, sin t1); (cos t2, sin t2)] e i M /\ seen_at r M P) /\
     length (ps d) = (3 * 2 ^ d)%nat /\ length (nth d pic []) = (3 * 2 ^ d)%nat /\
     forall i, (i < 3 * 2 ^ d)%nat -> joins (nth i (nth d pic []) A0) (nth i (ps d) (0, 0)) (nth ((i + 1) mod (3 * 2 ^ d)) (ps d) (0, 0)))) /\
  Forall (hyperbolic_line r) (concat pic) /\
  forall A B, In A (concat pic) -> In B (concat pic) -> do_not_cross r A B.
Proof. exact hyperbolic_picture. Qed.
Print Assumptions C100_arcs.

(** the images of the three points of the unit circle: inside the circle when it is larger, on the circle when it is the unit circle, and
    then they are the ends of the arcs *)
Theorem C100_images : forall r t0 t1 t2 depth pic d i M, 0 < r -> (2 <= depth)%nat -> hyperbolic_tessellation r t0 t1 t2 depth = Ok pic ->
  mirrored (nth 0 pic []) [(cos t0, sin t0); (cos t1, sin t1); (cos t2, sin t2)] d i M ->
  (1 < r -> dist (0, 0) M < r) /\ (r = 1 -> dist (0, 0) M = 1 /\ forall P, seen_at r M P <-> P = M).
Proof. exact hyperbolic_images. Qed.
Print Assumptions C100_images.

(** with the radius 3 of the scripts the picture is not kept by the inversions in its sides: the image of a vertex is the end of no arc *)
Theorem C100_reflection_refuted : exists t0 t1 t2 pic A P, hyperbolic_tessellation 3 t0 t1 t2 2 = Ok pic /\ In A (nth 0 pic []) /\
  In P [vscal 3 (cos t0, sin t0); vscal 3 (cos t1, sin t1); vscal 3 (cos t2, sin t2)] /\ P <> aO A /\
  forall B Q R, In B (nth 1 pic []) -> joins B Q R -> Q <> inv_pt (aO A) (ar A ^ 2) P.
Proof. exact reflection_fails. Qed.
Print Assumptions C100_reflection_refuted.

(** no picture when a side would be a diameter or two vertices are the same *)
Theorem C100_diameter : forall r t0 t1 t2 depth pic, 0 < r -> hyperbolic_tessellation r t0 t1 t2 depth = Ok pic ->
  sin (t0 - t1) <> 0 /\ sin (t1 - t2) <> 0 /\ sin (t2 - t0) <> 0.
Proof. exact hyperbolic_diameter. Qed.
Print Assumptions C100_diameter.

(** the second script *)
Theorem C100_second : forall r t0 t1 t2 depth pic, 0 < r -> (2 <= depth)%nat -> hyperbolic_tessellation2 r t0 t1 t2 depth = Ok pic ->
  length pic = (3 * (2 ^ (depth - 1) - 1))%nat /\ Forall (fun Ad => hyperbolic_line r (fst Ad) /\ (1 <= snd Ad < depth)%nat) pic /\
  forall A d B e, In (A, d) pic -> In (B, e) pic -> do_not_cross r A B.
Proof. exact hyperbolic_picture2. Qed.
Print Assumptions C100_second.

(** it draws the arcs of the first one, the last generation excepted *)
Theorem C100_second_first : forall r t0 t1 t2 depth pic, (2 <= depth)%nat -> hyperbolic_tessellation r t0 t1 t2 depth = Ok pic ->
  hyperbolic_tessellation2 r t0 t1 t2 depth = Ok (concat (map (fun d => map (fun A => (A, Datatypes.S d)) (nth d pic [])) (seq 0 (depth - 1)))).
Proof. exact second_first. Qed.
Print Assumptions C100_second_first.

(** two pictures, with the radius of the scripts and with the unit circle *)
Example C100_example : (exists pic A0 A1 A2, hyperbolic_tessellation 3 0 (PI / 2) (atan2 (- (3 / 5)) (- (4 / 5))) 2 = Ok pic /\ nth 0 pic [] = [A0; A1; A2] /\
    aO A0 = (3, 3) /\ ar A0 ^ 2 = 9 /\ aO A1 = (-6, 3) /\ ar A1 ^ 2 = 36 /\ aO A2 = (3, -9) /\ ar A2 ^ 2 = 81) /\
  exists pic, hyperbolic_tessellation 1 0 (PI / 2) (atan2 (- (3 / 5)) (- (4 / 5))) 2 = Ok pic.
Proof. split; [exact ex3|exact ex1]. Qed.
