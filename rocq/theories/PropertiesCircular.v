(** * C102: circles packed in the Malfatti circles of a triangle (examples/triangularCircularGasket.py). *)

From Coq Require Import Reals List Bool.
From Verif Require Import Base Spec SpecTriangle SpecGasket SpecApollonian ModelCircle ModelTriangle ModelGasket ModelCircular PCirc5 PCirc7 PCirc8 PCircEx.
Import ListNotations.
Local Open Scope R_scope.

(** what is drawn in one circle *)
Theorem C102_circular_gasket c0 n depth phi shift gens : (3 <= n)%nat -> 0 < cr c0 -> (1 <= depth)%nat ->
  drawCircularGasket c0 n depth phi shift = Ok gens ->
  length gens = depth /\ length (nth 0 gens []) = (n + 1)%nat /\
  (forall i, (1 <= i < depth)%nat -> length (nth i gens []) = (n ^ i * (n - 1))%nat) /\
  Forall (fun c => 0 < cr c /\ disc_in_disc c c0) (concat gens) /\
  ForallOrdPairs not_overlapping (concat gens) /\
  forall i c, In c (nth i gens []) -> touches_three_in c0 (concat (firstn (S i) gens)) c.
Proof. exact (circular_packing c0 n depth phi shift gens). Qed.
Print Assumptions C102_circular_gasket.

(** when the program succeeds: no wall is a line *)
Theorem C102_circular_success c0 n depth phi shift : (3 <= n)%nat -> 0 < cr c0 -> (2 <= depth)%nat -> 0 < Rabs phi < 1 ->
  let R0 := cr c0 in let f := Rabs phi in let s := sin (PI / INR n) in
  let m := R0 * (s * (1 - f)) / (s * (1 - f) + (1 + f)) in let r := R0 * ((1 - s) / (1 + s)) * (1 - phi * phi) in
  sepsilon_ <= (R0 / f - R0) * (R0 / f - R0) ->
  / 100000000 + / 100000 * (Rabs (fst (cO c0)) + Rabs (snd (cO c0)) + R0) < (R0 / f - R0) * / 2 ->
  (R0 + 1) / 4096 <= m * m -> sepsilon_ <= r * r ->
  (exists gens, drawCircularGasket c0 n depth phi shift = Ok gens) <->
  forall i, (i < n)%nat -> 2 * phi * cos ((2 * (INR i + INR n * shift) + 1) * PI / INR n) <> (1 + phi * phi) * cos (PI / INR n).
Proof. exact (circular_iff c0 n depth phi shift). Qed.
Print Assumptions C102_circular_success.

(** values of phi for which no wall is ever a line, as those of the program and of its animation:
    every depth, every shift *)
Theorem C102_circular_every_shift c0 n depth phi shift : (3 <= n <= 6)%nat -> (1 <= depth)%nat -> 0 < Rabs phi <= 2 / 5 ->
  2 * Rabs phi < (1 + phi * phi) * cos (PI / INR n) ->
  1 / 4 <= cr c0 -> Rabs (fst (cO c0)) + Rabs (snd (cO c0)) <= 1000 ->
  exists gens, drawCircularGasket c0 n depth phi shift = Ok gens.
Proof. exact (good_total c0 n depth phi shift). Qed.
Print Assumptions C102_circular_every_shift.

(** a value of phi near that of the program for which it fails *)
Theorem C102_circular_total_refuted : exists c0 n phi shift, (3 <= n)%nat /\ 0 < cr c0 /\ 0 < Rabs phi < 1 /\
  forall depth gens, (2 <= depth)%nat -> drawCircularGasket c0 n depth phi shift <> Ok gens.
Proof. exact circular_refuted. Qed.
Print Assumptions C102_circular_total_refuted.

(** the whole picture *)
Theorem C102_circular_picture A B C depth n1 n2 n3 depth2 phi1 phi2 phi3 shift l cA cB cC T : ~ collinear A B C ->
  (3 <= n1)%nat -> (3 <= n2)%nat -> (3 <= n3)%nat -> (1 <= depth2)%nat ->
  malfatti_circles (mkTri A B C) = Ok (Some ((cA, cB, cC), T)) ->
  circular_picture A B C depth n1 n2 n3 depth2 phi1 phi2 phi3 shift = Ok l ->
  Forall (fun c => 0 < cr c) l /\ Forall (disc_in_triangle A B C) l /\ ForallOrdPairs not_overlapping l /\
  (2 * length l + 1 = 7 * 3 ^ S depth + 2 * (n1 ^ depth2 + n2 ^ depth2 + n3 ^ depth2))%nat /\
  forall c, In c l -> touches_three A B C ([cA; cB; cC] ++ l) c \/
    touches_three_in cA l c \/ touches_three_in cB l c \/ touches_three_in cC l c.
Proof. exact (picture_spec A B C depth n1 n2 n3 depth2 phi1 phi2 phi3 shift l cA cB cC T). Qed.
Print Assumptions C102_circular_picture.

Example C102_example : (3 <= 3)%nat /\ 0 < cr (mkCircle (0, 0) 3) /\ (2 <= 5)%nat /\ 0 < Rabs (1 / 4) < 1 /\ ~ collinear (0, 0) (4, 0) (0, 3) /\
  (exists gens, drawCircularGasket (mkCircle (0, 0) 3) 3 5 (1 / 4) 0 = Ok gens) /\
  exists l, circular_picture (0, 0) (4, 0) (0, 3) 3 3 4 5 4 (1 / 4) (3 / 10) (2 / 5) 0 = Ok l.
Proof. exact ex_C102. Qed.
