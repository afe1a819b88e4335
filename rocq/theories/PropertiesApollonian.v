(** * Gaskets made by inversions: examples/ApollonianGasket.py *)

From Coq Require Import Reals List ZArith.
From Verif Require Import Base Spec SpecTriangle SpecGasket SpecApollonian ModelInternal ModelLine ModelCircle ModelTriangle ModelEllipse ModelInversion ModelApollonian PApo6 PApoEx PApoAnim.
Import ListNotations.
Local Open Scope R_scope.

(** ** C96, the Apollonian gasket *)
Theorem C96_apollonian_gasket c0 n phi shift depth gens : (3 <= n)%Z -> 0 < cr c0 -> Rabs phi < 1 -> (2 <= depth)%nat ->
  apollonian_gasket c0 n phi shift depth = Ok gens ->
  let m := Z.to_nat n in
  length gens = depth /\ length (nth 0 gens []) = (m + 1)%nat /\
  (forall i, (1 <= i < depth)%nat -> length (nth i gens []) = (m ^ i * (m - 1))%nat) /\
  Forall (fun c => 0 < cr c /\ disc_in_disc c c0) (concat gens) /\
  ForallOrdPairs not_overlapping (concat gens) /\
  forall i c, In c (nth i gens []) -> touches_three_in c0 (concat (firstn (S i) gens)) c.
Proof. exact (apollonian_packing c0 n phi shift depth gens). Qed.
Print Assumptions C96_apollonian_gasket.

(** the program succeeds for every depth *)
Theorem C96_apollonian_total c0 n phi shift depth cs ell (iota : nat -> inversion) : (3 <= n)%Z -> 0 < cr c0 -> Rabs phi < 1 ->
  SteinerChain c0 n phi shift = Ok (map GC cs, ell) ->
  let m := Z.to_nat n in
  (forall i, (i < m)%nat -> from_fixing_three_circles c0 (nth i cs c0) (nth (S i mod m) cs c0) = Ok (iota i)) ->
  (forall i, (i < m)%nat -> (cr c0 + 1) / 4096 <= cr (nth i cs c0) * cr (nth (S i mod m) cs c0)) ->
  sepsilon_ <= cr (nth m cs c0) * cr (nth m cs c0) ->
  exists gens, apollonian_gasket c0 n phi shift depth = Ok gens.
Proof. exact (apollonian_total c0 n phi shift depth cs ell iota). Qed.
Print Assumptions C96_apollonian_total.

(** the values of the example succeed for every depth *)
Theorem C96_apollonian_script depth : exists gens, apollonian_gasket (mkCircle (0, 0) 3) 3 (1 / 4) 0 depth = Ok gens.
Proof. exact (ex_C96 depth). Qed.
Print Assumptions C96_apollonian_script.

(** in which positions of the chain the gasket exists *)
Theorem C96_apollonian_positions R0 n phi shift depth : (3 <= n <= 6)%nat -> 2 <= R0 <= 10 -> 0 < Rabs phi <= 2 / 5 ->
  (exists gens, apollonian_gasket (mkCircle (0, 0) R0) (Z.of_nat n) phi shift depth = Ok gens) <->
  forall i, (i < n)%nat -> 2 * phi * cos ((2 * (INR i + shift) + 1) * PI / INR n) <> (1 + phi * phi) * cos (PI / INR n).
Proof. intros Hn HR Hf. exact (apo_iff R0 phi shift n Hn HR Hf depth). Qed.
Print Assumptions C96_apollonian_positions.

(** the animation: every picture exists, whatever the shifts, and the pictures loop *)
Theorem C96_animation depth shifts : (2 <= depth)%nat ->
  exists pics, apollonian_animation (mkCircle (0, 0) 3) 3 (1 / 4) depth shifts = Ok pics /\ length pics = length shifts /\
  forall k, (k < length shifts)%nat -> apollonian_gasket (mkCircle (0, 0) 3) 3 (1 / 4) (nth k shifts 0) depth = Ok (nth k pics []).
Proof. exact (apo_animation depth shifts). Qed.
Print Assumptions C96_animation.

Theorem C96_animation_loops c0 n phi shift depth : apollonian_gasket c0 n phi (shift + IZR n) depth = apollonian_gasket c0 n phi shift depth.
Proof. exact (apo_period c0 n phi shift depth). Qed.
Print Assumptions C96_animation_loops.

(** for other values of phi a picture of the animation can be missing *)
Theorem C96_every_position_refuted : exists phi shift, 0 < Rabs phi < 1 /\
  forall depth, (2 <= depth)%nat -> forall gens, apollonian_gasket (mkCircle (0, 0) 3) 3 phi shift depth <> Ok gens.
Proof. exact apo_not_total_ex. Qed.
Print Assumptions C96_every_position_refuted.

Example C96_example : (3 <= 3)%Z /\ 0 < cr (mkCircle (0, 0) 3) /\ Rabs (1 / 4) < 1 /\
  exists gens, apollonian_gasket (mkCircle (0, 0) 3) 3 (1 / 4) 0 5 = Ok gens.
Proof. exact ex_C96_hyps. Qed.
