(** * Gaskets made by inversions: examples/MalfattiApollonian.py *)

From Coq Require Import Reals List.
From Verif Require Import Base Spec SpecTriangle SpecGasket SpecApollonian ModelInternal ModelLine ModelCircle ModelTriangle ModelInversion ModelApollonian PMalApo1 PMalApo4 PMalApo5 PMalApoEx.
Import ListNotations.
Local Open Scope R_scope.

(** ** C97, the outer Soddy circle and the Malfatti gasket *)
Theorem C97_soddy_outer c1 c2 c3 : 0 < cr c1 -> 0 < cr c2 -> 0 < cr c3 ->
  circles_touch c1 c2 -> circles_touch c2 c3 -> circles_touch c1 c3 ->
  let T := mkTri (cO c1) (cO c2) (cO c3) in
  let q := outer_curvature (cr c1) (cr c2) (cr c3) in
  (q = 0 -> soddyOuterCircle T = Raise NonFinite) /\
  (q < 0 -> exists co, soddyOuterCircle T = Ok co /\ 0 < cr co /\ cr co = - / q /\
     forall c, In c [c1; c2; c3] -> touches_inside c co) /\
  (0 < q -> exists co, soddyOuterCircle T = Ok co /\ 0 < cr co /\ cr co = / q /\
     forall c, In c [c1; c2; c3] -> circles_touch co c).
Proof. exact (soddy_outer c1 c2 c3). Qed.
Print Assumptions C97_soddy_outer.

Theorem C97_malfatti_gasket A B C depth Mc gens : ~ collinear A B C ->
  malfatti_apollonian (mkTri A B C) depth = Ok (Mc, gens) ->
  exists c1 c2 c3 co T, malfatti_circles (mkTri A B C) = Ok (Some ((c1, c2, c3), T)) /\ Mc = [c1; c2; c3; co] /\
  0 < cr co /\ Forall (fun c => touches_inside c co) [c1; c2; c3] /\
  length gens = S depth /\ (forall i, (i <= depth)%nat -> length (nth i gens []) = (4 * 3 ^ i)%nat) /\
  let all := [c1; c2; c3] :: gens in
  Forall (fun c => 0 < cr c /\ disc_in_disc c co) (concat all) /\
  ForallOrdPairs not_overlapping (concat all) /\
  forall i c, In c (nth i all []) -> touches_three_in co (concat (firstn (S i) all)) c.
Proof. exact (malapo_packing A B C depth Mc gens). Qed.
Print Assumptions C97_malfatti_gasket.

(** the program moves the triangle so that the outer circle is the unit circle *)
Theorem C97_script_normalised A B C depth Mc gens : ~ collinear A B C ->
  malfatti_script A B C depth = Ok (Mc, gens) ->
  exists A' B' C', ~ collinear A' B' C' /\ malfatti_apollonian (mkTri A' B' C') depth = Ok (Mc, gens) /\
  nth_error Mc 3 = Some (mkCircle (0, 0) 1).
Proof. exact (script_normal A B C depth Mc gens). Qed.
Print Assumptions C97_script_normalised.

(** when it succeeds *)
Theorem C97_script_success A B C depth c1 c2 c3 co T : ~ collinear A B C ->
  malfatti_circles (mkTri A B C) = Ok (Some ((c1, c2, c3), T)) ->
  soddyOuterCircle (mkTri (cO c1) (cO c2) (cO c3)) = Ok co ->
  Forall (fun c => cr co <= 20 * cr c) [c1; c2; c3] ->
  (exists Mc gens, malfatti_script A B C depth = Ok (Mc, gens)) <->
  cr c2 + cr c3 <> cr co /\ cr c1 + cr c3 <> cr co /\ cr c1 + cr c2 <> cr co.
Proof. exact (script_iff A B C depth c1 c2 c3 co T). Qed.
Print Assumptions C97_script_success.

(** the triangle of the program *)
Theorem C97_script depth : exists Mc gens, malfatti_script (0, 0) (1, 0) (1, sqrt 3 / 2) depth = Ok (Mc, gens).
Proof. exact (ex_C97 depth). Qed.
Print Assumptions C97_script.

(** a triangle it cannot treat *)
Theorem C97_script_refuted : exists A B C, ~ collinear A B C /\ forall depth,
  malfatti_apollonian (mkTri A B C) depth = Raise ValueError /\ malfatti_script A B C depth = Raise ValueError.
Proof. exact ex_C97_fails. Qed.
Print Assumptions C97_script_refuted.

Example C97_example : ~ collinear (0, 0) (1, 0) (1, sqrt 3 / 2) /\
  (exists Mc gens, malfatti_script (0, 0) (1, 0) (1, sqrt 3 / 2) 3 = Ok (Mc, gens)) /\
  outer_curvature 1 1 1 < 0 /\ 0 < outer_curvature 1 1 (1 / 9) /\ outer_curvature 1 1 (1 / 4) = 0.
Proof. exact ex_C97_hyps. Qed.
