(** * C107: the ellipse through four boundary points. *)

From Coq Require Import Reals List Permutation.
From Verif Require Import Base Spec SpecBoundary4 ModelInternal ModelLine ModelCircle ModelAffine ModelEllipse ModelBoundary4
  PEllipse6 PBoundary4d PBoundary4e.
Import ListNotations.
Local Open Scope R_scope.

(** four points in convex position, given in any order, where [np.float] exists: an
    ellipse through the four points, of least area among them, and the only one *)
Theorem C107_smallest_through_four argsort roots eigh P1 P2 P3 P4 :
  is_argsort argsort -> is_roots roots -> (forall S, is_eigh S (eigh S)) -> convex_position P1 P2 P3 P4 ->
  exists e, from_boundary4 true argsort roots eigh P1 P2 P3 P4 = Ok e /\ 0 < eb e <= ea e /\
  let th := radians (edeg e) (ealpha e) in
  Forall (on_ellipse (eO e) (ea e) (eb e) th) [P1; P2; P3; P4] /\
  forall O a b th', 0 < a -> 0 < b -> Forall (on_ellipse O a b th') [P1; P2; P3; P4] ->
    ea e * eb e <= a * b /\
    (ea e * eb e = a * b -> forall M, on_ellipse O a b th' M <-> on_ellipse (eO e) (ea e) (eb e) th M).
Proof. exact (boundary4_smallest_set argsort roots eigh P1 P2 P3 P4). Qed.
Print Assumptions C107_smallest_through_four.

(** without [np.float] no call returns, whatever the points *)
Theorem C107_numpy_without_float argsort roots eigh P1 P2 P3 P4 : is_argsort argsort ->
  (exists x, from_boundary4 false argsort roots eigh P1 P2 P3 P4 = Raise (b4_raise x)) /\
  (convex_position P1 P2 P3 P4 -> from_boundary4 false argsort roots eigh P1 P2 P3 P4 = Raise AttributeError).
Proof. exact (boundary4_new argsort roots eigh P1 P2 P3 P4). Qed.
Print Assumptions C107_numpy_without_float.

(** any four points no three of which are on a line: LinAlgError, only when two of the
    lines joining them are parallel, or an ellipse through three of them at least *)
Theorem C107_general_position argsort roots eigh P1 P2 P3 P4 :
  is_argsort argsort -> is_roots roots -> (forall S, is_eigh S (eigh S)) -> no_three_collinear P1 P2 P3 P4 ->
  ((exists A B C D, Permutation [P1; P2; P3; P4] [A; B; C; D] /\ parallel (vsub C A) (vsub D B)) /\
    from_boundary4 true argsort roots eigh P1 P2 P3 P4 = Raise LinAlgError) \/
  (exists e A B C D, from_boundary4 true argsort roots eigh P1 P2 P3 P4 = Ok e /\ 0 < eb e <= ea e /\
    Permutation [P1; P2; P3; P4] [A; B; C; D] /\
    Forall (on_ellipse (eO e) (ea e) (eb e) (radians (edeg e) (ealpha e))) [A; B; C]).
Proof. exact (boundary4_general argsort roots eigh P1 P2 P3 P4). Qed.
Print Assumptions C107_general_position.

(** a point inside the triangle of the three others: no ellipse passes through the four ... *)
Theorem C107_inside_no_ellipse P1 P2 P3 P4 : one_inside P1 P2 P3 P4 -> forall O a b th, 0 < a -> 0 < b ->
  ~ Forall (on_ellipse O a b th) [P1; P2; P3; P4].
Proof. exact (not_through P1 P2 P3 P4). Qed.
Print Assumptions C107_inside_no_ellipse.

(** ... but the call does not fail: "an ellipse that passes through the four points" is
    false of points that are not in convex position *)
Theorem C107_passes_through_refuted argsort roots eigh : is_argsort argsort -> is_roots roots -> (forall S, is_eigh S (eigh S)) ->
  exists P1 P2 P3 P4 e, no_three_collinear P1 P2 P3 P4 /\ from_boundary4 true argsort roots eigh P1 P2 P3 P4 = Ok e /\
  ~ Forall (on_ellipse (eO e) (ea e) (eb e) (radians (edeg e) (ealpha e))) [P1; P2; P3; P4].
Proof. exact (boundary4_not_through argsort roots eigh). Qed.
Print Assumptions C107_passes_through_refuted.

(** the assumptions about numpy can be met together, and there are such points *)
Example C107_oracle_example : (exists argsort, is_argsort argsort) /\ (exists roots, is_roots roots) /\
  (exists eigh : mat2 -> eigh_res, forall S, is_eigh S (eigh S)).
Proof. exact (conj argsort_exists (conj roots_exist eigh_exists)). Qed.

Example C107_example_convex : convex_position (0, 2) (1, 0) (0, -1) (-3, 0).
Proof. exact ex_convex. Qed.

Example C107_example_inside : one_inside (0, 0) (4, 0) (0, 4) (1, 1) /\ no_three_collinear (0, 0) (4, 0) (0, 4) (1, 1) /\
  no_two_parallel (0, 0) (4, 0) (0, 4) (1, 1).
Proof. exact ex_inside. Qed.
