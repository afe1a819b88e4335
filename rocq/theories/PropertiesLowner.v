(** * The smallest ellipse containing points, where numpy has np.float. *)

From Coq Require Import Reals List Permutation.
From Verif Require Import Base Spec SpecBoundary4 SpecLowner ModelInternal ModelCircle ModelAffine ModelEllipse ModelBoundary4 ModelLowner
  PLowner5 PLowner6 PLowner7.
Import ListNotations.
Local Open Scope R_scope.

(** ** C108 *)

(** the ellipse returned contains the points, no other ellipse containing them has an area as small *)
Theorem C108_smallest argsort roots eigh eigvals ch points e :
  is_argsort argsort -> is_roots roots -> (forall S, is_eigh S (eigh S)) -> (forall M, is_eigvals M (eigvals M)) ->
  (forall O a b th, through_five points O a b th -> not_diagonal a b th) ->
  LownerJohn_full true argsort roots eigh eigvals ch points = Ok (Some e) ->
  0 < eb e <= ea e /\ smallest_enclosing (eO e) (ea e) (eb e) (radians (edeg e) (ealpha e)) points.
Proof. intros H1 H2 H3 H4. exact (full_smallest argsort roots eigh eigvals ch H1 H2 H3 H4 points e). Qed.
Print Assumptions C108_smallest.

(** no ellipse if and only if there are fewer than three points; the only exceptions *)
Theorem C108_none_and_exceptions argsort roots eigh eigvals ch points :
  is_argsort argsort -> is_roots roots -> (forall S, is_eigh S (eigh S)) -> (forall M, is_eigvals M (eigvals M)) ->
  (forall O a b th, through_five points O a b th -> not_diagonal a b th) ->
  (LownerJohn_full true argsort roots eigh eigvals ch points = Ok None <-> (length points < 3)%nat) /\
  (forall x, LownerJohn_full true argsort roots eigh eigvals ch points = Raise x ->
     (x = LinAlgError /\ exists A B C l, Permutation points (A :: B :: C :: l) /\ collinear A B C) \/
     (x = ValueError /\ exists O a b th, through_five points O a b th /\ a ^ 2 + b ^ 2 <= dist2 (0, 0) O)).
Proof. intros H1 H2 H3 H4. exact (full_cases argsort roots eigh eigvals ch H1 H2 H3 H4 points). Qed.
Print Assumptions C108_none_and_exceptions.

(** whatever the random draws, an ellipse is returned *)
Theorem C108_returns argsort roots eigh eigvals ch points :
  is_argsort argsort -> is_roots roots -> (forall S, is_eigh S (eigh S)) -> (forall M, is_eigvals M (eigvals M)) ->
  (3 <= length points)%nat -> no_three_aligned points ->
  (forall O a b th, through_five points O a b th -> not_diagonal a b th /\ dist2 (0, 0) O < a ^ 2 + b ^ 2) ->
  exists e, LownerJohn_full true argsort roots eigh eigvals ch points = Ok (Some e).
Proof. intros H1 H2 H3 H4. exact (full_returns argsort roots eigh eigvals ch H1 H2 H3 H4 points). Qed.
Print Assumptions C108_returns.

(** points required on the boundary *)
Theorem C108_boundary_points argsort roots eigh eigvals ch ip bp e :
  is_argsort argsort -> is_roots roots -> (forall S, is_eigh S (eigh S)) -> (forall M, is_eigvals M (eigvals M)) ->
  (length bp <= 5)%nat -> NoDup bp ->
  (forall O a b th, through_five (ip ++ bp) O a b th -> not_diagonal a b th) ->
  (exists O a b th, 0 < a /\ 0 < b /\ Forall (in_ellipse O a b th) ip /\ Forall (on_ellipse O a b th) bp) ->
  lowner_full true argsort roots eigh eigvals ch (length ip) [] ip bp = Ok (Some e) ->
  0 < eb e <= ea e /\ Forall (in_ellipse (eO e) (ea e) (eb e) (radians (edeg e) (ealpha e))) ip /\
  Forall (on_ellipse (eO e) (ea e) (eb e) (radians (edeg e) (ealpha e))) bp /\
  forall O a b th, 0 < a -> 0 < b -> Forall (in_ellipse O a b th) ip -> Forall (on_ellipse O a b th) bp -> PI * ea e * eb e <= PI * a * b.
Proof. intros H1 H2 H3 H4. exact (full_boundary argsort roots eigh eigvals ch H1 H2 H3 H4 ip bp e). Qed.
Print Assumptions C108_boundary_points.

Theorem C108_three_aligned argsort roots eigh eigvals ch A B C :
  is_argsort argsort -> is_roots roots -> (forall S, is_eigh S (eigh S)) -> (forall M, is_eigvals M (eigvals M)) ->
  collinear A B C -> LownerJohn_full true argsort roots eigh eigvals ch [A; B; C] = Raise LinAlgError.
Proof. intros H1 H2 H3 H4. exact (full_aligned argsort roots eigh eigvals ch H1 H2 H3 H4 A B C). Qed.
Print Assumptions C108_three_aligned.

(** the corners of a rectangle (an exception where numpy has no np.float: C31_rectangle_refuted) *)
Theorem C108_rectangle argsort roots eigh eigvals ch u v :
  is_argsort argsort -> is_roots roots -> (forall S, is_eigh S (eigh S)) -> (forall M, is_eigvals M (eigvals M)) -> 0 < u -> 0 < v ->
  exists e, LownerJohn_full true argsort roots eigh eigvals ch [(u, v); (- u, v); (- u, - v); (u, - v)] = Ok (Some e) /\ ea e * eb e = 2 * u * v.
Proof. intros H1 H2 H3 H4. exact (full_rectangle argsort roots eigh eigvals ch H1 H2 H3 H4 u v). Qed.
Print Assumptions C108_rectangle.

(** five points of a circle of radius 1: an exception as soon as the centre is at a distance sqrt 2 from the origin,
    the circle when it is nearer *)
Theorem C108_five_points_refuted argsort roots eigh eigvals ch O :
  is_argsort argsort -> is_roots roots -> (forall S, is_eigh S (eigh S)) -> (forall M, is_eigvals M (eigvals M)) ->
  let points := [(fst O + 1, snd O); (fst O + 5 / 13, snd O + 12 / 13); (fst O - 4 / 5, snd O + 3 / 5);
                 (fst O - 4 / 5, snd O - 3 / 5); (fst O + 5 / 13, snd O - 12 / 13)] in
  (2 <= dist2 (0, 0) O -> LownerJohn_full true argsort roots eigh eigvals ch points = Raise ValueError) /\
  (dist2 (0, 0) O < 2 -> exists e, LownerJohn_full true argsort roots eigh eigvals ch points = Ok (Some e) /\ eO e = O /\ ea e = 1 /\ eb e = 1).
Proof. intros H1 H2 H3 H4. exact (full_penta argsort roots eigh eigvals ch H1 H2 H3 H4 O). Qed.
Print Assumptions C108_five_points_refuted.

(** where numpy has no np.float the program is the one of C31, for every list of points and all draws *)
Theorem C108_without_np_float argsort roots eigh eigvals : is_argsort argsort -> exists b4, forall ch points,
  LownerJohn_full false argsort roots eigh eigvals ch points = LownerJohnEllipse eigh eigvals b4 ch points.
Proof. exact (full_false argsort roots eigh eigvals). Qed.
Print Assumptions C108_without_np_float.

Example C108_oracles : exists argsort roots eigh eigvals, is_argsort argsort /\ is_roots roots /\
  (forall S, is_eigh S (eigh S)) /\ (forall M, is_eigvals M (eigvals M)).
Proof. exact oracles. Qed.
