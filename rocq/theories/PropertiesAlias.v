(** * C93: the methods that call another function of the package.  Each statement is
    about the points returned; those of the functions called are C06, C08, C14-C16,
    C34 and C68. *)

From Coq Require Import Reals List Bool String.
From Verif Require Import Base Spec ModelInternal ModelLine ModelCircle ModelEllipse ModelTriangle ModelInversion ModelAffine ModelTransfo ModelAlias
  PLine PCircle PEllipse2 PInversion PTransfo PTransfoEx PAlias.
Import ListNotations.
Local Open Scope R_scope.

(** Line.reflection: also for segments and half-lines the mirror is the whole line *)
Theorem C93_line_reflection l M Q : line_reflection l M = Ok Q ->
  allclose (lA l) M = false -> allclose (lB l) M = false -> mirror (lA l) (lB l) M Q.
Proof. exact (line_reflection_mirror l M Q). Qed.
Print Assumptions C93_line_reflection.

Theorem C93_line_reflection_total l M H : allclose (lA l) (lB l) = false -> on_line (lA l) (lB l) H ->
  orthogonal (vsub M H) (vsub (lB l) (lA l)) -> allclose H M = false -> allclose (lA l) M = false -> allclose (lB l) M = false ->
  exists Q, line_reflection l M = Ok Q /\ Q <> M.
Proof. exact (line_reflection_total l M H). Qed.
Print Assumptions C93_line_reflection_total.

Theorem C93_line_invert l iota c : line_invert l iota = Ok (Some (GC c)) ->
  on_circle (cO c) (cr c) (ipole iota) /\
  forall M, M <> ipole iota -> (on_line (lA l) (lB l) M <-> on_circle (cO c) (cr c) (inv_pt (ipole iota) (ipower iota) M)).
Proof. exact (fun E => proj2 (proj2 (proj2 (invert_line_spec iota l c E)))). Qed.
Print Assumptions C93_line_invert.

(** the common points of a line and a circle, asked of either *)
Theorem C93_line_and_circle l c P Q : lA l <> lB l -> 0 < cr c ->
  line_intersection_with_circle l c = Ok (ITwo P Q) \/ circle_intersection_with_line c l = Ok (ITwo P Q) ->
  P <> Q /\ forall M, (on_line (lA l) (lB l) M /\ on_circle (cO c) (cr c) M) <-> (M = P \/ M = Q).
Proof. exact (line_and_circle l c P Q). Qed.
Print Assumptions C93_line_and_circle.

Theorem C93_line_and_circle_none l c : lA l <> lB l -> 0 < cr c ->
  line_intersection_with_circle l c = Ok INone \/ circle_intersection_with_line c l = Ok INone ->
  forall M, on_line (lA l) (lB l) M -> ~ on_circle (cO c) (cr c) M.
Proof. exact (line_and_circle_none l c). Qed.
Print Assumptions C93_line_and_circle_none.

Theorem C93_line_and_ellipse l e P Q : 0 < ea e -> 0 < eb e ->
  line_intersection_with_ellipse l e = Ok (ITwo P Q) \/ ellipse_intersection_with_line e l = Ok (ITwo P Q) ->
  P <> Q /\ forall M, (on_line (lA l) (lB l) M /\ on_ellipse (eO e) (ea e) (eb e) (radians (edeg e) (ealpha e)) M) <-> (M = P \/ M = Q).
Proof. exact (line_and_ellipse l e P Q). Qed.
Print Assumptions C93_line_and_ellipse.

Theorem C93_line_and_ellipse_none l e : 0 < ea e -> 0 < eb e ->
  line_intersection_with_ellipse l e = Ok INone \/ ellipse_intersection_with_line e l = Ok INone ->
  forall M, on_line (lA l) (lB l) M -> ~ on_ellipse (eO e) (ea e) (eb e) (radians (edeg e) (ealpha e)) M.
Proof. exact (line_and_ellipse_none l e). Qed.
Print Assumptions C93_line_and_ellipse_none.

Theorem C93_two_lines l l2 strict P : lA l <> lB l -> lA l2 <> lB l2 -> line_intersection_with_line l l2 strict = Some P ->
  forall M, (on_line (lA l) (lB l) M /\ on_line (lA l2) (lB l2) M) <-> M = P.
Proof. exact (two_lines l l2 strict P). Qed.
Print Assumptions C93_two_lines.

Theorem C93_two_circles c c2 P Q : 0 < cr c -> 0 < cr c2 -> circle_intersection_with_circle c c2 = Ok (CCPoints (ITwo P Q)) ->
  P <> Q /\ forall M, (on_circle (cO c) (cr c) M /\ on_circle (cO c2) (cr c2) M) <-> (M = P \/ M = Q).
Proof. exact (two_circles c c2 P Q). Qed.
Print Assumptions C93_two_circles.

Theorem C93_two_circles_none c c2 : 0 < cr c -> 0 < cr c2 -> circle_intersection_with_circle c c2 = Ok (CCPoints INone) ->
  forall M, on_circle (cO c) (cr c) M -> ~ on_circle (cO c2) (cr c2) M.
Proof. exact (two_circles_none c c2). Qed.
Print Assumptions C93_two_circles_none.

Theorem C93_edges T : exists a b c, triangle_edges T = [("a", a); ("b", b); ("c", c)]%string /\
  a = dist (tB T) (tC T) /\ b = dist (tC T) (tA T) /\ c = dist (tA T) (tB T).
Proof. exact (triangle_edges_spec T). Qed.
Print Assumptions C93_edges.

(** Rotation.transform, transform_circle, transform_line, transform_ellipse *)
Theorem C93_rotation_transform r :
  (forall P, rotation_transform r P = rot (radians (rdeg r) (rtheta r)) (rO r) P) /\
  (forall c c', 0 < cr c -> rotation_transform_circle r c = Ok c' -> forall M,
     on_circle (cO c) (cr c) M <-> on_circle (cO c') (cr c') (rotation_transform r M)) /\
  (forall l l', rotation_transform_line r l = Ok l' -> lextA l' = lextA l /\ lextB l' = lextB l /\
     forall t, at_line (lA l') (lB l') t = rotation_transform r (at_line (lA l) (lB l) t)) /\
  (forall e e', rotation_transform_ellipse r e = Ok e' -> forall M,
     on_ellipse (eO e) (ea e) (eb e) (radians (edeg e) (ealpha e)) M <->
     on_ellipse (eO e') (ea e') (eb e') (radians (edeg e') (ealpha e')) (rotation_transform r M)).
Proof. exact (rotation_transform_spec r). Qed.
Print Assumptions C93_rotation_transform.

Example C93_example :
  line_reflection (mkLine (0, 0) (1, 0) false false) (3, 2) = Ok (3, -2) /\
  (exists P Q, line_intersection_with_circle (mkLine (0, 3) (1, 3) true true) (mkCircle (0, 0) 5) = Ok (ITwo P Q)) /\
  (exists P Q, ellipse_intersection_with_line (mkEllipse (0, 0) 2 1 0 true) (mkLine (0, 0) (1, 0) true true) = Ok (ITwo P Q)) /\
  line_intersection_with_line (mkLine (1, 0) (1, 1) true true) (mkLine (0, 2) (1, 2) true true) false = Some (1, 2) /\
  (exists P Q, circle_intersection_with_circle (mkCircle (0, 0) 5) (mkCircle (6, 0) 5) = Ok (CCPoints (ITwo P Q))) /\
  rotation_transform_line (mkRot (1, 1) 90 true) (mkLine (3, 1) (1, 1) true false) = Ok (mkLine (1, 3) (1, 1) true false).
Proof. exact ex_C93. Qed.
