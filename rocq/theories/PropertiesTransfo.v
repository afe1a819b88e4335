(** * Properties C06, C52, C53, C55 (lines), C67-C72: affine maps, reflections,
    projections, rotations, shears, scalings. *)

From Coq Require Import Reals List Bool Arith.
From Verif Require Import Base Spec ModelInternal ModelLine ModelCircle ModelAffine ModelEllipse ModelTransfo ModelBatch
  PAffine PReflect PTransfo PBatch PTransfoEx PMat3.
Import ListNotations.
Local Open Scope R_scope.

(** ** C06.  [allclose (lA l) (lB l) = false] holds for every line accepted by the
    constructor.  [H] is the foot of the perpendicular from [P]. *)
Theorem C06_reflection_exact l P H : allclose (lA l) (lB l) = false ->
  on_line (lA l) (lB l) H -> orthogonal (vsub P H) (vsub (lB l) (lA l)) ->
  ((allclose (lA l) P = true \/ allclose (lB l) P = true \/ on_line (lA l) (lB l) P) ->
      reflection_transform_pt l P = Ok P) /\
  (allclose (lA l) P = false -> allclose (lB l) P = false -> ~ on_line (lA l) (lB l) P ->
     (allclose H P = true -> reflection_transform_pt l P = Raise ValueError) /\
     (allclose H P = false -> exists Q, reflection_transform_pt l P = Ok Q /\ mirror (lA l) (lB l) P Q)).
Proof. exact (reflection_exact l P H). Qed.
Print Assumptions C06_reflection_exact.

Theorem C06_reflection_is_mirror l P Q : allclose (lA l) (lB l) = false ->
  allclose (lA l) P = false -> allclose (lB l) P = false ->
  reflection_transform_pt l P = Ok Q -> mirror (lA l) (lB l) P Q.
Proof. exact (reflection_spec l P Q). Qed.
Print Assumptions C06_reflection_is_mirror.

(** the constructor makes the line infinite, and the point at infinity is fixed *)
Theorem C06_constructor l :
  (forall l', Reflection_init l = Ok l' -> lA l' = lA l /\ lB l' = lB l /\ lextA l' = true /\ lextB l' = true) /\
  (Reflection_init l = Raise ValueError <-> allclose (lA l) (lB l) = true).
Proof. exact (Reflection_init_spec l). Qed.
Print Assumptions C06_constructor.

Theorem C06_extended l E : reflection_transform l Inf = Ok Inf /\
  forall P, allclose (lA l) (lB l) = false -> allclose (lA l) P = false -> allclose (lB l) P = false ->
    reflection_transform l (Pt P) = Ok E -> exists Q, E = Pt Q /\ mirror (lA l) (lB l) P Q.
Proof. exact (reflection_transform_spec l E). Qed.
Print Assumptions C06_extended.

Theorem C06_reflection_isometry l P Q P' Q' : allclose (lA l) (lB l) = false ->
  allclose (lA l) P = false -> allclose (lB l) P = false ->
  allclose (lA l) Q = false -> allclose (lB l) Q = false ->
  reflection_transform_pt l P = Ok P' -> reflection_transform_pt l Q = Ok Q' -> dist P' Q' = dist P Q.
Proof. exact (reflection_isometry l P Q P' Q'). Qed.
Print Assumptions C06_reflection_isometry.

Theorem C06_reflection_involutive l P Q P' : allclose (lA l) (lB l) = false ->
  allclose (lA l) P = false -> allclose (lB l) P = false ->
  allclose (lA l) Q = false -> allclose (lB l) Q = false ->
  reflection_transform_pt l P = Ok Q -> reflection_transform_pt l Q = Ok P' -> P' = P.
Proof. exact (reflection_involutive l P Q P'). Qed.
Print Assumptions C06_reflection_involutive.

Theorem C06_as_affine_is_mirror l : lA l <> lB l ->
  exists f, reflection_as_affine l = Ok f /\ forall P, mirror (lA l) (lB l) P (affine_transform f P).
Proof. exact (reflection_affine_spec l). Qed.
Print Assumptions C06_as_affine_is_mirror.

Theorem C06_reflect_circle l c c' : allclose (lA l) (lB l) = false -> 0 < cr c ->
  allclose (lA l) (cO c) = false -> allclose (lB l) (cO c) = false ->
  reflect_circle l c = Ok c' ->
  cr c' = cr c /\ mirror (lA l) (lB l) (cO c) (cO c') /\
  mirror_maps (lA l) (lB l) (cO c) (cr c) (cO c') (cr c').
Proof. exact (reflect_circle_spec l c c'). Qed.
Print Assumptions C06_reflect_circle.

Theorem C06_reflect_line l m m' : allclose (lA l) (lB l) = false ->
  allclose (lA l) (lA m) = false -> allclose (lB l) (lA m) = false ->
  allclose (lA l) (lB m) = false -> allclose (lB l) (lB m) = false ->
  reflect_line l m = Ok m' ->
  lextA m' = lextA m /\ lextB m' = lextB m /\
  forall t, mirror (lA l) (lB l) (at_line (lA m) (lB m) t) (at_line (lA m') (lB m') t).
Proof. exact (reflect_line_spec l m m'). Qed.
Print Assumptions C06_reflect_line.

(** the line y = 1000 and the point (1/2, 1000.005) *)
Theorem C06_reflection_total_refuted :
  let l := mkLine (0, 1000) (1, 1000) true true in
  allclose (lA l) (lB l) = false /\ reflection_transform_pt l (1 / 2, 1000 + / 200) = Raise ValueError.
Proof. exact reflection_near_raises. Qed.
Print Assumptions C06_reflection_total_refuted.

Example C06_example : let l := mkLine (0, 0) (1, 1) true true in
  allclose (lA l) (lB l) = false /\ allclose (lA l) (3, 1) = false /\ allclose (lB l) (3, 1) = false /\
  allclose (lA l) (1, 3) = false /\ allclose (lB l) (1, 3) = false /\
  reflection_transform_pt l (3, 1) = Ok (1, 3) /\ reflection_transform_pt l (1, 3) = Ok (3, 1).
Proof. exact ex_C06. Qed.

Example C06_example_objects : let l := mkLine (0, 0) (1, 1) true true in
  reflect_circle l (mkCircle (3, 1) 2) = Ok (mkCircle (1, 3) 2) /\
  reflect_line l (mkLine (3, 1) (1, 3) true false) = Ok (mkLine (1, 3) (3, 1) true false).
Proof. exact ex_C06_objects. Qed.

(** ** C52 *)
Theorem C52_compose_left f g P :
  affine_transform (affine_compose f g true) P = affine_transform g (affine_transform f P).
Proof. exact (compose_left f g P). Qed.
Print Assumptions C52_compose_left.

Theorem C52_compose_right f g P :
  affine_transform (affine_compose f g false) P = affine_transform f (affine_transform g P).
Proof. exact (compose_right f g P). Qed.
Print Assumptions C52_compose_right.

Theorem C52_compose_list fs f P :
  affine_transform (fold_left (fun acc g => affine_compose acc g true) fs f) P =
  fold_left (fun Q g => affine_transform g Q) fs (affine_transform f P).
Proof. exact (compose_list fs f P). Qed.
Print Assumptions C52_compose_list.

Theorem C52_inverse f :
  (m11 (afA f) * m22 (afA f) - m12 (afA f) * m21 (afA f) = 0 -> affine_inverse f = Ok None) /\
  (m11 (afA f) * m22 (afA f) - m12 (afA f) * m21 (afA f) <> 0 ->
     exists g, affine_inverse f = Ok (Some g) /\ det2 (afA g) <> 0 /\
     (forall P, affine_transform g (affine_transform f P) = P) /\
     (forall P, affine_transform f (affine_transform g P) = P)).
Proof. exact (inverse_spec f). Qed.
Print Assumptions C52_inverse.

Example C52_example : let f := mkAffine (mkM2 1 2 3 5) (7, 8) in
  det2 (afA f) <> 0 /\ affine_transform f (1, 1) = (10, 16) /\
  affine_inverse (mkAffine (mkM2 1 2 2 4) (7, 8)) = Ok None.
Proof. exact ex_C52. Qed.

(** ** C53 *)
Theorem C53_maps_and_unique P1 P2 P3 Q1 Q2 Q3 f : affine_from_three_points P1 P2 P3 Q1 Q2 Q3 = Ok (Some f) ->
  affine_transform f P1 = Q1 /\ affine_transform f P2 = Q2 /\ affine_transform f P3 = Q3 /\
  forall g, affine_transform g P1 = Q1 -> affine_transform g P2 = Q2 -> affine_transform g P3 = Q3 ->
    forall M, affine_transform g M = affine_transform f M.
Proof. exact (three_points_spec P1 P2 P3 Q1 Q2 Q3 f). Qed.
Print Assumptions C53_maps_and_unique.

(** collinear triples give None; triples that are not collinear and have no two
    points within tolerance give a map *)
Theorem C53_total P1 P2 P3 Q1 Q2 Q3 :
  (collinear P1 P2 P3 \/ collinear Q1 Q2 Q3 -> affine_from_three_points P1 P2 P3 Q1 Q2 Q3 = Ok None) /\
  (collinear_ P1 P2 P3 = Ok false -> collinear_ Q1 Q2 Q3 = Ok false ->
     exists f, affine_from_three_points P1 P2 P3 Q1 Q2 Q3 = Ok (Some f)).
Proof. exact (three_points_total P1 P2 P3 Q1 Q2 Q3). Qed.
Print Assumptions C53_total.

Theorem C53_not_collinear_test A B C :
  ~ collinear A B C -> allclose A B = false -> allclose A C = false -> allclose B C = false ->
  collinear_ A B C = Ok false.
Proof. exact (collinear_not A B C). Qed.
Print Assumptions C53_not_collinear_test.

Example C53_example : exists f, affine_from_three_points (0, 0) (1, 0) (0, 1) (2, 3) (4, 4) (1, 7) = Ok (Some f).
Proof. exact ex_C53. Qed.

(** ** C55, lines *)
Theorem C55_transform_line f l :
  (det2 (afA f) = 0 -> affine_transform_line f l = Ok None) /\
  (det2 (afA f) <> 0 ->
     (allclose (affine_transform f (lA l)) (affine_transform f (lB l)) = true /\
        affine_transform_line f l = Raise ValueError) \/
     exists l', affine_transform_line f l = Ok (Some l') /\ lextA l' = lextA l /\ lextB l' = lextB l /\
       lA l' = affine_transform f (lA l) /\ lB l' = affine_transform f (lB l) /\ allclose (lA l') (lB l') = false /\
       (forall t, at_line (lA l') (lB l') t = affine_transform f (at_line (lA l) (lB l) t)) /\
       (forall M, on_line (lA l) (lB l) M <-> on_line (lA l') (lB l') (affine_transform f M))).
Proof. exact (transform_line_spec f l). Qed.
Print Assumptions C55_transform_line.

(** an invertible map may bring the two points of the line within the tolerance *)
Theorem C55_transform_line_total_refuted : exists f l,
  det2 (afA f) <> 0 /\ Line_init (0, 0) (1, 0) true true = Ok l /\ affine_transform_line f l = Raise ValueError.
Proof. exact transform_line_raises. Qed.
Print Assumptions C55_transform_line_total_refuted.

Example C55_example_line : let f := mkAffine (mkM2 1 2 3 5) (7, 8) in let l := mkLine (0, 0) (1, 0) false true in
  det2 (afA f) <> 0 /\ allclose (affine_transform f (lA l)) (affine_transform f (lB l)) = false.
Proof. exact ex_C55_line. Qed.

(** ** C67 *)
Theorem C67_constructor D Delta p : Projection_init D Delta = Ok p ->
  lA (pD p) = lA D /\ lB (pD p) = lB D /\ allclose (lA D) (lB D) = false /\
  (lextA (pD p) = true /\ lextB (pD p) = true /\ lextA (pDelta p) = true /\ lextB (pDelta p) = true) /\
  (porth p = true <-> Delta = None) /\
  match Delta with
  | Some d => lA (pDelta p) = lA d /\ lB (pDelta p) = lB d
  | None => orthogonal (vsub (lB (pDelta p)) (lA (pDelta p))) (vsub (lB D) (lA D))
            /\ ~ parallel (vsub (lB (pDelta p)) (lA (pDelta p))) (vsub (lB D) (lA D))
  end.
Proof. exact (Projection_init_spec D Delta p). Qed.
Print Assumptions C67_constructor.

Theorem C67_project p M : lA (pD p) <> lB (pD p) ->
  ~ parallel (vsub (lB (pDelta p)) (lA (pDelta p))) (vsub (lB (pD p)) (lA (pD p))) ->
  on_line (lA (pD p)) (lB (pD p)) M \/ collinear_ (lA (pD p)) (lB (pD p)) M = Ok false ->
  exists P, project p M = Ok P /\
    on_line (lA (pD p)) (lB (pD p)) P /\ parallel (vsub (lB (pDelta p)) (lA (pDelta p))) (vsub P M) /\
    (forall P', on_line (lA (pD p)) (lB (pD p)) P' -> parallel (vsub (lB (pDelta p)) (lA (pDelta p))) (vsub P' M) -> P' = P) /\
    project p P = Ok P.
Proof. exact (project_full p M). Qed.
Print Assumptions C67_project.

(** the third hypothesis only excludes the points off the line that are within
    tolerance of one of its two defining points *)
Theorem C67_hypothesis_meaning l M : allclose (lA l) (lB l) = false ->
  (on_line (lA l) (lB l) M \/ collinear_ (lA l) (lB l) M = Ok false) <->
  (allclose (lA l) M = false /\ allclose (lB l) M = false) \/ on_line (lA l) (lB l) M.
Proof. exact (projection_regular_cases l M). Qed.
Print Assumptions C67_hypothesis_meaning.

Theorem C67_parallel p M : lA (pD p) <> lB (pD p) ->
  parallel (vsub (lB (pDelta p)) (lA (pDelta p))) (vsub (lB (pD p)) (lA (pD p))) ->
  collinear_ (lA (pD p)) (lB (pD p)) M = Ok false -> project p M = Raise NonFinite.
Proof. exact (project_parallel p M). Qed.
Print Assumptions C67_parallel.

Theorem C67_as_affine p : lA (pD p) <> lB (pD p) ->
  ~ parallel (vsub (lB (pDelta p)) (lA (pDelta p))) (vsub (lB (pD p)) (lA (pD p))) ->
  (on_line (lA (pD p)) (lB (pD p)) (0, 0) \/ collinear_ (lA (pD p)) (lB (pD p)) (0, 0) = Ok false) ->
  (on_line (lA (pD p)) (lB (pD p)) (1, 0) \/ collinear_ (lA (pD p)) (lB (pD p)) (1, 0) = Ok false) ->
  (on_line (lA (pD p)) (lB (pD p)) (0, 1) \/ collinear_ (lA (pD p)) (lB (pD p)) (0, 1) = Ok false) ->
  exists f, projection_as_affine p = Ok f /\
    forall M, on_line (lA (pD p)) (lB (pD p)) (affine_transform f M) /\
              parallel (vsub (lB (pDelta p)) (lA (pDelta p))) (vsub (affine_transform f M) M).
Proof. exact (projection_affine_spec p). Qed.
Print Assumptions C67_as_affine.

(** the orthogonal projection on the line y = 1e-9: as_affine() maps no point
    with y <> 1 to the line *)
Theorem C67_as_affine_refuted : exists p f,
  Projection_init (mkLine (0, / 1000000000) (1, / 1000000000) true true) None = Ok p /\
  projection_as_affine p = Ok f /\
  forall x y, y <> 1 -> ~ on_line (lA (pD p)) (lB (pD p)) (affine_transform f (x, y)).
Proof. exact projection_affine_wrong. Qed.
Print Assumptions C67_as_affine_refuted.

Example C67_example : exists p,
  Projection_init (mkLine (0, 0) (1, 0) true true) (Some (mkLine (0, 0) (1, 1) true true)) = Ok p /\
  ~ parallel (vsub (lB (pDelta p)) (lA (pDelta p))) (vsub (lB (pD p)) (lA (pD p))) /\
  collinear_ (lA (pD p)) (lB (pD p)) (5, 2) = Ok false /\ project p (5, 2) = Ok (3, 0) /\
  collinear_ (lA (pD p)) (lB (pD p)) (0, 1) = Ok false /\
  on_line (lA (pD p)) (lB (pD p)) (0, 0) /\ on_line (lA (pD p)) (lB (pD p)) (1, 0).
Proof. exact ex_C67. Qed.

(** ** C68 *)
Theorem C68_rotate r :
  rotate r (rO r) = rO r /\
  (forall P Q, dist (rotate r P) (rotate r Q) = dist P Q) /\
  (forall P Q, vsub (rotate r Q) (rotate r P) = rot (radians (rdeg r) (rtheta r)) (0, 0) (vsub Q P)) /\
  (forall P, rotate r P = rot (radians (rdeg r) (rtheta r)) (rO r) P) /\
  (forall P, affine_transform (rotation_as_affine r) P = rotate r P).
Proof. exact (rot_spec r). Qed.
Print Assumptions C68_rotate.

Theorem C68_compose r1 r2 P : rO r1 = rO r2 ->
  rotate r1 (rotate r2 P) = rot (radians (rdeg r1) (rtheta r1) + radians (rdeg r2) (rtheta r2)) (rO r2) P.
Proof. exact (rot_compose r1 r2 P). Qed.
Print Assumptions C68_compose.

Theorem C68_rotate_circle r c c' : 0 < cr c -> rotate_circle r c = Ok c' ->
  cr c' = cr c /\ forall M, on_circle (cO c) (cr c) M <-> on_circle (cO c') (cr c') (rot (radians (rdeg r) (rtheta r)) (rO r) M).
Proof. exact (rotate_circle_spec r c c'). Qed.
Print Assumptions C68_rotate_circle.

Theorem C68_rotate_line r l l' : rotate_line r l = Ok l' ->
  lextA l' = lextA l /\ lextB l' = lextB l /\
  forall t, at_line (lA l') (lB l') t = rot (radians (rdeg r) (rtheta r)) (rO r) (at_line (lA l) (lB l) t).
Proof. exact (rotate_line_image r l l'). Qed.
Print Assumptions C68_rotate_line.

Theorem C68_rotate_ellipse r e e' : rotate_ellipse r e = Ok e' ->
  ea e' = ea e /\ eb e' = eb e /\ edeg e' = edeg e /\
  forall M, on_ellipse (eO e) (ea e) (eb e) (radians (edeg e) (ealpha e)) M <->
            on_ellipse (eO e') (ea e') (eb e') (radians (edeg e') (ealpha e')) (rot (radians (rdeg r) (rtheta r)) (rO r) M).
Proof. exact (rotate_ellipse_spec r e e'). Qed.
Print Assumptions C68_rotate_ellipse.

Theorem C68_rotate_total r c e :
  (0 < cr c -> exists c', rotate_circle r c = Ok c') /\
  (0 < ea e -> 0 < eb e -> exists e', rotate_ellipse r e = Ok e').
Proof. exact (conj (rotate_circle_total r c) (rotate_ellipse_total r e)). Qed.
Print Assumptions C68_rotate_total.

Example C68_example : rotate (mkRot (1, 1) 90 true) (3, 1) = (1, 3) /\
  rotate_circle (mkRot (1, 1) 90 true) (mkCircle (3, 1) 5) = Ok (mkCircle (1, 3) 5) /\
  rotate_line (mkRot (1, 1) 90 true) (mkLine (3, 1) (1, 1) true false) = Ok (mkLine (1, 3) (1, 1) true false) /\
  rotate_ellipse (mkRot (1, 1) (PI / 2) false) (mkEllipse (3, 1) 5 4 10 true) = Ok (mkEllipse (1, 3) 5 4 (10 + PI / 2 * (180 / PI)) true).
Proof. exact ex_C68. Qed.

(** ** C69.  Every Shear accepted by the constructor has [0 < ratio]. *)
Theorem C69_constructor Q w k a d s : Shear_init Q w k a d = Ok s ->
  s = mkShear Q w k a d /\ 0 < k /\ - (PI / 2) < radians d a < PI / 2.
Proof. exact (shear_init_spec Q w k a d s). Qed.
Print Assumptions C69_constructor.

(** closed form of the map: with t = tan(angle) and n = (-w2, w1) / (ratio |w|^2),
    P is sent to P + t (w.P) n - t (vertex.n) w; as_affine() is the same map *)
Theorem C69_transform s P : sw s <> (0, 0) -> 0 < sratio s ->
  let t := tan (radians (sdeg s) (sangle s)) in
  let w := sw s in
  let n := vscal (/ (sratio s * sdot w w)) (- snd w, fst w) in
  shear_transform s P = Ok (vsub (vadd P (vscal (t * sdot w P) n)) (vscal (t * sdot (sQ s) n) w)) /\
  exists f, shear_as_affine s = Ok f /\ shear_transform s P = Ok (affine_transform f P).
Proof. exact (shear_formula s P). Qed.
Print Assumptions C69_transform.

Theorem C69_zero_vector s P : sw s = (0, 0) ->
  shear_transform s P = Raise LinAlgError /\ shear_as_affine s = Raise LinAlgError.
Proof. exact (shear_zero_vector s P). Qed.
Print Assumptions C69_zero_vector.

Theorem C69_area_preserving s P Q T P' Q' T' : sw s <> (0, 0) -> 0 < sratio s ->
  shear_transform s P = Ok P' -> shear_transform s Q = Ok Q' -> shear_transform s T = Ok T' ->
  scross (vsub Q' P') (vsub T' P') = scross (vsub Q P) (vsub T P).
Proof. exact (shear_area s P Q T P' Q' T'). Qed.
Print Assumptions C69_area_preserving.

Theorem C69_shear_vector s P P' W : sw s <> (0, 0) -> 0 < sratio s ->
  shear_transform s P = Ok P' -> shear_transform s (vadd P (sw s)) = Ok W ->
  vsub W P' = vadd (sw s) (vscal (tan (radians (sdeg s) (sangle s)) / sratio s) (- snd (sw s), fst (sw s))).
Proof. exact (shear_vector_w s P P' W). Qed.
Print Assumptions C69_shear_vector.

Theorem C69_vertex_fixed_iff s : sw s <> (0, 0) -> 0 < sratio s ->
  (shear_transform s (sQ s) = Ok (sQ s) <-> tan (radians (sdeg s) (sangle s)) = 0 \/ sQ s = (0, 0)).
Proof. exact (shear_vertex_fixed s). Qed.
Print Assumptions C69_vertex_fixed_iff.

(** the shear of vertex (1, 1), vector (1, 0), ratio 1 and angle 45 degrees
    moves its vertex to (0, 2) *)
Theorem C69_vertex_fixed_refuted : exists s, Shear_init (1, 1) (1, 0) 1 45 true = Ok s /\
  shear_transform s (1, 1) = Ok (0, 2).
Proof. exact shear_wrong. Qed.
Print Assumptions C69_vertex_fixed_refuted.

Example C69_example : exists s, Shear_init (1, 1) (1, 0) 1 45 true = Ok s /\ sw s <> (0, 0) /\ 0 < sratio s.
Proof. exact ex_C69. Qed.

(** ** C70 *)
Theorem C70_scalingxy s M :
  scalingxy_transform s M = (fst (xyO s) + xysx s * (fst M - fst (xyO s)), snd (xyO s) + xysy s * (snd M - snd (xyO s))) /\
  affine_transform (scalingxy_as_affine s) M = scalingxy_transform s M.
Proof. exact (scalingxy_spec s M). Qed.
Print Assumptions C70_scalingxy.

Theorem C70_homothety h M :
  homothety_transform h M = vadd (hO h) (vscal (hscale h) (vsub M (hO h))) /\
  affine_transform (homothety_as_affine h) M = homothety_transform h M.
Proof. exact (homothety_spec h M). Qed.
Print Assumptions C70_homothety.

Theorem C70_homothety_circle h c : 0 < cr c ->
  (hscale h = 0 -> homothety_transform_circle h c = Raise ValueError) /\
  (hscale h <> 0 -> exists c', homothety_transform_circle h c = Ok c' /\ 0 < cr c' /\
     forall M, on_circle (cO c) (cr c) M <-> on_circle (cO c') (cr c') (homothety_transform h M)).
Proof. exact (homothety_circle h c). Qed.
Print Assumptions C70_homothety_circle.

Example C70_example : scalingxy_transform (mkSXY (1, 2) 3 (-4)) (2, 4) = (4, -6) /\
  homothety_transform (mkHom (1, 2) (-2)) (2, 4) = (-1, -2) /\
  homothety_transform_circle (mkHom (1, 2) (-2)) (mkCircle (2, 4) 3) = Ok (mkCircle (-1, -2) 6).
Proof. exact ex_C70. Qed.

(** ** C71 *)
Theorem C71_scaling S M : scw S <> (0, 0) ->
  let w := scw S in
  let d := vsub M (scO S) in
  let d' := vsub (scaling_transform S M) (scO S) in
  sdot d' w = scs S * sdot d w /\ scross w d' = scross w d /\
  exists f, scaling_as_affine S = Ok f /\ affine_transform f M = scaling_transform S M.
Proof. exact (scaling_spec S M). Qed.
Print Assumptions C71_scaling.

Theorem C71_zero_direction S : scw S = (0, 0) ->
  scaling_as_affine S = Raise LinAlgError /\
  forall M, scaling_transform S M = (fst (scO S) + scs S * (fst M - fst (scO S)), snd M).
Proof. exact (scaling_zero_direction S). Qed.
Print Assumptions C71_zero_direction.

Theorem C71_scale_circle S c : scw S <> (0, 0) -> 0 < cr c ->
  (scs S = 0 -> scale_circle S c = Raise ValueError) /\
  (scs S <> 0 -> exists e, scale_circle S c = Ok e /\ 0 < ea e /\ 0 < eb e /\
     (forall M, on_circle (cO c) (cr c) M <->
                on_ellipse (eO e) (ea e) (eb e) (radians (edeg e) (ealpha e)) (scaling_transform S M)) /\
     (eb e <= ea e <-> -1 <= scs S)).
Proof. exact (scale_circle_spec S c). Qed.
Print Assumptions C71_scale_circle.

Example C71_example : let S := mkScaling (1, 1) (0, 2) (-3) in
  scw S <> (0, 0) /\ scs S <> 0 /\ scaling_transform S (2, 2) = (2, -2).
Proof. exact ex_C71. Qed.

(** ** C72.  A point is the 1-d array of its coordinates; a list of points is the
    n x 2 matrix of its rows. *)
Definition C72_row (p : pt) : list R := [fst p; snd p].

Definition C72_pointwise (f : pt -> pt) (batch : nd -> res nd) : Prop :=
  (forall p, batch (Nd1 (C72_row p)) = Ok (Nd1 (C72_row (f p)))) /\
  (forall ps, batch (Nd2 2 (map C72_row ps)) = Ok (Nd2 2 (map C72_row (map f ps)))) /\
  (forall v, length v <> 2%nat -> batch (Nd1 v) = Raise ValueError) /\
  (forall c rows, c <> 2%nat -> batch (Nd2 c rows) = Raise ValueError) /\
  (forall x, batch (Nd0 x) = Raise ValueError).

Theorem C72_rotation r : C72_pointwise (rotate r) (rotate_batch r) /\ forall s, rotate_batch r (NdMany s) = Raise ValueError.
Proof. exact (rotate_batch_pw r). Qed.
Print Assumptions C72_rotation.

Theorem C72_scalingxy s : C72_pointwise (scalingxy_transform s) (scalingxy_batch s) /\
  forall t, scalingxy_batch s (NdMany t) = Raise ValueError.
Proof. exact (scalingxy_batch_pw s). Qed.
Print Assumptions C72_scalingxy.

Theorem C72_homothety h : C72_pointwise (homothety_transform h) (homothety_batch h) /\
  forall t, homothety_batch h (NdMany t) = Raise ValueError.
Proof. exact (homothety_batch_pw h). Qed.
Print Assumptions C72_homothety.

Theorem C72_scaling S : C72_pointwise (scaling_transform S) (scaling_batch S) /\
  forall t, scaling_batch S (NdMany t) = Raise ValueError.
Proof. exact (scaling_batch_pw S). Qed.
Print Assumptions C72_scaling.

(** every call raises LinAlgError for a zero vector, see C69; otherwise: *)
Theorem C72_shear s M : shear_mat3 s = Ok M ->
  C72_pointwise (mat3_apply M) (shear_batch s) /\ (forall t, shear_batch s (NdMany t) = Raise ValueError) /\
  (forall p, shear_transform s p = Ok (mat3_apply M p)).
Proof. exact (shear_batch_pw s M). Qed.
Print Assumptions C72_shear.

Theorem C72_shear_raise s e : shear_mat3 s = Raise e ->
  (forall p, shear_transform s p = Raise e) /\ (forall ps, shear_batch s (Nd2 2 (map C72_row ps)) = Raise e).
Proof. exact (shear_batch_raise s e). Qed.
Print Assumptions C72_shear_raise.

Theorem C72_affine f : C72_pointwise (affine_transform f) (affine_batch f).
Proof. exact (affine_batch_pw f). Qed.
Print Assumptions C72_affine.

(** the matrices returned by the get3x3matrix methods: the last row is (0, 0, 1) and the product of two of them is the
    matrix of the composition *)
Theorem C72_matrix_product M N P :
  ((exists f, affine_mat3 f = M) \/ (exists l, reflection_mat3 l = Ok M) \/ (exists s, shear_mat3 s = Ok M) \/ (exists S, scaling_mat3 S = Ok M)) ->
  ((exists f, affine_mat3 f = N) \/ (exists l, reflection_mat3 l = Ok N) \/ (exists s, shear_mat3 s = Ok N) \/ (exists S, scaling_mat3 S = Ok N)) ->
  (n31 M = 0 /\ n32 M = 0 /\ n33 M = 1) /\ mat3_apply (mm3 M N) P = mat3_apply M (mat3_apply N P).
Proof. exact (fun HM HN => conj (augmented_row M HM) (augmented_product M N P HM HN)). Qed.
Print Assumptions C72_matrix_product.

Example C72_example : rotate_batch (mkRot (1, 1) 90 true) (Nd2 2 [[3; 1]; [1; 1]]) = Ok (Nd2 2 [[1; 3]; [1; 1]]).
Proof. exact ex_C72. Qed.
