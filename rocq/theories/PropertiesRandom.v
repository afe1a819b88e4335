(** * Random points are evenly distributed.

    A draw is what the random generator returns for one point: uniform numbers in (0,1) and a pair of
    normal numbers.  The theorems give, for each draw, the region where the point is, together with the
    area of the region: the probability of the draws (a rectangle of uniform numbers, a direction of the
    normal pair) is the ratio of the areas. *)

From Coq Require Import Reals List ZArith.
From Verif Require Import Base Spec SpecTriangle SpecRandom ModelInternal ModelLine ModelCircle ModelAffine ModelEllipse ModelTriangle PRandom PRandomEx.
Import ListNotations.
Local Open Scope R_scope.

(** ** C109 *)

(** in a triangle: for all [s] and [t] the draws below [t] and [s] are those whose point is in a triangle of area [s t] times the area *)
Theorem C109_triangle_in A B C n draws ps s t : ~ collinear A B C ->
  Forall (fun d => 0 <= fst d < 1 /\ 0 < snd d < 1) draws -> 0 < s <= 1 -> 0 < t <= 1 ->
  triangle_random_points (mkTri A B C) n WhereIn draws = Ok ps ->
  let B' := vadd A (vscal (sqrt s) (vsub B A)) in
  let C' := vadd A (vscal (sqrt s) (vsub (vadd (vscal (1 - t) B) (vscal t C)) A)) in
  triangle_area A B' C' = s * t * triangle_area A B C /\
  Forall2 (fun d M => in_closed_triangle A B' C' M <-> fst d <= t /\ snd d <= s) draws ps.
Proof. exact (triangle_in_even A B C n draws ps s t). Qed.
Print Assumptions C109_triangle_in.

(** on a triangle: the uniform number is the fraction of the perimeter at which the point is *)
Theorem C109_triangle_on A B C n draws ps : A <> B -> B <> C -> C <> A -> Forall (fun d => 0 <= fst d < 1) draws ->
  triangle_random_points (mkTri A B C) n WhereOn draws = Ok ps ->
  Forall2 (fun d M => along A B C (fst d * (dist A B + dist B C + dist C A)) M) draws ps.
Proof. exact (triangle_on_even A B C n draws ps). Qed.
Print Assumptions C109_triangle_on.

(** circle: the direction is that of the normal pair; the draws below [s] are those whose point is in a disk of area [s] times the area *)
Theorem C109_circle c n w draws ps s : 0 < cr c -> Forall (fun d => 0 < fst d < 1) draws -> 0 < s <= 1 ->
  circle_random_points c n w draws = Ok ps ->
  PI * (sqrt s * cr c) ^ 2 = s * (PI * cr c ^ 2) /\
  Forall2 (fun d M => (exists k, 0 < k /\ M = vadd (cO c) (vscal k (snd d))) /\
    match w with WhereIn => in_disk (cO c) (sqrt s * cr c) M <-> fst d <= s | _ => on_circle (cO c) (cr c) M end) draws ps.
Proof. exact (circle_even c n w draws ps s). Qed.
Print Assumptions C109_circle.

(** ellipse: the points are the images of the points of the unit circle for the same draws, by one affine map,
    which sends the unit circle to the ellipse *)
Theorem C109_ellipse e : 0 < ea e -> 0 < eb e -> exists p q r s, Rabs (p * s - q * r) = ea e * eb e /\
  (forall M, ell_form (eO e) (ea e) (eb e) (radians (edeg e) (ealpha e))
     (fst (eO e) + (p * fst M + q * snd M), snd (eO e) + (r * fst M + s * snd M)) = sdot M M) /\
  forall n w draws ps, ellipse_random_points e n w draws = Ok ps -> exists qs,
    circle_random_points (mkCircle (0, 0) 1) n w draws = Ok qs /\
    ps = map (fun M => (fst (eO e) + (p * fst M + q * snd M), snd (eO e) + (r * fst M + s * snd M))) qs.
Proof. exact (ellipse_even e). Qed.
Print Assumptions C109_ellipse.

(** on an ellipse the points are not evenly distributed along the ellipse: a normal pair of direction [t] gives the
    point of parameter [t]; the directions of [0, pi/4] and those of [pi/4, pi/2] are equally likely, but the first
    arc is shorter than the second *)
Theorem C109_ellipse_on_refuted e : 0 < eb e -> 2 * eb e <= ea e -> ealpha e = 0 ->
  let P t := (fst (eO e) + ea e * cos t, snd (eO e) + eb e * sin t) in
  (forall u k t, 0 < k -> ellipse_random_points e 1 WhereOn [(u, (k * cos t, k * sin t))] = Ok [P t]) /\
  (forall l, increasing 0 (PI / 4) l -> polyline (map P l) <= 7 / 10 * ea e) /\
  7 / 10 * ea e < dist (P (PI / 4)) (P (PI / 2)).
Proof. exact (ellipse_on_refuted e). Qed.
Print Assumptions C109_ellipse_on_refuted.

Example C109_example_triangle : ~ collinear (0, 0) (1, 0) (0, 1) /\
  triangle_random_points (mkTri (0, 0) (1, 0) (0, 1)) 2 WhereIn [(/ 2, / 4); (/ 4, 9 / 16)] = Ok [(/ 4, / 4); (9 / 16, 3 / 16)].
Proof. exact ex_C109_triangle. Qed.

Example C109_example_circle : circle_random_points (mkCircle (1, 1) 2) 1 WhereIn [(/ 4, (3, 4))] = Ok [(8 / 5, 9 / 5)].
Proof. exact ex_C109_circle. Qed.
