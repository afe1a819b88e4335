(** * Properties C16, C20 (ellipses), C22-C31, C54, C55 (ellipses), C74.

    [0 < ea e] and [0 < eb e] hold for every ellipse accepted by the constructor
    (geometry.py:955-960).  The oracles [ev] and [eigh] stand for
    [np.linalg.eigvals] and [np.linalg.eigh]; they exist, see
    [C26_oracle_example] and [C29_oracle_example]. *)

From Coq Require Import Reals List Bool ZArith Permutation.
From Verif Require Import Base Spec ModelInternal ModelLine ModelCircle ModelAffine ModelEllipse ModelTransfo
  PLine PEllipse PEllipse2 PEllipse3 PEllipse4 PEllipse5 PEllipse6 PEllipseEx.
Import ListNotations.
Local Open Scope R_scope.

(** ** C16 *)
Theorem C16_intersection_points e l : 0 < ea e -> 0 < eb e ->
  match intersection_ellipse_line e l with
  | Raise x => x = ValueError
  | Ok INone => forall M, on_line (lA l) (lB l) M -> ~ on_ellipse (eO e) (ea e) (eb e) (radians (edeg e) (ealpha e)) M
  | Ok (IOne P) => on_line (lA l) (lB l) P /\ in_ellipse (eO e) (ea e) (eb e) (radians (edeg e) (ealpha e)) P /\
       (on_ellipse (eO e) (ea e) (eb e) (radians (edeg e) (ealpha e)) P <->
        exists M, on_line (lA l) (lB l) M /\ on_ellipse (eO e) (ea e) (eb e) (radians (edeg e) (ealpha e)) M /\
          forall N, on_line (lA l) (lB l) N -> on_ellipse (eO e) (ea e) (eb e) (radians (edeg e) (ealpha e)) N -> N = M)
  | Ok (ITwo P Q) => P <> Q /\ on_line (lA l) (lB l) P /\ on_line (lA l) (lB l) Q /\
       on_ellipse (eO e) (ea e) (eb e) (radians (edeg e) (ealpha e)) P /\
       on_ellipse (eO e) (ea e) (eb e) (radians (edeg e) (ealpha e)) Q /\
       forall M, on_line (lA l) (lB l) M -> on_ellipse (eO e) (ea e) (eb e) (radians (edeg e) (ealpha e)) M -> M = P \/ M = Q
  end.
Proof. exact (iel_spec e l). Qed.
Print Assumptions C16_intersection_points.

(** which answer is given; A and B are the endpoints in the frame of the ellipse *)
Theorem C16_which e l : 0 < ea e -> 0 < eb e ->
  let th := radians (edeg e) (ealpha e) in
  let A := (fx (eO e) th (lA l) / ea e, fy (eO e) th (lA l) / eb e) in
  let B := (fx (eO e) th (lB l) / ea e, fy (eO e) th (lB l) / eb e) in
  let Delta := dist2 A B - scross A B ^ 2 in
  (intersection_ellipse_line e l = Raise ValueError <-> allclose A B = true) /\
  (allclose A B = false ->
   (intersection_ellipse_line e l = Ok INone <-> Delta < 0) /\
   ((exists P, intersection_ellipse_line e l = Ok (IOne P)) <-> 0 <= Delta < / 67108864) /\
   ((exists P Q, intersection_ellipse_line e l = Ok (ITwo P Q)) <-> / 67108864 <= Delta)).
Proof. exact (iel_which e l). Qed.
Print Assumptions C16_which.

(** a line through the centre for which the call raises *)
Theorem C16_total_refuted : exists e l, Ellipse_init (0, 0) 1000000000 1000000000 0 true = Ok e /\
  Line_init (0, 0) (1, 0) true true = Ok l /\ intersection_ellipse_line e l = Raise ValueError.
Proof. exact ex_C16_raises. Qed.
Print Assumptions C16_total_refuted.

(** a diameter reported as a single point, the centre *)
Theorem C16_one_point_refuted : exists e l P, Ellipse_init (0, 0) 1 1 0 true = Ok e /\
  Line_init (0, 0) (/ 10000, 0) true true = Ok l /\
  intersection_ellipse_line e l = Ok (IOne P) /\ ~ on_ellipse (0, 0) 1 1 (radians true 0) P.
Proof. exact ex_C16_near. Qed.
Print Assumptions C16_one_point_refuted.

Example C16_example : let e := mkEllipse (0, 0) 2 1 0 true in
  (exists P Q, intersection_ellipse_line e (mkLine (0, 0) (1, 0) true true) = Ok (ITwo P Q)) /\
  (exists P, intersection_ellipse_line e (mkLine (0, 1) (1, 1) true true) = Ok (IOne P)) /\
  intersection_ellipse_line e (mkLine (0, 2) (1, 2) true true) = Ok INone.
Proof. exact ex_C16. Qed.

(** ** C20, Ellipse.random_points *)
Theorem C20_ellipse_random_points e n w draws ps : 0 < ea e -> 0 < eb e ->
  Forall (fun d => 0 <= fst d < 1) draws ->
  ellipse_random_points e n w draws = Ok ps ->
  length ps = length draws /\
  match w with
  | WhereOn => Forall (on_ellipse (eO e) (ea e) (eb e) (radians (edeg e) (ealpha e))) ps
  | WhereIn => Forall (in_ellipse (eO e) (ea e) (eb e) (radians (edeg e) (ealpha e))) ps
  | WhereOther => False
  end.
Proof. exact (ellipse_random_spec e n w draws ps). Qed.
Print Assumptions C20_ellipse_random_points.

Theorem C20_ellipse_random_total e n w draws : 0 < ea e -> 0 < eb e -> (0 < n)%Z -> w <> WhereOther ->
  Forall (fun d => snd d <> (0, 0)) draws -> exists ps, ellipse_random_points e n w draws = Ok ps.
Proof. exact (ellipse_random_total e n w draws). Qed.
Print Assumptions C20_ellipse_random_total.

Theorem C20_ellipse_random_raises e n w draws : 0 < ea e -> 0 < eb e -> (n <= 0)%Z \/ w = WhereOther ->
  ellipse_random_points e n w draws = Raise ValueError.
Proof. exact (ellipse_random_raises e n w draws). Qed.
Print Assumptions C20_ellipse_random_raises.

(** every point of the ellipse, and of its interior, can be drawn *)
Theorem C20_ellipse_random_onto e M : 0 < ea e -> 0 < eb e ->
  (ell_form (eO e) (ea e) (eb e) (radians (edeg e) (ealpha e)) M < 1 ->
     exists u g, 0 <= u < 1 /\ g <> (0, 0) /\ ellipse_random_points e 1 WhereIn [(u, g)] = Ok [M]) /\
  (on_ellipse (eO e) (ea e) (eb e) (radians (edeg e) (ealpha e)) M ->
     exists g, g <> (0, 0) /\ forall u, ellipse_random_points e 1 WhereOn [(u, g)] = Ok [M]).
Proof. exact (ellipse_random_onto e M). Qed.
Print Assumptions C20_ellipse_random_onto.

Example C20_ellipse_example : let e := mkEllipse (1, 2) 2 1 30 true in
  (exists ps, ellipse_random_points e 1 WhereIn [(1 / 2, (1, 0))] = Ok ps) /\
  (exists ps, ellipse_random_points e 1 WhereOn [(0, (3, -1))] = Ok ps).
Proof. exact ex_C20. Qed.

(** ** C22 *)
Theorem C22_equation e M : 0 < ea e -> 0 < eb e ->
  let '(A, B, C, D, E, F) := ellipse_equation e in
  A * fst M * fst M + B * fst M * snd M + C * snd M * snd M + D * fst M + E * snd M + F
   = (ea e * eb e) ^ 2 * (ell_form (eO e) (ea e) (eb e) (radians (edeg e) (ealpha e)) M - 1).
Proof. destruct M as [x y]. exact (equation_spec e (x, y)). Qed.
Print Assumptions C22_equation.

Theorem C22_equation_on e M : 0 < ea e -> 0 < eb e ->
  (conic_eval (ellipse_equation e) M = 0 <-> on_ellipse (eO e) (ea e) (eb e) (radians (edeg e) (ealpha e)) M).
Proof. exact (equation_on e M). Qed.
Print Assumptions C22_equation_on.

Theorem C22_contains e M : 0 < ea e -> 0 < eb e ->
  (ellipse_contains e M = true <-> in_ellipse (eO e) (ea e) (eb e) (radians (edeg e) (ealpha e)) M).
Proof. exact (ellipse_contains_spec e M). Qed.
Print Assumptions C22_contains.

Theorem C22_includes e M : 0 < ea e -> 0 < eb e ->
  (on_ellipse (eO e) (ea e) (eb e) (radians (edeg e) (ealpha e)) M -> ellipse_includes e M = true) /\
  (ellipse_includes e M = true ->
     (ea e * eb e) ^ 2 * Rabs (ell_form (eO e) (ea e) (eb e) (radians (edeg e) (ealpha e)) M - 1) <= / 500000000).
Proof. exact (ellipse_includes_spec e M). Qed.
Print Assumptions C22_includes.

Theorem C22_includes_centre_refuted e : 0 < ea e -> 0 < eb e -> (ea e * eb e) ^ 2 <= / 1000000000 ->
  ellipse_includes e (eO e) = true /\ ~ on_ellipse (eO e) (ea e) (eb e) (radians (edeg e) (ealpha e)) (eO e).
Proof. exact (ellipse_includes_centre e). Qed.
Print Assumptions C22_includes_centre_refuted.

Example C22_example : let e := mkEllipse (0, 0) 2 1 0 true in
  conic_eval (ellipse_equation e) (2, 0) = 0 /\ conic_eval (ellipse_equation e) (1, 0) < 0 /\
  0 < conic_eval (ellipse_equation e) (0, 2) /\ ellipse_contains e (1, 0) = true /\ ellipse_contains e (0, 2) = false.
Proof. exact ex_C22. Qed.

(** ** C23 *)
Theorem C23_path e n : 0 < ea e -> 0 < eb e -> (0 < n)%Z ->
  let th := radians (edeg e) (ealpha e) in
  exists path, ellipse_path e n = Ok path /\ length path = Z.to_nat n /\
    Forall (on_ellipse (eO e) (ea e) (eb e) th) path /\
    forall k, (k < Z.to_nat n)%nat ->
      fx (eO e) th (nth k path (0, 0)) = ea e * cos (2 * PI * INR k / IZR n) /\
      fy (eO e) th (nth k path (0, 0)) = eb e * sin (2 * PI * INR k / IZR n).
Proof. exact (ellipse_path_spec e n). Qed.
Print Assumptions C23_path.

Theorem C23_path_raises e n : (n <= 0)%Z -> ellipse_path e n = Raise ValueError.
Proof. exact (ellipse_path_raises e n). Qed.
Print Assumptions C23_path_raises.

Theorem C23_diameter e t conj ls : 0 < ea e -> 0 < eb e -> ellipse_diameter e t conj = Ok ls ->
  let th := radians (edeg e) (ealpha e) in
  exists l rest, ls = l :: rest /\
    on_ellipse (eO e) (ea e) (eb e) th (lA l) /\ on_ellipse (eO e) (ea e) (eb e) th (lB l) /\
    midpoint (lA l) (lB l) = eO e /\ lextA l = false /\ lextB l = false /\
    fx (eO e) th (lA l) = ea e * cos t /\ fy (eO e) th (lA l) = eb e * sin t /\
    if conj then exists l', rest = [l'] /\
      on_ellipse (eO e) (ea e) (eb e) th (lA l') /\ on_ellipse (eO e) (ea e) (eb e) th (lB l') /\
      midpoint (lA l') (lB l') = eO e /\ lextA l' = false /\ lextB l' = false /\
      ell_tangent (eO e) (ea e) (eb e) th (lA l) (vsub (lB l') (lA l')) /\
      ell_tangent (eO e) (ea e) (eb e) th (lB l) (vsub (lB l') (lA l')) /\
      ell_tangent (eO e) (ea e) (eb e) th (lA l') (vsub (lB l) (lA l)) /\
      ell_tangent (eO e) (ea e) (eb e) th (lB l') (vsub (lB l) (lA l))
    else rest = [].
Proof. exact (ellipse_diameter_spec e t conj ls). Qed.
Print Assumptions C23_diameter.

Theorem C23_diameter_cases e t conj :
  (exists ls, ellipse_diameter e t conj = Ok ls) \/ ellipse_diameter e t conj = Raise ValueError.
Proof. exact (ellipse_diameter_cases e t conj). Qed.
Print Assumptions C23_diameter_cases.

Theorem C23_diameter_total_refuted : exists e, Ellipse_init (0, 0) (/ 1000000000) (/ 1000000000) 0 true = Ok e /\
  ellipse_diameter e 0 false = Raise ValueError.
Proof. exact ex_C23_raises. Qed.
Print Assumptions C23_diameter_total_refuted.

(** P is the point of eccentric angle t *)
Theorem C23_normal e t P : 0 < ea e -> 0 < eb e ->
  let th := radians (edeg e) (ealpha e) in
  fx (eO e) th P = ea e * cos t -> fy (eO e) th P = eb e * sin t ->
  let n := ellipse_normal e t in
  sdot n n = 1 /\
  (forall v, ell_tangent (eO e) (ea e) (eb e) th P v -> sdot n v = 0) /\
  forall k, 0 < k -> 1 < ell_form (eO e) (ea e) (eb e) th (vadd P (vscal k n)).
Proof. exact (ellipse_normal_at e t P). Qed.
Print Assumptions C23_normal.

Example C23_example : let e := mkEllipse (0, 0) 2 1 0 true in
  (exists ps, ellipse_path e 4 = Ok ps /\ nth 1 ps (0, 0) = (0, 1)) /\
  (exists l l', ellipse_diameter e 0 true = Ok [l; l']).
Proof. exact ex_C23. Qed.

(** ** C24 *)
Theorem C24_shape_matrix e : 0 < ea e -> 0 < eb e ->
  exists S, shape_matrix e = Ok S /\ m12 S = m21 S /\
    forall M, let x := fst M - fst (eO e) in let y := snd M - snd (eO e) in
      m11 S * x * x + (m12 S + m21 S) * x * y + m22 S * y * y
       = ell_form (eO e) (ea e) (eb e) (radians (edeg e) (ealpha e)) M.
Proof. exact (shape_matrix_spec e). Qed.
Print Assumptions C24_shape_matrix.

Example C24_example : exists S, shape_matrix (mkEllipse (0, 0) 2 1 0 true) = Ok S /\
  m11 S = 1 / 4 /\ m12 S = 0 /\ m21 S = 0 /\ m22 S = 1.
Proof. exact ex_C24. Qed.

(** ** C25.  [tau] is the polar angle reduced to [0, 2 pi). *)
Theorem C25_point_from_angle e theta d tau m : 0 < ea e -> 0 < eb e ->
  radians d theta = tau + IZR m * (2 * PI) -> 0 <= tau < 2 * PI -> tau <> PI ->
  let P := ellipse_point_from_angle e theta d in
  let th := radians (edeg e) (ealpha e) in
  on_ellipse (eO e) (ea e) (eb e) th P /\
  exists k, 0 < k /\
    let sg := if ltb PI tau && ltb tau (PI + / 67108864) then -1 else 1 in
    fx (eO e) th P = sg * k * cos (radians d theta) /\ fy (eO e) th P = sg * k * sin (radians d theta).
Proof. exact (point_from_angle_spec e theta d tau m). Qed.
Print Assumptions C25_point_from_angle.

Theorem C25_theta2t e theta d tau m : 0 < ea e -> 0 < eb e ->
  radians d theta = tau + IZR m * (2 * PI) -> 0 < tau < 2 * PI -> tau <> PI ->
  let P := ellipse_point_from_angle e theta d in
  let th := radians (edeg e) (ealpha e) in
  exists t, theta2t e theta d = Ok t /\ fx (eO e) th P = ea e * cos t /\ fy (eO e) th P = eb e * sin t.
Proof. exact (theta2t_frame e theta d tau m). Qed.
Print Assumptions C25_theta2t.

Theorem C25_theta2t_zero_refuted e (d : bool) (m : Z) :
  theta2t e (if d then IZR m * 360 else IZR m * (2 * PI)) d = Raise ZeroDivisionError.
Proof. exact (theta2t_zero e d m). Qed.
Print Assumptions C25_theta2t_zero_refuted.

Theorem C25_opposite_point_refuted e : 0 < ea e -> 0 < eb e -> exists k, k < 0 /\
  let theta := PI + / 134217728 in
  let th := radians (edeg e) (ealpha e) in
  fx (eO e) th (ellipse_point_from_angle e theta false) = k * cos theta /\
  fy (eO e) th (ellipse_point_from_angle e theta false) = k * sin theta.
Proof. exact (ex_C25_opposite e). Qed.
Print Assumptions C25_opposite_point_refuted.

Example C25_example : let e := mkEllipse (0, 0) 2 1 0 true in
  radians true 90 = PI / 2 + IZR 0 * (2 * PI) /\ 0 < PI / 2 < 2 * PI /\ PI / 2 <> PI /\
  (exists t, theta2t e 90 true = Ok t).
Proof. exact ex_C25. Qed.

(** ** C26 *)
Theorem C26_own_equation_accepted ev e : (forall M, is_eigvals M (ev M)) -> 0 < ea e -> 0 < eb e ->
  let '(A, B, C, D, E, F) := ellipse_equation e in
  ((exists e', ellipse_from_equation ev A B C D E F = Ok e') <-> dist2 (0, 0) (eO e) < ea e ^ 2 + eb e ^ 2) /\
  (ellipse_from_equation ev A B C D E F = Raise ValueError <-> ea e ^ 2 + eb e ^ 2 <= dist2 (0, 0) (eO e)).
Proof. exact (own_equation_ok ev e). Qed.
Print Assumptions C26_own_equation_accepted.

Theorem C26_own_equation_same ev e e' : (forall M, is_eigvals M (ev M)) -> 0 < ea e -> 0 < eb e ->
  (let '(A, B, C, D, E, F) := ellipse_equation e in ellipse_from_equation ev A B C D E F) = Ok e' ->
  ea e = eb e \/ cos (2 * radians (edeg e) (ealpha e)) <> 0 ->
  0 < eb e' <= ea e' /\
  forall M, ell_form (eO e') (ea e') (eb e') (radians (edeg e') (ealpha e')) M
          = ell_form (eO e) (ea e) (eb e) (radians (edeg e) (ealpha e)) M.
Proof. exact (own_equation_same ev e e'). Qed.
Print Assumptions C26_own_equation_same.

Theorem C26_own_equation_diagonal ev e e' : (forall M, is_eigvals M (ev M)) -> 0 < ea e -> 0 < eb e ->
  (let '(A, B, C, D, E, F) := ellipse_equation e in ellipse_from_equation ev A B C D E F) = Ok e' ->
  ea e <> eb e -> cos (2 * radians (edeg e) (ealpha e)) = 0 ->
  eO e' = eO e /\ ea e' = Rmax (ea e) (eb e) /\ eb e' = Rmin (ea e) (eb e) /\ radians (edeg e') (ealpha e') = 0 /\
  exists M, on_ellipse (eO e') (ea e') (eb e') (radians (edeg e') (ealpha e')) M /\
          ~ on_ellipse (eO e) (ea e) (eb e) (radians (edeg e) (ealpha e)) M.
Proof. exact (own_equation_diagonal ev e e'). Qed.
Print Assumptions C26_own_equation_diagonal.

(** the unit circle centred at (3, 0) *)
Theorem C26_accepts_own_equation_refuted ev : (forall M, is_eigvals M (ev M)) ->
  let '(A, B, C, D, E, F) := ellipse_equation (mkEllipse (3, 0) 1 1 0 true) in
  ellipse_from_equation ev A B C D E F = Raise ValueError.
Proof. exact (ex_C26_far ev). Qed.
Print Assumptions C26_accepts_own_equation_refuted.

Theorem C26_roundtrip_refuted ev : (forall M, is_eigvals M (ev M)) -> let e := mkEllipse (0, 0) 2 1 45 true in
  exists e', (let '(A, B, C, D, E, F) := ellipse_equation e in ellipse_from_equation ev A B C D E F = Ok e') /\
   exists M, on_ellipse (eO e') (ea e') (eb e') (radians (edeg e') (ealpha e')) M /\
             ~ on_ellipse (0, 0) 2 1 (radians true 45) M.
Proof. exact (ex_C26_diagonal ev). Qed.
Print Assumptions C26_roundtrip_refuted.

Example C26_oracle_example : exists ev : mat2 -> R * R, forall M, is_eigvals M (ev M).
Proof. exact eigvals_exists. Qed.

Example C26_example ev : (forall M, is_eigvals M (ev M)) -> let e := mkEllipse (1, 1) 2 1 0 true in
  exists e', (let '(A, B, C, D, E, F) := ellipse_equation e in ellipse_from_equation ev A B C D E F = Ok e') /\
  cos (2 * radians true 0) <> 0.
Proof. exact (ex_C26 ev). Qed.

(** ** C27 *)
Theorem C27_from_equation ev A B C D E F e : (forall M, is_eigvals M (ev M)) ->
  ellipse_from_equation ev A B C D E F = Ok e -> A <> C \/ B = 0 ->
  0 < eb e <= ea e /\ edeg e = true /\ 0 <= ealpha e < 180 /\
  exists K, K <> 0 /\ forall M,
    conic_eval (A, B, C, D, E, F) M = K * (ell_form (eO e) (ea e) (eb e) (radians (edeg e) (ealpha e)) M - 1).
Proof. exact (from_equation_spec ev A B C D E F e). Qed.
Print Assumptions C27_from_equation.

Theorem C27_accepted_iff ev A B C D E F : (forall M, is_eigvals M (ev M)) ->
  ((exists e, ellipse_from_equation ev A B C D E F = Ok e) <->
     0 < A * C /\ B * B - 4 * A * C < 0 /\ 4 * (A + C) * F < D * D + E * E) /\
  ((exists e, ellipse_from_equation ev A B C D E F = Ok e) \/ ellipse_from_equation ev A B C D E F = Raise ValueError).
Proof. exact (from_equation_guard ev A B C D E F). Qed.
Print Assumptions C27_accepted_iff.

Theorem C27_scale_invariant ev ev' A B C D E F k :
  (forall M, is_eigvals M (ev M)) -> (forall M, is_eigvals M (ev' M)) -> k <> 0 ->
  ellipse_from_equation ev' (k * A) (k * B) (k * C) (k * D) (k * E) (k * F) = ellipse_from_equation ev A B C D E F.
Proof. exact (from_equation_scale ev ev' A B C D E F k). Qed.
Print Assumptions C27_scale_invariant.

Example C27_example ev : (forall M, is_eigvals M (ev M)) -> exists e, ellipse_from_equation ev 1 1 2 0 0 (-1) = Ok e.
Proof. exact (ex_C27 ev). Qed.

(** ** C28 *)
Theorem C28_equation P1 P2 P3 P4 P5 k : equation_from_five_points P1 P2 P3 P4 P5 = Ok k ->
  NoDup [P1; P2; P3; P4; P5] /\ Forall (fun P => conic_eval k P = 0) [P1; P2; P3; P4; P5] /\
  (let '(A, B, C, D, E, F) := k in B * B - 4 * A * C < 0) /\
  forall A B C D E F, Forall (fun P => conic_eval (A, B, C, D, E, F) P = 0) [P1; P2; P3; P4; P5] ->
    exists t, forall M, conic_eval (A, B, C, D, E, F) M = t * conic_eval k M.
Proof. exact (five_vanish P1 P2 P3 P4 P5 k). Qed.
Print Assumptions C28_equation.

Theorem C28_equation_cases P1 P2 P3 P4 P5 :
  (exists k, equation_from_five_points P1 P2 P3 P4 P5 = Ok k) \/ equation_from_five_points P1 P2 P3 P4 P5 = Raise ValueError.
Proof. exact (five_cases P1 P2 P3 P4 P5). Qed.
Print Assumptions C28_equation_cases.

Theorem C28_equation_complete e P1 P2 P3 P4 P5 : 0 < ea e -> 0 < eb e -> NoDup [P1; P2; P3; P4; P5] ->
  let th := radians (edeg e) (ealpha e) in
  Forall (on_ellipse (eO e) (ea e) (eb e) th) [P1; P2; P3; P4; P5] ->
  exists k, equation_from_five_points P1 P2 P3 P4 P5 = Ok k /\
    forall M, conic_eval k M = 0 <-> on_ellipse (eO e) (ea e) (eb e) th M.
Proof. exact (five_complete e P1 P2 P3 P4 P5). Qed.
Print Assumptions C28_equation_complete.

Theorem C28_from_five_points ev P1 P2 P3 P4 P5 e : (forall M, is_eigvals M (ev M)) ->
  ellipse_from_five_points ev P1 P2 P3 P4 P5 = Ok e ->
  exists A B C D E F, equation_from_five_points P1 P2 P3 P4 P5 = Ok (A, B, C, D, E, F) /\
   (A <> C \/ B = 0 -> 0 < eb e <= ea e /\
     Forall (on_ellipse (eO e) (ea e) (eb e) (radians (edeg e) (ealpha e))) [P1; P2; P3; P4; P5]).
Proof. exact (from_five_spec ev P1 P2 P3 P4 P5 e). Qed.
Print Assumptions C28_from_five_points.

Theorem C28_from_five_points_complete ev e P1 P2 P3 P4 P5 : (forall M, is_eigvals M (ev M)) ->
  0 < ea e -> 0 < eb e -> NoDup [P1; P2; P3; P4; P5] ->
  let th := radians (edeg e) (ealpha e) in
  Forall (on_ellipse (eO e) (ea e) (eb e) th) [P1; P2; P3; P4; P5] ->
  ((exists e', ellipse_from_five_points ev P1 P2 P3 P4 P5 = Ok e') <-> dist2 (0, 0) (eO e) < ea e ^ 2 + eb e ^ 2) /\
  (forall e', ea e = eb e \/ cos (2 * th) <> 0 -> ellipse_from_five_points ev P1 P2 P3 P4 P5 = Ok e' ->
     forall M, on_ellipse (eO e') (ea e') (eb e') (radians (edeg e') (ealpha e')) M <-> on_ellipse (eO e) (ea e) (eb e) th M).
Proof. exact (from_five_complete ev e P1 P2 P3 P4 P5). Qed.
Print Assumptions C28_from_five_points_complete.

Theorem C28_five_points_of_circle_refuted ev : (forall M, is_eigvals M (ev M)) ->
  let e := mkEllipse (3, 0) 1 1 0 true in let pts := [(4, 0); (2, 0); (3, 1); (3, -1); (18 / 5, 4 / 5)] in
  NoDup pts /\ Forall (on_ellipse (3, 0) 1 1 (radians true 0)) pts /\
  ellipse_from_five_points ev (4, 0) (2, 0) (3, 1) (3, -1) (18 / 5, 4 / 5) = Raise ValueError.
Proof. exact (ex_C28_far ev). Qed.
Print Assumptions C28_five_points_of_circle_refuted.

Example C28_example : NoDup [(2, 0); (-2, 0); (0, 1); (0, -1); (8 / 5, 3 / 5)] /\
  Forall (on_ellipse (0, 0) 2 1 (radians true 0)) [(2, 0); (-2, 0); (0, 1); (0, -1); (8 / 5, 3 / 5)].
Proof. exact ex_C28_points. Qed.

(** ** C29.  The lower triangle of S is read. *)
Theorem C29_from_center_and_matrix eigh c S e : is_eigh S (eigh S) -> from_center_and_matrix eigh c S = Ok e ->
  eO e = c /\ 0 < eb e <= ea e /\ edeg e = true /\ 0 <= ealpha e < 180 /\
  forall M, let x := fst M - fst c in let y := snd M - snd c in
    m11 S * x * x + 2 * m21 S * x * y + m22 S * y * y
     = ell_form (eO e) (ea e) (eb e) (radians (edeg e) (ealpha e)) M.
Proof. exact (from_cm_spec eigh c S e). Qed.
Print Assumptions C29_from_center_and_matrix.

Theorem C29_positive_definite eigh c S : is_eigh S (eigh S) ->
  let posdef := forall u, u <> (0, 0) -> 0 < m11 S * fst u * fst u + 2 * m21 S * fst u * snd u + m22 S * snd u * snd u in
  ((exists e, from_center_and_matrix eigh c S = Ok e) <-> posdef) /\
  (~ posdef <-> from_center_and_matrix eigh c S = Raise ValueError).
Proof. exact (from_cm_iff eigh c S). Qed.
Print Assumptions C29_positive_definite.

Theorem C29_shape_matrix_roundtrip eigh e : (forall S, is_eigh S (eigh S)) -> 0 < ea e -> 0 < eb e -> exists S e',
  shape_matrix e = Ok S /\ from_center_and_matrix eigh (eO e) S = Ok e' /\ eO e' = eO e /\ 0 < eb e' <= ea e' /\
  forall M, ell_form (eO e') (ea e') (eb e') (radians (edeg e') (ealpha e')) M
          = ell_form (eO e) (ea e) (eb e) (radians (edeg e) (ealpha e)) M.
Proof. exact (shape_matrix_roundtrip eigh e). Qed.
Print Assumptions C29_shape_matrix_roundtrip.

Example C29_oracle_example : exists eigh : mat2 -> eigh_res, forall S, is_eigh S (eigh S).
Proof. exact eigh_exists. Qed.

Example C29_example eigh : (forall S, is_eigh S (eigh S)) ->
  (exists e, from_center_and_matrix eigh (1, 2) (mkM2 2 1 1 2) = Ok e) /\
  from_center_and_matrix eigh (1, 2) (mkM2 1 2 2 1) = Raise ValueError.
Proof. exact (ex_C29 eigh). Qed.

(** ** C30 *)
Theorem C30_through_the_points eigh P1 P2 P3 e : (forall S, is_eigh S (eigh S)) -> from_boundary3 eigh P1 P2 P3 = Ok e ->
  eO e = centroid P1 P2 P3 /\ 0 < eb e <= ea e /\
  Forall (on_ellipse (eO e) (ea e) (eb e) (radians (edeg e) (ealpha e))) [P1; P2; P3].
Proof. exact (boundary3_spec eigh P1 P2 P3 e). Qed.
Print Assumptions C30_through_the_points.

Theorem C30_total eigh P1 P2 P3 : (forall S, is_eigh S (eigh S)) ->
  (scross (vsub P2 P1) (vsub P3 P1) <> 0 -> exists e, from_boundary3 eigh P1 P2 P3 = Ok e) /\
  (scross (vsub P2 P1) (vsub P3 P1) = 0 -> from_boundary3 eigh P1 P2 P3 = Raise LinAlgError).
Proof. exact (boundary3_total eigh P1 P2 P3). Qed.
Print Assumptions C30_total.

(** smallest area (pi a b) among the ellipses containing the three points *)
Theorem C30_minimal_area eigh P1 P2 P3 e O a b th : (forall S, is_eigh S (eigh S)) -> from_boundary3 eigh P1 P2 P3 = Ok e ->
  0 < a -> 0 < b -> Forall (in_ellipse O a b th) [P1; P2; P3] -> ea e * eb e <= a * b.
Proof. exact (from_boundary3_minimal eigh P1 P2 P3 e O a b th). Qed.
Print Assumptions C30_minimal_area.

Example C30_example eigh : (forall S, is_eigh S (eigh S)) -> exists e, from_boundary3 eigh (0, 0) (3, 0) (0, 3) = Ok e.
Proof. exact (ex_C30 eigh). Qed.

(** ** C31 *)
Theorem C31_contains_all_minimal eigh eigvals b4 ch points e : (forall S, is_eigh S (eigh S)) ->
  LownerJohnEllipse eigh eigvals b4 ch points = Ok (Some e) ->
  let th := radians (edeg e) (ealpha e) in
  0 < eb e <= ea e /\ Forall (in_ellipse (eO e) (ea e) (eb e) th) points /\
  (exists P1 P2 P3 rest, Permutation points (P1 :: P2 :: P3 :: rest) /\ eO e = centroid P1 P2 P3 /\
     Forall (on_ellipse (eO e) (ea e) (eb e) th) [P1; P2; P3]) /\
  forall O a b th', 0 < a -> 0 < b -> Forall (in_ellipse O a b th') points -> ea e * eb e <= a * b.
Proof. exact (LownerJohn_Some eigh eigvals b4 ch points e). Qed.
Print Assumptions C31_contains_all_minimal.

Theorem C31_none_iff eigh eigvals b4 ch points : (forall S, is_eigh S (eigh S)) ->
  (LownerJohnEllipse eigh eigvals b4 ch points = Ok None <-> (length points < 3)%nat) /\
  (forall x, LownerJohnEllipse eigh eigvals b4 ch points = Raise x -> x = AttributeError \/ x = LinAlgError).
Proof. exact (LownerJohn_None eigh eigvals b4 ch points). Qed.
Print Assumptions C31_none_iff.

(** four boundary points: the call raises *)
Theorem C31_four_boundary_points eigh eigvals b4 ch n path ip bp : length bp = 4%nat -> exists x,
  lowner_john eigh eigvals b4 ch n path ip bp = Raise x /\ (x = AttributeError \/ x = LinAlgError).
Proof. exact (lowner_john_four eigh eigvals b4 ch n path ip bp). Qed.
Print Assumptions C31_four_boundary_points.

(** the corners of any rectangle: an exception, whatever the random choices *)
Theorem C31_rectangle_refuted eigh eigvals b4 ch u v : (forall S, is_eigh S (eigh S)) -> 0 < u -> 0 < v ->
  exists x, LownerJohnEllipse eigh eigvals b4 ch [(u, v); (- u, v); (- u, - v); (u, - v)] = Raise x /\
    (x = AttributeError \/ x = LinAlgError).
Proof. exact (LownerJohn_rectangle eigh eigvals b4 ch u v). Qed.
Print Assumptions C31_rectangle_refuted.

Example C31_example eigh eigvals b4 ch : (forall S, is_eigh S (eigh S)) -> exists e,
  LownerJohnEllipse eigh eigvals b4 ch [(0, 0); (3, 0); (0, 3)] = Ok (Some e).
Proof. exact (ex_C31 eigh eigvals b4 ch). Qed.

(** ** C54 *)
Theorem C54_transform_ellipse f e0 : 0 < ea e0 -> 0 < eb e0 -> det2 (afA f) <> 0 ->
  exists e, affine_transform_ellipse f (AEllipse e0) = Ok (Some e) /\ 0 < eb e <= ea e /\ edeg e = edeg e0 /\
    0 <= ealpha e < (if edeg e then 180 else PI) /\
    forall M, on_ellipse (eO e0) (ea e0) (eb e0) (radians (edeg e0) (ealpha e0)) M <->
              on_ellipse (eO e) (ea e) (eb e) (radians (edeg e) (ealpha e)) (affine_transform f M).
Proof. exact (fun H1 H2 => transform_ellipse_spec f (AEllipse e0) (conj H1 H2)). Qed.
Print Assumptions C54_transform_ellipse.

Theorem C54_transform_circle f c : 0 < cr c -> det2 (afA f) <> 0 ->
  exists e, affine_transform_ellipse f (ACircle c) = Ok (Some e) /\ 0 < eb e <= ea e /\ edeg e = true /\
    0 <= ealpha e < (if edeg e then 180 else PI) /\
    forall M, on_circle (cO c) (cr c) M <->
              on_ellipse (eO e) (ea e) (eb e) (radians (edeg e) (ealpha e)) (affine_transform f M).
Proof. exact (transform_ellipse_spec f (ACircle c)). Qed.
Print Assumptions C54_transform_circle.

Theorem C54_singular f arg : det2 (afA f) = 0 -> affine_transform_ellipse f arg = Ok None.
Proof. exact (transform_ellipse_singular f arg). Qed.
Print Assumptions C54_singular.

Example C54_example : exists e, affine_transform_ellipse (mkAffine (mkM2 2 1 0 1) (3, 4)) (ACircle (mkCircle (1, 0) 2)) = Ok (Some e).
Proof. exact ex_C54. Qed.

(** ** C55, from_ellipse_to_ellipse *)
Theorem C55_ellipse_to_ellipse arg1 arg2 :
  let pos arg := match arg with ACircle c => 0 < cr c | AEllipse e => 0 < ea e /\ 0 < eb e end in
  let on arg M := match arg with
                  | ACircle c => on_circle (cO c) (cr c) M
                  | AEllipse e => on_ellipse (eO e) (ea e) (eb e) (radians (edeg e) (ealpha e)) M
                  end in
  pos arg1 -> pos arg2 ->
  exists f, from_ellipse_to_ellipse arg1 arg2 = Ok f /\ det2 (afA f) <> 0 /\
    forall M, on arg1 M <-> on arg2 (affine_transform f M).
Proof. exact (ellipse_to_ellipse_spec arg1 arg2). Qed.
Print Assumptions C55_ellipse_to_ellipse.

(** ** C74 *)
Theorem C74_approx_equal x y : approx_equal_ x x = true /\ approx_equal_ x y = approx_equal_ y x.
Proof. exact (conj (approx_equal_refl x) (approx_equal_sym x y)). Qed.
Print Assumptions C74_approx_equal.

Theorem C74_circle_reflexive c : circle_is_equal c c = true.
Proof. exact (circle_is_equal_refl c). Qed.
Print Assumptions C74_circle_reflexive.

Theorem C74_circle_symmetric_refuted : exists c1 c2, 0 < cr c1 /\ 0 < cr c2 /\
  circle_is_equal c1 c2 = true /\ circle_is_equal c2 c1 = false.
Proof. exact circle_is_equal_asym. Qed.
Print Assumptions C74_circle_symmetric_refuted.

Theorem C74_circle_transitive_refuted : exists c1 c2 c3, 0 < cr c1 /\ 0 < cr c2 /\ 0 < cr c3 /\
  circle_is_equal c1 c2 = true /\ circle_is_equal c2 c3 = true /\ circle_is_equal c1 c3 = false.
Proof. exact circle_is_equal_not_trans. Qed.
Print Assumptions C74_circle_transitive_refuted.

(** same centre and axes, angles equal modulo a half turn, in any units *)
Theorem C74_ellipse_complete e1 e2 (m : Z) : eO e1 = eO e2 -> ea e1 = ea e2 -> eb e1 = eb e2 ->
  radians (edeg e1) (ealpha e1) = radians (edeg e2) (ealpha e2) + IZR m * PI -> ellipse_is_equal e1 e2 = true.
Proof. exact (ellipse_is_equal_complete e1 e2 m). Qed.
Print Assumptions C74_ellipse_complete.

Theorem C74_ellipse_sound e1 e2 : ellipse_is_equal e1 e2 = true ->
  Rabs (fst (eO e1) - fst (eO e2)) <= / 100000000 + / 100000 * Rabs (fst (eO e2)) /\
  Rabs (snd (eO e1) - snd (eO e2)) <= / 100000000 + / 100000 * Rabs (snd (eO e2)) /\
  Rabs (ea e1 - ea e2) <= / 100000000 + / 100000 * Rabs (ea e2) /\
  Rabs (eb e1 - eb e2) <= / 100000000 + / 100000 * Rabs (eb e2) /\
  exists m, Rabs (radians (edeg e1) (ealpha e1) - radians (edeg e2) (ealpha e2) - IZR m * PI)
            <= PI / 180 * (/ 100000000 + / 100000 * 180).
Proof. exact (ellipse_is_equal_sound e1 e2). Qed.
Print Assumptions C74_ellipse_sound.

Theorem C74_round_ellipse_refuted O r : 0 < r ->
  let e1 := mkEllipse O r r 0 true in let e2 := mkEllipse O r r 90 true in
  ellipse_is_equal e1 e2 = false /\
  forall M, on_ellipse O r r (radians true 0) M <-> on_ellipse O r r (radians true 90) M.
Proof. exact (ellipse_is_equal_round O r). Qed.
Print Assumptions C74_round_ellipse_refuted.

Theorem C74_wrap_around_refuted O a b d : 0 < d <= / 100000000 ->
  ellipse_is_equal (mkEllipse O a b d true) (mkEllipse O a b 0 true) = true /\
  ellipse_is_equal (mkEllipse O a b (- d) true) (mkEllipse O a b 0 true) = false.
Proof. exact (ellipse_is_equal_wrap O a b d). Qed.
Print Assumptions C74_wrap_around_refuted.
