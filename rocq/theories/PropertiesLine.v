(** * Properties C01-C05, C07, C08: lines. *)

From Coq Require Import Reals Lra Psatz List Bool.
From Verif Require Import Base BaseLemmas Spec SpecLemmas ModelInternal ModelLine PLine PLineEx.
Local Open Scope R_scope.

(** Every Line built by the constructor has two distinct points: this is the
    hypothesis [lA l <> lB l] of the theorems below. *)
Theorem Line_constructor_distinct A B eA eB l :
  Line_init A B eA eB = Ok l -> lA l = A /\ lB l = B /\ lextA l = eA /\ lextB l = eB /\ lA l <> lB l.
Proof. exact (fun H => Line_init_distinct A B eA eB l H). Qed.
Print Assumptions Line_constructor_distinct.

(** ** C01 *)
Theorem C01_direction_offset_is_normal_equation l : lA l <> lB l ->
  let d := fst (direction_offset l) in
  let o := snd (direction_offset l) in
  0 <= d < 2 * PI /\ 0 <= o /\
  forall x y, on_line (lA l) (lB l) (x, y) <-> cos d * x + sin d * y = o.
Proof. exact (direction_offset_equation l). Qed.
Print Assumptions C01_direction_offset_is_normal_equation.

(** the hypothesis is met by the slanted line x + y = -1 *)
Example C01_example : let l := mkLine (0, -1) (-1, 0) true true in
  lA l <> lB l /\ on_line (lA l) (lB l) (1, -2).
Proof. exact ex_C01. Qed.

(** ** C02 *)
Theorem C02_is_equal_complete l1 l2 : lA l1 <> lB l1 -> lA l2 <> lB l2 ->
  same_line (lA l1) (lB l1) (lA l2) (lB l2) -> line_is_equal l1 l2 = true.
Proof. exact (is_equal_complete l1 l2). Qed.
Print Assumptions C02_is_equal_complete.

Theorem C02_is_equal_identifies_mirror_images l1 l2 : lA l1 <> lB l1 ->
  lA l2 = vopp (lA l1) -> lB l2 = vopp (lB l1) ->
  line_is_equal l1 l2 = true /\
  (~ on_line (lA l1) (lB l1) (0, 0) ->
   forall M, on_line (lA l1) (lB l1) M -> ~ on_line (lA l2) (lB l2) M).
Proof. exact (is_equal_mirror_full l1 l2). Qed.
Print Assumptions C02_is_equal_identifies_mirror_images.

(** the lines x = 1 and x = -1, both accepted by the constructor *)
Theorem C02_is_equal_sound_refuted : exists l1 l2,
  Line_init (1, 0) (1, 1) true true = Ok l1 /\ Line_init (-1, 0) (-1, 1) true true = Ok l2 /\
  line_is_equal l1 l2 = true /\ ~ same_line (lA l1) (lB l1) (lA l2) (lB l2).
Proof. exact is_equal_unsound. Qed.
Print Assumptions C02_is_equal_sound_refuted.

(** conversely, an answer True for lines whose offsets are equal means parallel
    lines up to the tolerance on the angle: lines in clearly different
    positions are told apart, e.g. x = 1 and x = 2 *)
Example C02_example_false :
  line_is_equal (mkLine (1, 0) (1, 1) true true) (mkLine (2, 0) (2, 5) true true) = false.
Proof. exact ex_C02_false. Qed.

(** ** C03 *)
Theorem C03_is_parallel_complete l1 l2 :
  parallel (vsub (lB l1) (lA l1)) (vsub (lB l2) (lA l2)) -> is_parallel l1 l2 = true.
Proof. exact (is_parallel_complete l1 l2). Qed.
Print Assumptions C03_is_parallel_complete.

Theorem C03_is_perpendicular_complete l1 l2 :
  orthogonal (vsub (lB l1) (lA l1)) (vsub (lB l2) (lA l2)) -> is_perpendicular l1 l2 = true.
Proof. exact (is_perpendicular_complete l1 l2). Qed.
Print Assumptions C03_is_perpendicular_complete.

(** exactly what is tested *)
Theorem C03_is_parallel_tests_cross_product l1 l2 :
  is_parallel l1 l2 = true <->
  Rabs (scross (vsub (lB l1) (lA l1)) (vsub (lB l2) (lA l2))) < / 67108864.
Proof. exact (is_parallel_iff l1 l2). Qed.
Print Assumptions C03_is_parallel_tests_cross_product.

(** soundness for lines whose points are far enough apart: a scalar product of
    at least 2e-9 in absolute value is never taken for 0 *)
Theorem C03_is_perpendicular_sound_when_large l1 l2 :
  2 / 1000000000 <= Rabs (sdot (vsub (lB l1) (lA l1)) (vsub (lB l2) (lA l2))) ->
  is_perpendicular l1 l2 = false.
Proof. exact (is_perpendicular_large l1 l2). Qed.
Print Assumptions C03_is_perpendicular_sound_when_large.

(** for every pair of directions there are lines (accepted by the constructor)
    with these directions that are declared parallel, and perpendicular *)
Theorem C03_tolerance_refuted (u v : pt) : sdot u u = 1 -> sdot v v = 1 ->
  exists l1 l2,
    Line_init (0, 0) (vscal (/ 100000) u) true true = Ok l1 /\
    Line_init (0, 0) (vscal (/ 100000) v) true true = Ok l2 /\
    is_parallel l1 l2 = true /\ is_perpendicular l1 l2 = true.
Proof. exact (tiny_lines u v). Qed.
Print Assumptions C03_tolerance_refuted.

Example C03_example : sdot (3 / 5, 4 / 5) (3 / 5, 4 / 5) = 1 /\ sdot (1, 0) (1, 0) = 1.
Proof. exact ex_C03. Qed.

(** ** C04 *)
Theorem C04_includes_decides_line l M cc :
  allclose (lA l) (lB l) = false -> allclose (lA l) M = false -> allclose (lB l) M = false ->
  exists b, line_includes l M false cc = Ok b /\ (b = true <-> on_line (lA l) (lB l) M).
Proof. exact (includes_decides l M cc). Qed.
Print Assumptions C04_includes_decides_line.

Theorem C04_includes_strict l M cc : lA l <> lB l -> on_line (lA l) (lB l) M ->
  exists b, line_includes l M true cc = Ok b /\
  (b = true <->
   match lextA l, lextB l with
   | true, true => True
   | false, false => on_segment (lA l) (lB l) M
   | true, false => on_open_ray (lB l) (lA l) M
   | false, true => on_open_ray (lA l) (lB l) M
   end).
Proof. exact (includes_strict l M cc). Qed.
Print Assumptions C04_includes_strict.

(** the origin of a half-line is never included *)
Theorem C04_half_line_excludes_origin l cc : lA l <> lB l ->
  (lextA l = false -> lextB l = true -> line_includes l (lA l) true cc = Ok false) /\
  (lextA l = true -> lextB l = false -> line_includes l (lB l) true cc = Ok false).
Proof. exact (includes_origin l cc). Qed.
Print Assumptions C04_half_line_excludes_origin.

(** a point off the line is rejected also with strict=True, if collinearity is checked *)
Theorem C04_includes_strict_off_line l M :
  allclose (lA l) (lB l) = false -> allclose (lA l) M = false -> allclose (lB l) M = false ->
  ~ on_line (lA l) (lB l) M -> line_includes l M true true = Ok false.
Proof. exact (includes_strict_off l M). Qed.
Print Assumptions C04_includes_strict_off_line.

(** inside the tolerance every point is accepted, on the line or not *)
Theorem C04_includes_tolerance l M cc : allclose (lA l) M = true \/ allclose (lB l) M = true ->
  line_includes l M false cc = Ok true.
Proof. exact (includes_close l M cc). Qed.
Print Assumptions C04_includes_tolerance.

Example C04_example : let l := mkLine (0, 0) (2, 2) false true in
  allclose (lA l) (lB l) = false /\ allclose (lA l) (3, 3) = false /\ allclose (lB l) (3, 3) = false /\
  on_line (lA l) (lB l) (3, 3) /\ on_open_ray (lA l) (lB l) (3, 3) /\
  on_line (lA l) (lB l) (-1, -1) /\ ~ on_open_ray (lA l) (lB l) (-1, -1).
Proof. exact ex_C04. Qed.

(** ** C05 *)
Theorem C05_projection_and_distance l M : lA l <> lB l ->
  exists P, line_projection l M = Some P /\
            on_line (lA l) (lB l) P /\ orthogonal (vsub P M) (vsub (lB l) (lA l)) /\
            line_distance l M = Ok (dist M P) /\
            (forall Q, on_line (lA l) (lB l) Q -> dist M P <= dist M Q) /\
            (forall Q, on_line (lA l) (lB l) Q -> dist M Q = dist M P -> Q = P).
Proof. exact (projection_nearest l M). Qed.
Print Assumptions C05_projection_and_distance.

Theorem C05_perpendicular l M eH eM l' : lA l <> lB l -> perpendicular l M eH eM = Ok l' ->
  on_line (lA l') (lB l') M /\ orthogonal (vsub (lB l') (lA l')) (vsub (lB l) (lA l)) /\
  lA l' <> lB l' /\
  (line_includes l M false true = Ok false ->
     line_projection l M = Some (lA l') /\ lB l' = M /\ lextA l' = eH /\ lextB l' = eM) /\
  (line_includes l M false true = Ok true -> lA l' = M /\ lextA l' = true /\ lextB l' = true).
Proof. exact (perpendicular_full l M eH eM l'). Qed.
Print Assumptions C05_perpendicular.

(** it succeeds as soon as the two points it is made of are not allclose:
    for M off the line, the foot and M; the only possible error is ValueError *)
Theorem C05_perpendicular_total l M eH eM : lA l <> lB l ->
  (forall e, perpendicular l M eH eM = Raise e -> e = ValueError) /\
  (forall P, line_includes l M false true = Ok false -> line_projection l M = Some P ->
     allclose P M = false -> perpendicular l M eH eM = Ok (mkLine P M eH eM)).
Proof. exact (perpendicular_total l M eH eM). Qed.
Print Assumptions C05_perpendicular_total.

Example C05_example : let l := mkLine (0, 0) (2, 0) true true in
  line_projection l (5, 3) = Some (5, 0) /\
  perpendicular l (5, 3) false true = Ok (mkLine (5, 0) (5, 3) false true).
Proof. exact ex_C05. Qed.

(** ** C07 *)
Theorem C07_rotate l alpha O degrees l' : line_rotate l alpha O degrees = Ok l' ->
  (forall t, at_line (lA l') (lB l') t = rot (radians degrees alpha) O (at_line (lA l) (lB l) t)) /\
  (forall M, on_line (lA l') (lB l') (rot (radians degrees alpha) O M) <-> on_line (lA l) (lB l) M) /\
  lextA l' = lextA l /\ lextB l' = lextB l.
Proof. exact (rotate_line_spec l alpha O degrees l'). Qed.
Print Assumptions C07_rotate.

Theorem C07_translate l v l' : line_translate l v = Ok l' ->
  (forall t, at_line (lA l') (lB l') t = vadd (at_line (lA l) (lB l) t) v) /\
  (forall M, on_line (lA l') (lB l') (vadd M v) <-> on_line (lA l) (lB l) M) /\
  lextA l' = lextA l /\ lextB l' = lextB l.
Proof. exact (translate_line_spec l v l'). Qed.
Print Assumptions C07_translate.

(** they fail exactly when the two moved points are allclose *)
Theorem C07_rotate_translate_total l alpha O degrees v :
  (line_rotate l alpha O degrees = Raise ValueError <->
     allclose (rot (radians degrees alpha) O (lA l)) (rot (radians degrees alpha) O (lB l)) = true) /\
  (forall e, line_rotate l alpha O degrees = Raise e -> e = ValueError) /\
  (line_translate l v = Raise ValueError <-> allclose (vadd (lA l) v) (vadd (lB l) v) = true) /\
  (forall e, line_translate l v = Raise e -> e = ValueError).
Proof. exact (rotate_translate_total l alpha O degrees v). Qed.
Print Assumptions C07_rotate_translate_total.

Example C07_example : line_translate (mkLine (0, 0) (1, 1) true false) (2, 3)
  = Ok (mkLine (0 + 2, 0 + 3) (1 + 2, 1 + 3) true false).
Proof. exact ex_C07. Qed.

(** ** C08 *)
Theorem C08_intersection_sound l1 l2 st P : lA l1 <> lB l1 -> lA l2 <> lB l2 ->
  intersection_line_line l1 l2 st = Some P ->
  on_line (lA l1) (lB l1) P /\ on_line (lA l2) (lB l2) P /\
  forall Q, on_line (lA l1) (lB l1) Q -> on_line (lA l2) (lB l2) Q -> Q = P.
Proof. exact (intersection_line_line_sound l1 l2 st P). Qed.
Print Assumptions C08_intersection_sound.

Theorem C08_parallel_none l1 l2 st :
  parallel (vsub (lB l1) (lA l1)) (vsub (lB l2) (lA l2)) -> intersection_line_line l1 l2 st = None.
Proof. exact (intersection_line_line_parallel l1 l2 st). Qed.
Print Assumptions C08_parallel_none.

Theorem C08_intersection_complete l1 l2 :
  / 67108864 <= Rabs (scross (vsub (lB l1) (lA l1)) (vsub (lB l2) (lA l2))) ->
  line_is_equal l1 l2 = false ->
  exists P, intersection_line_line l1 l2 false = Some P.
Proof. exact (intersection_line_line_complete l1 l2). Qed.
Print Assumptions C08_intersection_complete.

(** the lines x = 1 and y = 2 *)
Example C08_example : let l1 := mkLine (1, 0) (1, 1) true true in
  let l2 := mkLine (0, 2) (1, 2) true true in
  / 67108864 <= Rabs (scross (vsub (lB l1) (lA l1)) (vsub (lB l2) (lA l2))) /\
  line_is_equal l1 l2 = false /\ intersection_line_line l1 l2 false = Some (1, 2).
Proof. exact ex_C08. Qed.
