(** * Properties of the [show] methods: C77.
    Every proof is one line; the work is in PShow.v. *)

From Coq Require Import Reals List Bool String.
From Verif Require Import Base Spec ModelLine ModelCircle ModelEllipse ModelInversion ModelTriangle ModelAffine ModelTransfo ModelMobius ModelShow SpecShow PShow.
Import ListNotations.
Local Open Scope R_scope.
Local Open Scope string_scope.

(** ** C77, the last line printed for a Line names the set of points which [includes(M, strict=True)] accepts (on the line) *)
Theorem C77_line_show l M cc : lA l <> lB l -> on_line (lA l) (lB l) M -> exists s b,
  outcome (line_show l) = Ok tt /\ last (printed (line_show l)) [] = [Str s] /\ line_includes l M true cc = Ok b /\
  (s = "Infinite line passing through A and B." /\ b = true \/
   s = "Segment joining A and B." /\ (b = true <-> on_segment (lA l) (lB l) M) \/
   s = "Half-line with origin A and passing through B." /\ (b = true <-> on_open_ray (lA l) (lB l) M) \/
   s = "Half-line with origin B and passing through A." /\ (b = true <-> on_open_ray (lB l) (lA l) M)).
Proof. exact (line_show_last l M cc). Qed.
Print Assumptions C77_line_show.

Example C77_example_line : let l := mkLine (0, 0) (1, 0) false true in lA l <> lB l /\ on_line (lA l) (lB l) (3, 0).
Proof. exact ex_C77_line. Qed.

(** ** C77, the remark on the flatness of a triangle *)
Theorem C77_triangle_show A B C :
  let s := triangle_show (mkTri A B C) in
  let head := [[Str "Triangle:"]; [Str "A: "; Tup A]; [Str "B: "; Tup B]; [Str "C: "; Tup C]] in
  let u := vsub B A in let v := vsub C A in
  (A = B \/ A = C -> s = mkShown head (Raise ZeroDivisionError)) /\
  (A <> B -> A <> C -> collinear A B C -> s = mkShown (head ++ [[Str "The triangle is flat."]])%list (Ok tt)) /\
  (~ collinear A B C -> 100 * scross u v ^ 2 < sdot u u * sdot v v ->
     exists f, s = mkShown (head ++ [[Str "The triangle is almost flat (flatness: "; Num f; Str ")."]])%list (Ok tt) /\
       f * (sdot u u * sdot v v) = sdot u v ^ 2) /\
  (~ collinear A B C -> sdot u u * sdot v v <= 100 * scross u v ^ 2 -> s = mkShown head (Ok tt)).
Proof. exact (triangle_show_spec A B C). Qed.
Print Assumptions C77_triangle_show.

(** ** C77, [Projection.show] never succeeds: it raises after the two points of the line D *)
Theorem C77_projection_show_refuted p : outcome (projection_show p) = Raise AttributeError /\
  tl (printed (projection_show p)) = [[Str "A: "; Arr (lA (pD p))]; [Str "B: "; Arr (lB (pD p))]].
Proof. exact (projection_show_raises p). Qed.
Print Assumptions C77_projection_show_refuted.

(** ** C77, the second vector printed for a shear is orthogonal to the first and [ratio] times as long *)
Theorem C77_shear_show s : exists v2,
  In [Str "first vector: "; Tup (sw s)] (printed (shear_show s)) /\ In [Str "second vector: "; Tup v2] (printed (shear_show s)) /\
  sdot (sw s) v2 = 0 /\ scross (sw s) v2 = sratio s * sdot (sw s) (sw s) /\ sdot v2 v2 = sratio s ^ 2 * sdot (sw s) (sw s).
Proof. exact (shear_show_vectors s). Qed.
Print Assumptions C77_shear_show.

(** ** C77, the unit of an angle *)
Theorem C77_units :
  (forall e, exists s, last (printed (ellipse_show e)) [] = [Str "angle: "; Num (ealpha e); Str s] /\
     (s = "degrees" \/ s = "degree" <-> edeg e = true) /\ (s = "radians" \/ s = "radian" <-> edeg e = false) /\ (s = "degree" \/ s = "radian" <-> ealpha e = 1)) /\
  (forall r, exists s, last (printed (rotation_show r)) [] = [Str "angle: "; Num (rtheta r); Str s] /\
     (s = "degrees" \/ s = "degree" <-> rdeg r = true) /\ (s = "radians" \/ s = "radian" <-> rdeg r = false) /\ (s = "degree" \/ s = "radian" <-> rtheta r = 1)) /\
  (forall h, exists s, last (printed (shear_show h)) [] = [Str "angle: "; Num (sangle h); Str s] /\
     (s = "degrees" \/ s = "degree" <-> sdeg h = true) /\ (s = "radians" \/ s = "radian" <-> sdeg h = false) /\ (s = "degree" \/ s = "radian" <-> sangle h = 1 \/ sangle h = 0)).
Proof. exact show_units. Qed.
Print Assumptions C77_units.

(** ** C77, what is printed determines the object (for a reflection, the two points) *)
Theorem C77_show_identifies :
  (forall l l', printed (line_show l) = printed (line_show l') -> l = l') /\
  (forall c c', printed (circle_show c) = printed (circle_show c') -> c = c') /\
  (forall e e', printed (ellipse_show e) = printed (ellipse_show e') -> e = e') /\
  (forall i i', printed (inversion_show i) = printed (inversion_show i') -> i = i') /\
  (forall T T', printed (triangle_show T) = printed (triangle_show T') -> T = T') /\
  (forall f f', printed (affine_show f) = printed (affine_show f') -> f = f') /\
  (forall m m', printed (mobius_show m) = printed (mobius_show m') -> m = m') /\
  (forall l l', printed (reflection_show l) = printed (reflection_show l') -> lA l = lA l' /\ lB l = lB l') /\
  (forall r r', printed (rotation_show r) = printed (rotation_show r') -> r = r') /\
  (forall s s', sw s <> (0, 0) -> printed (shear_show s) = printed (shear_show s') -> s = s') /\
  (forall s s', printed (scalingxy_show s) = printed (scalingxy_show s') -> s = s') /\
  (forall h h', printed (homothety_show h) = printed (homothety_show h') -> h = h') /\
  (forall s s', printed (scaling_show s) = printed (scaling_show s') -> s = s').
Proof. exact show_identifies. Qed.
Print Assumptions C77_show_identifies.

(** no two lines printed for an object begin with the same label *)
Theorem C77_show_labels :
  (forall l, NoDup (labels (line_show l))) /\ (forall c, NoDup (labels (circle_show c))) /\
  (forall e, NoDup (labels (ellipse_show e))) /\ (forall i, NoDup (labels (inversion_show i))) /\
  (forall T, NoDup (labels (triangle_show T))) /\ (forall f, NoDup (labels (affine_show f))) /\
  (forall m, NoDup (labels (mobius_show m))) /\ (forall l, NoDup (labels (reflection_show l))) /\
  (forall r, NoDup (labels (rotation_show r))) /\ (forall s, NoDup (labels (shear_show s))) /\
  (forall s, NoDup (labels (scalingxy_show s))) /\ (forall h, NoDup (labels (homothety_show h))) /\
  (forall s, NoDup (labels (scaling_show s))).
Proof. exact show_labels. Qed.
Print Assumptions C77_show_labels.
