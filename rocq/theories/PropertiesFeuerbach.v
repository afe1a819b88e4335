(** * The circles of one triangle, obtained by different calls, and how they are related. *)

From Coq Require Import Reals List.
From Verif Require Import Base Spec SpecTriangle ModelInternal ModelLine ModelCircle ModelTriangle PFeuerbach3.
Import ListNotations.
Local Open Scope R_scope.

(** ** C111 *)
Theorem C111_radii A B C : ~ collinear A B C -> exists cc ci cA cB cC,
  circumcircle (mkTri A B C) = Ok (Some cc) /\ incircle (mkTri A B C) = Ok ci /\ excircles (mkTri A B C) = Ok (cA, cB, cC) /\
  / cr ci = / cr cA + / cr cB + / cr cC /\ cr cA + cr cB + cr cC = 4 * cr cc + cr ci /\
  let area := Rabs (scross (vsub B A) (vsub C A)) / 2 in
  cr ci * cr cA * cr cB * cr cC = area ^ 2 /\ cr ci * ((dist B C + dist A C + dist A B) / 2) = area /\
  4 * cr cc * area = dist B C * dist A C * dist A B.
Proof. exact (radii_spec A B C). Qed.
Print Assumptions C111_radii.

(** Euler: the distances between the centre of the circumscribed circle and the other centres *)
Theorem C111_euler A B C : ~ collinear A B C -> exists cc ci cA cB cC,
  circumcircle (mkTri A B C) = Ok (Some cc) /\ incircle (mkTri A B C) = Ok ci /\ excircles (mkTri A B C) = Ok (cA, cB, cC) /\
  2 * cr ci <= cr cc /\ dist2 (cO cc) (cO ci) = cr cc * (cr cc - 2 * cr ci) /\
  Forall (fun cx => dist2 (cO cc) (cO cx) = cr cc * (cr cc + 2 * cr cx)) [cA; cB; cC].
Proof. exact (euler_spec A B C). Qed.
Print Assumptions C111_euler.

(** Feuerbach: the circle of the feet of the altitudes passes through the middles of the
    sides and is tangent to the inscribed and escribed circles *)
Theorem C111_nine_point_circle A B C : ~ collinear A B C -> ~ orthogonal (vsub B A) (vsub C A) -> ~ orthogonal (vsub A B) (vsub C B) -> ~ orthogonal (vsub A C) (vsub B C) ->
  exists cc ci cA cB cC T n,
  circumcircle (mkTri A B C) = Ok (Some cc) /\ incircle (mkTri A B C) = Ok ci /\ excircles (mkTri A B C) = Ok (cA, cB, cC) /\
  orthic_triangle (mkTri A B C) = Ok T /\ circumcircle T = Ok (Some n) /\ cr n = cr cc / 2 /\
  Forall (on_circle (cO n) (cr n)) [tA T; tB T; tC T; midpoint B C; midpoint A C; midpoint A B] /\
  dist (cO n) (cO ci) = cr n - cr ci /\ Forall (fun cx => dist (cO n) (cO cx) = cr n + cr cx) [cA; cB; cC].
Proof. exact (nine_spec A B C). Qed.
Print Assumptions C111_nine_point_circle.

(** in a right triangle this circle is not obtained in this way *)
Theorem C111_right_angle A B C : ~ collinear A B C -> exists T, orthic_triangle (mkTri A B C) = Ok T /\
  (orthogonal (vsub B A) (vsub C A) -> circumcircle T = Ok None) /\
  (orthogonal (vsub A B) (vsub C B) \/ orthogonal (vsub A C) (vsub B C) -> circumcircle T = Raise ZeroDivisionError).
Proof. exact (nine_right_spec A B C). Qed.
Print Assumptions C111_right_angle.

(** the triangle is the orthic triangle of the centres of its excircles *)
Theorem C111_excentral A B C : ~ collinear A B C -> exists cc cA cB cC e,
  circumcircle (mkTri A B C) = Ok (Some cc) /\ excircles (mkTri A B C) = Ok (cA, cB, cC) /\
  orthic_triangle (mkTri (cO cA) (cO cB) (cO cC)) = Ok (mkTri A B C) /\
  circumcircle (mkTri (cO cA) (cO cB) (cO cC)) = Ok (Some e) /\ cr e = 2 * cr cc.
Proof. exact (excentral_spec A B C). Qed.
Print Assumptions C111_excentral.

Example C111_example : let A := (0, 0) in let B := (4, 0) in let C := (1, 3) in
  ~ collinear A B C /\ ~ orthogonal (vsub B A) (vsub C A) /\ ~ orthogonal (vsub A B) (vsub C B) /\ ~ orthogonal (vsub A C) (vsub B C).
Proof. exact ex_C111. Qed.
