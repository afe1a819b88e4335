(** * Model of examples/triangularApollonianGasket.py, lines 9-189: the triangle filled
    with circles, from its Malfatti circles.  The meshes and the colours are not modelled:
    a call of [plotter.add_mesh] on a sphere is modelled by the circle (centre, radius) of
    that sphere.  The same gadgets (lines 17-131) are in
    examples/triangularCircularGasket.py, lines 17-104 and 136-160. *)

From Coq Require Import Reals List Bool ZArith.
From Verif Require Import Base ModelInternal ModelLine ModelCircle ModelTriangle.
Import ListNotations.
Local Open Scope R_scope.

(** The tuples ("ccc", c1, c2, c3), ("ccl", c1, c2, A, B) and ("cll", A, B, C, circle) *)
Inductive hole :=
| CCC (c1 c2 c3 : circle)
| CCL (c1 c2 : circle) (A B : pt)
| CLL (A B C : pt) (c : circle).

(** triangularApollonianGasket.py:17-18 [innerSoddyRadius]; the third radius may be inf
    ([None] here), with 1/inf = 0 *)
Definition innerSoddyRadius (r1 r2 : R) (r3 : option R) : res R :=
  let! b1 := np_div 1 r1 in
  let! b2 := np_div 1 r2 in
  let! b3 := match r3 with Some r3 => np_div 1 r3 | None => Ok 0 end in
  let! b12 := np_div b1 r2 in
  let! b23 := match r3 with Some r3 => np_div b2 r3 | None => Ok 0 end in
  let! b31 := np_div b3 r1 in
  let! q := py_sqrt (b12 + b23 + b31) in
  np_div 1 (b1 + b2 + b3 + 2 * q).

(** triangularApollonianGasket.py:25-43 [innerSoddyCircle]: the drawn circle, the new holes *)
Definition innerSoddyCircle (c1 c2 c3 : circle) : res (circle * list hole) :=
  let r1 := cr c1 in
  let r2 := cr c2 in
  let r3 := cr c3 in
  let! radius := innerSoddyRadius r1 r2 (Some r3) in
  let! (center, _) := equal_detour_point (mkTri (cO c1) (cO c2) (cO c3)) in
  let! c123 := Circle_init center radius in
  Ok (c123, [CCC c123 c1 c2; CCC c123 c2 c3; CCC c123 c1 c3]).

(** [math.copysign] (signed zeros not distinguished) *)
Definition copysign (x y : R) : R := if ltb y 0 then - Rabs x else Rabs x.

(** [cmath.exp(1j*alpha)] *)
Definition cexp_i (alpha : R) : C := (cos alpha, sin alpha).

(** triangularApollonianGasket.py:48-83, after the exchange of A and B *)
Definition side_circle_circle_sorted (A B : pt) (cA cB : circle) : res (circle * list hole) :=
  let rA := cr cA in
  let rB := cr cB in
  let zoA := cO cA in
  let zoB := cO cB in
  let zB := A in
  let! q := np_div (fst B - fst A) (distance_ A B) in
  let! alpha := py_acos q in
  let zX1 := (cexp_i (- alpha) * (zoA - zB))%C in
  let zX2 := (cexp_i (- alpha) * (zoB - zB))%C in
  let! soddyR := innerSoddyRadius rA rB None in
  let! sA := py_sqrt rA in
  let! sB := py_sqrt rB in
  let! Yre :=
    if ltb (fst zX1) (fst zX2)
    then let! t := np_div (2 * rA * sB) (sA + sB) in Ok (t + fst zX1)
    else let! t := np_div (2 * rB * sA) (sA + sB) in Ok (t + fst zX2) in
  let Y := (Yre, copysign soddyR (snd zX1)) in
  let Z := (cexp_i alpha * Y + zB)%C in
  let! cAB := Circle_init (fst Z, snd Z) soddyR in
  Ok (cAB, [CCC cAB cA cB; CCL cA cAB A B; CCL cAB cB A B]).

(** triangularApollonianGasket.py:45-83 [side_circle_circle] *)
Definition side_circle_circle (A B : pt) (cA cB : circle) : res (circle * list hole) :=
  if ltb (snd B) (snd A) then side_circle_circle_sorted B A cB cA
  else side_circle_circle_sorted A B cA cB.

(** triangularApollonianGasket.py:85-106 [side_side_circle].  [abs(vec)] is a distance;
    a [None] point is rejected by [Triangle] (geometry.py:1742-1745). *)
Definition side_side_circle (A B C : pt) (c : circle) : res (circle * list hole) :=
  let zO := cO c in
  let vec := (A - zO)%C in
  let a := sqrt (fst vec * fst vec + snd vec * snd vec) in
  let! x := np_div (cr c * fst vec) a in
  let! y := np_div (cr c * snd vec) a in
  let P := (zO + (x, y))%C in
  let OP := vsub P (cO c) in
  let! tangent := Line_init P (vadd P (- snd OP, fst OP)) true true in
  let! lineAC := Line_init A C true true in
  let! lineAB := Line_init A B true true in
  match intersection_line_line tangent lineAC false, intersection_line_line tangent lineAB false with
  | Some P1, Some P2 =>
      let! inc := incircle (mkTri A P1 P2) in
      Ok (inc, [CLL A B C inc; CCL c inc A B; CCL c inc A C])
  | _, _ => Raise ValueError
  end.

(** triangularApollonianGasket.py:108-131 [new_holes], for one hole *)
Definition new_hole (h : hole) : res (circle * list hole) :=
  match h with
  | CCC c1 c2 c3 => innerSoddyCircle c1 c2 c3
  | CCL c1 c2 A B => side_circle_circle A B c1 c2
  | CLL A B C c => side_side_circle A B C c
  end.

(** triangularApollonianGasket.py:184-189, the loop on the generations: the circles drawn
    by it.  The tuple [holes] is a tuple of triples of holes; it is flattened here, and
    [new_holes] on a triple is [new_hole] on its three members in order. *)
Fixpoint generations (holes : list hole) (depth : nat) : res (list circle) :=
  match depth with
  | O => Ok []
  | S depth =>
      let! new := mapM new_hole holes in
      let! l := generations (concat (map snd new)) depth in
      Ok (map fst new ++ l)
  end.

(** triangularApollonianGasket.py:145-189 [drawTriangularGasket]: the circles drawn, in
    order; [None["circles"]] is a TypeError *)
Definition drawTriangularGasket (A B C : pt) (depth : nat) : res (list circle) :=
  let! m := malfatti_circles (mkTri A B C) in
  match m with
  | None => Raise TypeError
  | Some ((C1, C2, C3), _) =>
      let! first := mapM (fun f => f tt)
        [ (fun _ => side_circle_circle A B C1 C2);
          (fun _ => side_circle_circle B C C2 C3);
          (fun _ => side_circle_circle C A C3 C1);
          (fun _ => innerSoddyCircle C1 C2 C3);
          (fun _ => side_side_circle A B C C1);
          (fun _ => side_side_circle B A C C2);
          (fun _ => side_side_circle C A B C3) ] in
      let! l := generations (concat (map snd first)) depth in
      Ok ([C1; C2; C3] ++ map fst first ++ l)
  end.
