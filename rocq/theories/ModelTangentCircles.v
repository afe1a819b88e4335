(** * Model of examples/Circles_simultaneously_tangent.py, lines 13-47: from three
    circles, the two circles drawn as tangent to the three.  The script runs on the
    circles of lines 13-15; they are arguments here. *)

From Coq Require Import Reals List Bool ZArith.
From Verif Require Import Base ModelInternal ModelLine ModelCircle ModelTriangle ModelInversion.
Import ListNotations.
Local Open Scope R_scope.

(** [Triangle(A, B, C).circumcircle()] (lines 26, 42, 47) where some points may be
    inf, which [Triangle] rejects (geometry.py:1742-1745) *)
Definition circumcircle_ext (A B C : ept) : res (option circle) :=
  match A, B, C with
  | Pt A, Pt B, Pt C => circumcircle (mkTri A B C)
  | _, _, _ => Raise ValueError
  end.

(** Circles_simultaneously_tangent.py:16-47.  [None] has no attribute [invert],
    [pole] or [radical_axis]; a [None] line or point is rejected by the functions that
    receive it; [None] and a Circle cannot be unpacked (line 37), and the two
    numbers unpacked from a single point are rejected by [invert]. *)
Definition tangent_circles (C1 C2 C3 : circle) : res (option circle * option circle) :=
  match snd (from_swapping_two_circles C1 C3 true), snd (from_swapping_two_circles C2 C3 true) with
  | Some iota1, Some iota2 =>
      let M := circle_point_from_angle C3 0 true in
      let M1 := invert iota1 (Pt M) in
      let M2 := invert iota2 (Pt M) in
      let! Cc := circumcircle_ext (Pt M) M1 M2 in
      let! cl := Line_init (ipole iota1) (ipole iota2) true true in
      match Cc with
      | None => Raise AttributeError
      | Some Cc =>
          let! L := radical_axis Cc C3 in
          match L with
          | None => Raise ValueError
          | Some L =>
              match intersection_line_line L cl false with
              | None => Raise ValueError
              | Some H =>
                  let O3 := cO C3 in
                  let! Cp := circleAB H O3 in
                  let! T := intersection_circle_circle C3 Cp in
                  match T with
                  | CCSame _ => Raise TypeError
                  | CCPoints INone => Raise TypeError
                  | CCPoints (IOne _) => Raise ValueError
                  | CCPoints (ITwo T0 T1) =>
                      let! S0 := circumcircle_ext (Pt T0) (invert iota1 (Pt T0)) (invert iota2 (Pt T0)) in
                      let! S1 := circumcircle_ext (Pt T1) (invert iota1 (Pt T1)) (invert iota2 (Pt T1)) in
                      Ok (S0, S1)
                  end
              end
          end
      end
  | _, _ => Raise AttributeError
  end.
