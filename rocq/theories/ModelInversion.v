(** * Model of class [Inversion], of
    [Circle.orthogonal_through_two_points_in_circle] and of [SteinerChain]
    (geometry.py:452-492, 1488-1731). *)

From Coq Require Import Reals List Bool ZArith String.
From Verif Require Import Base ModelInternal ModelLine ModelCircle ModelEllipse ModelTriangle.
Import ListNotations.
Local Open Scope R_scope.
Local Open Scope list_scope.

(** geometry.py:1494-1498; the power may be any real number (argument validation:
    ModelPy.v) *)
Record inversion := mkInv { ipole : pt; ipower : R }.

(** geometry.py:1508-1518 [invert].  The numpy quotient is finite: a point that is
    not allclose to the pole is not the pole. *)
Definition invert (iota : inversion) (M : ept) : ept :=
  let pole := ipole iota in
  match M with
  | Inf => Pt pole
  | Pt M =>
      if allclose pole M then Inf
      else
        let k := ipower iota in
        let pole_M := vsub M pole in
        Pt (vadd pole (vscal (k / dot_ pole_M pole_M) pole_M))
  end.

(** [Line(A, B)] where A or B may be inf, which is not a point: ValueError
    (geometry.py:60-62) *)
Definition Line_init_ext (A B : ept) : res line :=
  match A, B with
  | Pt A, Pt B => Line_init A B true true
  | _, _ => Raise ValueError
  end.

(** geometry.py:1520-1534 [invert_circle] *)
Definition invert_circle (iota : inversion) (circ : circle) : res gcircle :=
  let c0 := ipole iota in
  let k := ipower iota in
  let c1 := cO circ in
  let r1 := cr circ in
  let D1 := (fst c1 - fst c0) ^ 2 + (snd c1 - snd c0) ^ 2 - r1 * r1 in
  if ltb sepsilon_ (Rabs D1) then
    let s := k / D1 in
    let! c := Circle_init (vadd c0 (vscal s (vsub c1 c0))) (Rabs s * r1) in
    Ok (GC c)
  else
    let Ot := vsub c0 c1 in
    let R180 := vsub c1 Ot in
    let R90 := vadd (- snd Ot, fst Ot) c1 in
    let! l := Line_init_ext (invert iota (Pt R180)) (invert iota (Pt R90)) in
    Ok (GL l).

(** Client loop [for iota in iotas: circ = iota.invert_circle(circ)]; invert_circle
    rejects a line with a ValueError (geometry.py:1521-1522). *)
Fixpoint invert_circle_word (iotas : list inversion) (g : gcircle) : res gcircle :=
  match iotas with
  | [] => Ok g
  | iota :: rest =>
      match g with
      | GC c => let! g' := invert_circle iota c in invert_circle_word rest g'
      | GL _ => Raise ValueError
      end
  end.

(** geometry.py:1536-1546 [invert_line]; [Triangle] rejects inf with a ValueError
    (geometry.py:1742-1745) *)
Definition invert_line (iota : inversion) (l : line) : res (option gcircle) :=
  let c0 := ipole iota in
  let A := lA l in
  let B := lB l in
  let! col := collinear_ A B c0 in
  if col then Ok (Some (GL l))
  else
    match invert iota (Pt A), invert iota (Pt B) with
    | Pt Ap, Pt Bp =>
        let! c := circumcircle (mkTri c0 Ap Bp) in
        Ok (match c with Some c => Some (GC c) | None => None end)
    | _, _ => Raise ValueError
    end.

(** Objects of the language that occur as second argument of [isinstance]: a class,
    or something that is not a class (here a string); [isinstance] raises TypeError
    on the latter. *)
Inductive pycls := ClsCircle | ClsLine | NotACls (s : string).
Definition isinstance (g : gcircle) (c : pycls) : res bool :=
  match c, g with
  | ClsCircle, GC _ => Ok true
  | ClsCircle, GL _ => Ok false
  | ClsLine, GL _ => Ok true
  | ClsLine, GC _ => Ok false
  | NotACls _, _ => Raise TypeError
  end.

(** geometry.py:1548-1559 [invert_gcircle]: [isinstance(gcircle, "Circle")] *)
Definition invert_gcircle (iota : inversion) (g : gcircle) : res (option gcircle) :=
  let! b := isinstance g (NotACls "Circle") in
  if b then
    match g with
    | GC c => let! r := invert_circle iota c in Ok (Some r)
    | GL _ => Raise ValueError
    end
  else
    let! b := isinstance g (NotACls "Line") in
    if b then
      match g with
      | GL l => invert_line iota l
      | GC _ => Raise ValueError
      end
    else Raise ValueError.

(** geometry.py:1580-1589 [on_circle] *)
Definition inversion_on_circle (c : circle) : inversion := mkInv (cO c) (cr c ^ 2).

(** What from_swapping_two_circles prints *)
Inductive message := SwitchToTrue | SwitchToFalse | NoInversion.

(** geometry.py:1591-1649 [from_swapping_two_circles]: the messages printed and the
    result ([None] for congruent tangent circles) *)
Definition from_swapping_two_circles (circ1 circ2 : circle) (positive : bool)
  : list message * option inversion :=
  let c1 := cO circ1 in
  let r1 := cr circ1 in
  let c2 := cO circ2 in
  let r2 := cr circ2 in
  let c1c2 := distance_ c1 c2 in
  if eqb r1 r2 then
    let I := vscal (/ 2) (vadd c1 c2) in
    if ltb c1c2 (r1 + r2) then
      let k := Rabs (dot_ (vsub I c2) (vsub I c2) - r2 * r2) in
      (if positive then [] else [SwitchToTrue], Some (mkInv I k))
    else if ltb (r1 + r2) c1c2 then
      let k := - Rabs (dot_ (vsub I c2) (vsub I c2) - r2 * r2) in
      (if positive then [SwitchToFalse] else [], Some (mkInv I k))
    else ([NoInversion], None)
  else
    let inside := leb (c1c2 + Rmin r1 r2) (Rmax r1 r2) in
    let inside_tangent := inside && eqb (Rmax r1 r2) (c1c2 + Rmin r1 r2) in
    let switch := negb positive && (negb inside || inside_tangent) && leb c1c2 (r1 + r2) in
    let out := if switch then [SwitchToTrue] else [] in
    let positive := positive || switch in
    let a := r1 / r2 in
    let ext := vsub c1 (vscal (a / (1 - a)) (vsub c2 c1)) in
    let int := vadd c1 (vscal (a / (1 + a)) (vsub c2 c1)) in
    if positive then
      let O := if inside then int else ext in
      (out, Some (mkInv O (a * Rabs (dot_ (vsub O c2) (vsub O c2) - r2 * r2))))
    else
      let O := if inside then ext else int in
      (out, Some (mkInv O (- a * Rabs (dot_ (vsub O c2) (vsub O c2) - r2 * r2)))).

(** geometry.py:1651-1665 [from_fixing_two_circles] *)
Definition from_fixing_two_circles (circ1 circ2 : circle) : res inversion :=
  let! P := radical_center2 circ1 circ2 in
  Ok (mkInv P (power circ1 P)).

(** geometry.py:1667-1684 [from_fixing_three_circles]; [circ1.power(None)] is a
    ValueError (geometry.py:529-536) *)
Definition from_fixing_three_circles (circ1 circ2 circ3 : circle) : res inversion :=
  let! Rc := radical_center3 circ1 circ2 circ3 in
  match Rc with
  | Some Rc => Ok (mkInv Rc (power circ1 Rc))
  | None => Raise ValueError
  end.

(** geometry.py:452-492 [Circle.orthogonal_through_two_points_in_circle]; subscripting
    a [None] centre is a TypeError *)
Definition orthogonal_through_two_points_in_circle (c : circle) (P1 P2 : pt) (arc : bool) : res ocirc :=
  if allclose P1 P2 then Raise ValueError
  else
    let I := cO c in
    let r := cr c in
    let r2 := r * r in
    if leb r2 (distance_ P1 I) then Raise ValueError
    else if leb r2 (distance_ P2 I) then Raise ValueError
    else
      let! col := collinear_ I P1 P2 in
      if col then
        let! l := Line_init P1 P2 (negb arc) (negb arc) in Ok (OLine l)
      else
        let iota := mkInv I r2 in
        match invert iota (Pt P1), invert iota (Pt P2) with
        | Pt P1prime, Pt P2prime =>
            let! line1 := Line_init P1 P1prime true true in
            let! line2 := Line_init P2 P2prime true true in
            let! perp1 := perpendicular line1 (vscal (/ 2) (vadd P1 P1prime)) false true in
            let! perp2 := perpendicular line2 (vscal (/ 2) (vadd P2 P2prime)) false true in
            match line_line_intersection_ (lA perp1) (lB perp1) (lA perp2) (lB perp2) with
            | None => Raise TypeError
            | Some Q =>
                if arc then
                  let theta1 := pymod (atan2 (snd P1 - snd Q) (fst P1 - fst Q)) (2 * PI) in
                  let theta2 := pymod (atan2 (snd P2 - snd Q) (fst P2 - fst Q)) (2 * PI) in
                  let! a := Arc_init Q (distance_ Q P1) (Rmin theta1 theta2) (Rmax theta1 theta2) false in
                  Ok (OArc a)
                else
                  let! c' := Circle_init Q (distance_ Q P1) in Ok (OCircle c')
            end
        | _, _ => Raise ValueError
        end.

(** geometry.py:1688-1701 [SteinerChain_phi0_]: the n circles of the chain, then the
    inner circle.  [n] is positive. *)
Definition SteinerChain_phi0_ (c0 : circle) (n : nat) (shift : R) : res (list circle) :=
  let R := cr c0 in
  let O := cO c0 in
  let pi_over_n := PI / INR n in
  let sine := sin pi_over_n in
  let Cradius := R / (1 + sine) in
  let Cside := Cradius * sine in
  let! chain :=
    mapM (fun i =>
      let beta := (INR i + shift) * 2 * pi_over_n in
      Circle_init (vadd (vscal Cradius (unit_vector_ beta)) O) Cside) (seq 0 n) in
  let! inner := Circle_init O (R - 2 * Cside) in
  Ok (chain ++ [inner]).

(** geometry.py:1703-1731 [SteinerChain].  A line has no attribute [center]. *)
Definition SteinerChain (c0 : circle) (n : Z) (phi shift : R) : res (list gcircle * ellipse) :=
  if (n <=? 0)%Z then Raise ValueError
  else
    let! circles := SteinerChain_phi0_ c0 (Z.to_nat n) shift in
    let R := cr c0 in
    let O := cO c0 in
    let! circles :=
      (if eqb phi 0 then Ok (map GC circles)
       else
         let invphi := 1 / phi in
         let I := vadd (R * invphi, 0) O in
         let r2 := R * R * (invphi * invphi - 1) in
         mapM (invert_circle (mkInv I r2)) circles) in
    match last circles (GC c0) with
    | GL _ => Raise AttributeError
    | GC inner =>
        let O2 := cO inner in
        let r := cr inner in
        let c := (fst O2 - fst O) / 2 in
        let a := (r + R) / 2 in
        let! b := py_sqrt (a * a - c * c) in
        let! ell := Ellipse_init (vscal (/ 2) (vadd O O2)) a b 0 true in
        Ok (circles, ell)
    end.
