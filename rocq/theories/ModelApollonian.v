(** * Model of examples/ApollonianGasket.py, lines 5-52 and 64-67, and of
    examples/MalfattiApollonian.py, lines 9-88: circles packed by inversions.  The colours,
    the figure and the meshes are not modelled: a drawn disc or sphere is modelled by the
    circle (centre, radius) it is drawn from.  Lines 5-52 of ApollonianGasket.py are also lines
    8-54 of ApollonianGasketMobius.py and lines 17-67 of ApollonianGasket_animation.py. *)

From Coq Require Import Reals List Bool ZArith.
From Verif Require Import Base ModelInternal ModelLine ModelCircle ModelTriangle ModelEllipse ModelInversion.
Import ListNotations.
Local Open Scope R_scope.

(** What is passed to a constructor of [Inversion] that checks that it gets circles
    (geometry.py:1601-1604, 1677-1682) *)
Definition the_circle (g : gcircle) : res circle :=
  match g with
  | GC c => Ok c
  | GL _ => Raise ValueError
  end.

(** [inversions[i].invert_circle(g)]: [None] has no such attribute, a line is refused
    (geometry.py:1521-1522) *)
Definition invert_with (invs : list (option inversion)) (i : nat) (g : gcircle) : res gcircle :=
  match nth i invs None with
  | None => Raise AttributeError
  | Some iota =>
      let! c := the_circle g in
      invert_circle iota c
  end.

(** [C.center], [C.radius] when the circle is drawn: a line has no such attributes *)
Definition drawn (g : gcircle) : res circle :=
  match g with
  | GC c => Ok c
  | GL _ => Raise AttributeError
  end.

(** ApollonianGasket.py:11-19: the inversions *)
Definition gasket_inversions (c0 : circle) (n : nat) (circles0 : list gcircle) : res (list (option inversion)) :=
  let! fixing :=
    mapM (fun i =>
      let! c1 := the_circle (nth i circles0 (GC c0)) in
      let! c2 := the_circle (nth ((i + 1) mod n) circles0 (GC c0)) in
      let! iota := from_fixing_three_circles c0 c1 c2 in
      Ok (Some iota)) (seq 0 n) in
  let! inner := the_circle (nth n circles0 (GC c0)) in
  Ok (fixing ++ [snd (from_swapping_two_circles c0 inner true)]).

(** ApollonianGasket.py:21-27: the first generation *)
Definition first_children (c0 : circle) (n : nat) (circles0 : list gcircle) (invs : list (option inversion))
  : res (list (gcircle * nat)) :=
  let! circles1 :=
    mapM (fun i =>
      mapM (fun j =>
        let! circle := invert_with invs i (nth j circles0 (GC c0)) in
        Ok (circle, i))
        (filter (fun j => negb (j =? i)%nat && negb (j =? (i + 1) mod n)%nat) (seq 0 (n + 1))))
      (seq 0 n) in
  Ok (concat circles1).

(** ApollonianGasket.py:31-41 [children] *)
Definition children (invs : list (option inversion)) (circles1 : list (gcircle * nat)) : res (list (gcircle * nat)) :=
  let! circles2 :=
    mapM (fun ck =>
      mapM (fun j =>
        let! circle := invert_with invs j (fst ck) in
        Ok (circle, j))
        (filter (fun j => negb (j =? snd ck)%nat) (seq 0 (length invs))))
      circles1 in
  Ok (concat circles2).

(** ApollonianGasket.py:48-49: [d] more generations *)
Fixpoint descendants (invs : list (option inversion)) (circles1 : list (gcircle * nat)) (d : nat)
  : res (list (list (gcircle * nat))) :=
  match d with
  | O => Ok []
  | S d =>
      let! circles2 := children invs circles1 in
      let! more := descendants invs circles2 d in
      Ok (circles2 :: more)
  end.

(** ApollonianGasket.py:5-51, 65-67: the drawn circles, generation by generation; [depth] is
    the number of generations, at least 2 (the program is written with depth 5, the circle of
    centre (0,0) and radius 3, n = 3, phi = 0.25 and shift = 0) *)
Definition apollonian_gasket (c0 : circle) (n : Z) (phi shift : R) (depth : nat) : res (list (list circle)) :=
  let! (circles0, _) := SteinerChain c0 n phi shift in
  let m := Z.to_nat n in
  let! invs := gasket_inversions c0 m circles0 in
  let! circles1 := first_children c0 m circles0 invs in
  let! more := descendants invs circles1 (depth - 2) in
  mapM (mapM drawn) (circles0 :: map (map fst) (circles1 :: more)).

(** ApollonianGasket_animation.py:30-77: one picture for each shift (the program is written with
    100 shifts from 0, included, to n, excluded) *)
Definition apollonian_animation (c0 : circle) (n : Z) (phi : R) (depth : nat) (shifts : list R) : res (list (list (list circle))) :=
  mapM (fun shift => apollonian_gasket c0 n phi shift depth) shifts.

(** MalfattiApollonian.py:9-23 [soddyOuterCircle] *)
Definition soddyOuterCircle (T : triangle) : res circle :=
  let a := side_a T in
  let b := side_b T in
  let c := side_c T in
  let p := a + b + c in
  let s := p / 2 in
  let! area := py_sqrt (s * (s - a) * (s - b) * (s - c)) in
  let! area' := py_sqrt (s * (a + b - s) * (a + c - s) * (b + c - s)) in
  let! R := np_div (a * b * c) (4 * area') in
  let! r := np_div area s in
  let! radius := np_div area (4 * R + r - p) in
  let! qa := np_div area (s - a) in
  let! qb := np_div area (s - b) in
  let! qc := np_div area (s - c) in
  let p1 := a - qa in
  let p2 := b - qb in
  let p3 := c - qc in
  let! center := comb3 p1 p2 p3 (p1 + p2 + p3) (tA T) (tB T) (tC T) in
  Circle_init center (Rabs radius).

(** MalfattiApollonian.py:25-44 [iteration] and [gasket]: the spheres of [depth] generations,
    each generation drawn before the next one is computed *)
Fixpoint malfatti_descendants (invs : list (option inversion)) (circles0 : list (gcircle * nat)) (depth : nat)
  : res (list (list circle)) :=
  match depth with
  | O => Ok []
  | S depth =>
      let! circles := children invs circles0 in
      let! spheres := mapM (fun c => drawn (fst c)) circles in
      let! more := malfatti_descendants invs circles depth in
      Ok (spheres :: more)
  end.

(** MalfattiApollonian.py:46-70 [drawGasket]: the four circles, then the spheres generation by
    generation.  A flat triangle has no Malfatti circles: [None] is not subscriptable.  The
    list of colours is supposed to be long enough. *)
Definition malfatti_apollonian (t : triangle) (depth : nat) : res (list circle * list (list circle)) :=
  let! mal := malfatti_circles t in
  match mal with
  | None => Raise TypeError
  | Some ((M0, M1, M2), _) =>
      let! soddyO := soddyOuterCircle (mkTri (cO M0) (cO M1) (cO M2)) in
      let! i0 := from_fixing_three_circles soddyO M1 M2 in
      let! i1 := from_fixing_three_circles soddyO M0 M2 in
      let! i2 := from_fixing_three_circles soddyO M0 M1 in
      let! i3 := from_fixing_three_circles M0 M1 M2 in
      let invs := [Some i0; Some i1; Some i2; Some i3] in
      let Mcircles := [M0; M1; M2; soddyO] in
      let! circles0 :=
        mapM (fun i =>
          let! circ := invert_with invs i (GC (nth i Mcircles soddyO)) in
          let! c := drawn circ in
          Ok (GC c, i)) (seq 0 4) in
      let! spheres := mapM (fun c => drawn (fst c)) circles0 in
      let! more := malfatti_descendants invs circles0 depth in
      Ok (Mcircles, spheres :: more)
  end.

(** MalfattiApollonian.py:82-84: [(P - center) / radius] *)
Definition normalize_by (c : circle) (P : pt) : res pt :=
  let! x := np_div (fst P - fst (cO c)) (cr c) in
  let! y := np_div (snd P - snd (cO c)) (cr c) in
  Ok (x, y).

(** MalfattiApollonian.py:76-88 (and MalfattiApollonian_animation.py:78-93): the triangle is moved so that the
    outer circle becomes the unit circle, then the gasket is drawn.  The program is written with
    depth 3 and the triangle (0,0), (1,0), (1, sqrt(3)/2). *)
Definition malfatti_script (A B C : pt) (depth : nat) : res (list circle * list (list circle)) :=
  let! mal := malfatti_circles (mkTri A B C) in
  match mal with
  | None => Raise TypeError
  | Some ((M0, M1, M2), _) =>
      let! soddyO := soddyOuterCircle (mkTri (cO M0) (cO M1) (cO M2)) in
      let! A1 := normalize_by soddyO A in
      let! B1 := normalize_by soddyO B in
      let! C1 := normalize_by soddyO C in
      malfatti_apollonian (mkTri A1 B1 C1) depth
  end.
