(** * Model of examples/triangularCircularGasket.py, lines 105-134, 163-215, 229-255 and 259-282,
    and of examples/triangularCircularGasket_animation.py (the same functions one line below):
    circles packed in the Malfatti circles of a triangle and between these circles and the sides.
    The meshes and the colours are not modelled: a call of [plotter.add_mesh] on a sphere is
    modelled by the circle (centre, radius) of that sphere; the palettes are supposed to be long
    enough.  Lines 17-103 and 136-159 are modelled in ModelGasket.v. *)

From Coq Require Import Reals List Bool ZArith.
From Verif Require Import Base ModelInternal ModelLine ModelCircle ModelTriangle ModelInversion ModelTangentCircles ModelApollonian ModelGasket.
Import ListNotations.
Local Open Scope R_scope.

(** lines 117-121: the image of the point of the outer circle, the image of the circle *)
Definition starting_pair (c0 : circle) (iota : inversion) (n : nat) (shift Cradius Cside : R) (i : nat) : res (ept * gcircle) :=
  let beta := (INR i + shift) * 2 * PI / INR n in
  let K := invert iota (Pt (circle_point_from_angle c0 beta false)) in
  let pti := vadd (vscal Cradius (cos beta, sin beta)) (cO c0) in
  let! circ1 := Circle_init pti Cside in
  let! circ := invert_circle iota circ1 in
  Ok (K, circ).

(** line 131: [A + rad*(B-A)/distance(A, B)] *)
Definition towards (A : pt) (rad : R) (B : pt) : res pt :=
  let! x := np_div (rad * (fst B - fst A)) (distance_ A B) in
  let! y := np_div (rad * (snd B - snd A)) (distance_ A B) in
  Ok (vadd A (x, y)).

(** lines 126-132: the point of contact of two circles, the circle on which to invert.  A line has
    no attribute [center]. *)
Definition starting_wall (c0 : circle) (n : nat) (K : list ept) (circles0 : list gcircle) (i : nat) : res (ept * option circle) :=
  let ip1 := ((i + 1) mod n)%nat in
  let ip2 := ((i + 2) mod n)%nat in
  let! c2 := drawn (nth ip2 circles0 (GC c0)) in
  let! c1 := drawn (nth ip1 circles0 (GC c0)) in
  let! J := towards (cO c2) (cr c2) (cO c1) in
  let! wall := circumcircle_ext (Pt J) (nth ip1 K Inf) (nth ip2 K Inf) in
  Ok (Pt J, wall).

(** lines 105-134 [startingCircles]; [n] is at least 3 (line 133 reads J[0], J[1], J[2]) *)
Definition startingCircles (c0 : circle) (n : nat) (phi shift : R) : res (list gcircle * list (option circle)) :=
  let! invphi := py_div 1 phi in
  let I := vadd (cr c0 * invphi, 0) (cO c0) in
  let! q := py_sqrt (invphi * invphi - 1) in
  let! circ0 := Circle_init I (cr c0 * q) in
  let sine := sin (PI / INR n) in
  let Cradius := cr c0 / (1 + sine) in
  let Cside := Cradius * sine in
  let iota := inversion_on_circle circ0 in
  let! pairs := mapM (starting_pair c0 iota n shift Cradius Cside) (seq 0 n) in
  let! inner := Circle_init (cO c0) (cr c0 - 2 * Cside) in
  let! circ := invert_circle iota inner in
  let K := map fst pairs in
  let circles0 := map snd pairs ++ [circ] in
  let! walls := mapM (starting_wall c0 n K circles0) (seq 0 n) in
  let J := map fst walls in
  let! wall := circumcircle_ext (nth 0 J Inf) (nth 1 J Inf) (nth 2 J Inf) in
  Ok (circles0, map snd walls ++ [wall]).

(** [Inversion.on_circle(invCircles[i])]: [None] has no attribute [center], so that the call fails
    as [invert_with] does on [None] *)
Definition wall_inversions (walls : list (option circle)) : list (option inversion) := map (option_map inversion_on_circle) walls.

(** lines 163-176 [Circles1] *)
Definition Circles1 (c0 : circle) (n : nat) (circles0 : list gcircle) (invs : list (option inversion)) : res (list (gcircle * nat)) :=
  let! circles1 :=
    mapM (fun i =>
      mapM (fun j =>
        let! circle := invert_with invs i (nth j circles0 (GC c0)) in
        Ok (circle, i))
        (filter (fun j => negb (j =? (i + 1) mod n)%nat && negb (j =? (i + 2) mod n)%nat) (seq 0 (n + 1))))
      (seq 0 n) in
  Ok (concat circles1).

(** lines 196-215 [drawCircularGasket]: the drawn circles, generation by generation; [depth] is at
    least 1.  Lines 179-193 are [children] and lines 205-206 [descendants] of ModelApollonian.v. *)
Definition drawCircularGasket (c0 : circle) (n depth : nat) (phi shift : R) : res (list (list circle)) :=
  let! (circles0, walls) := startingCircles c0 n phi (INR n * shift) in
  let invs := wall_inversions walls in
  let! more :=
    match depth with
    | S (S d) =>
        let! circles1 := Circles1 c0 n circles0 invs in
        let! more := descendants invs circles1 d in
        Ok (circles1 :: more)
    | _ => Ok []
    end in
  mapM (mapM drawn) (circles0 :: map (map fst) more).

(** lines 229-255 [drawTriangularGasket]: here the Malfatti circles are not drawn *)
Definition drawTriangularGasket_holes (A B C : pt) (depth : nat) : res (list circle) :=
  let! m := malfatti_circles (mkTri A B C) in
  match m with
  | None => Raise TypeError
  | Some ((C1, C2, C3), _) =>
      let! first := mapM (fun f => f tt)
        [ (fun _ => side_circle_circle A B C1 C2);
          (fun _ => side_circle_circle B C C2 C3);
          (fun _ => side_circle_circle C A C3 C1);
          (fun _ => innerSoddyCircle C1 C2 C3);
          (fun _ => side_side_circle A B C C1);
          (fun _ => side_side_circle B A C C2);
          (fun _ => side_side_circle C A B C3) ] in
      let! l := generations (concat (map snd first)) depth in
      Ok (map fst first ++ l)
  end.

(** lines 259-282, the whole picture.  The program is written with A = (-5,-4), B = (5,-2),
    C = (0,6), depth = 3, n1 = 3, n2 = 4, n3 = 5, depth2 = 4, phi1 = phi2 = phi3 = 0.25 and
    shift = 0; triangularCircularGasket_animation.py:260-286 with phi1 = 0.2, phi2 = 0.3,
    phi3 = 0.4 and shift = 0, 1/90, ..., 89/90. *)
Definition circular_picture (A B C : pt) (depth n1 n2 n3 depth2 : nat) (phi1 phi2 phi3 shift : R) : res (list circle) :=
  let! m := malfatti_circles (mkTri A B C) in
  match m with
  | None => Raise TypeError
  | Some ((cA, cB, cC), _) =>
      let! holes := drawTriangularGasket_holes A B C depth in
      let! gA := drawCircularGasket cA n1 depth2 phi1 shift in
      let! gB := drawCircularGasket cB n2 depth2 phi2 shift in
      let! gC := drawCircularGasket cC n3 depth2 phi3 shift in
      Ok (holes ++ concat gA ++ concat gB ++ concat gC)
  end.
