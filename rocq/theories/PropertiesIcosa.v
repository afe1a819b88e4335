(** * C106: the icosahedron filled with flattened spheres by examples/ApollonianIcosahedralGasket.py *)

From Coq Require Import Reals Lra Lia List Bool.
From Verif Require Import Base Spec SpecTriangle SpecGasket SpecSteinerEx SpecIcosa ModelCircle ModelGasket ModelSteinerEx ModelIcosa PIcosa1 PIcosa2 PIcosa3 PIcosa4.
Import ListNotations.
Local Open Scope R_scope.

(** the matrix of a face is a motion of the space, which sends a triangle of the horizontal plane, with
    the first side along the first axis, onto the face *)
Theorem C106_transfo A B C : ~ collinear3 A B C ->
  exists Mat P Q, transfoMatrix A B C = Ok (Mat, P, Q) /\ motion3 (transform3 Mat) /\
    transform3 Mat ((0, 0), 0) = A /\ transform3 Mat (P, 0) = B /\ transform3 Mat (Q, 0) = C /\
    P = (dist3 A B, 0) /\ 0 < fst P /\ 0 < snd Q /\
    dist (0, 0) Q = dist3 A C /\ dist P Q = dist3 B C /\
    (forall M, in_plane3 A B C M <-> exists N, M = transform3 Mat (N, 0)).
Proof. exact (transfo_spec A B C). Qed.
Print Assumptions C106_transfo.

Theorem C106_homogeneous A B C Mat P Q : transfoMatrix A B C = Ok (Mat, P, Q) -> homogeneous Mat.
Proof. exact (transfo_homogeneous A B C Mat P Q). Qed.
Print Assumptions C106_homogeneous.

Theorem C106_flat A B C depth : collinear3 A B C ->
  transfoMatrix A B C = Raise NonFinite /\ drawFace A B C depth = Raise NonFinite.
Proof. exact (face_flat A B C depth). Qed.
Print Assumptions C106_flat.

(** the solids of a face: flattened balls around discs of the triangle, none overlapping, every one after
    the first three touching three other discs or sides *)
Theorem C106_face A B C k depth : ~ collinear3 A B C -> 0 < k ->
  drawFace A B C depth = Raise ValueError \/
  exists spheres Mat n discs, drawFace A B C depth = Ok (spheres, Mat) /\ unit_normal A B C n /\
    Forall2 (fun s d => 0 < snd d /\ forall Q, flat_ball n k d Q = 1 <-> exists P, dist2_3 (sO s) P = sr s * sr s /\ pretty_point k Mat P = Q) spheres discs /\
    Forall (disc3_in_triangle A B C) discs /\
    ForallOrdPairs (fun d d' => reg_apart (flat_ball n k d) (flat_ball n k d')) discs /\
    (2 * length discs + 1 = 7 * 3 ^ (S depth))%nat /\
    forall l1 d l2, discs = l1 ++ d :: l2 -> (3 <= length l1)%nat -> touches_three3 A B C l1 d.
Proof. exact (face_ok A B C k depth). Qed.
Print Assumptions C106_face.

(** as in the plane, there is a depth from which the drawing fails *)
Theorem C106_depth_limited A B C : ~ collinear3 A B C ->
  exists m, forall depth, (m <= depth)%nat -> drawFace A B C depth = Raise ValueError.
Proof. exact (face_limit A B C). Qed.
Print Assumptions C106_depth_limited.

(** the tables: a closed surface of 20 triangles, 5 at every one of 12 points of a sphere, the faces of
    the convex hull seen from outside; the lengths of the edges differ by less than 1e-14 *)
Theorem C106_icosahedron : length vertices = 12%nat /\ NoDup vertices /\ (forall M, In M vertices -> inner3 M M = 1 + g_ * g_) /\
  length faces = 20%nat /\ closed_surface faces /\ (forall v, (v < 12)%nat -> length (filter (has_vertex v) faces) = 5%nat) /\
  Forall (fun f => let '(A, B, C) := face_points f in
    (forall P Q, In (P, Q) [(A, B); (A, C); (B, C)] -> 1.52786404500042 <= inner3 (vec3 P Q) (vec3 P Q) <= 1.52786404500043) /\
    outward_face vertices A B C) faces.
Proof. exact icosa_spec. Qed.
Print Assumptions C106_icosahedron.

(** the program draws the twenty faces, for every depth up to 6 (it has 1) *)
Theorem C106_drawn depth : (depth <= 6)%nat ->
  exists l, draw_icosahedron depth = Ok l /\ map fst l = map face_points faces /\
    Forall (fun fd => let '(A, B, C) := fst fd in ~ collinear3 A B C /\ drawFace A B C depth = Ok (snd fd)) l.
Proof. exact (icosa_drawn depth). Qed.
Print Assumptions C106_drawn.

Example C106_example : let A := ((0, 0), 1) in let B := ((10, 2), 0) in let C := ((5, 10), 3) in ~ collinear3 A B C /\ collinear3 A B ((20, 4), -1).
Proof. exact ex_C106. Qed.
