(** * Model of examples/ApollonianIcosahedralGasket.py: every face of an icosahedron is filled with
    flattened spheres, over the circles of the gasket of a plane triangle.
    The functions of lines 51-52 and 60-171 are those of triangularApollonianGasket.py (ModelGasket),
    with the spheres flattened (line 57) and transformed.  Colours and the window are not modelled. *)

From Coq Require Import Reals List Bool ZArith.
From Verif Require Import Base ModelInternal ModelLine ModelCircle ModelTriangle ModelGasket ModelSteinerEx.
Import ListNotations.
Local Open Scope R_scope.

(** numpy on arrays of length 3; a point of the space is ((x, y), z) *)
Definition sub3 (u v : pt3) : pt3 := ((fst (fst u) - fst (fst v), snd (fst u) - snd (fst v)), snd u - snd v).
(** [np.cross] *)
Definition cross3 (u v : pt3) : pt3 :=
  let '((a1, a2), a3) := u in let '((b1, b2), b3) := v in
  ((a2 * b3 - a3 * b2, a3 * b1 - a1 * b3), a1 * b2 - a2 * b1).
Definition dot3 (u v : pt3) : R := fst (fst u) * fst (fst v) + snd (fst u) * snd (fst v) + snd u * snd v.
(** lines 10-11 [vlength] *)
Definition vlength3 (v : pt3) : R := sqrt (dot3 v v).
(** [v / x]: a division by zero gives nan or inf *)
Definition div3 (v : pt3) (x : R) : res pt3 :=
  let! a := np_div (fst (fst v)) x in let! b := np_div (snd (fst v)) x in let! c := np_div (snd v) x in Ok ((a, b), c).

(** [np.column_stack((p, q, n))] *)
Definition column_stack3 (p q n : pt3) : list (list R) :=
  [[fst (fst p); fst (fst q); fst (fst n)]; [snd (fst p); snd (fst q); snd (fst n)]; [snd p; snd q; snd n]].
(** [np.transpose(m)] for a 3x3 matrix *)
Definition transpose3 (m : list (list R)) : list (list R) := map (fun j => map (fun row => nth j row 0) m) [0; 1; 2]%nat.
(** [m.dot(v)] *)
Definition mat_dot3 (m : list (list R)) (v : pt3) : list R := map (fun row => row_dot row [fst (fst v); snd (fst v); snd v]) m.

(** lines 13-35 [transfoMatrix]: Mat, P, Q *)
Definition transfoMatrix (A B C : pt3) : res (list (list R) * pt * pt) :=
  let Bprime := sub3 B A in
  let Cprime := sub3 C A in
  let n := cross3 Bprime Cprime in
  let! n := div3 n (vlength3 n) in
  let q := cross3 n Bprime in
  let! q := div3 q (vlength3 q) in
  let! p := div3 Bprime (vlength3 Bprime) in
  let R := column_stack3 p q n in
  let M := hstack (vstack R [[0; 0; 0]]) [[fst (fst A)]; [snd (fst A)]; [snd A]; [1]] in
  let tR := transpose3 R in
  let P := mat_dot3 tR Bprime in
  let Q := mat_dot3 tR Cprime in
  Ok (M, (nth 0 P 0, nth 1 P 0), (nth 0 Q 0, nth 1 Q 0)).

(** lines 52-58 [pretty_sphere], then [.transform(transfo)]: where a point of the sphere goes.  The
    factor k is 0.3 when [sphere.scale] works in place, 1 when it returns a new mesh (this depends on
    the version of pyvista). *)
Definition scale3 (k : R) (P : pt3) : pt3 := ((1 * fst (fst P), 1 * snd (fst P)), k * snd P).
Definition pretty_point (k : R) (transfo : list (list R)) (P : pt3) : pt3 := transform3 transfo (scale3 k P).

(** lines 182-228 [drawFace]: the spheres and the matrix *)
Definition drawFace (A B C : pt3) (depth : nat) : res (list sphere * list (list R)) :=
  let! (transfo, P, Q) := transfoMatrix A B C in
  let! circles := drawTriangularGasket (0, 0) P Q depth in
  Ok (map (fun c => mkSphere (cO c, 0) (cr c)) circles, transfo).

(** lines 232-245 *)
Definition g_ : R := 618033988749895 / 1000000000000000.
Definition vertices : list pt3 :=
  [ ((0, g_), 1); ((0, g_), -1); ((0, - g_), 1); ((0, - g_), -1);
    ((g_, 1), 0); ((g_, -1), 0); ((- g_, 1), 0); ((- g_, -1), 0);
    ((1, 0), g_); ((-1, 0), g_); ((1, 0), - g_); ((-1, 0), - g_) ].

(** lines 247-268 *)
Definition faces : list (nat * nat * nat) :=
  [ (0, 2, 8); (0, 8, 4); (0, 4, 6); (0, 6, 9); (0, 9, 2);
    (3, 11, 1); (3, 1, 10); (3, 10, 5); (3, 5, 7); (3, 7, 11);
    (8, 2, 5); (4, 8, 10); (6, 4, 1); (9, 6, 11); (2, 9, 7);
    (1, 11, 6); (10, 1, 4); (5, 10, 8); (7, 5, 2); (11, 7, 9) ]%nat.

(** lines 275-283: the triangle and the spheres of every face *)
Definition face_points (face : nat * nat * nat) : pt3 * pt3 * pt3 :=
  let '(i, j, k) := face in (nth i vertices ((0, 0), 0), nth j vertices ((0, 0), 0), nth k vertices ((0, 0), 0)).
Definition draw_icosahedron (depth : nat) : res (list ((pt3 * pt3 * pt3) * (list sphere * list (list R)))) :=
  mapM (fun face => let '(A, B, C) := face_points face in
                    let! d := drawFace A B C depth in Ok ((A, B, C), d)) faces.
