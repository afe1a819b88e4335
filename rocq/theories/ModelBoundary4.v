(** * [Ellipse.from_boundary4] (geometry.py:1323-1406), step by step.

    The points are the four rows of the argument (other shapes are not modelled).
    [npfloat] tells whether the attribute [np.float] exists: it does before numpy
    1.24 and does not since (pyproject.toml asks for numpy ^1.24.2).
    As everywhere in the model a division by zero of numpy stops with [NonFinite]. *)

From Coq Require Import Reals List Bool Permutation.
From Verif Require Import Base ModelInternal ModelLine ModelCircle ModelAffine ModelEllipse.
Import ListNotations.
Local Open Scope R_scope.

(** [np.argsort l]: positions of the values in increasing order (nothing is assumed
    about the order of equal values).  Any function meeting [is_argsort] may be used. *)
Definition is_argsort (argsort : list R -> list nat) : Prop := forall l,
  Permutation (argsort l) (seq 0 (length l)) /\
  forall i j, (i < j < length l)%nat -> nth (nth i (argsort l) 0%nat) l 0 <= nth (nth j (argsort l) 0%nat) l 0.

(** [np.roots [k0, k1, k2, k3]] when the three roots of the cubic are real: the three
    roots, in some order.  Nothing is assumed when there are complex roots. *)
Definition is_roots (roots : R -> R -> R -> R -> list R) : Prop := forall k0 k1 k2 k3, k0 <> 0 ->
  let factors r1 r2 r3 := forall x, k0 * x ^ 3 + k1 * x ^ 2 + k2 * x + k3 = k0 * (x - r1) * (x - r2) * (x - r3) in
  (exists r1 r2 r3, factors r1 r2 r3) -> exists r1 r2 r3, roots k0 k1 k2 k3 = [r1; r2; r3] /\ factors r1 r2 r3.

(** [np.linalg.norm(points, axis=1)], one row *)
Definition norm_row (v : pt) : R := sqrt (fst v ^ 2 + snd v ^ 2).
(** [M.dot(N)] *)
Definition mm2 (M N : mat2) : mat2 :=
  mkM2 (m11 M * m11 N + m12 M * m21 N) (m11 M * m12 N + m12 M * m22 N)
       (m21 M * m11 N + m22 M * m21 N) (m21 M * m12 N + m22 M * m22 N).
(** [M.T] *)
Definition tr2 (M : mat2) : mat2 := mkM2 (m11 M) (m21 M) (m12 M) (m22 M).
(** [np.linalg.solve] *)
Definition solve2 (M : mat2) (b : pt) : res pt := let! J := inv2 M in Ok (mv2 J b).
Definition solve3 (M : mat3) (b1 b2 b3 : R) : res (R * R * R) :=
  let! J := inv3 M in
  Ok (n11 J * b1 + n12 J * b2 + n13 J * b3, n21 J * b1 + n22 J * b2 + n23 J * b3, n31 J * b1 + n32 J * b2 + n33 J * b3).

(** geometry.py:1338-1341: the rows in decreasing order of the angles about the mean *)
Definition b4_sort (argsort : list R -> list nat) (P1 P2 P3 P4 : pt) : list pt :=
  let c := ((fst P1 + fst P2 + fst P3 + fst P4) / 4, (snd P1 + snd P2 + snd P3 + snd P4) / 4) in
  let points := [P1; P2; P3; P4] in
  let angles := map (fun P => let S := vsub P c in atan2 (snd S) (fst S)) points in
  map (fun i => nth i points (0, 0)) (argsort (map Ropp angles)).

(** geometry.py:1344-1347: the point where the diagonals meet *)
Definition b4_diag (p0 p1 p2 p3 : pt) : res pt :=
  let! s := solve2 (cols (vsub p2 p0) (vsub p1 p3)) (vsub p1 p0) in
  Ok (vadd p0 (vscal (fst s) (vsub p2 p0))).

(** geometry.py:1353-1356 *)
Definition b4_rot (q0 q2 : pt) : mat2 :=
  let AC := vsub q2 q0 in
  let theta := atan2 (snd AC) (fst AC) in
  mkM2 (cos theta) (sin theta) (- sin theta) (cos theta).

(** geometry.py:1360-1361 *)
Definition b4_shear (npfloat : bool) (r1 r3 : pt) : res mat2 :=
  let! m := np_div (fst r1 - fst r3) (snd r3 - snd r1) in
  if npfloat then Ok (mkM2 1 m 0 1) else Raise AttributeError.

(** geometry.py:1365-1367; [d ** .25] is the square root of the square root; [0 ** -.25]
    is infinite *)
Definition b4_stretch (t0 t1 t2 t3 : pt) : res mat2 :=
  let! d := np_div (norm_row t1 * norm_row t3) (norm_row t2 * norm_row t0) in
  if eqb d 0 then Raise NonFinite else Ok (mkM2 (sqrt (sqrt d)) 0 0 (/ sqrt (sqrt d))).

(** geometry.py:1372-1379: the cubic *)
Definition b4_coeff (a0 a1 a2 : R) : R * R * R * R :=
  let k1 := -4 * a1 * (a2 - a0) * (a1 ^ 2 - a2 * a0) in
  (-4 * a1 ^ 2 * a2 * a0, k1,
   3 * a1 ^ 2 * (a1 ^ 2 + a2 ^ 2) - 8 * a1 ^ 2 * a2 * a0 + 3 * (a1 ^ 2 + a2 ^ 2) * a0 ^ 2,
   k1 / 2).

(** geometry.py:1380-1383.  [rts[0]] of an empty array is an IndexError, written
    [TypeError] here: the theorems show that it does not occur.
    geometry.py:1386-1388: [cos(theta) ** -.5] is the inverse of the square root *)
Definition b4_swing (roots : R -> R -> R -> R -> list R) (a0 a1 a2 : R) : res mat2 :=
  let '(k0, k1, k2, k3) := b4_coeff a0 a1 a2 in
  match filter (fun x => ltb (-1) x && ltb x 1) (roots k0 k1 k2 k3) with
  | [] => Raise TypeError
  | z :: _ =>
      let theta := asin z in
      Ok (mkM2 (/ sqrt (cos theta)) (sin theta * / sqrt (cos theta)) 0 (sqrt (cos theta)))
  end.

(** geometry.py:1392-1399: the circle through three points *)
Definition b4_circle (z0 z1 z2 : pt) : res (pt * R) :=
  let! s := solve3 (mkM3 (-2 * fst z0) (-2 * snd z0) 1 (-2 * fst z1) (-2 * snd z1) 1 (-2 * fst z2) (-2 * snd z2) 1)
              (- (fst z0 ^ 2 + snd z0 ^ 2)) (- (fst z1 ^ 2 + snd z1 ^ 2)) (- (fst z2 ^ 2 + snd z2 ^ 2)) in
  let '(c1, c2, s2) := s in
  let! r := py_sqrt (c1 ^ 2 + c2 ^ 2 - s2) in
  Ok ((c1, c2), r).

(** geometry.py:1343-1406, after the sort *)
Definition boundary4_sorted (npfloat : bool) (roots : R -> R -> R -> R -> list R) (eigh : mat2 -> eigh_res)
    (p0 p1 p2 p3 : pt) : res ellipse :=
  let! di := b4_diag p0 p1 p2 p3 in
  let q0 := vsub p0 di in let q1 := vsub p1 di in let q2 := vsub p2 di in let q3 := vsub p3 di in
  let rot := b4_rot q0 q2 in
  let r0 := mv2 rot q0 in let r1 := mv2 rot q1 in let r2 := mv2 rot q2 in let r3 := mv2 rot q3 in
  let! shear := b4_shear npfloat r1 r3 in
  let t0 := mv2 shear r0 in let t1 := mv2 shear r1 in let t2 := mv2 shear r2 in let t3 := mv2 shear r3 in
  let! stretch := b4_stretch t0 t1 t2 t3 in
  let w0 := mv2 stretch t0 in let w1 := mv2 stretch t1 in let w2 := mv2 stretch t2 in
  let! D := b4_swing roots (norm_row w0) (norm_row w1) (norm_row w2) in
  let! cr := b4_circle (mv2 D w0) (mv2 D w1) (mv2 D w2) in
  let '(c, r) := cr in
  let T := mm2 (mm2 (mm2 D stretch) shear) rot in
  let! c' := solve2 T c in
  let TT := mm2 (tr2 T) T in
  if eqb (r ^ 2) 0 then Raise NonFinite
  else from_center_and_matrix eigh (vadd c' di)
         (mkM2 (m11 TT / r ^ 2) (m12 TT / r ^ 2) (m21 TT / r ^ 2) (m22 TT / r ^ 2)).

(** geometry.py:1323-1406 [from_boundary4] *)
Definition from_boundary4 (npfloat : bool) (argsort : list R -> list nat) (roots : R -> R -> R -> R -> list R)
    (eigh : mat2 -> eigh_res) (P1 P2 P3 P4 : pt) : res ellipse :=
  match b4_sort argsort P1 P2 P3 P4 with
  | [p0; p1; p2; p3] => boundary4_sorted npfloat roots eigh p0 p1 p2 p3
  | _ => Raise TypeError (* not reached: np.argsort returns four positions *)
  end.
