(** * Model of class [Affine] (geometry.py:2120-2196, 2237-2270) and of the
    numpy linear algebra it uses. *)

From Coq Require Import Reals List Bool.
From Verif Require Import Base ModelInternal ModelLine.
Import ListNotations.
Local Open Scope R_scope.

(** ** numpy matrices of shape (2,2) and (3,3), row by row *)

Record mat2 := mkM2 { m11 : R; m12 : R; m21 : R; m22 : R }.
Record mat3 := mkM3 { n11 : R; n12 : R; n13 : R; n21 : R; n22 : R; n23 : R; n31 : R; n32 : R; n33 : R }.

(** [np.linalg.det] *)
Definition det2 (M : mat2) : R := m11 M * m22 M - m12 M * m21 M.
Definition det3 (M : mat3) : R :=
  n11 M * (n22 M * n33 M - n23 M * n32 M)
  - n12 M * (n21 M * n33 M - n23 M * n31 M)
  + n13 M * (n21 M * n32 M - n22 M * n31 M).

(** [M.dot(v)], [np.matmul] *)
Definition mv2 (M : mat2) (v : pt) : pt :=
  (m11 M * fst v + m12 M * snd v, m21 M * fst v + m22 M * snd v).
Definition mm3 (M N : mat3) : mat3 :=
  mkM3 (n11 M * n11 N + n12 M * n21 N + n13 M * n31 N)
       (n11 M * n12 N + n12 M * n22 N + n13 M * n32 N)
       (n11 M * n13 N + n12 M * n23 N + n13 M * n33 N)
       (n21 M * n11 N + n22 M * n21 N + n23 M * n31 N)
       (n21 M * n12 N + n22 M * n22 N + n23 M * n32 N)
       (n21 M * n13 N + n22 M * n23 N + n23 M * n33 N)
       (n31 M * n11 N + n32 M * n21 N + n33 M * n31 N)
       (n31 M * n12 N + n32 M * n22 N + n33 M * n32 N)
       (n31 M * n13 N + n32 M * n23 N + n33 M * n33 N).
Definition tr3 (M : mat3) : mat3 :=
  mkM3 (n11 M) (n21 M) (n31 M) (n12 M) (n22 M) (n32 M) (n13 M) (n23 M) (n33 M).

(** [np.linalg.inv]: LinAlgError for a singular matrix, otherwise the inverse
    (given by the adjugate) *)
Definition inv2 (M : mat2) : res mat2 :=
  let d := det2 M in
  if eqb d 0 then Raise LinAlgError
  else Ok (mkM2 (m22 M / d) (- m12 M / d) (- m21 M / d) (m11 M / d)).
Definition inv3 (M : mat3) : res mat3 :=
  let d := det3 M in
  if eqb d 0 then Raise LinAlgError
  else Ok (mkM3 ((n22 M * n33 M - n23 M * n32 M) / d) ((n13 M * n32 M - n12 M * n33 M) / d)
                ((n12 M * n23 M - n13 M * n22 M) / d)
                ((n23 M * n31 M - n21 M * n33 M) / d) ((n11 M * n33 M - n13 M * n31 M) / d)
                ((n13 M * n21 M - n11 M * n23 M) / d)
                ((n21 M * n32 M - n22 M * n31 M) / d) ((n12 M * n31 M - n11 M * n32 M) / d)
                ((n11 M * n22 M - n12 M * n21 M) / d)).

(** [np.column_stack((u, v))] *)
Definition cols (u v : pt) : mat2 := mkM2 (fst u) (fst v) (snd u) (snd v).

(** ** class Affine *)

(** geometry.py:2127-2132 (argument validation not modelled) *)
Record affine := mkAffine { afA : mat2; afb : pt }.

(** geometry.py:2142-2147 *)
Definition affine_mat3 (f : affine) : mat3 :=
  let A := afA f in let b := afb f in
  mkM3 (m11 A) (m12 A) (fst b) (m21 A) (m22 A) (snd b) 0 0 1.

(** [Affine(M[0:2, 0:2], M[0:2, -1])] *)
Definition affine_of_mat3 (M : mat3) : affine :=
  mkAffine (mkM2 (n11 M) (n12 M) (n21 M) (n22 M)) (n13 M, n23 M).

(** geometry.py:2149-2157 *)
Definition affine_inverse (f : affine) : res (option affine) :=
  if eqb (det2 (afA f)) 0 then Ok None
  else let! M := inv3 (affine_mat3 f) in Ok (Some (affine_of_mat3 M)).

(** geometry.py:2159-2170 *)
Definition affine_compose (f g : affine) (left : bool) : affine :=
  let M0 := affine_mat3 f in
  let M1 := affine_mat3 g in
  affine_of_mat3 (if left then mm3 M1 M0 else mm3 M0 M1).

(** geometry.py:2172-2183, on a single point *)
Definition affine_transform (f : affine) (m : pt) : pt := vadd (mv2 (afA f) m) (afb f).

(** geometry.py:2185-2196 *)
Definition affine_transform_line (f : affine) (l : line) : res (option line) :=
  if eqb (det2 (afA f)) 0 then Ok None
  else let! l' := Line_init (vadd (mv2 (afA f) (lA l)) (afb f))
                            (vadd (mv2 (afA f) (lB l)) (afb f)) (lextA l) (lextB l) in
       Ok (Some l').

(** geometry.py:2237-2270.  [None.compose] would be an AttributeError. *)
Definition affine_from_three_points (P1 P2 P3 Q1 Q2 Q3 : pt) : res (option affine) :=
  let! cp := collinear_ P1 P2 P3 in
  if cp then Ok None
  else
    let! cq := collinear_ Q1 Q2 Q3 in
    if cq then Ok None
    else
      let f1 := mkAffine (cols (vsub P2 P1) (vsub P3 P1)) P1 in
      let f2 := mkAffine (cols (vsub Q2 Q1) (vsub Q3 Q1)) Q1 in
      let! i := affine_inverse f1 in
      match i with
      | None => Raise AttributeError
      | Some g => Ok (Some (affine_compose g f2 true))
      end.
