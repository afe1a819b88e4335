(** * Composition of affine maps, in binary64 *)

From Coq Require Import ZArith Bool SpecFloat.
From Verif Require Import ModelFloat ModelFloatTransfo ModelFloatAsAffine.

(** Ways of computing a * b + c * d + e * f, from the left; the boolean tells whether the last
    product is fused with the sum. *)
Definition sum3 (w : how * bool) (a b c d e f : spec_float) : spec_float :=
  let z := sum2 (fst w) a b c d in
  if snd w then SF64fma e f z else (z + e * f)%f64.

(** [np.matmul] of the matrices [Affine.get3x3matrix] (geometry.py:2142-2147) of two maps: the first
    two rows; the last row of the matrix of [Q] is 0, 0, 1. [w] gives the way each of the six entries
    is computed. *)
Definition matmul64 (w : nat -> how * bool) (P Q : affine_map64) : affine_map64 :=
  let c1 := (fst (a64_row1 Q), fst (a64_row2 Q)) in
  let c2 := (snd (a64_row1 Q), snd (a64_row2 Q)) in
  let c3 := a64_b Q in
  let entry i r b c l := sum3 (w i) (fst r) (fst c) (snd r) (snd c) b l in
  let r1 := a64_row1 P in
  let r2 := a64_row2 P in
  let b1 := fst (a64_b P) in
  let b2 := snd (a64_b P) in
  Affine64 (entry 0%nat r1 b1 c1 f0, entry 1%nat r1 b1 c2 f0) (entry 2%nat r2 b2 c1 f0, entry 3%nat r2 b2 c2 f0) (entry 4%nat r1 b1 c3 f1, entry 5%nat r2 b2 c3 f1).

(** [Affine.compose] (geometry.py:2159-2170). *)
Definition compose64 (w : nat -> how * bool) (f transfo : affine_map64) (left : bool) : affine_map64 :=
  if left then matmul64 w transfo f else matmul64 w f transfo.
