(** * Model of the transformations applied to arrays of points.

    geometry.py:2172-2184 [Affine.transform], 2876-2911 [Rotation.rotate],
    3099-3122 [Shear.transform], 3160-3177 [ScalingXY.transform], 3225-3243
    [Homothety.transform], 3336-3379 [Scaling.transform].

    The code works column by column on whole arrays; so does the model.  The
    conversion [np.asarray(M, dtype=float)] is not modelled: the argument is an
    array of numbers already, given by its dimension and its entries.  Only for
    [Affine.transform] are arrays of dimension 3 or more left out (numpy's
    broadcasting rules would apply). *)

From Coq Require Import Reals List Bool Arith.
From Verif Require Import Base ModelInternal ModelAffine ModelTransfo.
Import ListNotations.
Local Open Scope R_scope.

(** numpy arrays of dimension 0, 1, 2 (number of columns and list of the rows)
    and more (only the shape is recorded) *)
Inductive nd :=
| Nd0 (x : R)
| Nd1 (v : list R)
| Nd2 (cols : nat) (rows : list (list R))
| NdMany (shape : list nat).

(** [M[:, j]] *)
Definition col (j : nat) (rows : list (list R)) : list R := map (fun r => nth j r 0) rows.
(** elementwise operation on two 1-d arrays of the same length *)
Definition map2 {A B C : Type} (f : A -> B -> C) (l1 : list A) (l2 : list B) : list C :=
  map (fun p => f (fst p) (snd p)) (combine l1 l2).
(** [np.column_stack((x, y))], also the transpose of the 2 x n matrix (x, y) *)
Definition column_stack (x y : list R) : list (list R) := map2 (fun a b => [a; b]) x y.
(** n x 2 matrix plus / minus a vector of length 2 (broadcast over the rows) *)
Definition rows_add (rows : list (list R)) (v : pt) : list (list R) :=
  map (fun r => [nth 0 r 0 + fst v; nth 1 r 0 + snd v]) rows.
Definition rows_sub (rows : list (list R)) (v : pt) : list (list R) :=
  map (fun r => [nth 0 r 0 - fst v; nth 1 r 0 - snd v]) rows.

(** the lines [is_real_vector_(M)] ... [M.reshape((1, 2))] / [raise ValueError]
    common to the transformations: 2883-2894, 3106-3117, 3167-3178, 3232-3243,
    3343-3354 *)
Definition as_rows (M : nd) : res (bool * list (list R)) :=
  match M with
  | Nd1 v => if Nat.eqb (length v) 2 then Ok (true, [v]) else Raise ValueError
  | Nd2 c rows => if Nat.eqb c 2 then Ok (false, rows) else Raise ValueError
  | _ => Raise ValueError
  end.
(** [if M_is_point: out = out[0, :]] *)
Definition from_rows (is_point : bool) (rows : list (list R)) : nd :=
  if is_point then Nd1 (nth 0 rows []) else Nd2 2 rows.

(** geometry.py:2876-2911 *)
Definition rotate_batch (r : rotation) (M : nd) : res nd :=
  let! MM := as_rows M in
  let costheta := cos (rot_angle r) in
  let sintheta := sin (rot_angle r) in
  let Mc := rows_sub (snd MM) (rO r) in
  let x := col 0 Mc in
  let y := col 1 Mc in
  let out := rows_add (column_stack (map2 (fun x y => costheta * x - sintheta * y) x y)
                                    (map2 (fun x y => sintheta * x + costheta * y) x y)) (rO r) in
  Ok (from_rows (fst MM) out).

(** row of a product of a 3 x 3 matrix with the 3 x n matrix of rows x, y, z *)
Definition lin3 (a b c : R) (x y z : list R) : list R :=
  map2 Rplus (map2 (fun u v => a * u + b * v) x y) (map (fun w => c * w) z).

(** geometry.py:3099-3122 *)
Definition shear_batch (s : shear) (M : nd) : res nd :=
  let! MM := as_rows M in
  let! Mat := shear_mat3 s in
  let x := col 0 (snd MM) in
  let y := col 1 (snd MM) in
  let ones := repeat 1 (length (snd MM)) in
  let out := column_stack (lin3 (n11 Mat) (n12 Mat) (n13 Mat) x y ones)
                          (lin3 (n21 Mat) (n22 Mat) (n23 Mat) x y ones) in
  Ok (from_rows (fst MM) out).

(** geometry.py:3160-3183 *)
Definition scalingxy_batch (s : scalingxy) (M : nd) : res nd :=
  let! MM := as_rows M in
  let f := (xysx s, xysy s) in
  let out := rows_add (map (fun r => [fst f * nth 0 r 0; snd f * nth 1 r 0]) (rows_sub (snd MM) (xyO s))) (xyO s) in
  Ok (from_rows (fst MM) out).

(** geometry.py:3225-3247 *)
Definition homothety_batch (h : homothety) (M : nd) : res nd :=
  let! MM := as_rows M in
  let s := hscale h in
  let c := vscal (1 - s) (hO h) in
  let out := map (fun r => [fst c + nth 0 r 0; snd c + nth 1 r 0])
                 (map (fun r => map (Rmult s) r) (snd MM)) in
  Ok (from_rows (fst MM) out).

(** geometry.py:3336-3379 *)
Definition scaling_batch (S : scaling) (M : nd) : res nd :=
  let! MM := as_rows M in
  let w := scw S in
  let s := scs S in
  let wQ := vopp (scO S) in
  let theta := - atan2 (snd w) (fst w) in
  let M := rows_add (snd MM) wQ in
  let costheta := cos theta in
  let sintheta := sin theta in
  let M := column_stack (map2 (fun x y => costheta * x - sintheta * y) (col 0 M) (col 1 M))
                        (map2 (fun x y => sintheta * x + costheta * y) (col 0 M) (col 1 M)) in
  let M := column_stack (map (Rmult s) (col 0 M)) (col 1 M) in
  let sintheta := - sintheta in
  let M := column_stack (map2 (fun x y => costheta * x - sintheta * y) (col 0 M) (col 1 M))
                        (map2 (fun x y => sintheta * x + costheta * y) (col 0 M) (col 1 M)) in
  let out := rows_sub M wQ in
  Ok (from_rows (fst MM) out).

(** geometry.py:2172-2184: [np.transpose(np.matmul(self.A, np.transpose(m)) + b)].
    On a 1-d array the transposes do nothing. *)
Definition affine_batch (f : affine) (m : nd) : res nd :=
  match m with
  | Nd1 v =>
      if Nat.eqb (length v) 2
      then let p := vadd (mv2 (afA f) (nth 0 v 0, nth 1 v 0)) (afb f) in Ok (Nd1 [fst p; snd p])
      else Raise ValueError
  | Nd2 c rows =>
      if Nat.eqb c 2 then
        let x := col 0 rows in
        let y := col 1 rows in
        let n := length rows in
        let r1 := map2 Rplus (map2 (fun u v => m11 (afA f) * u + m12 (afA f) * v) x y) (repeat (fst (afb f)) n) in
        let r2 := map2 Rplus (map2 (fun u v => m21 (afA f) * u + m22 (afA f) * v) x y) (repeat (snd (afb f)) n) in
        Ok (Nd2 2 (column_stack r1 r2))
      else Raise ValueError
  | Nd0 _ => Raise ValueError
  | NdMany _ => Raise TypeError (* placeholder: not modelled, see above *)
  end.
