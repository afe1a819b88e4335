(** * Model of class [Mobius], of [Inversion.compose] and of [cross_ratio]
    (geometry.py:1561-1577, 2314-2636; internal.py:173-179, 249-264). *)

From Coq Require Import Reals List Bool ZArith.
From Verif Require Import Base ModelInternal ModelLine ModelCircle ModelEllipse ModelTriangle ModelInversion.
Import ListNotations.
Local Open Scope R_scope.

(** internal.py:173-174 [from_complex_] is the identity: complex numbers and points
    are both pairs of reals, and so is Python's conversion of a point to a complex number. *)
Definition from_complex_ (z : C) : pt := z.
Definition complex_ (P : pt) : C := P.

(** internal.py:176-179 [mod2_], and Python's [abs] of a complex number *)
Definition mod2_ (z : C) : R := fst z * fst z + snd z * snd z.
Definition cabs (z : C) : R := sqrt (mod2_ z).

(** numpy's complex quotient: a zero denominator gives inf or nan with a warning *)
Definition npc_div (z w : C) : res C := if Ceqb w C0 then Raise NonFinite else Ok (Cdiv z w).

(** ** 2x2 complex matrices *)

(** geometry.py:2321-2346: a [Mobius] object holds the matrix [[a, b], [c, d]]; the
    constructor does not check the determinant. *)
Record mobius := mkMob { ma : C; mb : C; mc : C; md : C }.

(** [np.matmul] *)
Definition matmul (A B : mobius) : mobius :=
  mkMob (ma A * ma B + mb A * mc B)%C (ma A * mb B + mb A * md B)%C
        (mc A * ma B + md A * mc B)%C (mc A * mb B + md A * md B)%C.

Definition mdet (A : mobius) : C := (ma A * md A - mc A * mb A)%C.

Definition mdiag (x y : C) : mobius := mkMob x C0 C0 y.

(** [np.linalg.inv]: LinAlgError for a singular matrix *)
Definition matinv (A : mobius) : res mobius :=
  if Ceqb (mdet A) C0 then Raise LinAlgError
  else let D := mdet A in
       Ok (mkMob (md A / D)%C (- mb A / D)%C (- mc A / D)%C (ma A / D)%C).

(** [np.linalg.matrix_power] with a non-negative exponent: the n-fold product *)
Fixpoint matrix_power (A : mobius) (n : nat) : mobius :=
  match n with
  | 0%nat => mdiag C1 C1
  | S n => matmul (matrix_power A n) A
  end.

(** [np.conjugate] of a matrix *)
Definition mconj (A : mobius) : mobius := mkMob (Cconj (ma A)) (Cconj (mb A)) (Cconj (mc A)) (Cconj (md A)).

(** ** Group operations *)

(** geometry.py:2348-2358 [compose] *)
Definition compose (M0 M1 : mobius) (left : bool) : mobius :=
  let A := M0 in
  let B := M1 in
  if left then matmul B A else matmul A B.

(** geometry.py:2360-2369 [inverse] (no division: the adjugate matrix) *)
Definition inverse (M : mobius) : mobius := mkMob (md M) (- mb M)%C (- mc M)%C (ma M).

(** Python's [int] of a real number: truncation toward zero *)
Definition py_int (k : R) : Z := if leb 0 k then Int_part k else (- Int_part (- k))%Z.

(** geometry.py:2371-2385 [power] *)
Definition power (M : mobius) (k : R) : res mobius :=
  let t := py_int k in
  if negb (eqb (IZR t) k) then Raise ValueError
  else if (t <? 0)%Z then Ok (matrix_power (inverse M) (Z.to_nat (- t)))
  else Ok (matrix_power M (Z.to_nat t)).

(** [z ** t] for a numpy complex and a real exponent.  [arg z] is an argument of [z];
    numpy takes the one in [-pi, pi], where the sign of a zero imaginary part decides
    between -pi and pi, so [arg] is left as a parameter. *)
Definition cpow (arg : C -> R) (z : C) (t : R) : res C :=
  if Ceqb z C0 then
    if eqb t 0 then Ok C1 else if ltb 0 t then Ok C0 else Raise NonFinite
  else
    let m := Rpower (cabs z) t in
    Ok (m * cos (t * arg z), m * sin (t * arg z)).

(** [np.allclose] on complex numbers, resp. on 2x2 matrices *)
Definition callclose (z w : C) : bool := leb (cabs (z - w)%C) (/ 100000000 + / 100000 * cabs w).
Definition mallclose (A B : mobius) : bool :=
  callclose (ma A) (ma B) && callclose (mb A) (mb B) && callclose (mc A) (mc B) && callclose (md A) (md B).

(** geometry.py:2387-2423 [gpower].  [eig M] is the result of [np.linalg.eig]: two
    eigenvalues and the matrix of the eigenvectors. *)
Definition gpower (arg : C -> R) (eig : mobius -> C * C * mobius) (M : mobius) (t : R) : res mobius :=
  let detM := mdet M in
  let trM := (ma M + md M)%C in
  if ltb (cabs (trM * trM - RtoC 4 * detM)%C) sepsilon_ then
    let alpha := (trM / RtoC 2)%C in
    let D := mdiag alpha alpha in
    if mallclose M D then
      let! alpha_t := cpow arg alpha t in
      Ok (mdiag alpha_t alpha_t)
    else
      let N := mkMob (ma M - ma D)%C (mb M - mb D)%C (mc M - mc D)%C (md M - md D)%C in
      let '((v2x, v2y), (v1x, v1y)) :=
        if callclose (mb N) C0 && callclose (md N) C0 then ((C1, C0), (ma N, mc N))
        else ((C0, C1), (mb N, md N)) in
      let P := mkMob v1x v2x v1y v2y in
      let! alpha_t := cpow arg alpha t in
      let! alpha_t1 := cpow arg alpha (t - 1) in
      let Jt := mkMob alpha_t (RtoC t * alpha_t1)%C C0 alpha_t in
      let! Pi := matinv P in
      Ok (matmul (matmul P Jt) Pi)
  else
    let '(l1, l2, V) := eig M in
    let! l1t := cpow arg l1 t in
    let! l2t := cpow arg l2 t in
    let! Vi := matinv V in
    Ok (matmul (matmul V (mdiag l1t l2t)) Vi).

(** ** Action on points *)

(** geometry.py:2425-2444 [transform] *)
Definition transform (M : mobius) (P : ept) : res ept :=
  let a := ma M in
  let b := mb M in
  let c := mc M in
  let d := md M in
  match P with
  | Inf => if Ceqb c C0 then Ok Inf else Ok (Pt (from_complex_ (a / c)%C))
  | Pt P =>
      let z := complex_ P in
      let condition := negb (Ceqb c C0) && Ceqb z (- d / c)%C in
      if condition then Ok Inf
      else let! w := npc_div (a * z + b)%C (c * z + d)%C in Ok (Pt (from_complex_ w))
  end.

(** geometry.py:2447-2472 [fixed_points].  [FPAll] is [None], returned with a message.
    [math.sqrt] of a numpy complex number discards its imaginary part. *)
Inductive fixed_pts := FPAll | FPInf | FPOne (P : pt) | FPTwo (P Q : pt).

Definition sqrt_of_complex (z : C) : res R := py_sqrt (fst z).

Definition fixed_points (M : mobius) : res fixed_pts :=
  let a := ma M in
  let b := mb M in
  let c := mc M in
  let d := md M in
  let M_is_identity := Ceqb a d && Ceqb b C0 && Ceqb c C0 in
  if M_is_identity then Ok FPAll
  else if Ceqb c C0 then
    if Ceqb a d then Ok FPInf
    else Ok (FPOne (from_complex_ (- b / (a - d))%C))
  else
    let Delta := ((a - d) * (a - d) + RtoC 4 * b * c)%C in
    if Ceqb Delta C0 then Ok (FPOne (from_complex_ ((a - d) / RtoC 2 / c)%C))
    else
      let! s := sqrt_of_complex Delta in
      Ok (FPTwo (from_complex_ ((a - d + RtoC s) / RtoC 2 / c)%C)
                (from_complex_ ((a - d - RtoC s) / RtoC 2 / c)%C)).

(** ** Action on circles and lines *)

(** geometry.py:2498-2508: each of the two [while True] loops increases [alpha] by 0.1
    until the point of the circle at angle [alpha + shift] is not allclose to [M].
    [None]: still running after [fuel] iterations. *)
Fixpoint search (fuel : nat) (circ : circle) (M : pt) (shift alpha : R) : option R :=
  match fuel with
  | 0%nat => None
  | S fuel =>
      if allclose (circle_point_from_angle circ (alpha + shift) false) M
      then search fuel circ M shift (alpha + / 10)
      else Some alpha
  end.

(** geometry.py:2475-2514 [transform_circle].  [w0 - self.transform(...)]: an infinite
    operand makes the centre or the radius non-finite (never met for an invertible
    matrix). *)
Definition transform_circle (fuel : nat) (M : mobius) (circ : circle) : option (res gcircle) :=
  let c := mc M in
  let d := md M in
  let R := cr circ in
  let z0 := complex_ (cO circ) in
  let x1 := mod2_ (d + c * z0)%C in
  let x2 := R * R * mod2_ c in
  if negb (eqb x1 x2) then
    Some (
      let! w0 :=
        (if ltb 0 x1 then
           let z := if Ceqb c C0 then z0 else (z0 - RtoC (R * R) / Cconj (d / c + z0))%C in
           transform M (Pt (from_complex_ z))
         else transform M Inf) in
      let! w1 := transform M (Pt (from_complex_ (z0 + RtoC R)%C)) in
      match w0, w1 with
      | Pt w0, Pt w1 =>
          let v := vsub w0 w1 in
          let! circ' := Circle_init w0 (cabs (complex_ v)) in
          Ok (GC circ')
      | _, _ => Raise NonFinite
      end)
  else
    let Mp := from_complex_ (- d / c)%C in
    if negb (Ceqb c C0) && circle_includes circ Mp then
      match search fuel circ Mp 0 0 with
      | None => None
      | Some alpha1 =>
          match search fuel circ Mp 3 alpha1 with
          | None => None
          | Some alpha2 =>
              let P := circle_point_from_angle circ alpha1 false in
              let Q := circle_point_from_angle circ (alpha2 + 3) false in
              Some (
                let! A := transform M (Pt P) in
                let! B := transform M (Pt Q) in
                let! l := Line_init_ext A B in
                Ok (GL l))
          end
      end
    else
      Some (
        let! A := transform M (Pt (circle_point_from_angle circ 0 true)) in
        let! B := transform M (Pt (circle_point_from_angle circ 180 true)) in
        let! l := Line_init_ext A B in
        Ok (GL l)).

(** geometry.py:2516-2541 [transform_line] *)
Definition transform_line (M : mobius) (l : line) : res gcircle :=
  let a := ma M in
  let b := mb M in
  let c := mc M in
  let d := md M in
  let '(theta, offset) := direction_offset l in
  let gamma0 := complex_ (unit_vector_ theta) in
  let D0 := 2 * offset in
  let A := -2 * fst (gamma0 * c * Cconj d)%C - D0 * mod2_ c in
  let gamma := (Cconj gamma0 * b * Cconj c + gamma0 * Cconj d * a + RtoC D0 * Cconj c * a)%C in
  let D := D0 * mod2_ a + 2 * fst (gamma0 * Cconj b * a)%C in
  if ltb sepsilon_ (Rabs A) then
    let! rho := py_sqrt (mod2_ gamma / A / A + D / A) in
    let! circ := Circle_init (from_complex_ (- gamma / RtoC A)%C) rho in
    Ok (GC circ)
  else
    let! A' := transform M (Pt (lA l)) in
    let! B' := transform M (Pt (lB l)) in
    let! l' := Line_init_ext A' B' in
    Ok (GL l').

(** ** Constructions *)

(** internal.py:254-264 [mobius_from_three_points_to_zero_one_inf_] on finite numbers.
    Its tests [is_inf_(z)] are false for every complex number, finite or not
    (internal.py:9-10 requires a float). *)
Definition mobius_from_three_points (z1 z2 z3 : C) : mobius :=
  let K := ((z2 - z3) / (z2 - z1))%C in
  mkMob K (- K * z1)%C C1 (- z3)%C.

Definition ept_eqb (P Q : ept) : bool :=
  match P, Q with
  | Inf, Inf => true
  | Pt P, Pt Q => Ceqb P Q
  | _, _ => false
  end.

Definition two_equal (P1 P2 P3 : ept) : bool := ept_eqb P1 P2 || ept_eqb P1 P3 || ept_eqb P2 P3.

(** geometry.py:2543-2596 [from_mapping_three_points].  [None]: the function returns
    None with a message.  The number inf becomes [complex(inf)], for which the general
    formula is evaluated: the entry [-K*z1] (or K itself) is nan, and so is a column of
    the final product. *)
Definition from_mapping_three_points (P1 P2 P3 Q1 Q2 Q3 : ept) : res (option mobius) :=
  if two_equal P1 P2 P3 then Ok None
  else if two_equal Q1 Q2 Q3 then Ok None
  else
    match P1, P2, P3, Q1, Q2, Q3 with
    | Pt z1, Pt z2, Pt z3, Pt w1, Pt w2, Pt w3 =>
        let Mob1 := mobius_from_three_points z1 z2 z3 in
        let Mob2 := mobius_from_three_points w1 w2 w3 in
        Ok (Some (compose Mob1 (inverse Mob2) true))
    | _, _, _, _, _, _ => Raise NonFinite
    end.

(** geometry.py:2598-2614 [from_mapping_one_circle] *)
Definition from_mapping_one_circle (circ1 circ2 : circle) : mobius :=
  let MT z1 z2 z3 := mkMob (z2 - z3)%C (- z1 * (z2 - z3))%C (z2 - z1)%C (- z3 * (z2 - z1))%C in
  let MT1 := MT (complex_ (circle_point_from_angle circ1 0 true))
                (complex_ (circle_point_from_angle circ1 90 true))
                (complex_ (circle_point_from_angle circ1 270 true)) in
  let MT2 := MT (complex_ (circle_point_from_angle circ2 180 true))
                (complex_ (circle_point_from_angle circ2 90 true))
                (complex_ (circle_point_from_angle circ2 270 true)) in
  compose MT1 (inverse MT2) true.

(** geometry.py:2616-2636 [cross_ratio]; [len(np.unique(...)) < 4] iff two of the four
    numbers are equal *)
Definition cross_ratio (A B C' D : pt) : res C :=
  let z1 := complex_ A in
  let z2 := complex_ B in
  let z3 := complex_ C' in
  let z4 := complex_ D in
  if Ceqb z1 z2 || Ceqb z1 z3 || Ceqb z1 z4 || Ceqb z2 z3 || Ceqb z2 z4 || Ceqb z3 z4 then Raise ValueError
  else Ok ((z1 - z4) / (z1 - z2) * (z3 - z2) / (z3 - z4))%C.

(** ** Composition of inversions *)

(** internal.py:249-252 *)
Definition inversion_to_conjugate_mobius_ (iota : inversion) : mobius :=
  let C := complex_ (ipole iota) in
  let k := ipower iota in
  mkMob C (RtoC (k - mod2_ C)) C1 (- Cconj C)%C.

(** geometry.py:1561-1577 [Inversion.compose]; [compose] with [left=False] calls
    [iota2.compose(self)], that is with [left=True] *)
Definition inversion_compose_left (self iota2 : inversion) : mobius :=
  let Mob3 := mconj (inversion_to_conjugate_mobius_ self) in
  let Mob2 := inversion_to_conjugate_mobius_ iota2 in
  compose Mob3 Mob2 true.

Definition inversion_compose (self iota2 : inversion) (left : bool) : mobius :=
  if negb left then inversion_compose_left iota2 self else inversion_compose_left self iota2.
