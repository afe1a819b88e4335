(** * Model of class [Triangle] (geometry.py:1735-2117). *)

From Coq Require Import Reals List Bool ZArith.
From Verif Require Import Base ModelInternal ModelLine ModelCircle ModelAffine ModelEllipse ModelTransfo.
Import ListNotations.
Local Open Scope R_scope.

(** geometry.py:1742-1748 (argument validation: ModelPy.v) *)
Record triangle := mkTri { tA : pt; tB : pt; tC : pt }.

(** geometry.py:1764-1775 [flatness]; a division of Python floats *)
Definition flatness (T : triangle) : res R :=
  let AB := vsub (tB T) (tA T) in
  let AC := vsub (tC T) (tA T) in
  let z := Cmul (Cconj AB) AC in
  let re := fst z in
  let im := snd z in
  let re2 := re * re in
  py_div re2 (re2 + im * im).

(** geometry.py:1777-1796 [a], [b], [c] *)
Definition side_a (T : triangle) : R := distance_ (tB T) (tC T).
Definition side_b (T : triangle) : R := distance_ (tA T) (tC T).
Definition side_c (T : triangle) : R := distance_ (tA T) (tB T).

(** geometry.py:1805-1814 [orientation] *)
Definition orientation (T : triangle) : Z :=
  let A := tA T in
  let B := tB T in
  let C := tC T in
  let val := (snd B - snd A) * (fst C - fst B) - (fst B - fst A) * (snd C - snd B) in
  if eqb val 0 then 0%Z else if ltb 0 val then 1%Z else (-1)%Z.

(** geometry.py:1816-1828 [contains].  If [dsArea] is 0 the numpy quotients are
    inf or nan, and one of the three comparisons is False (1 - inf - inf = -inf). *)
Definition triangle_contains (T : triangle) (M : pt) : bool :=
  let (A0, A1) := tA T in
  let (B0, B1) := tB T in
  let (C0, C1) := tC T in
  let (M0, M1) := M in
  let dsArea := - B1 * C0 + A1 * (- B0 + C0) + A0 * (B1 - C1) + B0 * C1 in
  if eqb dsArea 0 then false
  else
    let s := (A1 * C0 - A0 * C1 + (C1 - A1) * M0 + (A0 - C0) * M1) / dsArea in
    let t := (A0 * B1 - A1 * B0 + (A1 - B1) * M0 + (B0 - A0) * M1) / dsArea in
    ltb 0 s && ltb 0 t && ltb 0 (1 - s - t).

(** [list.sort] on three numbers *)
Definition insert_sorted (x : R) : list R -> list R :=
  fix ins l := match l with
               | [] => [x]
               | y :: l' => if ltb x y then x :: l else y :: ins l'
               end.
Definition sort (l : list R) : list R := fold_left (fun acc x => insert_sorted x acc) l [].

(** geometry.py:1830-1838 [is_acute]; the second branch does not occur *)
Definition is_acute (T : triangle) : bool :=
  match sort [side_a T; side_b T; side_c T] with
  | [edge0; edge1; edge2] => leb (edge2 * edge2) (edge0 * edge0 + edge1 * edge1)
  | _ => false
  end.

(** geometry.py:1840-1880 [angleA], [angleB], [angleC]: numpy divisions; the
    argument of acos is nan when two vertices coincide *)
Definition angle_at (x y : pt) (lx ly : R) : res R :=
  let! q := np_div (dot_ x y) lx in
  let! q := np_div q ly in
  py_acos q.
Definition angleA (T : triangle) : res R :=
  let AC := vsub (tC T) (tA T) in
  let AB := vsub (tB T) (tA T) in
  angle_at AC AB (vlength_ AC) (vlength_ AB).
Definition angleB (T : triangle) : res R :=
  let BC := vsub (tC T) (tB T) in
  let BA := vsub (tA T) (tB T) in
  angle_at BC BA (vlength_ BC) (vlength_ BA).
Definition angleC (T : triangle) : res R :=
  let CA := vsub (tA T) (tC T) in
  let CB := vsub (tB T) (tC T) in
  angle_at CA CB (vlength_ CB) (vlength_ CA).

(** [(u*A + v*B + w*C) / d], numpy *)
Definition comb3 (u v w d : R) (A B C : pt) : res pt :=
  let S := vadd (vadd (vscal u A) (vscal v B)) (vscal w C) in
  let! x := np_div (fst S) d in
  let! y := np_div (snd S) d in
  Ok (x, y).

(** geometry.py:1882-1897 [incircle] *)
Definition incircle (T : triangle) : res circle :=
  let A := tA T in
  let B := tB T in
  let C := tC T in
  let a := distance_ B C in
  let b := distance_ A C in
  let c := distance_ B A in
  let p := a + b + c in
  let s := p / 2 in
  let! areaABC := py_sqrt (s * (s - a) * (s - b) * (s - c)) in
  let! center := comb3 a b c p A B C in
  let! radius := np_div areaABC s in
  Circle_init center radius.

(** geometry.py:1899-1920 [circumcircle] *)
Definition circumcircle (T : triangle) : res (option circle) :=
  let! f := flatness T in
  if eqb f 1 then Ok None
  else
    let A := tA T in
    let B := tB T in
    let C := tC T in
    let q1 := dot_ A A in
    let q2 := dot_ B B in
    let q3 := dot_ C C in
    let Dx := det3 (mkM3 q1 (snd A) 1 q2 (snd B) 1 q3 (snd C) 1) in
    let Dy := - det3 (mkM3 q1 (fst A) 1 q2 (fst B) 1 q3 (fst C) 1) in
    let D := det3 (mkM3 (fst A) (snd A) 1 (fst B) (snd B) 1 (fst C) (snd C) 1) in
    let! x := np_div Dx D in
    let! y := np_div Dy D in
    let center := (x / 2, y / 2) in
    let! c := Circle_init center (distance_ center A) in
    Ok (Some c).

(** [Circle(center = J, radius = r)] where numpy has computed J and r: a nan or
    +inf radius is accepted by the constructor (internal.py:25-30), then the
    object has non finite attributes *)
Definition Circle_init_np (J : res pt) (r : res R) : res (res circle) :=
  match r with
  | Ok r => if leb r 0 then Raise ValueError
            else Ok (match J with Ok J => Ok (mkCircle J r) | Raise e => Raise e end)
  | Raise NonFinite => Ok (Raise NonFinite)
  | Raise e => Raise e
  end.

(** geometry.py:1922-1945 [excircles].  [math.sqrt] of inf or nan is inf or nan. *)
Definition excircles (T : triangle) : res (circle * circle * circle) :=
  let A := tA T in
  let B := tB T in
  let C := tC T in
  let a := distance_ B C in
  let b := distance_ A C in
  let c := distance_ B A in
  let s := (a + b + c) / 2 in
  let JA := comb3 (- a) b c (- a + b + c) A B C in
  let JB := comb3 a (- b) c (a - b + c) A B C in
  let JC := comb3 a b (- c) (a + b - c) A B C in
  let rA := let! q := np_div (s * (s - b) * (s - c)) (s - a) in py_sqrt q in
  let rB := let! q := np_div (s * (s - a) * (s - c)) (s - b) in py_sqrt q in
  let rC := let! q := np_div (s * (s - a) * (s - b)) (s - c) in py_sqrt q in
  let! cA := Circle_init_np JA rA in
  let! cB := Circle_init_np JB rB in
  let! cC := Circle_init_np JC rC in
  let! cA := cA in
  let! cB := cB in
  let! cC := cC in
  Ok (cA, cB, cC).

(** numpy's [1 / t] with 1/0 = inf, and [b / x] for such an x (b/inf = 0) *)
Inductive xreal := XFin (x : R) | XInf.
Definition xinv (t : R) : xreal := if eqb t 0 then XInf else XFin (1 / t).
Definition xdiv (b : R) (x : xreal) : R := match x with XFin x => b / x | XInf => 0 end.

(** geometry.py:1947-1972 [orthic_triangle] *)
Definition orthic_triangle (T : triangle) : res triangle :=
  let A := tA T in
  let B := tB T in
  let C := tC T in
  let a := distance_ B C in
  let b := distance_ A C in
  let c := distance_ B A in
  let AC := vsub C A in
  let AB := vsub B A in
  let BC := vsub C B in
  let BA := vsub A B in
  let CA := vsub A C in
  let CB := vsub B C in
  let! qx := (let! q := np_div (dot_ AC AB) b in np_div q c) in
  let! qy := (let! q := np_div (dot_ BC BA) a in np_div q c) in
  let! qz := (let! q := np_div (dot_ CA CB) a in np_div q b) in
  let x := xinv qx in
  let y := xinv qy in
  let z := xinv qz in
  let! HA := comb3 0 (xdiv b z) (xdiv c y) (xdiv b z + xdiv c y) A B C in
  let! HB := comb3 (xdiv a z) 0 (xdiv c x) (xdiv a z + xdiv c x) A B C in
  let! HC := comb3 (xdiv a y) (xdiv b x) 0 (xdiv a y + xdiv b x) A B C in
  Ok (mkTri HA HB HC).

(** geometry.py:1975-2043 [malfatti_circles]: the three circles and the three
    tangency points *)
Definition tangency (P Q : pt) (r : R) : res pt :=
  let PQ := vsub Q P in
  let! k := np_div r (vlength_ PQ) in
  Ok (vadd P (vscal k PQ)).

Definition half_angle_tan (x y : pt) (lx ly : R) : res R :=
  let! q := np_div (dot_ x y) lx in
  let! q := np_div q ly in
  let! t := py_acos q in
  Ok (tan (t / 2)).

Definition malfatti_circles (T : triangle) : res (option ((circle * circle * circle) * (pt * pt * pt))) :=
  let! f := flatness T in
  if eqb f 1 then Ok None
  else
    let A := tA T in
    let B := tB T in
    let C := tC T in
    let a := distance_ B C in
    let b := distance_ A C in
    let c := distance_ B A in
    let p := a + b + c in
    let s := p / 2 in
    let smina := s - a in
    let sminb := s - b in
    let sminc := s - c in
    let! areaABC := py_sqrt (s * smina * sminb * sminc) in
    let! I0 := comb3 a b c p A B C in
    let! r := np_div areaABC s in
    let IA := vlength_ (vsub I0 A) in
    let IB := vlength_ (vsub I0 B) in
    let IC := vlength_ (vsub I0 C) in
    let halfr := r / 2 in
    let sminr := s - r in
    let! r1 := np_div (halfr * (sminr - (IB + IC - IA))) smina in
    let! r2 := np_div (halfr * (sminr - (IC + IA - IB))) sminb in
    let! r3 := np_div (halfr * (sminr - (IA + IB - IC))) sminc in
    let! tanA := half_angle_tan (vsub C A) (vsub B A) b c in
    let! d1 := np_div r1 tanA in
    let! tanB := half_angle_tan (vsub C B) (vsub A B) a c in
    let! d2 := np_div r2 tanB in
    let! tanC := half_angle_tan (vsub A C) (vsub B C) b a in
    let! d3 := np_div r3 tanC in
    let! q12 := py_sqrt (r1 * r2) in
    let! q23 := py_sqrt (r2 * r3) in
    let! q31 := py_sqrt (r3 * r1) in
    let w := d1 + d2 + 2 * q12 in
    let u := d2 + d3 + 2 * q23 in
    let v := d3 + d1 + 2 * q31 in
    let! sq := py_sqrt ((- u + v + w) * (u + v - w) * (u - v + w) * (u + v + w)) in
    let d := sq / 2 in
    let! dr1 := np_div d r1 in
    let x := dr1 - (v + w) in
    let y := u in
    let z := u in
    let! O1 := comb3 (u * x) (v * y) (w * z) (u * x + v * y + w * z) A B C in
    let x := v in
    let! dr2 := np_div d r2 in
    let y := dr2 - (u + w) in
    let z := v in
    let! O2 := comb3 (u * x) (v * y) (w * z) (u * x + v * y + w * z) A B C in
    let x := w in
    let y := w in
    let! dr3 := np_div d r3 in
    let z := dr3 - (u + v) in
    let! O3 := comb3 (u * x) (v * y) (w * z) (u * x + v * y + w * z) A B C in
    let! cA := Circle_init O1 r1 in
    let! cB := Circle_init O2 r2 in
    let! cC := Circle_init O3 r3 in
    let! TA := tangency O2 O3 r2 in
    let! TB := tangency O1 O3 r1 in
    let! TC := tangency O1 O2 r1 in
    Ok (Some ((cA, cB, cC), (TA, TB, TC))).

(** geometry.py:2045-2064 [equal_detour_point] *)
Definition equal_detour_point (T : triangle) : res (pt * R) :=
  let A := tA T in
  let B := tB T in
  let C := tC T in
  let a := distance_ B C in
  let b := distance_ A C in
  let c := distance_ B A in
  let s := (a + b + c) / 2 in
  let! areaABC := py_sqrt (s * (s - a) * (s - b) * (s - c)) in
  let! v0 := np_div (2 * areaABC) (b + c - a) in
  let! v1 := np_div (2 * areaABC) (c + a - b) in
  let! v2 := np_div (2 * areaABC) (a + b - c) in
  let tc0 := a + v0 in
  let tc1 := b + v1 in
  let tc2 := c + v2 in
  let! point := comb3 tc0 tc1 tc2 (tc0 + tc1 + tc2) A B C in
  let detour := distance_ A point + distance_ B point - c in
  Ok (point, detour).

(** geometry.py:2077-2079 and 2095-2097 *)
Definition steiner_P : pt := (0, 0).
Definition steiner_Q : pt := (10, 0).
Definition steiner_R : pt := (5, 5 * sqrt 3).

(** geometry.py:2081-2082, 2099-2100: [None.transform_ellipse] is an AttributeError *)
Definition steiner_map (T : triangle) (circ : circle) : res (option ellipse) :=
  let! f := affine_from_three_points steiner_P steiner_Q steiner_R (tA T) (tB T) (tC T) in
  match f with
  | None => Raise AttributeError
  | Some f => affine_transform_ellipse f (ACircle circ)
  end.

(** geometry.py:2066-2082 [steiner_ellipse].  A [None] circumcircle does not occur
    (it would be an AttributeError in transform_ellipse). *)
Definition steiner_ellipse (T : triangle) : res (option ellipse) :=
  let! f := flatness T in
  if eqb f 1 then Ok None
  else
    let! circ := circumcircle (mkTri steiner_P steiner_Q steiner_R) in
    match circ with
    | None => Raise AttributeError
    | Some circ => steiner_map T circ
    end.

(** geometry.py:2084-2100 [steiner_inellipse] *)
Definition steiner_inellipse (T : triangle) : res (option ellipse) :=
  let! f := flatness T in
  if eqb f 1 then Ok None
  else
    let! circ := incircle (mkTri steiner_P steiner_Q steiner_R) in
    steiner_map T circ.

(** internal.py:199-219, one row; [u] is the uniform draw *)
Definition runif_on_triangle1_ (A B C : pt) (u : R) : res pt :=
  let l1 := distance_ A B in
  let l2 := distance_ B C in
  let l3 := distance_ C A in
  if leb u l1 then
    let! s := np_div (l1 - u) l1 in
    let! t := np_div u l1 in
    Ok (vadd (vscal s A) (vscal t B))
  else if leb u (l1 + l2) then
    let! s := np_div (l2 - u + l1) l2 in
    let! t := np_div (u - l1) l2 in
    Ok (vadd (vscal s B) (vscal t C))
  else
    let! s := np_div (l3 - u + l1 + l2) l3 in
    let! t := np_div (u - l1 - l2) l3 in
    Ok (vadd (vscal s C) (vscal t A)).

(** internal.py:221-232, one row; [r1] and [q] are the uniform draws *)
Definition runif_in_triangle1_ (A B C : pt) (r1 q : R) : pt :=
  let r2 := sqrt q in
  let a := 1 - r2 in
  let b := r2 * (1 - r1) in
  let c := r1 * r2 in
  (fst A * a + fst B * b + fst C * c, snd A * a + snd B * b + snd C * c).

(** geometry.py:2102-2117 [random_points]: a draw is a pair of uniform numbers in
    [0,1); for [where="on"] the uniform number in [0, l1+l2+l3) is the first one
    scaled *)
Definition triangle_random_points (T : triangle) (n_points : Z) (w : where_arg)
  (draws : list (R * R)) : res (list pt) :=
  if (n_points <=? 0)%Z then Raise ValueError
  else match w with
  | WhereIn => Ok (map (fun d => runif_in_triangle1_ (tA T) (tB T) (tC T) (fst d) (snd d)) draws)
  | WhereOn =>
      let l := distance_ (tA T) (tB T) + distance_ (tB T) (tC T) + distance_ (tC T) (tA T) in
      mapM (fun d => runif_on_triangle1_ (tA T) (tB T) (tC T) (fst d * l)) draws
  | WhereOther => Raise ValueError
  end.
